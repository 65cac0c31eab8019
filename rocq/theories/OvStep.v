(** One call of the core or of the object theory number 0, on a core that holds other theories as well ([T], with contract [C2]): OvRun.v without the history. *)
From Verif Require Import Base Keys Sat SatSpec SatInv SatPop SatImp SatRec SatAn SatProp SatLoop SatMain SatApi SatApi2 SatNext SatSimp Reify Amo Run SatFacts ThGrow ThRel ThSum Ov OvInv OvEq OvRun.
Local Arguments Nat.ltb : simpl never.
Local Arguments Nat.eqb : simpl never.
Section Srt.
Context {sr : sorter}.

Section OStep.
Context {T : Type} {ops2 : theory_ops T} (C2 : contract ops2).
Notation gops := (sum_ops ov_ops ops2).
Notation C := (sumC ov_ops ops2 ovC C2).
Notation st := (st (ovs + T)).
Context (om : list (nat * lit) -> list (nat * lit)) (oi : list nat -> list nat) (Hom : forall m, Permutation m (om m)) (Hoi : forall l, Permutation l (oi l)).

Definition gentries (s : st) (x : nat) : list (nat * lit) := match nth_error (theories s) 0 with Some (inl o) => nth x (odom o) [] | _ => [] end.
Definition gstep (fl : nat) (s : st) (c : ocall) : res (st * oret) :=
  match c with
  | OSat c => '(s1, r) <- step (ops := gops) fl s c ;; Ok (s1, OR r)
  | ONew items e => '(s1, x) <- ov_new_var s 0 items e ;; Ok (s1, OX x (gentries s1 x))
  | OLits ls vals => '(s1, x) <- ov_new_var_lits s 0 ls vals ;; Ok (s1, OX x (gentries s1 x))
  | OEq l r => '(s1, p) <- ov_new_eq om oi s 0 l r ;; Ok (s1, OP p)
  end.
Definition glegal (s : st) (c : ocall) : Prop :=
  match c with
  | OSat c => legal C s c
  | ONew items e => items <> [] /\ (e = true -> dlevel s = 0)
  | OLits ls vals => ls <> [] /\ length ls = length vals /\ in_scope s ls
  | OEq l r => dlevel s = 0 /\ exists o, nth_error (theories s) 0 = Some (inl o) /\ l < length (odom o) /\ r < length (odom o)
  end.
Definition galive (s' : st) (r : oret) : Prop := r = OR (RBool false) -> exists M, smodels C s' M.
(** What is said by a call, the variables having the entries of [o]. *)
Definition gsaid (o : ovs) (c : ocall) (ds : list lit) (r : oret) (M : nat -> bool) : Prop :=
  match c, r with
  | OSat c, OR r => said c ds r M
  | ONew items true, OX x m => exists v, In v items /\ takes1 M m v
  | OEq a b, OP p => forall da db, nth_error (odom o) a = Some da -> nth_error (odom o) b = Some db -> eq_means M p da db
  | _, _ => True
  end.
Record gok (s : st) (o : ovs) : Prop := { gk_good : good C s; gk_th : nth_error (theories s) 0 = Some (inl o); gk_ok : ov_ok C2 s o }.
(** Variables that are looked at: those that exist, and among them the constant and those the object theory refers to. *)
Record seen (V : nat -> Prop) (s : st) (o : ovs) : Prop := {
  se_lt : forall v, V v -> v < nv s;
  se_0 : V 0;
  se_dom : forall x m y l, nth_error (odom o) x = Some m -> In (y, l) m -> V (lvar l);
  se_exp : forall k p, In (k, p) (oexp o) -> V (lvar p) }.

Lemma gmlit_vis M M' (V : nat -> Prop) p : (forall v, V v -> M' v = M v) -> V (lvar p) -> mlit M' p = mlit M p.
Proof. intros H Hp. unfold mlit. rewrite (H _ Hp). reflexivity. Qed.
Lemma gforallb_vis M M' (V : nat -> Prop) ls : (forall v, V v -> M' v = M v) -> (forall p, In p ls -> V (lvar p)) -> forallb (mlit M') ls = forallb (mlit M) ls.
Proof. intros H K. induction ls as [|p ls IH]; cbn; [reflexivity|]. rewrite IH by (intros q Hq; apply K; right; exact Hq). rewrite (gmlit_vis M M' V p H) by (apply K; left; reflexivity). reflexivity. Qed.
Lemma gexistsb_vis M M' (V : nat -> Prop) ls : (forall v, V v -> M' v = M v) -> (forall p, In p ls -> V (lvar p)) -> existsb (mlit M') ls = existsb (mlit M) ls.
Proof. intros H K. induction ls as [|p ls IH]; cbn; [reflexivity|]. rewrite IH by (intros q Hq; apply K; right; exact Hq). rewrite (gmlit_vis M M' V p H) by (apply K; left; reflexivity). reflexivity. Qed.
Lemma gmcl_vis M M' (V : nat -> Prop) ls : (forall v, V v -> M' v = M v) -> (forall p, In p ls -> V (lvar p)) -> mcl M ls -> mcl M' ls.
Proof. intros H K (p & Hp & E). exists p. split; [exact Hp|]. rewrite (gmlit_vis M M' V p H) by (apply K, Hp). exact E. Qed.

Lemma gtheories_sat fl (s s' : st) c r o : nth_error (theories s) 0 = Some (inl o) -> step (ops := gops) fl s c = Ok (s', r) -> nth_error (theories s') 0 = Some (inl o).
Proof.
  intros Eo E. assert (H : map (fun t : ovs + T => match t with inl o => Some o | inr _ => None end) (theories s') = map (fun t : ovs + T => match t with inl o => Some o | inr _ => None end) (theories s)).
  { apply (K_step gops (fun t : ovs + T => match t with inl o => Some o | inr _ => None end)) with (fuel := fl) (c := c) (r := r); [| | | |exact E].
    - intros [a|b] val p t' ls cf H; cbn in H; [inversion H; reflexivity|]. destruct (th_prop ops2 b val p) as [[[b' ?] ?]| |]; cbn in H; try discriminate. inversion H; subst. reflexivity.
    - intros [a|b] val t' cf H; cbn in H; [inversion H; reflexivity|]. destruct (th_check ops2 b val) as [[b' ?]| |]; cbn in H; try discriminate. inversion H; subst. reflexivity.
    - intros [a|b]; reflexivity.
    - intros [a|b]; reflexivity. }
  apply (f_equal (fun l => nth_error l 0)) in H. rewrite !nth_error_map, Eo in H. destruct (nth_error (theories s') 0) as [[a|b]|]; cbn in H; inversion H; reflexivity.
Qed.
Lemma gnew s o s' o' m : gok s o -> ostep C2 s 0 o s' o' -> odom o' = odom o ++ [m] ->
  gentries s' (length (odom o)) = m /\ gok s' o'.
Proof.
  intros [A B D] S Ed. split; [unfold gentries; rewrite (os_nth _ _ _ _ _ _ S), Ed, app_nth2, Nat.sub_diag by lia; reflexivity|].
  constructor; [apply S|apply S|apply S, D].
Qed.
Lemma ret_range fl (s s' : st) c r : good C s -> legal C s c -> step (ops := gops) fl s c = Ok (s', r) ->
  forall v, In v (ret_vars (OR r)) -> v < nv s'.
Proof.
  intros G HL E v Hv. pose proof (g_inv _ _ G) as HI. pose proof (g_cache _ _ G) as HC. destruct c; cbn [step legal] in *.
  - destruct (new_var_ok C s HI) as [Ev V]. destruct (new_var s) as [s1 w]. cbn [fst snd] in *. injection E as <- <-. destruct Hv as [<-|[]]. rewrite (vp_nv _ _ _ V). lia.
  - destruct (new_clause s ls) as [[? ?]| |]; cbn [rbind] in E; try discriminate E; injection E as <- <-; destruct Hv.
  - destruct (propagate gops fl s) as [[? ?]| |]; cbn [rbind] in E; try discriminate E; injection E as <- <-; destruct Hv.
  - destruct (assume gops fl s p) as [[? ?]| |]; cbn [rbind] in E; try discriminate E; injection E as <- <-; destruct Hv.
  - destruct (pop gops s) as [?| |]; cbn [rbind] in E; try discriminate E; injection E as <- <-; destruct Hv.
  - destruct (check gops fl s ls) as [[? ?]| |]; cbn [rbind] in E; try discriminate E; injection E as <- <-; destruct Hv.
  - destruct (next gops fl s) as [[? ?]| |]; cbn [rbind] in E; try discriminate E; injection E as <- <-; destruct Hv.
  - destruct (simplify_db gops fl s) as [[? ?]| |]; cbn [rbind] in E; try discriminate E; injection E as <- <-; destruct Hv.
  - destruct HL as [Hd Hs]. destruct (Reify.new_eq_ok C s l r0 HI HC Hd (Hs l (or_introl eq_refl)) (Hs r0 (or_intror (or_introl eq_refl)))) as (s1 & p & Eq & H). rewrite Eq in E. cbn [rbind] in E. injection E as <- <-. destruct Hv as [<-|[]]. apply H.
  - destruct HL as [Hd Hs]. destruct (new_conj_ok C s ls HI HC Hd Hs) as (s1 & p & Eq & H). rewrite Eq in E. cbn [rbind] in E. injection E as <- <-. destruct Hv as [<-|[]]. apply H.
  - destruct HL as [Hd Hs]. destruct (new_disj_ok C s ls HI HC Hd Hs) as (s1 & p & Eq & H). rewrite Eq in E. cbn [rbind] in E. injection E as <- <-. destruct Hv as [<-|[]]. apply H.
  - destruct HL as [Hd Hs]. unfold new_at_most_one in E. destruct (amo_f_ok C (S (length ls)) s ls ltac:(lia) HI HC Hd Hs) as (s1 & p & Eq & H). rewrite Eq in E. cbn [rbind] in E. injection E as <- <-. destruct Hv as [<-|[]]. apply (a_range _ _ _ _ _ H).
  - destruct HL as [Hd Hs]. destruct (exct_ok C s ls HI HC Hd Hs) as (s1 & p & Eq & H). rewrite Eq in E. cbn [rbind] in E. injection E as <- <-. destruct Hv as [<-|[]]. apply (x_range _ _ _ _ _ H).
  - destruct (listen s v0 l) as [?| |]; cbn [rbind] in E; try discriminate E; injection E as <- <-; destruct Hv.
Qed.
Lemma seen_new V (s s' : st) o o' m : gok s' o' -> seen V s o -> nv s <= nv s' -> odom o' = odom o ++ [m] -> oexp o' = oexp o ->
  seen (fun v => V v \/ In v (ret_vars (OX (length (odom o)) m))) s' o' /\ (forall v, In v (ret_vars (OX (length (odom o)) m)) -> v < nv s') /\
  (forall x k, nth_error (odom o) x = Some k -> nth_error (odom o') x = Some k) /\ (forall x k, OX (length (odom o)) m = OX x k -> nth_error (odom o') x = Some k) /\ NoDup (map fst m).
Proof.
  intros [G E HO] [A B D F] Hn Ed Ee.
  assert (Hm : forall v, In v (ret_vars (OX (length (odom o)) m)) -> v < nv s').
  { intros v Hv. cbn [ret_vars] in Hv. apply in_map_iff in Hv as ([x l] & <- & Hx). apply (ok_rng _ _ _ HO m x l); [rewrite Ed; apply in_or_app; right; left; reflexivity|exact Hx]. }
  split; [|split; [exact Hm|split; [|split]]].
  - constructor.
    + intros v [Hv|Hv]; [specialize (A v Hv); lia|apply Hm, Hv].
    + left. exact B.
    + intros x k y l Ek Hi. rewrite Ed in Ek. destruct (le_lt_dec (length (odom o)) x) as [Hl|Hl].
      * rewrite nth_error_app2 in Ek by exact Hl. right. cbn [ret_vars]. apply in_map_iff. exists (y, l). split; [reflexivity|]. destruct (x - length (odom o)) as [|[|?]]; cbn in Ek; try discriminate Ek. injection Ek as ->. exact Hi.
      * rewrite nth_error_app1 in Ek by exact Hl. left. apply (D x k y l Ek Hi).
    + intros k q Hq. rewrite Ee in Hq. left. apply (F k q Hq).
  - intros x k Ek. rewrite Ed, nth_error_app1 by (apply nth_error_Some; congruence). exact Ek.
  - intros x k Ek. injection Ek as <- <-. rewrite Ed, nth_error_app2, Nat.sub_diag by lia. reflexivity.
  - apply (ok_nd _ _ _ HO m). rewrite Ed. apply in_or_app. right; left; reflexivity.
Qed.
Lemma seen_all (s : st) o : gok s o -> seen (fun v => v < nv s) s o.
Proof.
  intros [G E HO]. constructor.
  - auto.
  - apply (t_nv s (i_t _ _ (g_inv _ _ G))).
  - intros x m y l Em Hi. apply (ok_rng _ _ _ HO m y l (nth_error_In _ _ Em) Hi).
  - intros [a b] q Hq. apply (ok_exp _ _ _ HO a b q Hq).
Qed.
Definition gextends (s : st) (o : ovs) (c : ocall) (r : oret) (s' : st) : Prop :=
  forall V, seen V s o -> (forall c', c = OSat c' -> exact c') -> (forall p, In p (call_lits c) -> V (lvar p)) -> (forall p, In p (decisions s) -> V (lvar p)) ->
  forall M M1, M 0 = false -> gsaid o c (decisions s) r M -> (forall v, V v -> M1 v = M v) -> smodels C s M1 ->
  exists M2, (forall v, V v \/ In v (ret_vars r) -> M2 v = M v) /\ smodels C s' M2.
Theorem gstep_ok fl (s s' : st) o c r : gok s o -> glegal s c -> gstep fl s c = Ok (s', r) ->
  exists o', (galive s' r -> gok s' o') /\ nv s <= nv s' /\ (forall v, In v (ret_vars r) -> v < nv s') /\
  (forall V, seen V s o -> seen (fun v => V v \/ In v (ret_vars r)) s' o') /\
  odom o' = match r with OX _ m => odom o ++ [m] | _ => odom o end /\
  (forall x m, r = OX x m -> x = length (odom o)) /\
  (forall j, j <> 0 -> match c with OSat _ => True | _ => nth_error (theories s') j = nth_error (theories s) j end) /\
  (forall M, smodels C s' M -> smodels C s M /\ gsaid o c (decisions s) r M) /\
  gextends s o c r s'.
Proof.
  intros HG HL HE. pose proof HG as [G E0 HO].
  destruct c as [c|items e|ls vals|l k]; cbn [gstep glegal] in *.
  - (* the SAT core *)
    destruct (step fl s c) as [[s1 r1]| |] eqn:E; cbn [rbind] in HE; try discriminate HE. assert (s1 = s' /\ r = OR r1) as [-> ->] by (split; congruence). clear HE.
    pose proof (gtheories_sat fl s s' c r1 o E0 E) as Eth. pose proof (step_ok C fl s c G HL) as H. rewrite E in H. destruct H as (H1 & Hn & H2 & H3).
    assert (G' : galive s' (OR r1) -> good C s') by (intros HA; destruct H1 as [H1|[-> Hu]]; [exact H1|]; destruct (HA eq_refl) as (M & HM); destruct (de_unsat _ _ Hu M HM)).
    assert (Hrr := ret_range fl s s' c r1 G HL E).
    exists o. split; [|split; [exact Hn|split; [exact Hrr|split; [|split; [reflexivity|split; [discriminate|split; [auto|split; [exact H2|]]]]]]]].
    + intros HA. constructor; [exact (G' HA)|exact Eth|]. apply (ok_mono C2 s); [exact HO|exact Hn|intros M HM; apply H2, HM].
    + intros V [A B D F]. constructor.
      * intros v [Hv|Hv]; [specialize (A v Hv); lia|apply Hrr, Hv].
      * left; exact B.
      * intros x m y l Em Hi. left. apply (D x m y l Em Hi).
      * intros k p Hp. left. apply (F k p Hp).
    + intros V [Hv _ _ _] Hx Hc Hds M M1 HM0 Hs HM1 HS. cbn [gsaid] in *. specialize (Hx c eq_refl).
      assert (Hsm : forall v, V v \/ In v (ret_vars (OR r1)) -> ret_vars (OR r1) = [] -> V v).
      { intros v [Hi|Hi] Er; [exact Hi|]. rewrite Er in Hi. destruct Hi. }
      pose proof (g_inv _ _ G) as HI. pose proof (g_cache _ _ G) as HC.
      assert (Hplain : ret_vars (OR r1) = [] -> said c (decisions s) r1 M1 -> exists M2, (forall v, V v \/ In v (ret_vars (OR r1)) -> M2 v = M v) /\ smodels C s' M2).
      { intros Er Hs1. exists M1. split; [intros v Hi; apply HM1, (Hsm v Hi Er)|]. apply (H3 Hx M1 HS Hs1). }
      destruct c; cbn [step legal exact call_lits] in *; try destruct Hx.
      * destruct (new_var_ok C s HI) as [Ev W]. destruct (new_var s) as [s1 w]. cbn [fst snd] in *. injection E as <- <-. subst w.
        exists (upd M1 (nv s) (M (nv s))). split.
        -- intros v [Hi|[<-|[]]]; [|apply upd_eq]. rewrite upd_neq by (specialize (Hv v Hi); lia). apply HM1, Hi.
        -- apply (vp_models _ _ _ W). apply (smodels_agree C s M1); [exact HI| |exact HS]. intros v Hw. rewrite upd_neq by lia. reflexivity.
      * destruct (new_clause s ls) as [[? b]| |]; cbn [rbind] in E; try discriminate E; injection E as <- <-. apply Hplain; [reflexivity|]. destruct b; [|exact I]. cbn [said] in *. apply (gmcl_vis M M1 V ls HM1 Hc Hs).
      * destruct (propagate gops fl s) as [[? ?]| |]; cbn [rbind] in E; try discriminate E; injection E as <- <-. apply Hplain; [reflexivity|exact I].
      * destruct (assume gops fl s p) as [[? ?]| |]; cbn [rbind] in E; try discriminate E; injection E as <- <-. apply Hplain; [reflexivity|exact I].
      * destruct (pop gops s) as [?| |]; cbn [rbind] in E; try discriminate E; injection E as <- <-. apply Hplain; [reflexivity|exact I].
      * destruct (check gops fl s ls) as [[? ?]| |]; cbn [rbind] in E; try discriminate E; injection E as <- <-. apply Hplain; [reflexivity|exact I].
      * destruct (next gops fl s) as [[? b]| |]; cbn [rbind] in E; try discriminate E; injection E as <- <-. apply Hplain; [reflexivity|]. cbn [said] in *. intros Hne. destruct (Hs Hne) as (d & Hd & Ed). exists d. split; [exact Hd|]. rewrite (gmlit_vis M M1 V d HM1) by (apply Hds, Hd). exact Ed.
      * destruct (simplify_db gops fl s) as [[? ?]| |]; cbn [rbind] in E; try discriminate E; injection E as <- <-. apply Hplain; [reflexivity|exact I].
      * destruct HL as [Hd Hsc]. destruct (new_conj_ok C s ls HI HC Hd Hsc) as (s1 & p & Eq & _ & Hcons & Hp & HM & _). rewrite Eq in E. cbn [rbind] in E. injection E as <- <-. cbn [said] in Hs.
        destruct (Hcons M1 HS) as (M2 & Ag & HS2). pose proof (proj2 (proj1 (HM M2) HS2)) as Hp2. assert (HM2 : forall v, V v -> M2 v = M v) by (intros v Hi; rewrite <- (Ag v (Hv v Hi)); apply HM1, Hi).
        exists M2. split; [|exact HS2]. intros v [Hi|[<-|[]]]; [apply HM2, Hi|]. apply lit_same. rewrite Hp2, Hs. apply (gforallb_vis M M2 V ls HM2 Hc).
      * destruct HL as [Hd Hsc]. destruct (new_disj_ok C s ls HI HC Hd Hsc) as (s1 & p & Eq & _ & Hcons & Hp & HM). rewrite Eq in E. cbn [rbind] in E. injection E as <- <-. cbn [said] in Hs.
        destruct (Hcons M1 HS) as (M2 & Ag & HS2). pose proof (proj2 (proj1 (HM M2) HS2)) as Hp2. assert (HM2 : forall v, V v -> M2 v = M v) by (intros v Hi; rewrite <- (Ag v (Hv v Hi)); apply HM1, Hi).
        exists M2. split; [|exact HS2]. intros v [Hi|[<-|[]]]; [apply HM2, Hi|]. apply lit_same. rewrite Hp2, Hs. apply (gexistsb_vis M M2 V ls HM2 Hc).
      * destruct (listen s v l) as [?| |]; cbn [rbind] in E; try discriminate E; injection E as <- <-. apply Hplain; [reflexivity|exact I].
  - (* new_var(items) *)
    destruct HL as [Hne Hroot]. destruct items as [|x1 items']; [case Hne; reflexivity|]. destruct items' as [|x2 items'].
    + destruct (new_var_single C2 s 0 o x1 e G E0) as (s1 & o1 & m & Eq & S & Ed & Ee & Em & HM & Ht). rewrite Eq in HE. cbn [rbind] in HE.
      destruct (gnew s o s1 o1 m HG S Ed) as [En HG1]. rewrite En in HE. assert (s1 = s' /\ r = OX (length (odom o)) m) as [-> ->] by (split; congruence).
      pose proof (os_nv _ _ _ _ _ _ S) as Hn. destruct (seen_new _ s s' o o1 m HG1 (seen_all s o HG) Hn Ed Ee) as (_ & P2 & P3 & P4 & P5).
      exists o1. split; [intros _; exact HG1|]. split; [exact Hn|]. split; [exact P2|]. split; [intros V HV; apply (seen_new V s s' o o1 m HG1 HV Hn Ed Ee)|]. split; [exact Ed|]. split; [intros ? ? Ek; injection Ek; auto|]. split; [intros j Hj; apply (os_ths _ _ _ _ _ _ S j Hj)|]. split.
      * intros M HS. split; [apply HM, HS|]. destruct e; [|exact I]. exists x1. split; [left; reflexivity|apply Ht, HS].
      * intros V HV _ _ _ M M1 HM0 _ HM1 HS. exists M1. split; [|apply HM, HS]. intros v [Hi|Hi]; [apply HM1, Hi|]. subst m. destruct Hi as [<-|[]]. cbn. apply HM1, (se_0 _ _ _ HV).
    + set (items := x1 :: x2 :: items') in *. assert (Hl : 2 <= length items) by (cbn; lia). destruct e.
      * destruct (new_var_exact_or C2 s 0 o items G E0 Hl (Hroot eq_refl)) as [[Eq _]|(s1 & o1 & m & Eq & S & Ed & Ee & Hk & H1 & H2)]; rewrite Eq in HE; cbn [rbind] in HE; [discriminate HE|].
        destruct (gnew s o s1 o1 m HG S Ed) as [En HG1]. rewrite En in HE. assert (s1 = s' /\ r = OX (length (odom o)) m) as [-> ->] by (split; congruence).
        pose proof (os_nv _ _ _ _ _ _ S) as Hn. destruct (seen_new _ s s' o o1 m HG1 (seen_all s o HG) Hn Ed Ee) as (_ & P2 & P3 & P4 & P5).
        exists o1. split; [intros _; exact HG1|]. split; [exact Hn|]. split; [exact P2|]. split; [intros V HV; apply (seen_new V s s' o o1 m HG1 HV Hn Ed Ee)|]. split; [exact Ed|]. split; [intros ? ? Ek; injection Ek; auto|]. split; [intros j Hj; apply (os_ths _ _ _ _ _ _ S j Hj)|]. split.
        -- intros M HS. split; [apply (os_mono _ _ _ _ _ _ S), HS|]. apply H1, HS.
        -- intros V HV _ _ _ M M1 HM0 (v & Hvi & Ht) HM1 HS. pose proof (se_lt _ _ _ HV) as Hv. destruct (H2 M1 v HS Hvi) as (M2 & Ag & HS2 & Ht2). exists M2. split; [|exact HS2].
           intros w [Hi|Hi]; [rewrite <- (Ag w (Hv w Hi)); apply HM1, Hi|]. cbn [ret_vars] in Hi. apply in_map_iff in Hi as ([x l] & <- & Hx).
           apply (takes_same M2 M m) with (x := x); [exact P5|intros y; rewrite (Ht2 y), (Ht y); reflexivity|exact Hx].
      * destruct (new_var_free C2 s 0 o items G E0 Hl) as (s1 & o1 & m & Eq & S & Ed & Ee & Hk & H2). rewrite Eq in HE; cbn [rbind] in HE.
        destruct (gnew s o s1 o1 m HG S Ed) as [En HG1]. rewrite En in HE. assert (s1 = s' /\ r = OX (length (odom o)) m) as [-> ->] by (split; congruence).
        pose proof (os_nv _ _ _ _ _ _ S) as Hn. destruct (seen_new _ s s' o o1 m HG1 (seen_all s o HG) Hn Ed Ee) as (_ & P2 & P3 & P4 & P5).
        exists o1. split; [intros _; exact HG1|]. split; [exact Hn|]. split; [exact P2|]. split; [intros V HV; apply (seen_new V s s' o o1 m HG1 HV Hn Ed Ee)|]. split; [exact Ed|]. split; [intros ? ? Ek; injection Ek; auto|]. split; [intros j Hj; apply (os_ths _ _ _ _ _ _ S j Hj)|]. split.
        -- intros M HS. split; [apply (os_mono _ _ _ _ _ _ S), HS|exact I].
        -- intros V HV _ _ _ M M1 HM0 _ HM1 HS. pose proof (se_lt _ _ _ HV) as Hv.
           destruct (H2 M1 (fun x => match alook x m with Some l => mlit M l | None => false end) HS) as (M2 & Ag & HS2 & Ht2). exists M2. split; [|exact HS2].
           intros w [Hi|Hi]; [rewrite <- (Ag w (Hv w Hi)); apply HM1, Hi|]. cbn [ret_vars] in Hi. apply in_map_iff in Hi as ([x l] & <- & Hx).
           apply (takes_same M2 M m) with (x := x); [exact P5| |exact Hx]. intros y. rewrite Ht2, (takes_look M m y P5). destruct (alook y m) as [k|] eqn:Ek.
           ++ split; [intros [_ K]; eauto|]. intros (k' & Ek' & K). split; [apply Hk; apply alook_in, (in_map fst) in Ek; exact Ek|congruence].
           ++ split; [intros [_ K]; discriminate K|]. intros (k' & Ek' & _). discriminate Ek'.
  - (* new_var(lits, vals) *)
    destruct HL as (Hne & Hlen & Hsc). destruct (new_var_lits_ok C2 s 0 o ls vals G E0 Hne Hlen Hsc) as (s1 & o1 & m & Eq & S & Ed & Ee & Hm & HM). rewrite Eq in HE; cbn [rbind] in HE.
    destruct (gnew s o s1 o1 m HG S Ed) as [En HG1]. rewrite En in HE. assert (s1 = s' /\ r = OX (length (odom o)) m) as [-> ->] by (split; congruence).
    pose proof (os_nv _ _ _ _ _ _ S) as Hn. destruct (seen_new _ s s' o o1 m HG1 (seen_all s o HG) Hn Ed Ee) as (_ & P2 & P3 & P4 & P5).
    exists o1. split; [intros _; exact HG1|]. split; [exact Hn|]. split; [exact P2|]. split; [intros V HV; apply (seen_new V s s' o o1 m HG1 HV Hn Ed Ee)|]. split; [exact Ed|]. split; [intros ? ? Ek; injection Ek; auto|]. split; [intros j Hj; apply (os_ths _ _ _ _ _ _ S j Hj)|]. split.
    + intros M HS. split; [apply HM, HS|exact I].
    + intros V HV _ Hc _ M M1 HM0 _ HM1 HS. cbn [call_lits] in *. exists M1. split; [|apply HM, HS]. intros w [Hi|Hi]; [apply HM1, Hi|].
      cbn [ret_vars] in Hi. apply in_map_iff in Hi as ([x l] & <- & Hx). cbn. apply HM1, Hc. apply Hm in Hx as (n & _ & Hx & _). apply nth_error_In in Hx. exact Hx.
  - (* new_eq *)
    destruct HL as (Hd & o2 & Et2 & Hl & Hk). assert (o2 = o) by congruence. subst o2.
    destruct (nth_error (odom o) l) as [dl|] eqn:El; [|apply nth_error_None in El; lia]. destruct (nth_error (odom o) k) as [dr|] eqn:Er; [|apply nth_error_None in Er; lia].
    pose proof (OvEq.new_eq_ok C2 om oi Hom Hoi s 0 o l k dl dr G E0 HO Hd El Er) as H. destruct (ov_new_eq om oi s 0 l k) as [[s1 p]| |]; cbn [rbind] in HE; try discriminate HE.
    assert (s1 = s' /\ r = OP p) as [-> ->] by (split; congruence). destruct H as (o1 & [S Q1 Q2 Q3 Q4 Q5] & _).
    pose proof (os_nv _ _ _ _ _ _ S) as Hn.
    exists o1. split; [intros _; constructor; [apply S|apply S|apply S, HO]|]. split; [exact Hn|]. split; [intros v [<-|[]]; exact Q2|]. split; [|split; [exact Q1|split; [discriminate|split; [intros j Hj; apply (os_ths _ _ _ _ _ _ S j Hj)|split]]]].
    + intros V [A B D F]. constructor.
      * intros v [Hi|[<-|[]]]; [specialize (A v Hi); lia|exact Q2].
      * left; exact B.
      * intros x m y q Em Hi. rewrite Q1 in Em. left. apply (D x m y q Em Hi).
      * intros q' q Hq. destruct (Q4 _ _ Hq) as [Hq'| ->]; [left; apply (F _ _ Hq')|right; left; reflexivity].
    + intros M HS. apply Q5 in HS as [HS He]. split; [exact HS|]. cbn [gsaid]. intros da db Ha Hb. assert (da = dl) by congruence. assert (db = dr) by congruence. subst da db. exact He.
    + intros V [Hv V0 Vd Ve] _ _ _ M M1 HM0 Hs HM1 HS. cbn [gsaid] in *. assert (He : eq_means M p dl dr) by (apply Hs; assumption).
      destruct Q3 as [(-> & -> & Hp)|Hp].
      * exists M1. split; [|exact HS]. intros v [Hi|[<-|[]]]; [apply HM1, Hi|]. destruct Hp as [->|(k' & Hk')]; apply HM1; [exact V0|apply (Ve _ _ Hk')].
      * set (M2 := upd M1 (nv s) (M (nv s))). assert (Ag : agree (nv s) M1 M2) by (intros v Hw; unfold M2; rewrite upd_neq by lia; reflexivity).
        assert (Hd2 : forall x m j, nth_error (odom o) j = Some m -> takes M2 m x <-> takes M m x).
        { intros x m j Hj. assert (Hl2 : forall y q, In (y, q) m -> mlit M2 q = mlit M q).
          { intros y q Hq. assert (Hvq : V (lvar q)) by (apply (Vd j m y q Hj Hq)). unfold mlit. rewrite <- (Ag _ (Hv _ Hvq)), (HM1 _ Hvq). reflexivity. }
          split; intros (q & Hq & Eq); exists q; (split; [exact Hq|]); [rewrite <- (Hl2 x q Hq)|rewrite (Hl2 x q Hq)]; exact Eq. }
        exists M2. split.
        -- intros v [Hi|[<-|[]]]; [rewrite <- (Ag v (Hv v Hi)); apply HM1, Hi|]. rewrite Hp. apply upd_eq.
        -- apply Q5. split; [apply (smodels_agree C s M1); [apply G|exact Ag|exact HS]|]. destruct He as [A B].
           assert (Ep : mlit M2 p = mlit M p) by (unfold mlit, M2; rewrite Hp, upd_eq; reflexivity). split; rewrite Ep.
           ++ intros K x. rewrite (Hd2 x dl l El), (Hd2 x dr k Er). apply A, K.
           ++ intros (x & K1 & K2). apply B. exists x. split; [apply (Hd2 x dl l El), K1|apply (Hd2 x dr k Er), K2].
Qed.
End OStep.
End Srt.
