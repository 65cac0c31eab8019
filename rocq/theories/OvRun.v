(** A network with object variables, driven by its public interface: the calls of sat_core.h and those of ov_theory.h:23-29. *)
From Verif Require Import Base Keys Sat SatSpec SatInv SatPop SatImp SatRec SatAn SatProp SatLoop SatMain SatApi SatApi2 SatNext SatSimp Reify Amo Run SatFacts ThGrow ThRel ThSum Ov OvInv OvEq.
Local Arguments Nat.ltb : simpl never.
Local Arguments Nat.eqb : simpl never.

Notation oops := (sum_ops ov_ops pure_ops).
Notation OC := (sumC ov_ops pure_ops ovC pureC).
Notation ost := (st (ovs + Empty_set)).
Section Srt.
Context {sr : sorter}.

Section ORun.
Context (om : list (nat * lit) -> list (nat * lit)) (oi : list nat -> list nat) (Hom : forall m, Permutation m (om m)) (Hoi : forall l, Permutation l (oi l)).

(** ** The machine. *)
Inductive ocall := OSat (c : call) | ONew (items : list nat) (e : bool) | OLits (ls : list lit) (vals : list nat) | OEq (l r : nat).
(** A new variable is returned with its entries: the values and the literals that [allows] returns for them. *)
Inductive oret := OR (r : ret) | OX (x : nat) (m : list (nat * lit)) | OP (p : lit).
Definition entries (s : ost) (x : nat) : list (nat * lit) := match theories s with inl o :: _ => nth x (odom o) [] | _ => [] end.
Definition ocstep (fl : nat) (s : ost) (c : ocall) : res (ost * oret) :=
  match c with
  | OSat c => '(s1, r) <- step (ops := oops) fl s c ;; Ok (s1, OR r)
  | ONew items e => '(s1, x) <- ov_new_var s 0 items e ;; Ok (s1, OX x (entries s1 x))
  | OLits ls vals => '(s1, x) <- ov_new_var_lits s 0 ls vals ;; Ok (s1, OX x (entries s1 x))
  | OEq l r => '(s1, p) <- ov_new_eq om oi s 0 l r ;; Ok (s1, OP p)
  end.
(** Constraints are stated at root level, about existing variables. *)
Definition olegal (s : ost) (c : ocall) : Prop :=
  match c with
  | OSat c => legal OC s c
  | ONew items e => items <> [] /\ (e = true -> dlevel s = 0)
  | OLits ls vals => ls <> [] /\ length ls = length vals /\ in_scope s ls
  | OEq l r => dlevel s = 0 /\ exists o, theories s = [inl o] /\ l < length (odom o) /\ r < length (odom o)
  end.
Definition oalive (s' : ost) (r : oret) : Prop := r = OR (RBool false) -> exists M, smodels OC s' M.
Definition oinit : ost := init [inl ov_empty].
Record oev := mk_oev { oe_call : ocall; oe_decs : list lit; oe_ret : oret }.
Inductive OTrace : list oev -> ost -> Prop :=
| OT_init : OTrace [] oinit
| OT_step fl tr s c s' r : OTrace tr s -> olegal s c -> ocstep fl s c = Ok (s', r) -> oalive s' r -> OTrace (mk_oev c (decisions s) r :: tr) s'.

(** The entries of a variable of the history. *)
Fixpoint dom_of (tr : list oev) (x : nat) : option (list (nat * lit)) :=
  match tr with
  | [] => None
  | e :: r => match oe_ret e with OX y m => if Nat.eqb x y then Some m else dom_of r x | _ => dom_of r x end
  end.
(** What the client has been told, about an assignment of the Boolean variables. *)
Definition osaid (tr : list oev) (c : ocall) (ds : list lit) (r : oret) (M : nat -> bool) : Prop :=
  match c, r with
  | OSat c, OR r => said c ds r M
  | ONew items true, OX x m => exists v, In v items /\ takes1 M m v
  | OEq a b, OP p => forall da db, dom_of tr a = Some da -> dom_of tr b = Some db -> eq_means M p da db
  | _, _ => True
  end.
Fixpoint otold (tr : list oev) (M : nat -> bool) : Prop :=
  match tr with [] => M 0 = false | e :: r => otold r M /\ osaid r (oe_call e) (oe_decs e) (oe_ret e) M end.
(** The Boolean variables that the client knows of. *)
Definition ret_vars (r : oret) : list nat :=
  match r with OR (RVar v) => [v] | OR (RLit p) => [lvar p] | OX _ m => map (fun e => lvar (snd e)) m | OP p => [lvar p] | _ => [] end.
Definition vis (tr : list oev) : list nat := 0 :: flat_map (fun e => ret_vars (oe_ret e)) tr.
Definition call_lits (c : ocall) : list lit :=
  match c with
  | OSat (CClause ls) | OSat (CConj ls) | OSat (CDisj ls) | OSat (CCheck ls) | OLits ls _ => ls
  | OSat (CAssume p) => [p]
  | _ => []
  end.
(** The client only mentions variables it has been given, and it does not use the half-constrained literals (see [said]). *)
Inductive omindful : list oev -> Prop :=
| om_nil : omindful []
| om_cons e tr : omindful tr -> (forall c, oe_call e = OSat c -> exact c) -> (forall p, In p (call_lits (oe_call e)) -> In (lvar p) (vis tr)) ->
    (forall p, In p (oe_decs e) -> In (lvar p) (vis tr)) -> omindful (e :: tr).

(** ** The invariant. *)
Record ogood (tr : list oev) (s : ost) (o : ovs) : Prop := {
  og_good : good OC s;
  og_th : theories s = [inl o];
  og_ok : ov_ok pureC s o;
  og_vis : forall v, In v (vis tr) -> v < nv s;
  og_dom : forall x, dom_of tr x = nth_error (odom o) x;
  og_exp : forall k p, In (k, p) (oexp o) -> In (lvar p) (vis tr) }.
Lemma oinit_good : ogood [] oinit ov_empty /\ forall M, smodels OC oinit M <-> M 0 = false.
Proof.
  destruct (init_good OC [inl ov_empty]) as (_ & G & HM).
  { intros t [<-|[]]. split; [exact I|]. split; [exact I|]. intros w []. }
  split.
  - constructor.
    + exact G.
    + reflexivity.
    + constructor; [intros m x l []|intros m []|intros a b p []].
    + intros v [<-|[]]. apply (t_nv oinit (i_t _ _ (g_inv _ _ G))).
    + intros x. destruct x; reflexivity.
    + intros k p [].
  - intros M. unfold oinit. rewrite HM. split; [tauto|]. intros H. split; [exact H|]. intros t [<-|[]]. exact I.
Qed.
Lemma dom_len tr s o x : ogood tr s o -> x < length (odom o) -> exists m, nth_error (odom o) x = Some m.
Proof. intros _ H. destruct (nth_error (odom o) x) as [m|] eqn:E; [eauto|]. apply nth_error_None in E. lia. Qed.
Lemma dom_snoc tr c ds o (m : list (nat * lit)) : (forall x, dom_of tr x = nth_error (odom o) x) ->
  forall x, dom_of (mk_oev c ds (OX (length (odom o)) m) :: tr) x = nth_error (odom o ++ [m]) x.
Proof.
  intros H x. cbn [dom_of oe_ret]. destruct (Nat.eqb_spec x (length (odom o))) as [->|Hn].
  - rewrite nth_error_app2, Nat.sub_diag by lia. reflexivity.
  - rewrite H. destruct (le_lt_dec (length (odom o)) x) as [Hl|Hl]; [|rewrite nth_error_app1 by exact Hl; reflexivity].
    rewrite (proj2 (nth_error_None _ _) Hl). symmetry. apply nth_error_None. rewrite app_length. cbn. lia.
Qed.
Lemma vis_cons c ds r tr : forall v, In v (vis (mk_oev c ds r :: tr)) <-> In v (vis tr) \/ In v (ret_vars r).
Proof. intros v. unfold vis. cbn [flat_map oe_ret In]. rewrite in_app_iff. tauto. Qed.
Lemma ostep_one (s s' : ost) o o' : theories s = [inl o] -> ostep pureC s 0 o s' o' -> theories s' = [inl o'].
Proof.
  intros B S. pose proof (os_nth _ _ _ _ _ _ S) as Hn. pose proof (os_ths _ _ _ _ _ _ S 1 ltac:(lia)) as H1. rewrite B in H1. cbn in H1.
  destruct (theories s') as [|t [|? ?]]; cbn in Hn, H1; [discriminate Hn|injection Hn as ->; reflexivity|discriminate H1].
Qed.
Lemma dom_vis tr x m y l : dom_of tr x = Some m -> In (y, l) m -> In (lvar l) (vis tr).
Proof.
  induction tr as [|[c ds r] tr IH]; cbn [dom_of oe_ret]; [discriminate|]. intros H Hi. apply vis_cons. destruct r as [r|z m'|p].
  - left. apply IH; assumption.
  - destruct (Nat.eqb x z); [|left; apply IH; assumption]. injection H as ->. right. cbn [ret_vars]. apply in_map_iff. exists (y, l). auto.
  - left. apply IH; assumption.
Qed.
(** An object call that adds a variable. *)
Lemma ogood_new tr s o c ds s' o' m : ogood tr s o -> ostep pureC s 0 o s' o' -> odom o' = odom o ++ [m] -> oexp o' = oexp o ->
  entries s' (length (odom o)) = m /\ ogood (mk_oev c ds (OX (length (odom o)) m) :: tr) s' o'.
Proof.
  intros [A B D F K L] S Ed Ee. pose proof (ostep_one s s' o o' B S) as Et.
  assert (Em : entries s' (length (odom o)) = m) by (unfold entries; rewrite Et, Ed, app_nth2, Nat.sub_diag by lia; reflexivity). split; [exact Em|].
  pose proof (os_ok _ _ _ _ _ _ S D) as HO. constructor.
  - apply S.
  - exact Et.
  - exact HO.
  - intros v Hv. apply vis_cons in Hv as [Hv|Hv]; [specialize (F v Hv); pose proof (os_nv _ _ _ _ _ _ S); lia|]. cbn [ret_vars] in Hv. apply in_map_iff in Hv as ([x l] & <- & Hx).
    apply (ok_rng _ _ _ HO m x l); [rewrite Ed; apply in_or_app; right; left; reflexivity|exact Hx].
  - rewrite Ed. apply dom_snoc, K.
  - intros k p Hp. rewrite Ee in Hp. apply vis_cons. left. apply (L k p Hp).
Qed.
Lemma theories_sat fl (s s' : ost) c r : step (ops := oops) fl s c = Ok (s', r) -> theories s' = theories s.
Proof.
  intros E. assert (H : map (fun t : ovs + Empty_set => t) (theories s') = map (fun t : ovs + Empty_set => t) (theories s)).
  { apply (K_step oops (fun t => t)) with (fuel := fl) (c := c) (r := r); [| | | |exact E].
    - intros [o|[]] val p t' ls cf H. cbn in H. congruence.
    - intros [o|[]] val t' cf H. cbn in H. congruence.
    - intros [o|[]]. reflexivity.
    - intros [o|[]]. reflexivity. }
  rewrite !map_id in H. exact H.
Qed.

(** The entries of a variable determine the values of their literals. *)
Lemma takes_same M M' m : NoDup (map fst m) -> (forall x, takes M m x <-> takes M' m x) -> forall x l, In (x, l) m -> M (lvar l) = M' (lvar l).
Proof.
  intros Hn H x l Hi. assert (K : mlit M l = mlit M' l).
  { specialize (H x). rewrite !(takes_look _ m x Hn) in H. rewrite (alook_nodup x l m Hn Hi) in H. destruct (mlit M l) eqn:E1, (mlit M' l) eqn:E2; try reflexivity.
    - destruct (proj1 H) as (k & Ek & Mk); [eauto|]. injection Ek as <-. congruence.
    - destruct (proj2 H) as (k & Ek & Mk); [eauto|]. injection Ek as <-. congruence. }
  unfold mlit in K. destruct (lsgn l), (M (lvar l)), (M' (lvar l)); cbn in K; congruence.
Qed.
Lemma mlit_vis M M' (vs : list nat) p : (forall v, In v vs -> M' v = M v) -> In (lvar p) vs -> mlit M' p = mlit M p.
Proof. intros H Hp. unfold mlit. rewrite (H _ Hp). reflexivity. Qed.
Lemma forallb_vis M M' vs ls : (forall v, In v vs -> M' v = M v) -> (forall p, In p ls -> In (lvar p) vs) -> forallb (mlit M') ls = forallb (mlit M) ls.
Proof. intros H K. induction ls as [|p ls IH]; cbn; [reflexivity|]. rewrite IH by (intros q Hq; apply K; right; exact Hq). rewrite (mlit_vis M M' vs p H) by (apply K; left; reflexivity). reflexivity. Qed.
Lemma existsb_vis M M' vs ls : (forall v, In v vs -> M' v = M v) -> (forall p, In p ls -> In (lvar p) vs) -> existsb (mlit M') ls = existsb (mlit M) ls.
Proof. intros H K. induction ls as [|p ls IH]; cbn; [reflexivity|]. rewrite IH by (intros q Hq; apply K; right; exact Hq). rewrite (mlit_vis M M' vs p H) by (apply K; left; reflexivity). reflexivity. Qed.
Lemma mcl_vis M M' vs ls : (forall v, In v vs -> M' v = M v) -> (forall p, In p ls -> In (lvar p) vs) -> mcl M ls -> mcl M' ls.
Proof. intros H K (p & Hp & E). exists p. split; [exact Hp|]. rewrite (mlit_vis M M' vs p H) by (apply K, Hp). exact E. Qed.
Lemma lit_same M M' p : mlit M p = mlit M' p -> M (lvar p) = M' (lvar p).
Proof. unfold mlit. destruct (lsgn p), (M (lvar p)), (M' (lvar p)); cbn; congruence. Qed.

Lemma ret_range fl (s s' : ost) c r : good OC s -> legal OC s c -> step (ops := oops) fl s c = Ok (s', r) ->
  forall v, In v (ret_vars (OR r)) -> v < nv s'.
Proof.
  intros G HL E v Hv. pose proof (g_inv _ _ G) as HI. pose proof (g_cache _ _ G) as HC. destruct c; cbn [step legal] in *.
  - destruct (new_var_ok OC s HI) as [Ev V]. destruct (new_var s) as [s1 w]. cbn [fst snd] in *. injection E as <- <-. destruct Hv as [<-|[]]. rewrite (vp_nv _ _ _ V). lia.
  - destruct (new_clause s ls) as [[? ?]| |]; cbn [rbind] in E; try discriminate E; injection E as <- <-; destruct Hv.
  - destruct (propagate oops fl s) as [[? ?]| |]; cbn [rbind] in E; try discriminate E; injection E as <- <-; destruct Hv.
  - destruct (assume oops fl s p) as [[? ?]| |]; cbn [rbind] in E; try discriminate E; injection E as <- <-; destruct Hv.
  - destruct (pop oops s) as [?| |]; cbn [rbind] in E; try discriminate E; injection E as <- <-; destruct Hv.
  - destruct (check oops fl s ls) as [[? ?]| |]; cbn [rbind] in E; try discriminate E; injection E as <- <-; destruct Hv.
  - destruct (next oops fl s) as [[? ?]| |]; cbn [rbind] in E; try discriminate E; injection E as <- <-; destruct Hv.
  - destruct (simplify_db oops fl s) as [[? ?]| |]; cbn [rbind] in E; try discriminate E; injection E as <- <-; destruct Hv.
  - destruct HL as [Hd Hs]. destruct (Reify.new_eq_ok OC s l r0 HI HC Hd (Hs l (or_introl eq_refl)) (Hs r0 (or_intror (or_introl eq_refl)))) as (s1 & p & Eq & H). rewrite Eq in E. cbn [rbind] in E. injection E as <- <-. destruct Hv as [<-|[]]. apply H.
  - destruct HL as [Hd Hs]. destruct (new_conj_ok OC s ls HI HC Hd Hs) as (s1 & p & Eq & H). rewrite Eq in E. cbn [rbind] in E. injection E as <- <-. destruct Hv as [<-|[]]. apply H.
  - destruct HL as [Hd Hs]. destruct (new_disj_ok OC s ls HI HC Hd Hs) as (s1 & p & Eq & H). rewrite Eq in E. cbn [rbind] in E. injection E as <- <-. destruct Hv as [<-|[]]. apply H.
  - destruct HL as [Hd Hs]. unfold new_at_most_one in E. destruct (amo_f_ok OC (S (length ls)) s ls ltac:(lia) HI HC Hd Hs) as (s1 & p & Eq & H). rewrite Eq in E. cbn [rbind] in E. injection E as <- <-. destruct Hv as [<-|[]]. apply (a_range _ _ _ _ _ H).
  - destruct HL as [Hd Hs]. destruct (exct_ok OC s ls HI HC Hd Hs) as (s1 & p & Eq & H). rewrite Eq in E. cbn [rbind] in E. injection E as <- <-. destruct Hv as [<-|[]]. apply (x_range _ _ _ _ _ H).
  - destruct (listen s v0 l) as [?| |]; cbn [rbind] in E; try discriminate E; injection E as <- <-; destruct Hv.
Qed.
(** ** Every call. *)
Definition extends (tr : list oev) (s : ost) (e : oev) (s' : ost) : Prop :=
  (forall c, oe_call e = OSat c -> exact c) -> (forall p, In p (call_lits (oe_call e)) -> In (lvar p) (vis tr)) -> (forall p, In p (oe_decs e) -> In (lvar p) (vis tr)) ->
  forall M M1, M 0 = false -> osaid tr (oe_call e) (oe_decs e) (oe_ret e) M -> (forall v, In v (vis tr) -> M1 v = M v) -> smodels OC s M1 ->
  exists M2, (forall v, In v (vis (e :: tr)) -> M2 v = M v) /\ smodels OC s' M2.
Theorem ocstep_ok fl tr (s s' : ost) o c r : ogood tr s o -> olegal s c -> ocstep fl s c = Ok (s', r) -> oalive s' r ->
  exists o', ogood (mk_oev c (decisions s) r :: tr) s' o' /\
  (forall M, smodels OC s' M -> smodels OC s M /\ osaid tr c (decisions s) r M) /\
  extends tr s (mk_oev c (decisions s) r) s'.
Proof.
  intros HG HL HE HA. pose proof HG as [G Et HO Hv Hdm Hex]. assert (E0 : nth_error (theories s) 0 = Some (inl o)) by (rewrite Et; reflexivity).
  destruct c as [c|items e|ls vals|l k]; cbn [ocstep olegal] in *.
  - (* the SAT core *)
    destruct (step fl s c) as [[s1 r1]| |] eqn:E; cbn [rbind] in HE; try discriminate HE. assert (s1 = s' /\ r = OR r1) as [-> ->] by (split; congruence). clear HE.
    pose proof (theories_sat fl s s' c r1 E) as Eth. pose proof (step_ok OC fl s c G HL) as H. rewrite E in H. destruct H as (H1 & Hn & H2 & H3).
    assert (G' : good OC s') by (destruct H1 as [H1|[-> Hu]]; [exact H1|]; destruct (HA eq_refl) as (M & HM); destruct (de_unsat _ _ Hu M HM)).
    exists o. split; [|split; [exact H2|]].
    + constructor.
      * exact G'.
      * congruence.
      * apply (ok_mono pureC s); [exact HO|exact Hn|intros M HM; apply H2, HM].
      * intros v Hi. apply vis_cons in Hi as [Hi|Hi]; [specialize (Hv v Hi); lia|]. apply (ret_range fl s s' c r1 G HL E v Hi).
      * intros x. cbn [dom_of oe_ret]. apply Hdm.
      * intros q p Hp. apply vis_cons. left. apply (Hex q p Hp).
    + intros Hx Hc Hds M M1 HM0 Hs HM1 HS. cbn [oe_call oe_decs oe_ret osaid] in *. specialize (Hx c eq_refl).
      assert (Hsm : forall v, In v (vis (mk_oev (OSat c) (decisions s) (OR r1) :: tr)) -> ret_vars (OR r1) = [] -> In v (vis tr)).
      { intros v Hi Er. apply vis_cons in Hi as [Hi|Hi]; [exact Hi|]. rewrite Er in Hi. destruct Hi. }
      pose proof (g_inv _ _ G) as HI. pose proof (g_cache _ _ G) as HC.
      assert (Hplain : ret_vars (OR r1) = [] -> said c (decisions s) r1 M1 -> exists M2, (forall v, In v (vis (mk_oev (OSat c) (decisions s) (OR r1) :: tr)) -> M2 v = M v) /\ smodels OC s' M2).
      { intros Er Hs1. exists M1. split; [intros v Hi; apply HM1, (Hsm v Hi Er)|]. apply (H3 Hx M1 HS Hs1). }
      destruct c; cbn [step legal exact call_lits] in *; try destruct Hx.
      * destruct (new_var_ok OC s HI) as [Ev V]. destruct (new_var s) as [s1 w]. cbn [fst snd] in *. injection E as <- <-. subst w.
        exists (upd M1 (nv s) (M (nv s))). split.
        -- intros v Hi. apply vis_cons in Hi as [Hi|[<-|[]]]; [|apply upd_eq]. rewrite upd_neq by (specialize (Hv v Hi); lia). apply HM1, Hi.
        -- apply (vp_models _ _ _ V). apply (smodels_agree OC s M1); [exact HI| |exact HS]. intros v Hw. rewrite upd_neq by lia. reflexivity.
      * destruct (new_clause s ls) as [[? b]| |]; cbn [rbind] in E; try discriminate E; injection E as <- <-. apply Hplain; [reflexivity|]. destruct b; [|exact I]. cbn [said] in *. apply (mcl_vis M M1 (vis tr) ls HM1 Hc Hs).
      * destruct (propagate oops fl s) as [[? ?]| |]; cbn [rbind] in E; try discriminate E; injection E as <- <-. apply Hplain; [reflexivity|exact I].
      * destruct (assume oops fl s p) as [[? ?]| |]; cbn [rbind] in E; try discriminate E; injection E as <- <-. apply Hplain; [reflexivity|exact I].
      * destruct (pop oops s) as [?| |]; cbn [rbind] in E; try discriminate E; injection E as <- <-. apply Hplain; [reflexivity|exact I].
      * destruct (check oops fl s ls) as [[? ?]| |]; cbn [rbind] in E; try discriminate E; injection E as <- <-. apply Hplain; [reflexivity|exact I].
      * destruct (next oops fl s) as [[? b]| |]; cbn [rbind] in E; try discriminate E; injection E as <- <-. apply Hplain; [reflexivity|]. cbn [said] in *. intros Hne. destruct (Hs Hne) as (d & Hd & Ed). exists d. split; [exact Hd|]. rewrite (mlit_vis M M1 (vis tr) d HM1) by (apply Hds, Hd). exact Ed.
      * destruct (simplify_db oops fl s) as [[? ?]| |]; cbn [rbind] in E; try discriminate E; injection E as <- <-. apply Hplain; [reflexivity|exact I].
      * destruct HL as [Hd Hsc]. destruct (new_conj_ok OC s ls HI HC Hd Hsc) as (s1 & p & Eq & _ & Hcons & Hp & HM & _). rewrite Eq in E. cbn [rbind] in E. injection E as <- <-. cbn [said] in Hs.
        destruct (Hcons M1 HS) as (M2 & Ag & HS2). pose proof (proj2 (proj1 (HM M2) HS2)) as Hp2. assert (HM2 : forall v, In v (vis tr) -> M2 v = M v) by (intros v Hi; rewrite <- (Ag v (Hv v Hi)); apply HM1, Hi).
        exists M2. split; [|exact HS2]. intros v Hi. apply vis_cons in Hi as [Hi|[<-|[]]]; [apply HM2, Hi|]. apply lit_same. rewrite Hp2, Hs. apply (forallb_vis M M2 (vis tr) ls HM2 Hc).
      * destruct HL as [Hd Hsc]. destruct (new_disj_ok OC s ls HI HC Hd Hsc) as (s1 & p & Eq & _ & Hcons & Hp & HM). rewrite Eq in E. cbn [rbind] in E. injection E as <- <-. cbn [said] in Hs.
        destruct (Hcons M1 HS) as (M2 & Ag & HS2). pose proof (proj2 (proj1 (HM M2) HS2)) as Hp2. assert (HM2 : forall v, In v (vis tr) -> M2 v = M v) by (intros v Hi; rewrite <- (Ag v (Hv v Hi)); apply HM1, Hi).
        exists M2. split; [|exact HS2]. intros v Hi. apply vis_cons in Hi as [Hi|[<-|[]]]; [apply HM2, Hi|]. apply lit_same. rewrite Hp2, Hs. apply (existsb_vis M M2 (vis tr) ls HM2 Hc).
      * destruct (listen s v l) as [?| |]; cbn [rbind] in E; try discriminate E; injection E as <- <-. apply Hplain; [reflexivity|exact I].
  - (* new_var(items) *)
    destruct HL as [Hne Hroot]. destruct items as [|x1 items']; [case Hne; reflexivity|]. destruct items' as [|x2 items'].
    + destruct (new_var_single pureC s 0 o x1 e G E0) as (s1 & o1 & m & Eq & S & Ed & Ee & Em & HM & Ht). rewrite Eq in HE. cbn [rbind] in HE.
      destruct (ogood_new tr s o (ONew [x1] e) (decisions s) s1 o1 m HG S Ed Ee) as [En HG1]. rewrite En in HE. assert (s1 = s' /\ r = OX (length (odom o)) m) as [-> ->] by (split; congruence).
      exists o1. split; [exact HG1|]. split.
      * intros M HS. split; [apply HM, HS|]. destruct e; [|exact I]. exists x1. split; [left; reflexivity|apply Ht, HS].
      * intros _ _ _ M M1 HM0 _ HM1 HS. exists M1. split; [|apply HM, HS]. intros v Hi. apply vis_cons in Hi as [Hi|Hi]; [apply HM1, Hi|]. subst m. destruct Hi as [<-|[]]. cbn. apply HM1. left; reflexivity.
    + set (items := x1 :: x2 :: items') in *. assert (Hl : 2 <= length items) by (cbn; lia). destruct e.
      * destruct (new_var_exact_or pureC s 0 o items G E0 Hl (Hroot eq_refl)) as [[Eq _]|(s1 & o1 & m & Eq & S & Ed & Ee & Hk & H1 & H2)]; rewrite Eq in HE; cbn [rbind] in HE; [discriminate HE|].
        destruct (ogood_new tr s o (ONew items true) (decisions s) s1 o1 m HG S Ed Ee) as [En HG1]. rewrite En in HE. assert (s1 = s' /\ r = OX (length (odom o)) m) as [-> ->] by (split; congruence).
        exists o1. split; [exact HG1|]. split.
        -- intros M HS. split; [apply (os_mono _ _ _ _ _ _ S), HS|]. apply H1, HS.
        -- intros _ _ _ M M1 HM0 (v & Hvi & Ht) HM1 HS. cbn [oe_call oe_decs oe_ret] in *. destruct (H2 M1 v HS Hvi) as (M2 & Ag & HS2 & Ht2). exists M2. split; [|exact HS2].
           intros w Hi. apply vis_cons in Hi as [Hi|Hi]; [rewrite <- (Ag w (Hv w Hi)); apply HM1, Hi|]. cbn [ret_vars] in Hi. apply in_map_iff in Hi as ([x l] & <- & Hx).
           apply (takes_same M2 M m) with (x := x); [|intros y; rewrite (Ht2 y), (Ht y); reflexivity|exact Hx].
           apply (ok_nd _ _ _ (og_ok _ _ _ HG1)). rewrite Ed. apply in_or_app. right. left. reflexivity.
      * destruct (new_var_free pureC s 0 o items G E0 Hl) as (s1 & o1 & m & Eq & S & Ed & Ee & Hk & H2). rewrite Eq in HE; cbn [rbind] in HE.
        destruct (ogood_new tr s o (ONew items false) (decisions s) s1 o1 m HG S Ed Ee) as [En HG1]. rewrite En in HE. assert (s1 = s' /\ r = OX (length (odom o)) m) as [-> ->] by (split; congruence).
        exists o1. split; [exact HG1|]. split.
        -- intros M HS. split; [apply (os_mono _ _ _ _ _ _ S), HS|exact I].
        -- intros _ _ _ M M1 HM0 _ HM1 HS. cbn [oe_call oe_decs oe_ret] in *.
           assert (Hnd : NoDup (map fst m)) by (apply (ok_nd _ _ _ (og_ok _ _ _ HG1)); rewrite Ed; apply in_or_app; right; left; reflexivity).
           destruct (H2 M1 (fun x => match alook x m with Some l => mlit M l | None => false end) HS) as (M2 & Ag & HS2 & Ht2). exists M2. split; [|exact HS2].
           intros w Hi. apply vis_cons in Hi as [Hi|Hi]; [rewrite <- (Ag w (Hv w Hi)); apply HM1, Hi|]. cbn [ret_vars] in Hi. apply in_map_iff in Hi as ([x l] & <- & Hx).
           apply (takes_same M2 M m) with (x := x); [exact Hnd| |exact Hx]. intros y. rewrite Ht2, (takes_look M m y Hnd). destruct (alook y m) as [k|] eqn:Ek.
           ++ split; [intros [_ K]; eauto|]. intros (k' & Ek' & K). split; [apply Hk; apply alook_in, (in_map fst) in Ek; exact Ek|congruence].
           ++ split; [intros [_ K]; discriminate K|]. intros (k' & Ek' & _). discriminate Ek'.
  - (* new_var(lits, vals) *)
    destruct HL as (Hne & Hlen & Hsc). destruct (new_var_lits_ok pureC s 0 o ls vals G E0 Hne Hlen Hsc) as (s1 & o1 & m & Eq & S & Ed & Ee & Hm & HM). rewrite Eq in HE; cbn [rbind] in HE.
    destruct (ogood_new tr s o (OLits ls vals) (decisions s) s1 o1 m HG S Ed Ee) as [En HG1]. rewrite En in HE. assert (s1 = s' /\ r = OX (length (odom o)) m) as [-> ->] by (split; congruence).
    exists o1. split; [exact HG1|]. split.
    + intros M HS. split; [apply HM, HS|exact I].
    + intros _ Hc _ M M1 HM0 _ HM1 HS. cbn [oe_call oe_decs oe_ret call_lits] in *. exists M1. split; [|apply HM, HS]. intros w Hi. apply vis_cons in Hi as [Hi|Hi]; [apply HM1, Hi|].
      cbn [ret_vars] in Hi. apply in_map_iff in Hi as ([x l] & <- & Hx). cbn. apply HM1, Hc. apply Hm in Hx as (n & _ & Hx & _). apply nth_error_In in Hx. exact Hx.
  - (* new_eq *)
    destruct HL as (Hd & o2 & Et2 & Hl & Hk). assert (o2 = o) by congruence. subst o2. destruct (dom_len tr s o l HG Hl) as (dl & El). destruct (dom_len tr s o k HG Hk) as (dr & Er).
    pose proof (OvEq.new_eq_ok pureC om oi Hom Hoi s 0 o l k dl dr G E0 HO Hd El Er) as H. destruct (ov_new_eq om oi s 0 l k) as [[s1 p]| |]; cbn [rbind] in HE; try discriminate HE.
    assert (s1 = s' /\ r = OP p) as [-> ->] by (split; congruence). destruct H as (o1 & [S Q1 Q2 Q3 Q4 Q5] & _).
    exists o1. split; [|split].
    + constructor.
      * apply S.
      * apply (ostep_one s s' o o1 Et S).
      * apply S, HO.
      * intros v Hi. apply vis_cons in Hi as [Hi|[<-|[]]]; [specialize (Hv v Hi); pose proof (os_nv _ _ _ _ _ _ S); lia|exact Q2].
      * intros x. cbn [dom_of oe_ret]. rewrite Q1. apply Hdm.
      * intros q' q Hq. apply vis_cons. destruct (Q4 _ _ Hq) as [Hq'| ->]; [left; apply (Hex _ _ Hq')|right; left; reflexivity].
    + intros M HS. apply Q5 in HS as [HS He]. split; [exact HS|]. cbn [osaid]. intros da db Ha Hb. rewrite Hdm in Ha, Hb. assert (da = dl) by congruence. assert (db = dr) by congruence. subst da db. exact He.
    + intros _ _ _ M M1 HM0 Hs HM1 HS. cbn [oe_call oe_decs oe_ret osaid] in *. assert (He : eq_means M p dl dr) by (apply Hs; rewrite Hdm; assumption).
      destruct Q3 as [(-> & -> & Hp)|Hp].
      * exists M1. split; [|exact HS]. intros v Hi. apply vis_cons in Hi as [Hi|[<-|[]]]; [apply HM1, Hi|]. destruct Hp as [->|(k' & Hk')]; apply HM1; [left; reflexivity|apply (Hex _ _ Hk')].
      * set (M2 := upd M1 (nv s) (M (nv s))). assert (Ag : agree (nv s) M1 M2) by (intros v Hw; unfold M2; rewrite upd_neq by lia; reflexivity).
        assert (Hd2 : forall x m j, nth_error (odom o) j = Some m -> takes M2 m x <-> takes M m x).
        { intros x m j Hj. assert (Hl2 : forall y q, In (y, q) m -> mlit M2 q = mlit M q).
          { intros y q Hq. assert (Hvq : In (lvar q) (vis tr)) by (apply (dom_vis tr j m y q); [rewrite Hdm; exact Hj|exact Hq]). unfold mlit. rewrite <- (Ag _ (Hv _ Hvq)), (HM1 _ Hvq). reflexivity. }
          split; intros (q & Hq & Eq); exists q; (split; [exact Hq|]); [rewrite <- (Hl2 x q Hq)|rewrite (Hl2 x q Hq)]; exact Eq. }
        exists M2. split.
        -- intros v Hi. apply vis_cons in Hi as [Hi|[<-|[]]]; [rewrite <- (Ag v (Hv v Hi)); apply HM1, Hi|]. rewrite Hp. apply upd_eq.
        -- apply Q5. split; [apply (smodels_agree OC s M1); [apply G|exact Ag|exact HS]|]. destruct He as [A B].
           assert (Ep : mlit M2 p = mlit M p) by (unfold mlit, M2; rewrite Hp, upd_eq; reflexivity). split; rewrite Ep.
           ++ intros K x. rewrite (Hd2 x dl l El), (Hd2 x dr k Er). apply A, K.
           ++ intros (x & K1 & K2). apply B. exists x. split; [apply (Hd2 x dl l El), K1|apply (Hd2 x dr k Er), K2].
Qed.

(** ** Histories *)
Lemma otrace_good tr s : OTrace tr s -> exists o, ogood tr s o.
Proof.
  induction 1 as [|fl tr s c s' r HT (o & IH) HL HE HA]; [exists ov_empty; apply oinit_good|]. destruct (ocstep_ok fl tr s s' o c r IH HL HE HA) as (o' & H & _). exists o'. exact H.
Qed.
(** The models of the network respect what the client has been told... *)
Theorem otold_all tr s : OTrace tr s -> forall M, smodels OC s M -> otold tr M.
Proof.
  induction 1 as [|fl tr s c s' r HT IH HL HE HA]; intros M HM; [apply oinit_good, HM|].
  destruct (otrace_good _ _ HT) as (o & G). destruct (ocstep_ok fl tr s s' o c r G HL HE HA) as (o' & _ & H & _). destruct (H M HM) as [H1 H2]. split; [apply IH, H1|exact H2].
Qed.
Lemma otold_false tr M : otold tr M -> M 0 = false.
Proof. induction tr as [|e tr IH]; cbn; [auto|]. intros [H _]. apply IH, H. Qed.
(** ... and conversely whatever respects it extends to a model (on the variables that the client knows). *)
Theorem otold_enough tr s : OTrace tr s -> omindful tr -> forall M, otold tr M -> exists M', (forall v, In v (vis tr) -> M' v = M v) /\ smodels OC s M'.
Proof.
  induction 1 as [|fl tr s c s' r HT IH HL HE HA]; intros Hm M Ht.
  - exists M. split; [reflexivity|]. apply oinit_good, Ht.
  - inversion Hm as [|? ? Hm' Hx Hc Hds]; subst. destruct Ht as [Ht Hs]. destruct (IH Hm' M Ht) as (M1 & A1 & S1).
    destruct (otrace_good _ _ HT) as (o & G). destruct (ocstep_ok fl tr s s' o c r G HL HE HA) as (o' & _ & _ & H). apply (H Hx Hc Hds M M1); auto. apply (otold_false tr M Ht).
Qed.
Theorem osolve_false tr s fl s' : OTrace tr s -> omindful tr -> propagate oops fl s = Ok (s', false) -> forall M, ~ otold tr M.
Proof.
  intros HT Hm E M HM. destruct (otrace_good _ _ HT) as (o & [G _ _ _ _ _]). destruct (otold_enough tr s HT Hm M HM) as (M' & _ & HS).
  pose proof (propagate_ok OC (dlevel s) fl s (g_inv _ _ G) (le_n _)) as H. rewrite E in H. destruct (pp_false _ _ _ _ H eq_refl) as [_ Hu _]. apply (Hu M'), (pp_models _ _ _ _ H), HS.
Qed.
Theorem osolve_clause tr s ls s' : OTrace tr s -> omindful tr -> olegal s (OSat (CClause ls)) -> (forall p, In p ls -> In (lvar p) (vis tr)) -> new_clause s ls = Ok (s', false) -> forall M, otold tr M -> ~ mcl M ls.
Proof.
  intros HT Hm [Hd Hs] Hv E M HM Hc. destruct (otrace_good _ _ HT) as (o & [G _ _ _ _ _]). destruct (otold_enough tr s HT Hm M HM) as (M' & A & HS).
  destruct (new_clause_ok OC s ls (g_inv _ _ G) Hd Hs) as (s1 & b & E1 & P). rewrite E in E1. injection E1 as <- <-. destruct (cp_false _ _ _ _ _ P eq_refl) as [_ Hu]. apply (Hu M' HS), (mcl_vis M M' (vis tr) ls A Hv Hc).
Qed.
Theorem osolve_total tr s fl s' : OTrace tr s -> propagate oops fl s = Ok (s', true) -> total s' -> otold tr (values s').
Proof.
  intros HT E Ht. destruct (otrace_good _ _ HT) as (o & [G Et _ _ _ _]).
  pose proof (propagate_ok OC (dlevel s) fl s (g_inv _ _ G) (le_n _)) as H. rewrite E in H. destruct (pp_true _ _ _ _ H eq_refl) as (HI & Hq & _).
  apply (otold_all tr s HT), (pp_models _ _ _ _ H). constructor.
  - unfold values. rewrite (t_a0 _ (i_t _ _ HI)). reflexivity.
  - apply (total_cls OC s' HI Hq Ht).
  - intros p Hp _. apply values_lit; congruence.
  - intros [t|[]] _. exact I.
Qed.
(** ** value() *)
Lemma value_in (s : ost) o v m : nth_error (odom o) v = Some m -> exists vals, ov_value om s o v = Some vals /\ forall x, In x vals <-> exists l, In (x, l) m /\ value s l <> LFalse.
Proof.
  intros E. unfold ov_value. rewrite E. eexists. split; [reflexivity|]. intros x. rewrite in_map_iff. split.
  - intros ([y l] & <- & Hf). apply filter_In in Hf as [Hi Hf]. apply (proj1 (om_in om Hom _ _)) in Hi. exists l. split; [exact Hi|]. intros K. cbn [snd] in Hf. unfold is_false in Hf. rewrite K in Hf. discriminate Hf.
  - intros (l & Hi & Hn). exists (x, l). split; [reflexivity|]. apply filter_In. split; [apply (om_in om Hom), Hi|]. cbn [snd]. unfold is_false. destruct (value s l); [case Hn|..]; reflexivity.
Qed.
(** A value that some solution takes, under the current decisions, is in the domain. *)
Theorem value_sound tr s o v m M x vals : OTrace tr s -> omindful tr -> theories s = [inl o] -> dom_of tr v = Some m -> otold tr M ->
  (forall d, In d (decisions s) -> In (lvar d) (vis tr) /\ mlit M d = true) -> takes M m x -> ov_value om s o v = Some vals -> In x vals.
Proof.
  intros HT Hm Et Em HM Hd (l & Hl & El) Ev. destruct (otrace_good _ _ HT) as (o' & [G Et' HO Hv Hdm Hex]). assert (o' = o) by congruence. subst o'. destruct (otold_enough tr s HT Hm M HM) as (M' & A & HS).
  assert (E0 : nth_error (odom o) v = Some m) by (rewrite <- Hdm; exact Em). destruct (value_in s o v m E0) as (vals' & Ev' & Hin). assert (vals' = vals) by congruence. subst vals'. apply Hin. exists l. split; [exact Hl|].
  intros Hf. assert (Hn : value s (negl l) = LTrue) by (rewrite value_negl, Hf; reflexivity).
  assert (K : mlit M' (negl l) = true).
  { apply (implied OC s (i_t _ _ (g_inv _ _ G)) (i_r _ _ (g_inv _ _ G)) M' HS _ Hn). intros k d Hk _. apply nth_error_In in Hk. destruct (Hd d Hk) as [D1 D2]. rewrite (mlit_vis M M' (vis tr) d A D1). exact D2. }
  rewrite mlit_negl in K. rewrite (mlit_vis M M' (vis tr) l A) in K by (apply (dom_vis tr v m x l Em Hl)). rewrite El in K. discriminate K.
Qed.
(** Once everything is assigned, the domain of a variable is the set of the values it takes. *)
Theorem value_total tr s o v m vals : OTrace tr s -> theories s = [inl o] -> dom_of tr v = Some m -> total s -> ov_value om s o v = Some vals ->
  forall x, In x vals <-> takes (values s) m x.
Proof.
  intros HT Et Em Ht Ev x. destruct (otrace_good _ _ HT) as (o' & [G Et' HO Hv Hdm Hex]). assert (o' = o) by congruence. subst o'.
  assert (E0 : nth_error (odom o) v = Some m) by (rewrite <- Hdm; exact Em). destruct (value_in s o v m E0) as (vals' & Ev' & Hin). assert (vals' = vals) by congruence. subst vals'. rewrite Hin.
  assert (Hu : forall l, In (x, l) m -> value s l <> LUndef).
  { intros l Hl K. apply (Ht (lvar l)); [apply (ok_rng _ _ _ HO m x l (nth_error_In _ _ E0) Hl)|]. apply value_undef, K. }
  split; intros (l & Hl & E); exists l; (split; [exact Hl|]).
  - apply values_lit; [apply Hu, Hl|]. specialize (Hu l Hl). destruct (value s l); [case E; reflexivity|reflexivity|case Hu; reflexivity].
  - apply values_lit in E; [congruence|apply Hu, Hl].
Qed.
(** allows(): the literal of a value of the domain; FALSE_lit for the other values. *)
Theorem allows_spec tr s o v m x : OTrace tr s -> theories s = [inl o] -> dom_of tr v = Some m ->
  exists l, ov_allows o v x = Some l /\ (In (x, l) m \/ (~ In x (map fst m) /\ l = FALSE_lit)) /\ forall M, M 0 = false -> (mlit M l = true <-> takes M m x).
Proof.
  intros HT Et Em. destruct (otrace_good _ _ HT) as (o' & [G Et' HO Hv Hdm Hex]). assert (o' = o) by congruence. subst o'.
  assert (E0 : nth_error (odom o) v = Some m) by (rewrite <- Hdm; exact Em). unfold ov_allows. rewrite E0. pose proof (ok_nd _ _ _ HO m (nth_error_In _ _ E0)) as Hn.
  destruct (alook x m) as [l|] eqn:El.
  - exists l. split; [reflexivity|]. split; [left; apply alook_in, El|]. intros M _. rewrite (takes_look M m x Hn). split; [eauto|]. intros (l' & E & K). congruence.
  - exists FALSE_lit. split; [reflexivity|]. split; [right; split; [apply alook_none, El|reflexivity]|]. intros M HM0. rewrite (takes_look M m x Hn). split; [unfold mlit; cbn; rewrite HM0; discriminate|]. intros (l' & E & _). congruence.
Qed.
(** ** Which calls are answered. *)
Theorem ocall_answers tr s c fl : OTrace tr s -> olegal s c ->
  match c with
  | OSat c => fuel_bound s c < fl
  | ONew _ true => exists M, smodels OC s M
  | OEq a b => a <> b -> exists M da db, smodels OC s M /\ dom_of tr a = Some da /\ dom_of tr b = Some db /\ compat M da db
  | _ => True
  end -> exists s' r, ocstep fl s c = Ok (s', r).
Proof.
  intros HT HL HP. destruct (otrace_good _ _ HT) as (o & HG). pose proof HG as [G Et HO Hv Hdm Hex]. assert (E0 : nth_error (theories s) 0 = Some (inl o)) by (rewrite Et; reflexivity).
  destruct c as [c|items e|ls vals|l k]; cbn [ocstep olegal] in *.
  - pose proof (step_ok OC fl s c G HL) as H. destruct (step fl s c) as [[s' r]| |]; [cbn; eauto|destruct H|]. exfalso.
    assert (HTt : th_total OC).
    { split; [intros [t|[]] vs val p _; cbn; discriminate|intros [t|[]] vs val _; cbn; discriminate]. }
    specialize (H HTt). lia.
  - destruct HL as [Hne Hroot]. destruct items as [|x1 items']; [case Hne; reflexivity|]. destruct items' as [|x2 items'].
    + destruct (new_var_single pureC s 0 o x1 e G E0) as (s1 & o1 & m & Eq & _). rewrite Eq. cbn. eauto.
    + destruct e.
      * destruct (new_var_exact pureC s 0 o (x1 :: x2 :: items') G E0 ltac:(cbn; lia) (Hroot eq_refl) HP) as (s1 & o1 & m & Eq & _). rewrite Eq. cbn. eauto.
      * destruct (new_var_free pureC s 0 o (x1 :: x2 :: items') G E0 ltac:(cbn; lia)) as (s1 & o1 & m & Eq & _). rewrite Eq. cbn. eauto.
  - destruct HL as (Hne & Hlen & Hsc). destruct (new_var_lits_ok pureC s 0 o ls vals G E0 Hne Hlen Hsc) as (s1 & o1 & m & Eq & _). rewrite Eq. cbn. eauto.
  - destruct HL as (Hd & o2 & Et2 & Hl & Hk). assert (o2 = o) by congruence. subst o2. destruct (dom_len tr s o l HG Hl) as (dl & El). destruct (dom_len tr s o k HG Hk) as (dr & Er).
    pose proof (OvEq.new_eq_ok pureC om oi Hom Hoi s 0 o l k dl dr G E0 HO Hd El Er) as H. destruct (ov_new_eq om oi s 0 l k) as [[s1 p]| |]; [cbn; eauto| |destruct H].
    exfalso. destruct H as [Hn H]. destruct (HP Hn) as (M & da & db & HS & Ha & Hb & Hc). rewrite Hdm in Ha, Hb. assert (da = dl) by congruence. assert (db = dr) by congruence. subst da db. apply (H M HS Hc).
Qed.
End ORun.
End Srt.
