(** A network with linear real arithmetic, end to end: equalities, the meaning of a successful
    propagation, the meaning of a failed one. *)
From Verif Require Import Base Keys Sat SatSpec SatInv SatPop SatImp SatRec SatAn SatProp SatLoop SatMain SatApi SatApi2 SatNext SatSimp Reify Amo Run SatFacts.
From Verif Require Import Lin Qe Lra LraTab LraVal LraInv LraChk LraPro LraCon ThGrow LraNew LraCmp ThRel LraApi LraRun.
From Coq Require Import Lqa Qminmax.
Open Scope Q_scope.
Local Arguments Nat.ltb : simpl never.
Local Arguments Nat.eqb : simpl never.
Section Srt.
Context {sr : sorter}.

(** ** A successful propagation ends with a successful check of every theory. *)
Section Checked.
Context {T : Type} (ops : theory_ops T) (G : T -> Prop) (HG : forall t val t', th_check ops t val = Ok (t', None) -> G t').
Lemma check_all_good : forall n i (s s' : st T), th_check_all ops s n i = Ok (s', None) ->
  length (theories s') = length (theories s) /\ (forall j, (j < i)%nat -> nth_error (theories s') j = nth_error (theories s) j) /\
  forall j t, (i <= j < i + n)%nat -> nth_error (theories s') j = Some t -> G t.
Proof.
  induction n as [|n IH]; intros i s s' E; cbn [th_check_all] in E.
  - inversion E; subst. split; [reflexivity|]. split; [auto|]. intros j t Hj. lia.
  - destruct (nth_error (theories s) i) as [t|] eqn:Et.
    + destruct (th_check ops t (value s)) as [[t1 cf]| |] eqn:Ec; cbn [rbind] in E; try discriminate. destruct cf as [c|]; [discriminate|].
      destruct (IH (S i) _ _ E) as (A & B & D). cbn [theories set_theories] in *. assert (Hi : (i < length (theories s))%nat) by (apply nth_error_Some; congruence).
      split; [rewrite A; unfold set_nth; rewrite app_length, firstn_length; destruct (skipn i (theories s)) as [|u r] eqn:Es; pose proof (skipn_length i (theories s)) as HL; rewrite Es in HL; cbn in *; lia|].
      split; [intros j Hj; rewrite B by lia; rewrite nth_set_nth by exact Hi; destruct (Nat.eqb_spec j i); [lia|reflexivity]|].
      intros j u Hj Eu. destruct (Nat.eq_dec j i) as [->|Hn]; [|apply (D j u); [lia|exact Eu]]. rewrite B in Eu by lia. rewrite nth_set_nth in Eu by exact Hi. rewrite Nat.eqb_refl in Eu. inversion Eu; subst. eapply HG, Ec.
    + inversion E; subst. split; [reflexivity|]. split; [auto|]. intros j t Hj Ej. apply nth_error_None in Et. assert (j < length (theories s'))%nat by (apply nth_error_Some; congruence). lia.
Qed.
Lemma propagate_checked : forall fl (s s' : st T), propagate ops fl s = Ok (s', true) -> forall t, In t (theories s') -> G t.
Proof.
  induction fl as [|f IH]; intros s s' E; cbn [propagate] in E; [discriminate|]. destruct (prop_q s) as [|p q].
  - destruct (th_check_all ops s _ 0) as [[s1 o]| |] eqn:Ec; cbn [rbind] in E; try discriminate. destruct o as [c|].
    + destruct (root_level s1); [discriminate|]. destruct (theory_resolve ops s1 c) as [s2| |]; cbn [rbind] in E; try discriminate. apply (IH _ _ E).
    + inversion E; subst. destruct (check_all_good _ _ _ _ Ec) as (A & _ & D). intros t Ht. apply In_nth_error in Ht as (j & Ej). apply (D j t); [|exact Ej].
      assert (j < length (theories s'))%nat by (apply nth_error_Some; congruence). lia.
  - destruct (prop_clauses _ p _) as [[s2 cf]| |]; cbn [rbind] in *; try discriminate. destruct cf as [c|].
    + destruct (root_level (set_prop_q [] s2)); [discriminate|]. destruct (resolve ops _ _) as [s4| |]; cbn [rbind] in *; try discriminate. apply (IH _ _ E).
    + destruct (th_prop_all ops s2 _ p) as [[s3 tcf]| |]; cbn [rbind] in *; try discriminate. destruct tcf as [c|].
      * destruct (root_level (set_prop_q [] s3)); [discriminate|]. destruct (theory_resolve ops _ _) as [s4| |]; cbn [rbind] in *; try discriminate. apply (IH _ _ E).
      * apply (IH _ _ E).
Qed.
End Checked.

(** ** Small values for the infinitesimal. *)
Definition at_eps (d : Q) (q : qe) : Q := fst q + d * snd q.
Lemma one_eps s b q : inb s b q -> bsgn s b -> exists d0, 0 < d0 /\ forall d, 0 < d -> d <= d0 -> bhold s b (at_eps d q).
Proof.
  destruct b as [[r e]|]; [|intros _ _; exists 1; split; [lra|intros; exact I]]. destruct q as [a k]. unfold at_eps; cbn. intros H Hs.
  assert (Hex : exists d0, 0 < d0 /\ forall d, 0 < d -> d <= d0 -> match s with Lo => r < a -> r < a + d * k | Up => a < r -> a + d * k < r end).
  { destruct s.
    - destruct (Qlt_le_dec r a) as [Hra|Hra]; [|exists 1; split; [lra|intros; lra]]. destruct (Qlt_le_dec k 0) as [Hk|Hk].
      + exists ((a - r) / (2 * - k)). assert (Hd : 0 < (a - r) / (2 * - k)) by (apply Qlt_shift_div_l; lra). split; [exact Hd|]. intros d Hp Hle _.
        assert (d * (2 * - k) <= a - r) by (apply (Qle_trans _ ((a - r) / (2 * - k) * (2 * - k))); [apply Qmult_le_compat_r; lra|]; assert ((a - r) / (2 * - k) * (2 * - k) == a - r) as -> by (field; lra); lra). lra.
      + exists 1. split; [lra|]. intros d Hp _ _. assert (0 <= d * k) by (apply Qmult_le_0_compat; lra). lra.
    - destruct (Qlt_le_dec a r) as [Hra|Hra]; [|exists 1; split; [lra|intros; lra]]. destruct (Qlt_le_dec 0 k) as [Hk|Hk].
      + exists ((r - a) / (2 * k)). assert (Hd : 0 < (r - a) / (2 * k)) by (apply Qlt_shift_div_l; lra). split; [exact Hd|]. intros d Hp Hle _.
        assert (d * (2 * k) <= r - a) by (apply (Qle_trans _ ((r - a) / (2 * k) * (2 * k))); [apply Qmult_le_compat_r; lra|]; assert ((r - a) / (2 * k) * (2 * k) == r - a) as -> by (field; lra); lra). lra.
      + exists 1. split; [lra|]. intros d Hp _ _. assert (0 <= d * - k) by (apply Qmult_le_0_compat; lra). lra. }
  destruct Hex as (d0 & H0 & H1). exists d0. split; [exact H0|]. intros d Hd Hle. specialize (H1 d Hd Hle). unfold inb, sleP, qle in H. cbn in H. destruct s.
  - destruct H as [H|[H H']]; [specialize (H1 H); split; lra|]. assert (d * e <= d * k) by (apply mul_pos_le; assumption). assert (0 <= d * e) by (apply Qmult_le_0_compat; lra).
    split; [lra|]. intros He. assert (0 < d * e) by (apply Qmult_lt_0_compat; assumption). lra.
  - destruct H as [H|[H H']]; [specialize (H1 H); split; lra|]. assert (d * k <= d * e) by (apply mul_pos_le; assumption). assert (0 <= d * - e) by (apply Qmult_le_0_compat; lra).
    split; [lra|]. intros He. assert (0 < d * - e) by (apply Qmult_lt_0_compat; lra). lra.
Qed.
Lemma small_eps : forall bs : list (side * bnd * qe), (forall s b q, In (s, b, q) bs -> inb s b q /\ bsgn s b) ->
  exists d0, 0 < d0 /\ forall d, 0 < d -> d <= d0 -> forall s b q, In (s, b, q) bs -> bhold s b (at_eps d q).
Proof.
  induction bs as [|[[s b] q] bs IH]; intros H; [exists 1; split; [lra|intros d _ _ s b q []]|].
  destruct IH as (d1 & P1 & H1); [intros s' b' q' Hi; apply H; right; exact Hi|]. destruct (H s b q (or_introl eq_refl)) as [A B]. destruct (one_eps s b q A B) as (d2 & P2 & H2).
  exists (Qmin d1 d2). split; [apply Q.min_glb_lt; assumption|]. intros d Hd Hle s' b' q' [E|Hi].
  - inversion E; subst. apply H2; [exact Hd|]. eapply Qle_trans; [exact Hle|apply Q.le_min_r].
  - apply H1; [exact Hd| |exact Hi]. eapply Qle_trans; [exact Hle|apply Q.le_min_l].
Qed.
(** The order of the extended values is the order for all small values of the infinitesimal. *)
Lemma eps_le a b d0 : 0 < d0 -> (forall d, 0 < d -> d <= d0 -> at_eps d a <= at_eps d b) -> qle a b.
Proof.
  destruct a as [a k], b as [b h]. unfold at_eps, qle; cbn. intros Hd H. destruct (Qlt_le_dec a b) as [|Hba]; [left; assumption|right].
  assert (E : a == b).
  { destruct (Qeq_dec a b) as [|Hn]; [assumption|]. exfalso. assert (Hlt : b < a) by lra.
    destruct (one_eps Lo (Some (b, 1)) (a, k - h)) as (d2 & Pd2 & H3); [cbn; unfold qle; cbn; lra|cbn; lra|].
    assert (P : 0 < Qmin d0 d2) by (apply Q.min_glb_lt; assumption). specialize (H3 _ P (Q.le_min_r _ _)). specialize (H _ P (Q.le_min_l _ _)). destruct H3 as [_ H3]. unfold at_eps in H3. cbn in H3. lra. }
  split; [exact E|]. specialize (H d0 Hd (Qle_refl _)). destruct (Qlt_le_dec h k) as [Hk|]; [|assumption]. assert (d0 * h < d0 * k) by (apply mul_pos; assumption). lra.
Qed.
Lemma eps_lt a b d0 : 0 < d0 -> (forall d, 0 < d -> d <= d0 -> at_eps d a < at_eps d b) -> qlt a b.
Proof.
  intros Hd H. assert (Hle : qle a b) by (apply (eps_le a b d0 Hd); intros d H1 H2; apply Qlt_le_weak, H; assumption).
  destruct a as [a k], b as [b h]. unfold at_eps, qle, qlt in *; cbn in *. specialize (H d0 Hd (Qle_refl _)). destruct Hle as [|[E Hk]]; [left; assumption|]. right. split; [exact E|].
  destruct (Qlt_le_dec k h) as [|Hn]; [assumption|]. assert (d0 * h <= d0 * k) by (apply mul_pos_le; assumption). lra.
Qed.

(** ** The values after a successful check. *)
Lemma tsol_eps tb vs d : vsol tb vs -> tsol tb (fun x => at_eps d (vs x)).
Proof.
  intros [A B] x l Hi. specialize (A x l Hi). specialize (B x l Hi). unfold at_eps. unfold rat in A at 1. unfold eps in B at 1. rewrite A, B. unfold lval, lvalk.
  assert (E : forall m, msum (fun u => fst (vs u) + d * snd (vs u)) m == msum (rat vs) m + d * msum (eps vs) m).
  { induction m as [|[v c] m IH]; cbn [msum]; [ring|]. rewrite IH. unfold rat, eps. ring. }
  rewrite E. ring.
Qed.
Lemma vals_real t vs : TInv t vs -> within (cb t) (vals t) -> exists d0, 0 < d0 /\ forall d, 0 < d -> d <= d0 ->
  tsol (tab t) (fun x => at_eps d (vals t x)) /\ forall s x, bhold s (bound t s x) (at_eps d (vals t x)).
Proof.
  intros HI HW. destruct (small_eps (flat_map (fun x => [(Lo, bound t Lo x, vals t x); (Up, bound t Up x, vals t x)]) (seq 0 (nx t)))) as (d0 & P & H).
  - intros s b q Hi. apply in_flat_map in Hi as (x & _ & Hi). destruct Hi as [E|[E|[]]]; inversion E; subst; (split; [apply HW|apply (b_sgn _ _ _ (ti_b _ _ HI))]).
  - exists d0. split; [exact P|]. intros d Hd Hle. split; [apply tsol_eps; apply HI|].
    intros s x. destruct (le_lt_dec (nx t) x) as [Hx|Hx].
    + unfold bound. rewrite (b_out _ _ _ (ti_b _ _ HI) s x Hx). exact I.
    + apply (H d Hd Hle). apply in_flat_map. exists x. split; [apply in_seq; lia|]. destruct s; [left; reflexivity|right; left; reflexivity].
Qed.
Lemma LS_unwind t : forall Ls vs f, LS t f Ls vs -> tighter (unwind Ls f) f.
Proof.
  induction Ls as [|L Ls IH]; intros [|v vs] f H; cbn in *; try contradiction; [apply tighter_refl|]. destruct vs as [|w vs]; [contradiction|]. destruct H as (_ & _ & _ & H & _ & K).
  intros s x. eapply bsle_trans; [apply (IH _ _ K)|apply H].
Qed.
Lemma real_rsat t vs y : TInv t vs -> tsol (tab t) y -> (forall s x, bhold s (bound t s x) (y x)) -> rsat t y.
Proof. intros HI A B. split; [exact A|]. intros s x. eapply bhold_weak; [apply (LS_unwind t _ _ _ (ti_ls _ _ HI))|apply B]. Qed.

Section End.
Context (ord : nat -> list nat -> list nat) (Hord : forall k l, Permutation l (ord k l)) (fuel : lra -> nat).
Notation C := (lraT ord Hord fuel).
Notation ops := (lra_ops ord fuel).
Notation st := (st lra).
Notation nsol := (nsol ord Hord fuel).
Notation LTrace := (LTrace ord Hord fuel).

Lemma check_within : forall n t t', lra_check n t = Ok (t', None) -> forall s x, gfind x (tab t') <> None -> inb s (bound t' s x) (vals t' x).
Proof.
  induction n as [|n IH]; intros t t' E; cbn [lra_check] in E; [discriminate|]. destruct (find (fun e => viol t Lo (fst e) || viol t Up (fst e)) (tab t)) as [[xi l]|] eqn:Ef.
  - destruct (fix_row t _ xi l) as [[t1 cf]| |]; cbn [rbind] in E; try discriminate. destruct cf; [discriminate|]. apply (IH _ _ E).
  - inversion E; subst. intros s x Hx. destruct (gfind x (tab t')) as [l|] eqn:Ex; [|congruence]. apply gfind_in in Ex. pose proof (find_none_all _ _ Ef (x, l) Ex) as Hv. cbn [fst] in Hv. apply orb_false_iff in Hv as [H1 H2].
    assert (Hv : viol t' s x = false) by (destruct s; assumption). unfold viol in Hv. destruct (bound t' s x) as [b|]; [|exact I]. apply negb_false_iff, sle_iff in Hv. exact Hv.
Qed.
Lemma propagate_within fl (s s' : st) : propagate ops fl s = Ok (s', true) -> forall t vs, In t (theories s') -> TInv t vs -> within (cb t) (vals t).
Proof.
  intros E t vs Ht HI s0 x. destruct (gfind x (tab t)) eqn:Ex; [|apply (ti_nb _ _ HI), Ex].
  apply (propagate_checked ops (fun t => forall s x, gfind x (tab t) <> None -> inb s (bound t s x) (vals t x))) with (fl := fl) (s := s) (s' := s'); auto; [|congruence].
  intros u val u' Eu. cbn [th_check lra_ops] in Eu. apply (check_within _ _ _ Eu).
Qed.

(** In a quiet state whose last check has succeeded, the values satisfy what is asserted. *)
Lemma asserted_hold (s : st) i t y p sd x b : good C s -> prop_q s = [] -> nth_error (theories s) i = Some t -> (forall s x, bhold s (bound t s x) (y x)) ->
  lmean t p = Some (sd, x, b) -> value s p = LTrue -> bhold sd (Some b) (y x).
Proof.
  intros G Hq Et HB Hm Hp. destruct (h_views _ _ _ _ (i_h _ _ (g_inv _ _ G)) i t Et) as (vs & [HI _] & B & D & F).
  assert (Ha : th_atom C t (lvar p)) by (cbn [th_atom lraT lraC mk_strict]; apply atoms_find; unfold lmean in Hm; destruct (gfind (lvar p) (v_asrts t)); congruence).
  destruct (F p Ha Hp) as [Hx|(j & v & Ej & Hv & _)]; [rewrite Hq in Hx; destruct Hx|].
  destruct (b_lit _ _ _ (ti_b _ _ HI) p) as (s1 & x1 & b1 & A1 & A2); [apply in_concat; exists v; split; [eapply nth_error_In, Ej|exact Hv]|].
  rewrite Hm in A1. inversion A1; subst. eapply bhold_weak; [exact A2|apply HB].
Qed.
Lemma answer_hold (s : st) i t y p A : good C s -> prop_q s = [] -> nth_error (theories s) i = Some t -> (forall s x, bhold s (bound t s x) (y x)) ->
  answers t p y A -> (value s p = LTrue -> A) /\ (value s p = LFalse -> ~ A).
Proof.
  intros G Hq Et HB HA. pose proof (t_a0 _ (i_t _ _ (g_inv _ _ G))) as H0. destruct (h_views _ _ _ _ (i_h _ _ (g_inv _ _ G)) i t Et) as (vs & [HI _] & _).
  destruct HA as [[-> Hx]|[[-> Hx]|(a & Ha & Ep & Hx)]].
  - split; [auto|]. unfold value, vlit. cbn. rewrite H0. discriminate.
  - split; [|auto]. unfold value, vlit. cbn. rewrite H0. discriminate.
  - destruct (ti_atom _ _ HI _ _ Ha) as (E1 & E2 & E3 & E4). assert (Hl : lsgn p = true) by (rewrite Ep, E1; reflexivity).
    assert (Hf : gfind (lvar p) (v_asrts t) = Some a) by (apply gfind_nodup; [apply HI|exact Ha]).
    split; intros Hp.
    + apply Hx. unfold ahold. apply (asserted_hold s i t y p _ _ _ G Hq Et HB); [|exact Hp]. unfold lmean. rewrite Hf, Hl. reflexivity.
    + rewrite <- Hx. unfold ahold. apply (neg_hold a (y (a_x a)) E4). apply (asserted_hold s i t y (negl p) _ _ _ G Hq Et HB).
      * unfold lmean. cbn [lvar lsgn negl]. rewrite Hf, Hl. reflexivity.
      * rewrite value_negl, Hp. reflexivity.
Qed.

(** What the answers of the theory amount to, all along a history. *)
Lemma answered tr s : LTrace tr s -> forall t, theories s = [t] -> forall y, rsat t y -> forall e, In e tr ->
  match lev_call e, lev_ret e with
  | LSlack l, LX x => y x == lval y l
  | LCmp sd strict l r, LP p => answers t p y (cmpP sd strict (lval y l) (lval y r))
  | _, _ => True
  end.
Proof.
  induction 1 as [|fl tr s c s' r HT IH HL HE HA]; intros t' Et' y Hy e He; [destruct He|].
  destruct (ltrace_good _ _ _ _ _ HT) as [G (t & Et)]. destruct (lstep_ok ord Hord fuel fl s s' c r (ltrace_good _ _ _ _ _ HT) HL HE HA) as (_ & _ & H & _). destruct (H t t' Et Et') as [Gw K].
  destruct He as [<-|He]; cbn [lev_call lev_ret].
  - destruct c as [c| |l|sd strict l k], r as [r|x|p]; auto. apply K, Hy.
  - specialize (IH t Et y (gw_rsat _ _ Gw y Hy) e He). destruct (lev_call e) as [c0| |l|sd strict l k], (lev_ret e) as [r0|x|p]; auto. eapply answers_grows; eassumption.
Qed.

Lemma propagate_good fl (s s' : st) : lgood ord Hord fuel s -> propagate ops fl s = Ok (s', true) ->
  lgood ord Hord fuel s' /\ prop_q s' = [] /\ exists t t', theories s = [t] /\ theories s' = [t'] /\ grows t t'.
Proof.
  intros [G (t & Et)] E.
  assert (ES : step (ops := ops) fl s CPropagate = Ok (s', RBool true)) by (cbn [step]; rewrite E; reflexivity).
  assert (EA : alive C s' (RBool true)) by (intros D; discriminate).
  destruct (sat_step ord Hord fuel fl s s' t CPropagate (RBool true) G Et I ES EA) as (G' & _ & t' & Et' & La & _ & _).
  split; [constructor; eauto|]. split; [|exists t, t'; split; [exact Et|split; [exact Et'|apply later_grows, La]]].
  pose proof (propagate_ok C (dlevel s) fl s (g_inv _ _ G) (le_n _)) as H. rewrite E in H. apply (pp_true _ _ _ _ H eq_refl).
Qed.

(** A successful propagation: the values of the theory (for all small values of the infinitesimal)
    satisfy every definition and every constraint whose literal is true, and the opposite of every
    constraint whose literal is false. *)
Theorem propagate_true tr s fl s' : LTrace tr s -> propagate ops fl s = Ok (s', true) ->
  exists t, theories s' = [t] /\ exists d0, 0 < d0 /\ forall d, 0 < d -> d <= d0 -> let y x := at_eps d (vals t x) in
  forall e, In e tr ->
  match lev_call e, lev_ret e with
  | LSlack l, LX x => y x == lval y l
  | LCmp sd strict l r, LP p => (value s' p = LTrue -> cmpP sd strict (lval y l) (lval y r)) /\ (value s' p = LFalse -> ~ cmpP sd strict (lval y l) (lval y r))
  | _, _ => True
  end.
Proof.
  intros HT E. destruct (propagate_good fl s s' (ltrace_good _ _ _ _ _ HT) E) as ([G' _] & Hq & t & t' & Et & Et' & Gw).
  assert (Ei : nth_error (theories s') 0 = Some t') by (rewrite Et'; reflexivity).
  destruct (h_views _ _ _ _ (i_h _ _ (g_inv _ _ G')) 0%nat t' Ei) as (vs & [HI _] & _).
  assert (HW := propagate_within fl s s' E t' vs ltac:(rewrite Et'; left; reflexivity) HI).
  destruct (vals_real t' vs HI HW) as (d0 & P & H). exists t'. split; [exact Et'|]. exists d0. split; [exact P|]. intros d Hd Hle y. destruct (H d Hd Hle) as [A B]. intros e He.
  assert (HR : rsat t' y) by (apply (real_rsat t' vs); assumption). assert (K := answered tr s HT t Et y (gw_rsat _ _ Gw y HR) e He).
  destruct (lev_call e) as [c0| |l|sd strict l k], (lev_ret e) as [r0|x|p]; auto.
  apply (answer_hold s' 0 t' y p _ G' Hq Ei B). eapply answers_grows; eassumption.
Qed.

(** When moreover everything is assigned, the assignment and the values solve the network. *)
Theorem propagate_total tr s fl s' : LTrace tr s -> propagate ops fl s = Ok (s', true) -> total s' ->
  exists t, theories s' = [t] /\ exists d0, 0 < d0 /\ forall d, 0 < d -> d <= d0 -> nsol s' 0 (values s') (fun x => at_eps d (vals t x)) /\ told tr (values s') (fun x => at_eps d (vals t x)).
Proof.
  intros HT E Htot. destruct (propagate_good fl s s' (ltrace_good _ _ _ _ _ HT) E) as ([G' _] & Hq & t & t' & Et & Et' & Gw).
  assert (Ei : nth_error (theories s') 0 = Some t') by (rewrite Et'; reflexivity). pose proof (g_inv _ _ G') as HI'.
  destruct (h_views _ _ _ _ (i_h _ _ HI') 0%nat t' Ei) as (vs & [HI _] & Hvl & Hvt & _).
  assert (HW := propagate_within fl s s' E t' vs ltac:(rewrite Et'; left; reflexivity) HI).
  destruct (vals_real t' vs HI HW) as (d0 & P & H). exists t'. split; [exact Et'|]. exists d0. split; [exact P|]. intros d Hd Hle. destruct (H d Hd Hle) as [A B]. set (y := fun x => at_eps d (vals t' x)) in *.
  assert (HJ : joint t' (values s') y).
  { split; [exact A|]. split.
    - intros v a Ha. pose proof (h_range _ _ _ _ (i_h _ _ HI') 0%nat t' v Ei) as Hr. assert (Hv : (0 < v < nv s')%nat) by (apply Hr; cbn; unfold atoms; change v with (fst (v, a)); apply in_map, Ha).
      specialize (Htot v (proj2 Hv)). assert (An : answers t' (mk_lit v true) y (ahold y a)).
      { right; right. exists a. split; [exact Ha|]. split; [symmetry; apply (ti_atom _ _ HI _ _ Ha)|reflexivity]. }
      destruct (answer_hold s' 0 t' y (mk_lit v true) _ G' Hq Ei B An) as [K1 K2]. unfold value, vlit in K1, K2. cbn in K1, K2. unfold values. destruct (assigns s' v); [split; [discriminate|intros K; destruct (K2 eq_refl K)]|split; [intros _; apply K1; reflexivity|reflexivity]|congruence].
    - intros l Hl _. apply (ti_facts _ _ HI) in Hl. assert (Hv : exists j v, nth_error vs j = Some v /\ In l v).
      { destruct vs as [|w vs]; [destruct Hl|]. exists (length vs), (last (w :: vs) []). split; [|exact Hl]. clear. revert w. induction vs as [|u vs IH]; intros w; [reflexivity|]. cbn [length nth_error]. rewrite IH. reflexivity. }
      destruct Hv as (j & v & Ej & Hj). destruct (Hvt j v l Ej (or_introl I) Hj) as [Hv _]. apply values_lit; congruence. }
  assert (HN : nsol s' 0 (values s') y).
  { split; [|exists t'; auto]. constructor.
    - unfold values. rewrite (t_a0 _ (i_t _ _ HI')). reflexivity.
    - apply (total_cls C s' HI' Hq Htot).
    - intros p Hp _. apply values_lit; congruence.
    - intros u Hu. rewrite Et' in Hu. destruct Hu as [<-|[]]. exists y. split; [exact I|exact HJ]. }
  split; [exact HN|]. assert (ES : lstep ord fuel fl s (LSat CPropagate) = Ok (s', LR (RBool true))) by (cbn [lstep step]; rewrite E; reflexivity).
  assert (HT' : LTrace (mk_lev (LSat CPropagate) (decisions s) (LR (RBool true)) :: tr) s') by (eapply LT_step; [exact HT|exact I|exact ES|intros D; discriminate]).
  intros e He. apply (told_all _ _ _ _ _ HT' _ _ HN). right; exact He.
Qed.

(** A failed propagation: nothing respects what the client has been told. *)
Theorem propagate_false tr s fl s' : LTrace tr s -> mindful tr -> propagate ops fl s = Ok (s', false) -> forall M y, M 0%nat = false -> ~ told tr M y.
Proof.
  intros HT HM E M y H0 Ht. destruct (told_enough ord Hord fuel tr s HT HM M y H0 Ht) as (y' & _ & HN & _).
  pose proof (propagate_ok C (dlevel s) fl s (g_inv _ _ (lg_good _ _ _ _ (ltrace_good _ _ _ _ _ HT))) (le_n _)) as H. rewrite E in H.
  destruct (pp_false _ _ _ _ H eq_refl) as [_ Hu _]. apply (Hu M), (pp_models _ _ _ _ H), HN.
Qed.
(** Everything the network has learned follows from what the client has been told. *)
Theorem learned_valid tr s : LTrace tr s -> mindful tr -> forall M y, M 0%nat = false -> told tr M y ->
  (forall c, In c (constrs s) -> mcl M (cls s c)) /\ forall q, value s q = LTrue -> (forall k d, nth_error (decisions s) k = Some d -> (dlevel s - k <= level s (lvar q))%nat -> mlit M d = true) -> mlit M q = true.
Proof.
  intros HT HM M y H0 Ht. destruct (told_enough ord Hord fuel tr s HT HM M y H0 Ht) as (y' & _ & HN & _). split; [apply HN|].
  intros q Hq Hd. apply (implied_all C s (lg_good _ _ _ _ (ltrace_good _ _ _ _ _ HT)) s M q (R_init _ _) HN Hq Hd).
Qed.
End End.
End Srt.
