(** Copies of theories (C65) and bounds set by a client (C66).  Nothing but statements, closed by lemmas, and concrete cases. *)
From Coq Require Import Lqa.
From Verif Require Import Base Keys Sat SatSpec SatInv SatPop SatMain SatApi SatNext Reify Amo Run SatFacts Exec.
From Verif Require Import Lin Qe Lra LraTab LraVal LraInv LraChk LraPro LraCon ThGrow LraNew LraCmp ThRel LraApi LraRun LraEnd LraEq LraTh LraExec LraFacts PropLra LraSet.
From Verif Require Import Dw Dl DlClo DlTight DlEdge DlTh DlFacts DlVal DlApi DlRoot DlNet DlSpec DlQ DlTrace DlRSpec Copy.
Open Scope nat_scope.
#[local] Existing Instance stable_sort | 100.

(** ** C65 *)
(** Whatever history a theory has, its copy gives the same answers: bounds and values of variables and expressions, whether two
    expressions can be equal, which expressions have a slack variable and which comparisons a literal; it watches the same
    assertions; and after any number of pops of both the bounds and values still agree. *)
Theorem C65_lra_answers_partial : forall ord (Hord : forall k l, Permutation l (ord k l)) t vs, TReach ord t vs ->
  let c := lra_copy t in
  nx c = nx t /\ (forall s x, cb c s x = cb t s x) /\ (forall x, vals c x = vals t x) /\ (forall s l, bound_lin c s l = bound_lin t s l) /\ (forall l, val_lin c l = val_lin t l) /\
  (forall l0 l1, matches c l0 l1 = matches t l0 l1) /\ (forall l, find_slack c l = find_slack t l) /\ (forall s x v, find_asrt c s x v = find_asrt t s x v) /\
  (forall x a, In a (aw c x) <-> In a (aw t x)) /\
  (forall n s x, cb (Nat.iter n lra_pop c) s x = cb (Nat.iter n lra_pop t) s x) /\ (forall n x, vals (Nat.iter n lra_pop c) x = vals (Nat.iter n lra_pop t) x).
Proof.
  intros ord Hord t vs H c. repeat (split; [solve [reflexivity|apply (copy_watches t vs (TReach_inv ord Hord t vs H))]|]).
  split; [intros n s x|intros n x]; destruct (copy_pops t n) as (A & _ & D & _); [exact (f_equal (fun f => f s x) A)|exact (f_equal (fun f => f x) D)].
Qed.
Print Assumptions C65_lra_answers_partial.
(** A copy of a difference logic theory is exactly the original, at any point of its history. *)
Theorem C65_idl_same_partial : forall t vs, DReach ZL t vs -> dl_copy t = Ok t.
Proof. intros t vs H. exact (dl_copy_same ZL t _ (DInv_core _ _ _ (reach_inv ZL t vs H))). Qed.
Print Assumptions C65_idl_same_partial.
Theorem C65_rdl_same_partial : forall t vs, DReach QL t vs -> dl_copy t = Ok t.
Proof. intros t vs H. exact (dl_copy_same QL t _ (DInv_core _ _ _ (reach_inv QL t vs H))). Qed.
Print Assumptions C65_rdl_same_partial.
Example C65_lra_case : TReach ord0 cx_sat [[b 4; b 2; b 1]] /\ aw (lra_copy cx_sat) 0 = aw cx_sat 0 /\ length (aw cx_sat 0) = 2 /\ tw cx_sat 0 <> [].
Proof. split; [exact cx_sat_reach|]. split; [vm_compute; reflexivity|]. split; [vm_compute; reflexivity|]. vm_compute. discriminate. Qed.

(** The copy does not enforce the constraints it was copied with.  b1: x0 >= 2; the theory is copied and b1 stated: it holds in the original; in the copy x0 is unbounded, although the copy
    still answers x0 >= 2 with b1. *)
Definition l65 : list lcall := [LVar; LCmp Lo false (X 0) (K 2); LSat CPropagate].
Definition lcop (s : st lra) : st lra := join s (lra_copy (lth s)).
Definition two_bounds (s : st lra) : option (bnd * bnd) := match theories s with [t; c] => Some (bound t Lo 0, bound c Lo 0) | _ => None end.
Theorem C65_lra_unbound_refuted : exists tr s s1 s2, LTrace ord0 Hord0 fuel0 tr s /\ step (ops := lops0) 100 (lcop s) (CClause [b 1]) = Ok (s1, RBool true) /\
  step (ops := lops0) 100 s1 CPropagate = Ok (s2, RBool true) /\ value s2 (b 1) = LTrue /\ two_bounds s2 = Some (Some (2%Q, 0%Q), None) /\
  lra_new_geq s2 1 (X 0) (K 2) = Ok (s2, b 1).
Proof.
  exists (levents l65), (lafter l65). eexists _, _. split; [apply lafter_trace; vm_compute; reflexivity|].
  split; [vm_compute; reflexivity|]. split; [vm_compute; reflexivity|]. split; [vm_compute; reflexivity|]. split; vm_compute; reflexivity.
Qed.
Print Assumptions C65_lra_unbound_refuted.
(** The copy of a theory with x2 = x0 + x1 loses the equation: x0 >= 3, x1 >= 3 and x0 + x1 <= 4, all three created by the copy, stated: propagation succeeds. *)
Definition l65r : list lcall := [LVar; LVar; LSlack (lin_add (X 0) (X 1)); LSat CPropagate].
Definition cstep (a : st lra * list ret) (c : call) : st lra * list ret := match step (ops := lops0) 100 (fst a) c with Ok (s', r) => (s', snd a ++ [r]) | _ => a end.
Definition made (r : res (st lra * lit)) (d : st lra) : st lra := match r with Ok (s, _) => s | _ => d end.
Theorem C65_lra_equation_refuted : exists tr s s1 s2 s3 s4 s5 s6 s7 p q r, LTrace ord0 Hord0 fuel0 tr s /\
  lra_new_geq (lcop s) 1 (X 0) (K 3) = Ok (s1, p) /\ lra_new_geq s1 1 (X 1) (K 3) = Ok (s2, q) /\ lra_new_leq s2 1 (lin_add (X 0) (X 1)) (K 4) = Ok (s3, r) /\
  step (ops := lops0) 100 s3 (CClause [p]) = Ok (s4, RBool true) /\ step (ops := lops0) 100 s4 (CClause [q]) = Ok (s5, RBool true) /\ step (ops := lops0) 100 s5 (CClause [r]) = Ok (s6, RBool true) /\
  step (ops := lops0) 100 s6 CPropagate = Ok (s7, RBool true) /\ map (value s7) [p; q; r] = [LTrue; LTrue; LTrue].
Proof.
  exists (levents l65r), (lafter l65r). eexists _, _, _, _, _, _, _, _, _, _. split; [apply lafter_trace; vm_compute; reflexivity|].
  split; [vm_compute; reflexivity|]. split; [vm_compute; reflexivity|]. split; [vm_compute; reflexivity|]. split; [vm_compute; reflexivity|]. split; [vm_compute; reflexivity|]. split; [vm_compute; reflexivity|]. split; [vm_compute; reflexivity|]. vm_compute; reflexivity.
Qed.
Print Assumptions C65_lra_equation_refuted.
(** b1: x2 - x1 <= 5; the theory is copied, b1 stated: the copy does not know. *)
Definition z65 : list dcall := [DVar; DVar; DDist 1 2 5%Z; DSat CPropagate].
Definition zcop (s : st (dl Z)) : st (dl Z) := match theories s with [t] => match dl_copy t with Ok c => join s c | _ => s end | _ => s end.
Definition two_dists (s : st (dl Z)) : option (option Z * option Z) := match theories s with [t; c] => Some (dists t 1 2, dists c 1 2) | _ => None end.
Theorem C65_idl_unbound_refuted : exists tr s s1 s2, ZTrace 2 tr s /\ step (ops := dl_ops Zw) 100 (zcop s) (CClause [b 1]) = Ok (s1, RBool true) /\
  step (ops := dl_ops Zw) 100 s1 CPropagate = Ok (s2, RBool true) /\ value s2 (b 1) = LTrue /\ two_dists s2 = Some (Some 5%Z, None).
Proof.
  destruct (zexec 2 z65) as [[s tr]|] eqn:E; [|assert (K : match zexec 2 z65 with Some _ => true | None => false end = true) by (vm_compute; reflexivity); rewrite E in K; discriminate].
  assert (K : match zexec 2 z65 with Some (s, tr) => match step (ops := dl_ops Zw) 100 (zcop s) (CClause [b 1]) with Ok (s1, RBool true) => match step (ops := dl_ops Zw) 100 s1 CPropagate with Ok (s2, RBool true) => value s2 (b 1) = LTrue /\ two_dists s2 = Some (Some 5%Z, None) | _ => False end | _ => False end | None => False end) by (vm_compute; auto).
  rewrite E in K. exists tr, s. destruct (step (ops := dl_ops Zw) 100 (zcop s) (CClause [b 1])) as [[s1 [n|[]|l|]]| |]; try contradiction. destruct (step (ops := dl_ops Zw) 100 s1 CPropagate) as [[s2 [n|[]|l|]]| |] eqn:E2; try contradiction.
  exists s1, s2. split; [exact (zexec_ok 2 z65 s tr E)|]. split; [reflexivity|]. split; [exact E2|]. exact K.
Qed.
Print Assumptions C65_idl_unbound_refuted.
Definition q65 : list dcall := [DVar; DVar; DDist 1 2 (5, 0)%Q; DSat CPropagate].
Definition qcop (s : st (dl qe)) : st (dl qe) := match theories s with [t] => match dl_copy t with Ok c => join s c | _ => s end | _ => s end.
Definition two_distsq (s : st (dl qe)) : option (option qe * option qe) := match theories s with [t; c] => Some (dists t 1 2, dists c 1 2) | _ => None end.
Theorem C65_rdl_unbound_refuted : exists tr s s1 s2, QTrace 2 tr s /\ step (ops := dl_ops Qw) 100 (qcop s) (CClause [b 1]) = Ok (s1, RBool true) /\
  step (ops := dl_ops Qw) 100 s1 CPropagate = Ok (s2, RBool true) /\ value s2 (b 1) = LTrue /\ two_distsq s2 = Some (Some (5, 0)%Q, None).
Proof.
  destruct (qexec 2 q65) as [[s tr]|] eqn:E; [|assert (K : match qexec 2 q65 with Some _ => true | None => false end = true) by (vm_compute; reflexivity); rewrite E in K; discriminate].
  assert (K : match qexec 2 q65 with Some (s, tr) => match step (ops := dl_ops Qw) 100 (qcop s) (CClause [b 1]) with Ok (s1, RBool true) => match step (ops := dl_ops Qw) 100 s1 CPropagate with Ok (s2, RBool true) => value s2 (b 1) = LTrue /\ two_distsq s2 = Some (Some (5, 0)%Q, None) | _ => False end | _ => False end | None => False end) by (vm_compute; auto).
  rewrite E in K. exists tr, s. destruct (step (ops := dl_ops Qw) 100 (qcop s) (CClause [b 1])) as [[s1 [n|[]|l|]]| |]; try contradiction. destruct (step (ops := dl_ops Qw) 100 s1 CPropagate) as [[s2 [n|[]|l|]]| |] eqn:E2; try contradiction.
  exists s1, s2. split; [exact (qexec_ok 2 q65 s tr E)|]. split; [reflexivity|]. split; [exact E2|]. exact K.
Qed.
Print Assumptions C65_rdl_unbound_refuted.

(** ** C66 *)
(** [set_bound ord t Lo x v p val] is set_lb(x, v, p), [Up] set_ub; [sle Lo a b] is a <= b, [sle Up a b] is a >= b; [SReach]: any history of the theory, bounds set by clients included;
    [val]: the values of the literals in the core.  The call returns; every other bound is unchanged; a bound weaker than the
    present one changes nothing; one that crosses the opposite bound changes nothing and reports the two reasons; any other becomes the bound. *)
Theorem C66_set_bound : forall ord (Hord : forall k l, Permutation l (ord k l)) t s x v p val, SReach ord t -> x < nx t ->
  exists t' ls cf, set_bound ord t s x v p val = Ok (t', ls, cf) /\
  (forall s' y, (s', y) <> (s, x) -> cb t' s' y = cb t s' y) /\
  ((exists o, bound t s x = Some o /\ sle s v o = true) -> cb t' s x = cb t s x /\ cf = None) /\
  (~ (exists o, bound t s x = Some o /\ sle s v o = true) -> (exists u, bound t (other s) x = Some u /\ sle s v u = false) -> cb t' s x = cb t s x /\ cf = Some [negl p; negl (breason t (other s) x)]) /\
  (~ (exists o, bound t s x = Some o /\ sle s v o = true) -> ~ (exists u, bound t (other s) x = Some u /\ sle s v u = false) -> cb t' s x = (Some v, p)).
Proof.
  intros ord Hord t s x v p val HS Hx. destruct (set_ok ord Hord t s x v p val (SReach_sane ord Hord t HS) Hx) as (t' & ls & cf & E & _ & (A & B & _) & _).
  exists t', ls, cf. split; [exact E|]. split; [exact A|]. unfold bsle in B. destruct (bound t s x) as [o|].
  - destruct (sle s v o) eqn:Eo.
    + split; [auto|]. split; intros H; exfalso; apply H; eauto.
    + split; [intros (o' & Eq & K); injection Eq as <-; congruence|]. destruct (bound t (other s) x) as [u|].
      * destruct (sle s v u) eqn:Eu; cbn [negb] in B; (split; [|auto]).
        -- intros _ (u' & Eq & K). injection Eq as <-. congruence.
        -- intros _ _. exact B.
        -- intros _ H. exfalso. apply H. eauto.
      * split; [intros _ (u & Eq & _); discriminate|]. auto.
  - split; [intros (o & Eq & _); discriminate|]. destruct (bound t (other s) x) as [u|].
    + destruct (sle s v u) eqn:Eu; cbn [negb] in B; (split; [|auto]).
      * intros _ (u' & Eq & K). injection Eq as <-. congruence.
      * intros _ _. exact B.
      * intros _ H. exfalso. apply H. eauto.
    + split; [intros _ (u & Eq & _); discriminate|]. auto.
Qed.
Print Assumptions C66_set_bound.
(** The values still solve the equations of the tableau; only [x] and basic variables change value, and a non-basic [x] that respected its bound respects the new one. *)
Theorem C66_set_values : forall ord (Hord : forall k l, Permutation l (ord k l)) t s x v p val t' ls cf, SReach ord t -> x < nx t -> set_bound ord t s x v p val = Ok (t', ls, cf) ->
  tab t' = tab t /\ vsol (tab t') (vals t') /\ (forall y, gfind y (tab t) = None -> y <> x -> vals t' y = vals t y) /\
  (gfind x (tab t) = None -> cf = None -> inb s (bound t s x) (vals t x) -> inb s (bound t' s x) (vals t' x)).
Proof.
  intros ord Hord t s x v p val t' ls cf HS Hx E. destruct (set_ok ord Hord t s x v p val (SReach_sane ord Hord t HS) Hx) as (t1 & l1 & c1 & E1 & [_ S] & (_ & _ & A & B & D & _) & _).
  rewrite E in E1. injection E1 as <- _ <-. auto.
Qed.
Print Assumptions C66_set_values.
(** Pop takes back the bounds, and their reasons, set since the last push. *)
Theorem C66_set_undone : forall ord (Hord : forall k l, Permutation l (ord k l)) t t', SReach ord t -> Sets ord (lra_push t) t' -> forall s x, cb (lra_pop t') s x = cb t s x.
Proof. intros ord Hord t t' HS HT. apply (sets_undone ord Hord t t' (SReach_sane ord Hord t HS) HT). Qed.
Print Assumptions C66_set_undone.
(** set(x, v, p) within the bounds, if both calls return true: the variable is fixed. *)
Theorem C66_set_fixes : forall ord (Hord : forall k l, Permutation l (ord k l)) t x v p val1 val2 t1 l1 t2 l2, SReach ord t -> x < nx t ->
  inb Lo (bound t Lo x) v -> inb Up (bound t Up x) v ->
  set_bound ord t Lo x v p val1 = Ok (t1, l1, None) -> set_bound ord t1 Up x v p val2 = Ok (t2, l2, None) ->
  forall q, inb Lo (bound t2 Lo x) q /\ inb Up (bound t2 Up x) q <-> qeq q v.
Proof.
  intros ord Hord t x v p val1 val2 t1 l1 t2 l2 HS Hx HL HU E1 E2.
  destruct (C66_set_bound ord Hord t Lo x v p val1 HS Hx) as (t1' & l1' & c1 & F1 & O1 & W1 & _ & N1). rewrite E1 in F1. injection F1 as <- _ <-.
  assert (Hx1 : x < nx t1) by (destruct (set_ok ord Hord t Lo x v p val1 (SReach_sane ord Hord t HS) Hx) as (tz & lz & cz & F1 & _ & (_ & _ & _ & _ & _ & A) & _); rewrite E1 in F1; injection F1 as <- _ _; rewrite A; exact Hx).
  pose proof (SR_set ord t Lo x v p val1 t1 l1 None HS Hx E1) as HS1.
  destruct (C66_set_bound ord Hord t1 Up x v p val2 HS1 Hx1) as (t2' & l2' & c2 & F2 & O2 & W2 & _ & N2). rewrite E2 in F2. injection F2 as <- _ <-.
  assert (B1 : exists o, bound t1 Lo x = Some o /\ qeq o v).
  { destruct (bound t Lo x) as [o|] eqn:Eo.
    - destruct (sle Lo v o) eqn:Ev.
      + exists o. destruct W1 as [W _]; [eauto|]. unfold bound in *. rewrite W, Eo. split; [reflexivity|]. cbn in HL. apply sle_iff in Ev. cbn in Ev. apply qle_antisym; assumption.
      + exists v. unfold bound. rewrite N1; [split; [reflexivity|apply qeq_refl]|intros (o' & Eq & K); injection Eq as <-; congruence|].
        intros (u & Eq & K). cbn [other] in Eq. unfold bound in HU. unfold bound in Eq. rewrite Eq in HU. cbn in HU. assert (K2 : sle Lo v u = true) by (apply sle_iff; exact HU). congruence.
    - exists v. unfold bound. rewrite N1; [split; [reflexivity|apply qeq_refl]|intros (o' & Eq & K); discriminate|].
      intros (u & Eq & K). cbn [other] in Eq. unfold bound in HU. unfold bound in Eq. rewrite Eq in HU. cbn in HU. assert (K2 : sle Lo v u = true) by (apply sle_iff; exact HU). congruence. }
  assert (EU : bound t1 Up x = bound t Up x) by (unfold bound; rewrite O1 by discriminate; reflexivity).
  assert (EL : bound t2 Lo x = bound t1 Lo x) by (unfold bound; rewrite O2 by discriminate; reflexivity).
  destruct B1 as (o & B1 & Ho). rewrite EL, B1.
  assert (B2 : exists u, bound t2 Up x = Some u /\ qeq u v).
  { rewrite EU in *. destruct (bound t Up x) as [u|] eqn:Eu.
    - destruct (sle Up v u) eqn:Ev.
      + exists u. destruct W2 as [W _]; [eauto|]. unfold bound in *. rewrite W, EU. split; [reflexivity|]. cbn in HU. apply sle_iff in Ev. cbn in Ev. apply qle_antisym; assumption.
      + exists v. unfold bound. rewrite N2; [split; [reflexivity|apply qeq_refl]|intros (o' & Eq & K); injection Eq as <-; congruence|].
        intros (u' & Eq & K). cbn [other] in Eq. unfold bound in B1. unfold bound in Eq. rewrite Eq in B1. injection B1 as ->. assert (K2 : sle Up v o = true) by (apply sle_iff; cbn; apply qeq_le, Ho). congruence.
    - exists v. unfold bound. rewrite N2; [split; [reflexivity|apply qeq_refl]|intros (o' & Eq & K); discriminate|].
      intros (u' & Eq & K). cbn [other] in Eq. unfold bound in B1. unfold bound in Eq. rewrite Eq in B1. injection B1 as ->. assert (K2 : sle Up v o = true) by (apply sle_iff; cbn; apply qeq_le, Ho). congruence. }
  destruct B2 as (u & -> & Hu). intros q. cbn. split.
  - intros [A B]. apply qle_antisym; [eapply qle_trans; [exact B|apply qeq_le, Hu]|eapply qle_trans; [apply qeq_le, qeq_sym, Ho|exact A]].
  - intros E. split; [eapply qle_trans; [apply qeq_le, Ho|apply qeq_le, qeq_sym, E]|eapply qle_trans; [apply qeq_le, E|apply qeq_le, qeq_sym, Hu]].
Qed.
Print Assumptions C66_set_fixes.
Definition set1 (t : lra) (s : side) (x : nat) (v : qe) (p : lit) : lra * option (list lit) := match set_bound ord0 t s x v p (vtrue [1; 2; 4; 9]) with Ok (t', _, cf) => (t', cf) | _ => (t, Some []) end.
(** x0 = 0 set with the reason b9 in the consistent state of PropLra.v (x0 >= -5, x0 + x1 <= 1, x0 - x1 <= -1), then an upper bound below it. *)
Example C66_case : SReach ord0 cx_sat /\ 0 < nx cx_sat /\ bound cx_sat Lo 0 = Some (-5 # 1, 0)%Q /\
  let (t1, c1) := set1 cx_sat Lo 0 (-1 # 1, 0)%Q (b 9) in let (t2, c2) := set1 t1 Up 0 (-1 # 1, 0)%Q (b 9) in let (t3, c3) := set1 t2 Up 0 (-2 # 1, 0)%Q (b 9) in
  (c1, c2, c3) = (None, None, Some [nb 9; nb 9]) /\ bound t3 Lo 0 = Some (-1 # 1, 0)%Q /\ bound t3 Up 0 = Some (-1 # 1, 0)%Q.
Proof. split; [exact (SR_reach ord0 _ _ cx_sat_reach)|]. split; [vm_compute; lia|]. split; [vm_compute; reflexivity|]. vm_compute. auto. Qed.
