(** Properties of the linear real arithmetic theory (C27-C36, C47).  Nothing but statements, closed by
    lemmas, and concrete cases.  Vocabulary: [vals t x] is value(x), [val_lin t l] value(l), [bound t Lo x]
    and [bound t Up x] are lb(x) and ub(x) ([None]: infinite), [bound_lin] those of an expression; extended
    values are pairs (rational, coefficient of the infinitesimal) ordered lexicographically;
    [lval y l] is the value of [l] under the rational assignment [y]; [tsol (tab t) y]: [y] solves every
    equation of the tableau; [joint t M y]: [y] solves the tableau, each assertion holds under [y] iff
    its literal is true in [M] and the root-level facts recorded by the theory hold in [M]. *)
From Coq Require Import Lqa.
From Verif Require Import Base Keys Sat SatSpec SatInv SatPop SatMain SatApi SatNext Reify Amo Run SatFacts.
From Verif Require Import Lin Qe Lra LraTab LraVal LraInv LraChk LraPro LraCon ThGrow LraNew LraCmp ThRel LraApi LraRun LraEnd LraEq LraTh LraExec LraFacts.
Open Scope Q_scope.
#[local] Existing Instance stable_sort | 100.

Definition b (v : nat) : lit := mk_lit v true.
Definition nb (v : nat) : lit := mk_lit v false.

(** ** A theory state, used for the concrete cases: x2 = x0 + x1, x3 = x0 - x1;
    b1: x2 <= 1, b2: x3 <= -1, b3: x0 >= 2, b4: x0 >= -5. *)
Definition vfun (f : nat -> lbool) : lv := fun q => if lsgn q then f (lvar q) else lneg (f (lvar q)).
Definition vtrue (vs : list nat) : lv := vfun (fun v => if Nat.eqb v 0 then LFalse else if memn v vs then LTrue else LUndef).
Lemma vtrue_of vs ps : (forall p, In p ps -> lsgn p = true /\ lvar p <> 0%nat /\ In (lvar p) vs) -> vals_of (vtrue vs) ps.
Proof.
  intros H. constructor.
  - intros [v g]. unfold vtrue, vfun, negl. cbn. destruct g; cbn; [reflexivity|]. destruct (if Nat.eqb v 0 then LFalse else if memn v vs then LTrue else LUndef); reflexivity.
  - reflexivity.
  - intros q Hq. destruct (H q Hq) as (A & B & D). unfold vtrue, vfun. rewrite A. destruct (Nat.eqb_spec (lvar q) 0); [contradiction|]. apply memn_In in D. rewrite D. reflexivity.
Qed.
Definition got {A} (r : res A) (d : A) : A := match r with Ok x => x | _ => d end.
Definition cx0 : lra := fst (t_new_var (fst (t_new_var lra_init))).
Definition cx1 : lra := fst (got (t_new_slack true cx0 (lin_add (X 0) (X 1))) (cx0, 0%nat)).
Definition cx2 : lra := fst (got (t_new_slack true cx1 (lin_sub (X 0) (X 1))) (cx1, 0%nat)).
Definition cx3 : lra := add_asrt (add_asrt (add_asrt (add_asrt cx2 Up 2 (1, 0) 1) Up 3 (-1 # 1, 0) 2) Lo 0 (2, 0) 3) Lo 0 (-5 # 1, 0) 4.
Definition told1 (t : lra) (seen : list nat) (v : nat) : lra := fst (fst (got (lra_prop ord0 t (vtrue (v :: seen)) (b v)) (t, [], None))).
(** b1, b2, b4 asserted: consistent, after pivoting. *)
Definition cx_sat : lra := told1 (told1 (told1 cx3 [] 1) [1%nat] 2) [1; 2]%nat 4.
(** b1, b2, b3 asserted: inconsistent. *)
Definition cx_unsat : lra := told1 (told1 (told1 cx3 [] 1) [1%nat] 2) [1; 2]%nat 3.
Lemma cx3_reach : TReach ord0 cx3 [[]].
Proof.
  assert (H1 : TReach ord0 cx1 [[]]).
  { apply (TR_slack ord0 cx0 [] (lin_add (X 0) (X 1)) cx1 2%nat); [repeat constructor|apply slackableb_ok; vm_compute; reflexivity|vm_compute; reflexivity]. }
  assert (H2 : TReach ord0 cx2 [[]]).
  { apply (TR_slack ord0 cx1 [] (lin_sub (X 0) (X 1)) cx2 3%nat); [exact H1|apply slackableb_ok; vm_compute; reflexivity|vm_compute; reflexivity]. }
  unfold cx3. repeat apply TR_asrt; try exact H2; try discriminate; try (vm_compute; lia); try (left; reflexivity); try (intros ? ?E; vm_compute in E; first [discriminate E|inversion E; reflexivity]); unfold atoms; cbn; intros H; decompose [or] H; try discriminate; assumption.
Qed.
Lemma told1_reach t vs seen v : TReach ord0 t (vs :: []) -> atoms t v -> (forall p, In p (b v :: vs) -> lsgn p = true /\ lvar p <> 0%nat /\ In (lvar p) (v :: seen)) ->
  match lra_prop ord0 t (vtrue (v :: seen)) (b v) with Ok (_, _, None) => true | _ => false end = true -> TReach ord0 (told1 t seen v) ((b v :: vs) :: []).
Proof.
  intros HR Ha H E. unfold told1. destruct (lra_prop ord0 t (vtrue (v :: seen)) (b v)) as [[[t' ls] [c|]]| |] eqn:E'; try discriminate. cbn.
  eapply TR_prop; [exact HR|exact Ha| |exact E']. apply vtrue_of. intros p Hp. apply H. cbn in Hp |- *. rewrite app_nil_r in Hp. exact Hp.
Qed.
Ltac tolds := intros p Hp; cbn in Hp; decompose [or] Hp; try contradiction; subst; cbn; (split; [reflexivity|split; [discriminate|auto 10]]).
Lemma cx_sat_reach : TReach ord0 cx_sat [[b 4; b 2; b 1]].
Proof. unfold cx_sat. apply told1_reach; [apply told1_reach; [apply told1_reach; [exact cx3_reach| | |]| | |]| | |]; try (vm_compute; tauto); try tolds. Qed.
Lemma cx_unsat_reach : TReach ord0 cx_unsat [[b 3; b 2; b 1]].
Proof. unfold cx_unsat. apply told1_reach; [apply told1_reach; [apply told1_reach; [exact cx3_reach| | |]| | |]| | |]; try (vm_compute; tauto); try tolds. Qed.

(** ** C27 *)
Theorem C27_bounds_enclose_value : forall t l, lin_clean l -> (forall x, In x (map fst (lvars l)) -> in_bounds t x (vals t x)) ->
  inb Lo (bound_lin t Lo l) (val_lin t l) /\ inb Up (bound_lin t Up l) (val_lin t l).
Proof. intros t l Hl H. split; apply bound_lin_val; assumption. Qed.
Print Assumptions C27_bounds_enclose_value.
(** The same for any rational values within the bounds. *)
Theorem C27_bounds_enclose_rationals : forall ord, (forall k l, Permutation l (ord k l)) -> forall t vs l y, TReach ord t vs -> lin_clean l ->
  (forall x, In x (map fst (lvars l)) -> real_in t x (y x)) -> bhold Lo (bound_lin t Lo l) (lval y l) /\ bhold Up (bound_lin t Up l) (lval y l).
Proof. intros ord Hord t vs l y HR Hl H. split; apply (bound_lin_real t vs); auto; apply (TReach_inv ord Hord t vs HR). Qed.
Print Assumptions C27_bounds_enclose_rationals.
Example C27_case : lin_clean (lin_sub (X 2) (lin_var 0 3)) /\ bound_lin cx_unsat Up (lin_sub (X 2) (lin_var 0 3)) = Some (-5 # 1, 0) /\ real_in cx_unsat 0 2 /\ real_in cx_unsat 2 1.
Proof. split; [apply cleanb_ok; vm_compute; reflexivity|]. split; [vm_compute; reflexivity|]. split; split; vm_compute; auto; split; discriminate || auto. Qed.

(** ** C28.  [wf_tab]: solved form (distinct basic variables, which do not occur on the right-hand
    sides; clean expressions) and exact watch lists. *)
Theorem C28_pivot : forall t n xi xj l, wf_tab n (tab t) (tw t) -> In (xi, l) (tab t) -> In xj (map fst (lvars l)) ->
  exists t', pivot t xi xj = Ok t' /\ wf_tab n (tab t') (tw t') /\ is_basic t' xj = true /\ is_basic t' xi = false /\
    (forall x, x <> xi -> x <> xj -> is_basic t' x = is_basic t x) /\ (forall y, tsol (tab t') y <-> tsol (tab t) y) /\ cb t' = cb t /\ vals t' = vals t.
Proof. exact pivot_sound. Qed.
Print Assumptions C28_pivot.
Theorem C28_reachable_tableaux : forall ord, (forall k l, Permutation l (ord k l)) -> forall t vs, TReach ord t vs -> wf_tab (nx t) (tab t) (tw t).
Proof. intros ord Hord t vs HR. apply (ti_wf _ _ (TReach_inv ord Hord t vs HR)). Qed.
Print Assumptions C28_reachable_tableaux.
Example C28_case : TReach ord0 cx_sat [[b 4; b 2; b 1]] /\ map fst (tab cx_sat) = [2; 3]%nat /\ tw cx_sat 0 = [3; 2]%nat /\
  match pivot cx_sat 3 0 with Ok t' => map fst (tab t') = [0; 2]%nat /\ tw t' 1 = [0; 2]%nat | _ => False end.
Proof. split; [exact cx_sat_reach|]. split; [vm_compute; reflexivity|]. split; [vm_compute; reflexivity|]. vm_compute. auto. Qed.

(** ** C29 *)
Theorem C29_values : forall ord, (forall k l, Permutation l (ord k l)) -> forall t vs, TReach ord t vs ->
  (forall x l, In (x, l) (tab t) -> qe_eq (vals t x) (val_lin t l)) /\ (forall x, is_basic t x = false -> in_bounds t x (vals t x)).
Proof. intros ord Hord t vs HR. pose proof (TReach_inv ord Hord t vs HR) as HI. split; [intros x l; apply (row_values t vs x l HI)|intros x; apply (nb_values t vs x HI)]. Qed.
Print Assumptions C29_values.
(** Also when a propagation or a check ends in a conflict. *)
Theorem C29_values_after_conflict : forall ord, (forall k l, Permutation l (ord k l)) -> forall t v vs val p, TReach ord t (v :: vs) -> atoms t (lvar p) -> vals_of val (p :: concat (v :: vs)) ->
  exists t' ls cf, lra_prop ord t val p = Ok (t', ls, cf) /\ (forall y, tsol (tab t') y <-> tsol (tab t) y) /\
  (forall x l, In (x, l) (tab t') -> qe_eq (vals t' x) (val_lin t' l)) /\ (forall x, is_basic t' x = false -> in_bounds t' x (vals t' x)).
Proof.
  intros ord Hord t v vs val p HR Ha HV. destruct (prop_done ord Hord t v vs val p HR Ha HV) as (t' & ls & cf & E & S & ws & HI). exists t', ls, cf. split; [exact E|]. split; [exact S|].
  split; [intros x l; apply (row_values t' ws x l HI)|intros x; apply (nb_values t' ws x HI)].
Qed.
Print Assumptions C29_values_after_conflict.
(** And at any point of any history of a network. *)
Theorem C29_values_of_network (sr : sorter) : forall ord Hord fuel tr s, LTrace ord Hord fuel tr s -> exists t, theories s = [t] /\
  (forall x l, In (x, l) (tab t) -> qe_eq (vals t x) (val_lin t l)) /\ (forall x, is_basic t x = false -> in_bounds t x (vals t x)).
Proof.
  intros ord Hord fuel tr s HT. destruct (ltrace_good _ _ _ _ _ HT) as [G (t & Et)]. exists t. split; [exact Et|].
  destruct (h_views _ _ _ _ (i_h _ _ (g_inv _ _ G)) 0%nat t) as (vs & [HI _] & _); [rewrite Et; reflexivity|].
  split; [intros x l; apply (row_values t vs x l HI)|intros x; apply (nb_values t vs x HI)].
Qed.
Print Assumptions C29_values_of_network.
Example C29_case : TReach ord0 cx_unsat [[b 3; b 2; b 1]] /\ map (vals cx_unsat) [0; 1; 2; 3]%nat = [(2, 0); (0, 0); (2, 0); (2, 0)] /\ is_basic cx_unsat 2 = true /\ bound cx_unsat Up 2 = Some (1, 0).
Proof. split; [exact cx_unsat_reach|]. repeat split; vm_compute; reflexivity. Qed.

(** ** C30 *)
Theorem C30_check_true : forall ord, (forall k l, Permutation l (ord k l)) -> forall t vs fl t', TReach ord t vs -> lra_check fl t = Ok (t', None) ->
  (forall s x, bound t' s x = bound t s x) /\ (forall y, tsol (tab t') y <-> tsol (tab t) y) /\
  (forall x, in_bounds t x (vals t' x)) /\ (forall x l, In (x, l) (tab t') -> qe_eq (vals t' x) (val_lin t' l)) /\
  exists d0, 0 < d0 /\ forall d, 0 < d -> d <= d0 -> tsol (tab t) (fun x => at_eps d (vals t' x)) /\ forall x, real_in t x (at_eps d (vals t' x)).
Proof. exact check_true. Qed.
Print Assumptions C30_check_true.
Theorem C30_check_safe : forall ord, (forall k l, Permutation l (ord k l)) -> forall t vs fl, TReach ord t vs -> lra_check fl t <> UB.
Proof. exact check_safe. Qed.
Print Assumptions C30_check_safe.
Example C30_case : TReach ord0 cx_sat [[b 4; b 2; b 1]] /\ viol cx_sat Up 3 = true /\
  match lra_check 100 cx_sat with Ok (t', None) => map (vals t') [0; 1; 2; 3]%nat = [(-1 # 1, 0); (0, 0); (-1 # 1, 0); (-1 # 1, 0)] | _ => False end.
Proof. split; [exact cx_sat_reach|]. split; vm_compute; reflexivity. Qed.

(** ** C31 *)
Theorem C31_check_false : forall ord, (forall k l, Permutation l (ord k l)) -> forall t v vs fl t' c val, TReach ord t (v :: vs) -> vals_of val (concat (v :: vs)) -> lra_check fl t = Ok (t', Some c) ->
  (forall q, In q c -> val q = LFalse) /\ (forall M y, M 0%nat = false -> joint t M y -> mcl M c) /\ (forall y, tsol (tab t) y -> ~ forall x, real_in t x (y x)).
Proof. exact check_false. Qed.
Print Assumptions C31_check_false.
Example C31_case : TReach ord0 cx_unsat [[b 3; b 2; b 1]] /\ vals_of (vtrue [1; 2; 3]%nat) (concat [[b 3; b 2; b 1]]) /\
  match lra_check 100 cx_unsat with Ok (_, Some c) => c = [nb 2; nb 3; nb 1] \/ c = [nb 1; nb 2; nb 3] \/ c = [nb 3; nb 1; nb 2] \/ c = [nb 3; nb 2; nb 1] \/ c = [nb 2; nb 1; nb 3] \/ c = [nb 1; nb 3; nb 2] | _ => False end.
Proof. split; [exact cx_unsat_reach|]. split; [apply vtrue_of; tolds|]. vm_compute. tauto. Qed.

(** ** C32 *)
Theorem C32_propagation_sound : forall ord, (forall k l, Permutation l (ord k l)) -> forall t v vs val p t' ls cf, TReach ord t (v :: vs) -> atoms t (lvar p) -> vals_of val (p :: concat (v :: vs)) ->
  lra_prop ord t val p = Ok (t', ls, cf) -> forall c, In c ls \/ cf = Some c -> forall M y, M 0%nat = false -> joint t M y -> mcl M c.
Proof. exact prop_clauses. Qed.
Print Assumptions C32_propagation_sound.
(** With b5: x2 >= 4 and b6: x1 >= 0, asserting b3 (x0 >= 2) after b6 and then b7: x1 >= 2 implies b5. *)
Definition cx4 : lra := add_asrt (add_asrt (add_asrt cx3 Lo 2 (4, 0) 5) Lo 1 (0, 0) 6) Lo 1 (2, 0) 7.
Example C32_case : TReach ord0 (told1 (told1 cx4 [] 6) [6%nat] 3) [[b 3; b 6]] /\
  match lra_prop ord0 (told1 (told1 cx4 [] 6) [6%nat] 3) (vtrue [7; 6; 3]%nat) (b 7) with
  | Ok (_, ls, None) => ls = [[nb 1; nb 3; nb 7]; [b 5; nb 3; nb 7]]
  | _ => False end.
Proof.
  split; [|vm_compute; reflexivity]. apply told1_reach; [apply told1_reach; [| | |]| | |]; try (vm_compute; tauto); try tolds.
  unfold cx4. apply TR_asrt; [apply TR_asrt; [apply TR_asrt; [exact cx3_reach|..]|..]|..]; try discriminate; try (vm_compute; lia); try (left; reflexivity); try (intros ? ?E; vm_compute in E; first [discriminate E|inversion E; reflexivity]); unfold atoms; cbn; intros H; decompose [or] H; try discriminate; assumption.
Qed.

(** ** C33.  [Since ord t0 1 t]: any calls between the push() made in [t0] and the matching pop(), made in
    [t] (nested pushes and pops, propagations, checks, new variables and assertions). *)
Theorem C33_pop_restores : forall ord t0 t, Since ord t0 1 t ->
  layers (lra_pop t) = layers t0 /\ forall s x, (x < nx t0)%nat -> bound (lra_pop t) s x = bound t0 s x /\ breason (lra_pop t) s x = breason t0 s x.
Proof. exact pop_restores. Qed.
Print Assumptions C33_pop_restores.
Example C33_case : exists t, Since ord0 cx3 1 t /\ bound t Lo 0 = Some (2, 0) /\ bound cx3 Lo 0 = None /\ bound (lra_pop t) Lo 0 = None.
Proof.
  exists (told1 (lra_pop (told1 (lra_push (told1 (lra_push cx3) [] 4)) [4%nat] 1)) [4%nat] 3). split; [|repeat split; vm_compute; reflexivity].
  assert (P : forall n t seen v, Since ord0 cx3 n t -> match lra_prop ord0 t (vtrue (v :: seen)) (b v) with Ok _ => true | _ => false end = true -> Since ord0 cx3 n (told1 t seen v)).
  { intros n t seen v H E. unfold told1. destruct (lra_prop ord0 t (vtrue (v :: seen)) (b v)) as [[[t' ls] cf]| |] eqn:E'; try discriminate. eapply SI_prop; [exact H|exact E']. }
  repeat first [apply SI_push | apply P; [|vm_compute; reflexivity] | apply SI_deeper | apply SI_pop].
Qed.

(** ** C34.  [nsol s i M y]: the Boolean assignment [M] and the rational values [y] solve the network
    [s] (constraints, root-level facts and theories, [y] being those of the [i]-th theory). *)
Section C34.
Context {sr : sorter} (ord : nat -> list nat -> list nat) (Hord : forall k l, Permutation l (ord k l)) (fuel : lra -> nat).
Notation LTrace := (LTrace ord Hord fuel).
Notation nsol := (nsol ord Hord fuel).
(** The variables of [l] exist. *)
Definition uses (t : lra) (l : lin) : Prop := lin_clean l /\ forall v, In v (map fst (lvars l)) -> (v < nx t)%nat.
(** The literal [p] returned by a call that leads from [s] to [s'] controls [P]: it is equivalent to [P] in
    every solution, and every solution before the call extends to one after it. *)
Definition controls (s s' : st lra) (t : lra) (p : lit) (P : (nat -> Q) -> Prop) : Prop :=
  (forall M y, nsol s' 0 M y -> nsol s 0 M y /\ (mlit M p = true <-> P y)) /\
  (forall M y, nsol s 0 M y -> exists M' y', agree (nv s) M M' /\ (forall z, (z < nx t)%nat -> y' z = y z) /\ nsol s' 0 M' y').

Lemma C34_any tr s t sd strict l r : LTrace tr s -> dlevel s = 0%nat -> theories s = [t] -> uses t l -> uses t r ->
  exists s' p, lra_cmp s 0 sd strict l r = Ok (s', p) /\ controls s s' t p (fun y => cmpP sd strict (lval y l) (lval y r)).
Proof.
  intros HT Hd Et [Hl Hl'] [Hr Hr']. destruct (cmp_cons ord Hord fuel s 0 t sd strict l r (lg_good _ _ _ _ (ltrace_good _ _ _ _ _ HT)) Hd) as (s' & t' & p & E & _ & _ & _ & A & B).
  - rewrite Et. reflexivity.
  - exact Hl.
  - exact Hr.
  - intros v [Hv|Hv]; apply dom_fst in Hv; auto.
  - exists s', p. split; [exact E|]. split; assumption.
Qed.
Theorem C34_new_lt : forall tr s t l r, LTrace tr s -> dlevel s = 0%nat -> theories s = [t] -> uses t l -> uses t r ->
  exists s' p, lra_new_lt s 0 l r = Ok (s', p) /\ controls s s' t p (fun y => lval y l < lval y r).
Proof. intros. eapply (C34_any tr s t Up true); eassumption. Qed.
Theorem C34_new_leq : forall tr s t l r, LTrace tr s -> dlevel s = 0%nat -> theories s = [t] -> uses t l -> uses t r ->
  exists s' p, lra_new_leq s 0 l r = Ok (s', p) /\ controls s s' t p (fun y => lval y l <= lval y r).
Proof. intros. eapply (C34_any tr s t Up false); eassumption. Qed.
Theorem C34_new_geq : forall tr s t l r, LTrace tr s -> dlevel s = 0%nat -> theories s = [t] -> uses t l -> uses t r ->
  exists s' p, lra_new_geq s 0 l r = Ok (s', p) /\ controls s s' t p (fun y => lval y r <= lval y l).
Proof. intros. eapply (C34_any tr s t Lo false); eassumption. Qed.
Theorem C34_new_gt : forall tr s t l r, LTrace tr s -> dlevel s = 0%nat -> theories s = [t] -> uses t l -> uses t r ->
  exists s' p, lra_new_gt s 0 l r = Ok (s', p) /\ controls s s' t p (fun y => lval y r < lval y l).
Proof. intros. eapply (C34_any tr s t Lo true); eassumption. Qed.
Theorem C34_new_eq : forall tr s t l r, LTrace tr s -> dlevel s = 0%nat -> theories s = [t] -> uses t l -> uses t r ->
  exists s' p, lra_new_eq s 0 l r = Ok (s', p) /\ controls s s' t p (fun y => lval y l == lval y r).
Proof.
  intros tr s t l r HT Hd Et [Hl Hl'] [Hr Hr']. destruct (eq_call ord Hord fuel s 0 t l r (lg_good _ _ _ _ (ltrace_good _ _ _ _ _ HT)) Hd) as (s' & t' & p & E & _ & _ & _ & _ & _ & _ & A & B).
  - rewrite Et. reflexivity.
  - exact Hl.
  - exact Hr.
  - intros v [Hv|Hv]; apply dom_fst in Hv; auto.
  - exists s', p. split; [exact E|]. split; assumption.
Qed.
End C34.
Print Assumptions C34_new_lt.
Print Assumptions C34_new_leq.
Print Assumptions C34_new_geq.
Print Assumptions C34_new_gt.
Print Assumptions C34_new_eq.
Definition c34 : list lcall := [LVar; LVar; LSlack (lin_add (X 0) (X 1)); LCmp Lo false (X 0) (K 1); LSat (CClause [b 1]); LSat CPropagate].
Example C34_case : LTrace ord0 Hord0 fuel0 (levents c34) (lafter c34) /\ uses (lth (lafter c34)) (lin_sub (X 2) (lin_var 1 3)) /\
  (exists s', lra_new_lt (lafter c34) 0 (lin_sub (X 2) (lin_var 1 3)) (K 4) = Ok (s', b 2)) /\ (exists s', lra_new_gt (lafter c34) 0 (lin_sub (X 2) (X 1)) (K (1 # 2)) = Ok (s', TRUE_lit)) /\
  exists s', lra_new_eq (lafter c34) 0 (X 2) (lin_add_k (X 1) (3 # 2)) = Ok (s', b 4).
Proof.
  split; [apply lafter_trace; vm_compute; reflexivity|]. split; [split; [apply cleanb_ok; vm_compute; reflexivity|intros v Hv; vm_compute in Hv; decompose [or] Hv; subst; vm_compute; lia || contradiction]|].
  split; [eexists; vm_compute; reflexivity|]. split; eexists; vm_compute; reflexivity.
Qed.
Ltac mindfuls := repeat (apply mf_cons; [|cbn; repeat split; auto|let x := fresh in let H := fresh in intros x H; cbn in H; decompose [or] H; subst; cbn; auto 10; contradiction]); apply mf_nil.
(** Outside the root level (where the quantifier of C34 does not go, but where the code can be called) the
    answer may hold for the current decisions only: x <= 6 is answered TRUE while x <= 5 is assumed,
    and after backtracking x = 10 is a solution. *)
Definition c34n : list lcall := [LVar; LCmp Up false (X 0) (K 5); LSat CPropagate; LSat (CAssume (b 1))].
Theorem C34_nonroot_refuted : exists tr s s' s'' p, LTrace ord0 Hord0 fuel0 tr s /\ dlevel s = 1%nat /\ lra_new_leq s 0 (X 0) (K 6) = Ok (s', p) /\ p = TRUE_lit /\ pop lops0 s' = Ok s'' /\
  exists M y, nsol ord0 Hord0 fuel0 s'' 0 M y /\ mlit M p = true /\ ~ lval y (X 0) <= lval y (K 6).
Proof.
  exists (levents c34n), (lafter c34n), (lafter c34n), (lafter (c34n ++ [LSat CPop])), TRUE_lit.
  split; [apply lafter_trace; vm_compute; reflexivity|]. split; [vm_compute; reflexivity|]. split; [vm_compute; reflexivity|]. split; [reflexivity|]. split; [vm_compute; reflexivity|].
  destruct (told_enough ord0 Hord0 fuel0 (levents (c34n ++ [LSat CPop])) (lafter (c34n ++ [LSat CPop])) ltac:(apply lafter_trace; vm_compute; reflexivity)) with (M := fun _ : nat => false) (y := fun _ : nat => 10) as (y' & Hy & HN).
  - assert (Ee : levents (c34n ++ [LSat CPop]) = [mk_lev (LSat CPop) [b 1] (LR RUnit); mk_lev (LSat (CAssume (b 1))) [] (LR (RBool true)); mk_lev (LSat CPropagate) [] (LR (RBool true)); mk_lev (LCmp Up false (X 0) (K 5)) [] (LP (b 1)); mk_lev LVar [] (LX 0)]) by (vm_compute; reflexivity).
    rewrite Ee. mindfuls.
  - reflexivity.
  - intros e He. vm_compute in He. decompose [or] He; subst; try contradiction; cbn; auto. unfold mlit. cbn. unfold lval. cbn. split; [discriminate|]. intros H. exfalso. lra.
  - exists (fun _ : nat => false), y'. split; [exact HN|]. split; [reflexivity|]. unfold lval. cbn. rewrite (Hy 0%nat); [lra|]. vm_compute. auto.
Qed.
Print Assumptions C34_nonroot_refuted.

(** ** C35.  Full statement: as below without the restriction that new_var(l) asks for an expression
    over variables that are not basic ([llegal]); for basic variables the code refutes it (below). *)
Theorem C35_slack_value_partial (sr : sorter) : forall ord Hord fuel tr s, LTrace ord Hord fuel tr s -> exists t, theories s = [t] /\
  forall e l x, In e tr -> lev_call e = LSlack l -> lev_ret e = LX x -> qe_eq (vals t x) (val_lin t l) /\ forall y, tsol (tab t) y -> y x == lval y l.
Proof.
  intros ord Hord fuel tr s HT. destruct (slack_value ord Hord fuel tr s HT) as (t & Et & H). exists t. split; [exact Et|]. intros e l x He Ec Er. split; [apply (H e l x He Ec Er)|].
  intros y Hy. apply (slack_sol ord Hord fuel tr s HT t Et y Hy e l x He Ec Er).
Qed.
Print Assumptions C35_slack_value_partial.
Definition c35 : list lcall := [LVar; LVar; LSlack (lin_sub (X 0) (lin_var 1 2)); LCmp Lo false (X 2) (K 3); LSat (CClause [b 1]); LSat CPropagate].
Example C35_case : LTrace ord0 Hord0 fuel0 (levents c35) (lafter c35) /\ In (mk_lev (LSlack (lin_sub (X 0) (lin_var 1 2))) [] (LX 2)) (levents c35) /\ vals (lth (lafter c35)) 2 = (3, 0).
Proof. split; [apply lafter_trace; vm_compute; reflexivity|]. split; [vm_compute; tauto|vm_compute; reflexivity]. Qed.
(** With a known term: x2 = new_var(x0 - 2 x1 + 7), then x2 >= 10 and x0 <= 1 hold: the check pivots and value(x2) is 10. *)
Definition c35k : list lcall := [LVar; LVar; LSlack (lin_add_k (lin_sub (X 0) (lin_var 1 2)) 7); LCmp Lo false (X 2) (K 10); LCmp Up false (X 0) (K 1); LSat (CClause [b 1]); LSat (CClause [b 2]); LSat CPropagate].
Example C35_case_known_term : LTrace ord0 Hord0 fuel0 (levents c35k) (lafter c35k) /\ In (mk_lev (LSlack (lin_add_k (lin_sub (X 0) (lin_var 1 2)) 7)) [] (LX 2)) (levents c35k) /\ map (vals (lth (lafter c35k))) [0; 1; 2; 3]%nat = [(1, 0); (-2 # 2, 0 # 2); (10, 0); (3, 0)] /\ is_basic (lth (lafter c35k)) 1 = true.
Proof. split; [apply lafter_trace; vm_compute; reflexivity|]. split; [vm_compute; tauto|split; vm_compute; reflexivity]. Qed.
(** An expression over a basic variable: x1 = new_var(2 x0), x2 = new_var(x1 + x0); once x0 >= 1 is
    asserted value(x2) = 1 while value(x1 + x0) = 3, and propagate() answers true. *)
Fixpoint lsteps (s : st lra) (cs : list lcall) : res (st lra * list lret) :=
  match cs with [] => Ok (s, []) | c :: r => '(s1, x) <- lstep ord0 fuel0 100 s c ;; '(s2, xs) <- lsteps s1 r ;; Ok (s2, x :: xs) end.
Theorem C35_slack_of_basic_refuted : exists s,
  lsteps linit [LVar; LSlack (lin_var 0 2); LSlack (lin_add (X 0) (X 1)); LCmp Lo false (X 0) (K 1); LSat (CClause [b 1]); LSat CPropagate] =
    Ok (s, [LX 0; LX 1; LX 2; LP (b 1); LR (RBool true); LR (RBool true)]) /\
  vals (lth s) 2 = (1, 0) /\ val_lin (lth s) (lin_add (X 0) (X 1)) = (3, 0).
Proof. eexists. split; [vm_compute; reflexivity|]. split; vm_compute; reflexivity. Qed.
Print Assumptions C35_slack_of_basic_refuted.

(** ** C36.  [told tr M y]: the assignment [M] and the values [y] respect everything the client has been
    told along the history [tr]: the clauses it has stated, the literals of its conjunctions and
    disjunctions, the definitions of its slack variables and the meaning of its comparisons. *)
Theorem C36_propagate_true (sr : sorter) : forall ord Hord fuel tr s fl s', LTrace ord Hord fuel tr s -> propagate (lra_ops ord fuel) fl s = Ok (s', true) ->
  exists t, theories s' = [t] /\ exists d0, 0 < d0 /\ forall d, 0 < d -> d <= d0 -> let y x := at_eps d (vals t x) in
  forall e, In e tr ->
  match lev_call e, lev_ret e with
  | LSlack l, LX x => y x == lval y l
  | LCmp sd strict l r, LP p => (value s' p = LTrue -> cmpP sd strict (lval y l) (lval y r)) /\ (value s' p = LFalse -> ~ cmpP sd strict (lval y l) (lval y r))
  | _, _ => True
  end.
Proof. exact propagate_true. Qed.
Print Assumptions C36_propagate_true.
Theorem C36_propagate_true_total (sr : sorter) : forall ord Hord fuel tr s fl s', LTrace ord Hord fuel tr s -> propagate (lra_ops ord fuel) fl s = Ok (s', true) -> total s' ->
  exists t, theories s' = [t] /\ exists d0, 0 < d0 /\ forall d, 0 < d -> d <= d0 -> nsol ord Hord fuel s' 0 (values s') (fun x => at_eps d (vals t x)) /\ told tr (values s') (fun x => at_eps d (vals t x)).
Proof. exact propagate_total. Qed.
Print Assumptions C36_propagate_true_total.
Theorem C36_propagate_false (sr : sorter) : forall ord Hord fuel tr s fl s', LTrace ord Hord fuel tr s -> mindful tr -> propagate (lra_ops ord fuel) fl s = Ok (s', false) ->
  forall M y, M 0%nat = false -> ~ told tr M y.
Proof. exact propagate_false. Qed.
Print Assumptions C36_propagate_false.
Theorem C36_learned_valid (sr : sorter) : forall ord Hord fuel tr s, LTrace ord Hord fuel tr s -> mindful tr -> forall M y, M 0%nat = false -> told tr M y ->
  (forall c, In c (constrs s) -> mcl M (cls s c)) /\ forall q, value s q = LTrue -> (forall k d, nth_error (decisions s) k = Some d -> (dlevel s - k <= level s (lvar q))%nat -> mlit M d = true) -> mlit M q = true.
Proof. exact learned_valid. Qed.
Print Assumptions C36_learned_valid.
(** The solutions of the network are those that respect what the client has been told. *)
Theorem C36_solutions (sr : sorter) : forall ord Hord fuel tr s, LTrace ord Hord fuel tr s ->
  (forall M y, nsol ord Hord fuel s 0 M y -> M 0%nat = false /\ told tr M y) /\
  (mindful tr -> forall M y, M 0%nat = false -> told tr M y -> exists y', (forall x, In x (known tr) -> y' x == y x) /\ nsol ord Hord fuel s 0 M y').
Proof. intros ord Hord fuel tr s HT. split; [apply (told_all ord Hord fuel tr s HT)|intros HM; apply (told_enough ord Hord fuel tr s HT HM)]. Qed.
Print Assumptions C36_solutions.
(** (x0 + x1 <= 1 or x0 >= 3), x0 - x1 <= -1, x0 >= 2. *)
Definition c36 : list lcall := [LVar; LVar; LCmp Up false (lin_add (X 0) (X 1)) (K 1); LCmp Lo false (X 0) (K 3); LSat (CClause [b 1; b 2]);
  LCmp Up false (lin_sub (X 0) (X 1)) (K (-1 # 1)); LCmp Lo false (X 0) (K 2); LSat (CClause [b 3]); LSat (CClause [b 4]); LSat CPropagate; LSat (CAssume (b 1))].
Example C36_case : LTrace ord0 Hord0 fuel0 (levents c36) (lafter c36) /\ mindful (levents c36) /\
  match propagate lops0 100 (lafter c36) with Ok (s', true) => map (value s') [b 1; b 2; b 3; b 4] = [LFalse; LTrue; LTrue; LTrue] /\ map (vals (lth s')) [0; 1]%nat = [(3, 0); (4, 0)] | _ => False end.
Proof.
  split; [apply lafter_trace; vm_compute; reflexivity|]. split; [|vm_compute; auto].
  match goal with |- mindful ?e => let e' := eval vm_compute in e in change (mindful e') end. mindfuls.
Qed.
Definition c36f : list lcall := [LVar; LVar; LCmp Up true (lin_add (X 0) (X 1)) (K 1); LCmp Lo false (lin_sub (X 0) (X 1)) (K 3); LCmp Lo false (X 1) (K (-1 # 1));
  LSat (CClause [b 1]); LSat (CClause [b 2]); LSat (CClause [b 3])].
Example C36_case_false : LTrace ord0 Hord0 fuel0 (levents c36f) (lafter c36f) /\ mindful (levents c36f) /\
  match propagate lops0 100 (lafter c36f) with Ok (s', false) => True | _ => False end.
Proof.
  split; [apply lafter_trace; vm_compute; reflexivity|]. split; [|vm_compute; auto].
  match goal with |- mindful ?e => let e' := eval vm_compute in e in change (mindful e') end. mindfuls.
Qed.

(** ** C47 *)
Theorem C47_matches : forall ord, (forall k l, Permutation l (ord k l)) -> forall t vs l0 l1, TReach ord t vs -> lin_clean l0 -> lin_clean l1 -> matches t l0 l1 = false ->
  forall y, (forall x, real_in t x (y x)) -> ~ lval y l0 == lval y l1.
Proof. intros ord Hord t vs l0 l1 HR H0 H1 HM y Hy. apply (matches_real t vs l0 l1 y (TReach_inv ord Hord t vs HR)); auto. Qed.
Print Assumptions C47_matches.
Theorem C47_matches_values : forall t l0 l1, lin_clean l0 -> lin_clean l1 -> matches t l0 l1 = false -> (forall x, in_bounds t x (vals t x)) -> ~ qe_eq (val_lin t l0) (val_lin t l1).
Proof. intros t l0 l1 H0 H1 HM Hb. apply matches_ext; auto. Qed.
Print Assumptions C47_matches_values.
Example C47_case : TReach ord0 cx_unsat [[b 3; b 2; b 1]] /\ matches cx_unsat (lin_sub (X 2) (X 0)) (K 0) = false /\ matches cx_unsat (X 2) (K 1) = true /\ matches cx_unsat (X 0) (X 2) = false.
Proof. split; [exact cx_unsat_reach|]. repeat split; vm_compute; reflexivity. Qed.

(** ** C57 *)
(** Each check of the theory, from any legal state with [nx t] numeric variables, ends after less than
    [6 ^ nx t] iterations of its loop, whatever the bounds and the rows. *)
Theorem C57_check_terminates : forall ord, (forall k l, Permutation l (ord k l)) -> forall t vs, TReach ord t vs ->
  exists t' cf, forall fl, (6 ^ nx t <= fl)%nat -> lra_check fl t = Ok (t', cf).
Proof. exact check_returns. Qed.
Print Assumptions C57_check_terminates.
(** Propagation of a whole network with the theory returns. *)
Theorem C57_propagate_terminates (sr : sorter) : forall ord Hord fuel tr s, (forall t, (6 ^ nx t <= fuel t)%nat) -> LTrace ord Hord fuel tr s ->
  exists s' b, forall fl, (2 * (nv s * nv s ^ dlevel s) + nv s < fl)%nat -> propagate (lra_ops ord fuel) fl s = Ok (s', b).
Proof. exact network_returns. Qed.
Print Assumptions C57_propagate_terminates.
Example C57_case : TReach ord0 cx_sat [[b 4; b 2; b 1]] /\ lra_check 1 cx_sat = OOF /\ (exists t', lra_check 3 cx_sat = Ok (t', None)) /\
  (forall t, (6 ^ nx t <= fuel0 t)%nat) /\ LTrace ord0 Hord0 fuel0 (levents c36) (lafter c36) /\ nx (lth (lafter c36)) = 4%nat.
Proof.
  split; [exact cx_sat_reach|]. split; [vm_compute; reflexivity|]. split; [eexists; vm_compute; reflexivity|]. split; [intros t; apply le_n|].
  split; [apply lafter_trace; vm_compute; reflexivity|]. vm_compute; reflexivity.
Qed.
