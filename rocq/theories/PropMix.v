(** C67: object variables and linear real arithmetic on one core.  Nothing but statements, closed by lemmas, and concrete cases.
    [MTrace om oi ord Hord fuel tr s]: [s] is reached from an empty core, with an object theory and an arithmetic theory (theories 0 and 1), by the
    calls of [tr], whose results are recorded in it; [om], [oi], [ord] are the orders, arbitrary, in which maps and sets are iterated.
    [mtold tr M y]: the Boolean assignment [M] and the numeric values [y] respect everything the client has been told: its clauses, the literals of its conjunctions and
    disjunctions, exactly one value for each object variable, the literals of its object equalities, the definitions of its slack variables and
    the literals of its comparisons.  [mvis tr], [mknown tr]: the Boolean and the numeric variables it has been given. *)
From Coq Require Import Lqa.
From Verif Require Import Base Keys Sat SatSpec SatInv SatMain SatApi SatNext Reify Amo Run SatFacts ThSum MapTh.
From Verif Require Import Lin Qe Lra LraTab LraVal LraInv LraNew LraCmp LraApi LraRun LraEnd LraExec Ov OvInv OvEq OvRun OvExec OvStep Mix MixApi MixRun MixEnd MixExec MixSame.
Open Scope Q_scope.
#[local] Existing Instance stable_sort | 100.

Definition orders (om : list (nat * lit) -> list (nat * lit)) (oi : list nat -> list nat) : Prop := (forall m, Permutation m (om m)) /\ (forall l, Permutation l (oi l)).

(** What the network entails is what the client has been told, no less... *)
Theorem C67_models_respect (sr : sorter) : forall om oi ord Hord fuel tr s, orders om oi -> MTrace om oi ord Hord fuel tr s -> forall M y, msol ovC ord Hord fuel s 1 M y -> mtold tr M y.
Proof. intros om oi ord Hord fuel tr s [H1 H2]. apply mtold_all; assumption. Qed.
Print Assumptions C67_models_respect.
(** ... and no more. *)
Theorem C67_nothing_more (sr : sorter) : forall om oi ord Hord fuel tr s, orders om oi -> MTrace om oi ord Hord fuel tr s -> mmindful tr -> forall M y, mtold tr M y ->
  exists M' y', (forall v, In v (mvis tr) -> M' v = M v) /\ (forall x, In x (mknown tr) -> y' x == y x) /\ msol ovC ord Hord fuel s 1 M' y'.
Proof. intros om oi ord Hord fuel tr s [H1 H2]. apply mtold_enough; assumption. Qed.
Print Assumptions C67_nothing_more.
Theorem C67_propagate_true (sr : sorter) : forall om oi ord Hord fuel tr s fl s', orders om oi -> MTrace om oi ord Hord fuel tr s -> propagate (sum_ops ov_ops (lra_ops ord fuel)) fl s = Ok (s', true) ->
  exists o t, theories s' = [inl o; inr t] /\ exists d0, 0 < d0 /\ forall d, 0 < d -> d <= d0 -> let y x := at_eps d (vals t x) in
  forall e, In e tr ->
  match me_call e, me_ret e with
  | MSlack l, MX x => y x == lval y l
  | MCmp sd strict l r, MP p => (value s' p = LTrue -> cmpP sd strict (lval y l) (lval y r)) /\ (value s' p = LFalse -> ~ cmpP sd strict (lval y l) (lval y r))
  | _, _ => True
  end.
Proof. intros om oi ord Hord fuel tr s fl s' [H1 H2]. apply mpropagate_true; assumption. Qed.
Print Assumptions C67_propagate_true.
Theorem C67_total_is_solution (sr : sorter) : forall om oi ord Hord fuel tr s fl s', orders om oi -> MTrace om oi ord Hord fuel tr s -> propagate (sum_ops ov_ops (lra_ops ord fuel)) fl s = Ok (s', true) -> total s' ->
  exists o t, theories s' = [inl o; inr t] /\ exists d0, 0 < d0 /\ forall d, 0 < d -> d <= d0 -> let y x := at_eps d (vals t x) in
  msol ovC ord Hord fuel s' 1 (values s') y /\ mtold tr (values s') y.
Proof. intros om oi ord Hord fuel tr s fl s' [H1 H2]. apply mpropagate_total; assumption. Qed.
Print Assumptions C67_total_is_solution.
Theorem C67_false_is_unsat (sr : sorter) : forall om oi ord Hord fuel tr s fl s', orders om oi -> MTrace om oi ord Hord fuel tr s -> mmindful tr -> propagate (sum_ops ov_ops (lra_ops ord fuel)) fl s = Ok (s', false) ->
  forall M y, ~ mtold tr M y.
Proof. intros om oi ord Hord fuel tr s fl s' [H1 H2]. apply mpropagate_false; assumption. Qed.
Print Assumptions C67_false_is_unsat.
Theorem C67_rejected_clause (sr : sorter) : forall om oi ord Hord fuel tr s ls s', orders om oi -> MTrace om oi ord Hord fuel tr s -> mmindful tr -> mlegal ord Hord fuel s (MO (OSat (CClause ls))) ->
  (forall p, In p ls -> In (lvar p) (mvis tr)) -> new_clause s ls = Ok (s', false) -> forall M y, mtold tr M y -> ~ mcl M ls.
Proof. intros om oi ord Hord fuel tr s ls s' [H1 H2]. apply mclause_false; assumption. Qed.
Print Assumptions C67_rejected_clause.
(** A literal that is true, and the absence of a value from the domain of an object variable, follow from what the client was told and the decisions:
    of the arithmetic constraints as well. *)
Theorem C67_deductions_follow (sr : sorter) : forall om oi ord Hord fuel tr s, orders om oi -> MTrace om oi ord Hord fuel tr s -> mmindful tr -> forall M y, mtold tr M y ->
  (forall d, In d (decisions s) -> In (lvar d) (mvis tr) /\ mlit M d = true) ->
  (forall q, In (lvar q) (mvis tr) -> value s q = LTrue -> mlit M q = true) /\
  (forall o t v m x, theories s = [inl o; inr t] -> mdom_of tr v = Some m -> takes M m x -> exists vals, ov_value om s o v = Some vals /\ In x vals).
Proof.
  intros om oi ord Hord fuel tr s [H1 H2] HT Hm M y Ht Hd. split.
  - intros q Hq Hv. apply (mimplied om oi H1 H2 ord Hord fuel tr s q HT Hm Hq Hv M y Ht Hd).
  - intros o t v m x Et Em Hx. apply (mvalue_sound om oi H1 H2 ord Hord fuel tr s o t v m M y x HT Hm Et Em Ht Hd Hx).
Qed.
Print Assumptions C67_deductions_follow.
(** The calls of one theory leave the other one as it is. *)
Theorem C67_theories_kept_apart (sr : sorter) : forall om oi ord Hord fuel tr s c fl s' r o t, orders om oi -> MTrace om oi ord Hord fuel tr s -> mlegal ord Hord fuel s c -> malive ord Hord fuel s' r ->
  mstep om oi ord fuel fl s c = Ok (s', r) -> theories s = [inl o; inr t] ->
  exists o' t', theories s' = [inl o'; inr t'] /\ match c with MO (OSat _) => o' = o | MO _ => t' = t | _ => o' = o end.
Proof. intros om oi ord Hord fuel tr s c fl s' r o t [H1 H2]. apply mapart; assumption. Qed.
Print Assumptions C67_theories_kept_apart.
Theorem C67_calls_are_answered (sr : sorter) : forall om oi ord Hord fuel tr s c fl, orders om oi -> (forall t, (6 ^ nx t <= fuel t)%nat) -> MTrace om oi ord Hord fuel tr s -> mlegal ord Hord fuel s c ->
  match c with
  | MO (OSat c) => (fuel_bound s c < fl)%nat
  | MO (ONew _ true) => exists M, smodels (sumC ov_ops (lra_ops ord fuel) ovC (lraT ord Hord fuel)) s M
  | MO (OEq a b) => a <> b -> exists M da db, smodels (sumC ov_ops (lra_ops ord fuel) ovC (lraT ord Hord fuel)) s M /\ mdom_of tr a = Some da /\ mdom_of tr b = Some db /\ compat M da db
  | _ => True
  end -> exists s' r, mstep om oi ord fuel fl s c = Ok (s', r).
Proof. intros om oi ord Hord fuel tr s c fl [H1 H2] Hf HT. apply (mcall_answers om oi H1 H2 ord Hord fuel tr s c fl HT Hf). Qed.
Print Assumptions C67_calls_are_answered.
(** The calls of this model are those of the model of the arithmetic theory alone. *)
Theorem C67_same_calls : forall BT (s : st lra) i, let up := mp (@inr BT lra) in
  (mx_new_var (up s) i = rmp (m1 inr) (lra_new_var s i)) /\ (forall l, mx_new_slack (up s) i l = rmp (m1 inr) (lra_new_slack s i l)) /\
  (forall sd strict l r, mx_cmp (up s) i sd strict l r = rmp (m1 inr) (lra_cmp s i sd strict l r)).
Proof. intros BT s i up. split; [apply up_new_var|]. split; [apply up_new_slack|apply up_cmp]. Qed.
Print Assumptions C67_same_calls.

Definition b (v : nat) : lit := mk_lit v true.
Definition nb (v : nat) : lit := mk_lit v false.
(** x in {1,2,3}; x = 1 -> z0 <= 1, x = 2 -> z0 >= 5, x = 3 -> z0 + z1 >= 9; 2 <= z0 <= 4: only x = 3 is left, and z0 + z1 is at least 9.  With z1 <= 3 nothing is left. *)
Definition c67 : list mcall := [MO (ONew [1; 2; 3]%nat true); MO (OSat CPropagate); MVar; MVar;
  MCmp Up false (X 0) (K 1); MCmp Lo false (X 0) (K 5); MCmp Lo false (lin_add (X 0) (X 1)) (K 9);
  MO (OSat (CClause [nb 1; b 5])); MO (OSat (CClause [nb 2; b 6])); MO (OSat (CClause [nb 3; b 7]));
  MCmp Lo false (X 0) (K 2); MCmp Up false (X 0) (K 4); MO (OSat (CClause [b 8])); MO (OSat (CClause [b 9]))].
Definition c67f : list mcall := c67 ++ [MCmp Up false (X 1) (K 3); MO (OSat (CClause [b 10]))].
Definition mtotalb (s : mst) : bool := forallb (fun v => negb (lbool_eqb (assigns s v) LUndef)) (seq 0 (nv s)).
Lemma mtotalb_ok (s : mst) : mtotalb s = true -> total s.
Proof. intros H v Hv. unfold mtotalb in H. rewrite forallb_forall in H. specialize (H v ltac:(apply in_seq; lia)). intros K. rewrite K in H. discriminate H. Qed.
Definition mpsol (s : mst) : mst := match propagate mops0 100 s with Ok (s', _) => s' | _ => s end.
Example C67_case : orders om0 oi0 /\ MTrace0 (mevents c67) (mafter c67) /\ mmindful (mevents c67) /\
  (let s' := mpsol (mafter c67) in propagate mops0 100 (mafter c67) = Ok (s', true) /\ total s' /\ ov_value om0 s' (moth s') 0 = Some [3%nat] /\ map (vals (mlth s')) [0; 1; 2]%nat = [(4, 0); (5, 0); (9, 0)]).
Proof.
  split; [exact (conj Hom0 Hoi0)|]. split; [apply mafter_trace; vm_compute; reflexivity|]. split; [apply mmindfulb_ok; vm_compute; reflexivity|]. cbv zeta.
  split; [vm_compute; reflexivity|]. split; [apply mtotalb_ok; vm_compute; reflexivity|]. split; vm_compute; reflexivity.
Qed.
Example C67_case_false : MTrace0 (mevents c67f) (mafter c67f) /\ mmindful (mevents c67f) /\ propagate mops0 100 (mafter c67f) = Ok (mpsol (mafter c67f), false).
Proof.
  split; [apply mafter_trace; vm_compute; reflexivity|]. split; [apply mmindfulb_ok; vm_compute; reflexivity|]. vm_compute; reflexivity.
Qed.
