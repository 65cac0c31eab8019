(** C72: a network with real arithmetic, end to end, when the history of the client may also contain equalities between literals,
    at-most-one and exactly-one constraints.  Nothing but statements, closed by lemmas.

    [FTrace ord Hord fuel tr s]: the calls [tr] (newest first; calls of the core and of the theory) lead from an empty network to [s].
    [lrespects tr M y]: the Boolean assignment [M] and the values [y] of the numeric variables agree with every answer of [tr].
    [lseen tr v], [known tr]: the Boolean and the numeric variables the client was given. *)
From Verif Require Import Base Keys Sat SatSpec SatInv SatMain SatApi Reify Amo Run SatFacts SatProps Exec Full FullEnd.
From Verif Require Import Lin Qe Lra LraCmp LraApi LraRun LraEnd LraExec LraFull.
#[local] Existing Instance stable_sort | 100.
Local Close Scope Q_scope.
Local Open Scope nat_scope.

(** Every solution of the network agrees with every answer... *)
Theorem C72_answers_hold (sr : sorter) : forall ord Hord fuel tr s, FTrace ord Hord fuel tr s -> forall M y, nsol ord Hord fuel s 0 M y -> lrespects tr M y.
Proof. exact ffull_sound. Qed.
Print Assumptions C72_answers_hold.
(** ... and the network says nothing more about the variables the client knows. *)
Theorem C72_nothing_more (sr : sorter) : forall ord Hord fuel tr s, FTrace ord Hord fuel tr s -> forall M y, lrespects tr M y ->
  exists M' y', (forall v, lseen tr v -> M' v = M v) /\ (forall x, In x (known tr) -> y' x == y x)%Q /\ nsol ord Hord fuel s 0 M' y'.
Proof. intros ord Hord fuel tr s H. apply (ffull_complete ord Hord fuel tr s H). Qed.
Print Assumptions C72_nothing_more.
(** Hence false answers and values mean what they should. *)
Theorem C72_propagate_false (sr : sorter) : forall ord Hord fuel tr s fl s', FTrace ord Hord fuel tr s -> propagate (lra_ops ord fuel) fl s = Ok (s', false) ->
  forall M y, ~ lrespects tr M y.
Proof. exact ffull_false. Qed.
Print Assumptions C72_propagate_false.
Theorem C72_clause_false (sr : sorter) : forall ord Hord fuel tr s ls s', FTrace ord Hord fuel tr s -> dlevel s = 0 -> in_scope s ls -> (forall q, In q ls -> lseen tr (lvar q)) ->
  new_clause s ls = Ok (s', false) -> forall M y, lrespects tr M y -> forall q, In q ls -> mlit M q = false.
Proof. exact ffull_clause. Qed.
Print Assumptions C72_clause_false.
Theorem C72_check_false (sr : sorter) : forall ord Hord fuel tr s fl ls s', FTrace ord Hord fuel tr s -> legal (lraT ord Hord fuel) s (CCheck ls) -> (forall q, In q (decisions s ++ ls) -> lseen tr (lvar q)) ->
  check (lra_ops ord fuel) fl s ls = Ok (s', false) -> forall M y, lrespects tr M y -> exists d, In d (decisions s ++ ls) /\ mlit M d = false.
Proof. exact ffull_check. Qed.
Print Assumptions C72_check_false.
Theorem C72_values (sr : sorter) : forall ord Hord fuel tr s q, FTrace ord Hord fuel tr s -> value s q = LTrue -> lseen tr (lvar q) -> (forall d, In d (decisions s) -> lseen tr (lvar d)) ->
  forall M y, lrespects tr M y -> (forall k d, nth_error (decisions s) k = Some d -> dlevel s - k <= level s (lvar q) -> mlit M d = true) -> mlit M q = true.
Proof. exact ffull_values. Qed.
Print Assumptions C72_values.
(** A total propagated state is a solution, its infinitesimals replaced by any small enough number. *)
Theorem C72_total_assignment (sr : sorter) : forall ord Hord fuel tr s fl s', FTrace ord Hord fuel tr s -> propagate (lra_ops ord fuel) fl s = Ok (s', true) -> total s' ->
  exists t, theories s' = [t] /\ exists d0, (0 < d0)%Q /\ forall d, (0 < d)%Q -> (d <= d0)%Q -> lrespects tr (values s') (fun x => at_eps d (vals t x)).
Proof. exact ffull_total. Qed.
Print Assumptions C72_total_assignment.

(** Two numeric variables; exactly one of x0 <= 3, x0 >= 5, x1 < x0, x1 > 7 stated; x0 <= 3 and x1 < x0 the same (an equality stated);
    then x0 >= 5 decided: x1 < x0 and x1 > 7 become false. *)
Definition c72 : list lcall := [LVar; LVar; LCmp Up false (X 0) (K 3); LCmp Lo false (X 0) (K 5); LCmp Up true (X 1) (X 0); LCmp Lo true (X 1) (K 7)].
Definition lits72 : list lit := rev (flat_map (fun e => match lev_ret e with LP p => [p] | _ => [] end) (fevs c72)).
Definition c72' : list lcall := c72 ++ [LSat (CExct lits72); LSat (CEq (nth 0 lits72 FALSE_lit) (nth 2 lits72 FALSE_lit))].
Definition top72 (n : nat) : lit := match nth_error (fevs c72') n with Some (mk_lev _ _ (LR (RLit p))) => p | _ => FALSE_lit end.
Definition c72'' : list lcall := c72' ++ [LSat (CClause [top72 1]); LSat (CClause [top72 0]); LSat CPropagate; LSat (CAssume (nth 1 lits72 FALSE_lit))].
Example C72_case : FTrace ord0 Hord0 fuel0 (fevs c72'') (fafter c72'') /\
  lits72 = map (fun v => mk_lit v true) [1; 2; 3; 4] /\ nv (fafter c72'') = 13 /\
  map (value (fafter c72'')) lits72 = [LFalse; LTrue; LFalse; LFalse] /\
  map (fun x => vals (lth (fafter c72'')) x) [0; 1] = [(5, 0); (5, 0)]%Q.
Proof. split; [apply fruns_trace; vm_compute; reflexivity|]. vm_compute. auto 10. Qed.
