(** C78: the order of the arguments of the calls that sort them.  Nothing but statements, closed by lemmas.  [sorts srt]: [srt] returns a
    permutation of its argument ordered by variable, which is all [std::sort] promises; the calls with an open sort are in Sort.v. *)
From Coq Require Import String Permutation.
From Verif Require Import Base Keys Sat SatSpec SatInv SatMain SatApi Reify Amo Run Exec Refute Sort SortEx.
#[local] Existing Instance stable_sort | 100.

(** What the client says is a set of literals: same answer and same network afterwards. *)
Theorem C78_new_clause : forall T (s : st T) l1 l2, (forall q, In q l1 <-> In q l2) -> new_clause s l1 = new_clause s l2.
Proof. exact @new_clause_set. Qed.
Print Assumptions C78_new_clause.
Theorem C78_new_conj : forall T (s : st T) l1 l2, (forall q, In q l1 <-> In q l2) -> new_conj s l1 = new_conj s l2.
Proof. exact @new_conj_set. Qed.
Print Assumptions C78_new_conj.
Theorem C78_new_disj : forall T (s : st T) l1 l2, (forall q, In q l1 <-> In q l2) -> new_disj s l1 = new_disj s l2.
Proof. exact @new_disj_set. Qed.
Print Assumptions C78_new_disj.
(** The order does not matter for the other two, unless an unassigned literal is given together with its negation. *)
Theorem C78_at_most_one_partial : forall T (s : st T) l1 l2, Permutation l1 l2 -> (forall q, In q l1 -> In (negl q) l1 -> value s q <> LUndef) ->
  new_at_most_one s l1 = new_at_most_one s l2.
Proof. exact @new_amo_perm. Qed.
Print Assumptions C78_at_most_one_partial.
Theorem C78_exactly_one_partial : forall T (s : st T) l1 l2, Permutation l1 l2 -> (forall q, In q l1 -> In (negl q) l1 -> value s q <> LUndef) ->
  new_exct_one s l1 = new_exct_one s l2.
Proof. exact @new_exct_perm. Qed.
Print Assumptions C78_exactly_one_partial.

(** Nor does the way the library sorts. *)
Theorem C78_any_sort : forall T srt, sorts srt -> forall (s : st T) ls,
  new_clause_by srt s ls = new_clause s ls /\ new_conj_by srt s ls = new_conj s ls /\ new_disj_by srt s ls = new_disj s ls.
Proof. intros T srt H s ls. exact (conj (new_clause_by_eq srt H s ls) (conj (new_conj_by_eq srt H s ls) (new_disj_by_eq srt H s ls))). Qed.
Print Assumptions C78_any_sort.
Theorem C78_any_sort_counting_partial : forall T srt, sorts srt -> forall (s : st T) ls, (forall q, In q ls -> In (negl q) ls -> value s q <> LUndef) ->
  new_at_most_one_by srt s ls = new_at_most_one s ls /\ new_exct_one_by srt s ls = new_exct_one s ls.
Proof. intros T srt H s ls U. exact (conj (new_amo_by_eq srt H s ls U) (new_exct_by_eq srt H s ls U)). Qed.
Print Assumptions C78_any_sort_counting_partial.

(** x, !x, x: in this order at most one forces x to be false, in the order x, x, !x it does not... *)
Theorem C78_order_refuted : exists s s1 s2 p, Reach pureC pinit s /\ legal pureC s (CAmo [b 1; nb 1; b 1]) /\
  Permutation [b 1; nb 1; b 1] [b 1; b 1; nb 1] /\
  new_at_most_one s [b 1; nb 1; b 1] = Ok (s1, p) /\ new_at_most_one s [b 1; b 1; nb 1] = Ok (s2, p) /\
  (forall M, smodels pureC s1 M -> mlit M p = true -> mlit M (b 1) = false) /\
  (exists M, smodels pureC s2 M /\ mlit M p = true /\ mlit M (b 1) = true).
Proof. exact amo_order_refuted. Qed.
Print Assumptions C78_order_refuted.
(** ... and for the same call two sorts differ. *)
Theorem C78_sort_refuted : exists srt1 srt2 s s1 s2 p, sorts srt1 /\ sorts srt2 /\ Reach pureC pinit s /\ legal pureC s (CAmo [b 1; nb 1; b 1]) /\
  new_at_most_one_by srt1 s [b 1; nb 1; b 1] = Ok (s1, p) /\ new_at_most_one_by srt2 s [b 1; nb 1; b 1] = Ok (s2, p) /\
  (forall M, smodels pureC s1 M -> mlit M p = true -> mlit M (b 1) = false) /\
  (exists M, smodels pureC s2 M /\ mlit M p = true /\ mlit M (b 1) = true).
Proof. exact amo_sort_refuted. Qed.
Print Assumptions C78_sort_refuted.
(** A true literal given twice counts twice. *)
Theorem C78_repetition_refuted : exists s, Reach pureC pinit s /\ legal pureC s (CAmo [TRUE_lit; TRUE_lit]) /\
  new_at_most_one s [TRUE_lit] = Ok (s, TRUE_lit) /\ new_at_most_one s [TRUE_lit; TRUE_lit] = Ok (s, FALSE_lit).
Proof. exact amo_repeat_refuted. Qed.
Print Assumptions C78_repetition_refuted.

(** A concrete case: four variables, one of them false; another sort, and other orders and repetitions. *)
Definition vs78 : st Empty_set := after [CVar; CVar; CVar; CVar; CClause [nb 3]; CPropagate].
Example C78_case : sorts sort78 /\ sort78 [nb 2; b 2; b 1] <> sort_by lvar [nb 2; b 2; b 1] /\
  (forall q, In q [nb 2; b 1; nb 4; b 3; b 1] <-> In q [b 3; nb 4; b 3; b 1; nb 2]) /\
  (exists s' p, new_disj vs78 [nb 2; b 1; nb 4; b 3; b 1] = Ok (s', p) /\ new_disj_by sort78 vs78 [b 3; nb 4; b 3; b 1; nb 2] = Ok (s', p) /\ p = b 5) /\
  (exists s' p, new_at_most_one vs78 [nb 2; b 1; nb 4; b 3] = Ok (s', p) /\ new_at_most_one_by sort78 vs78 [b 3; nb 4; b 1; nb 2] = Ok (s', p) /\ p = b 5).
Proof.
  split; [exact sort78_sorts|]. split; [vm_compute; discriminate|]. split; [intros q; cbn; tauto|].
  split; eexists; eexists; (split; [vm_compute; reflexivity|]; split; vm_compute; reflexivity).
Qed.
