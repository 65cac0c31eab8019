(** Properties of the SAT core (C01-C14, C20-C23, C48, C62).  Nothing but statements, closed by lemmas. *)
From Coq Require Import NArith String.
From Verif Require Import SatKept.
From Verif Require Import Base Lit Keys Sat SatSpec SatInv SatLoop SatMain SatApi SatApi2 SatNext SatSimp Stack Reify Amo Run Listen StackRun Learn SatFacts SatProps Exec Refute.
#[local] Existing Instance stable_sort | 100.

(** ** C01 literals *)
Theorem C01_literal_encoding : forall v w b c, (v < max_word / 2)%N -> (w < max_word / 2)%N ->
  unpack_var (pack v b) = v /\ unpack_sign (pack v b) = b /\ (pack v b = pack w c <-> v = w /\ b = c) /\
  is_undefined (pack v b) = false /\
  wneg (pack v b) = pack v (negb b) /\ wneg (wneg (pack v b)) = pack v b /\ wneg (pack v b) <> pack v b /\
  is_undefined pack_default = true /\ W_TRUE = wneg W_FALSE /\ W_TRUE <> W_FALSE.
Proof. exact literal_encoding. Qed.
Print Assumptions C01_literal_encoding.
(** The pairs used by the model are the packed words. *)
Theorem C01_model_literals : forall p q, small p -> small q ->
  (word_of p = word_of q <-> p = q) /\ word_of (negl p) = wneg (word_of p) /\
  unpack_var (word_of p) = N.of_nat (lvar p) /\ unpack_sign (word_of p) = lsgn p /\ is_undefined (word_of p) = false /\
  word_of p = N.of_nat (lindex p) /\ (word_of p <? word_of q)%N = (lindex p <? lindex q).
Proof. exact word_ok. Qed.
Print Assumptions C01_model_literals.
Example C01_case : (5 < max_word / 2)%N /\ pack 5 true = 11%N /\ wneg 11 = 10%N /\ small (mk_lit 5 true) /\ word_of (mk_lit 5 false) = 10%N.
Proof. repeat split; vm_compute; reflexivity. Qed.

(** ** C02 *)
Theorem C02_value_of_negation : forall T (s : st T) p, value s (negl p) = lneg (value s p).
Proof. exact value_negation. Qed.
Print Assumptions C02_value_of_negation.
Example C02_case : map (value (after c13)) [b 1; nb 1; b 2; nb 2] = [LTrue; LFalse; LUndef; LUndef].
Proof. vm_compute; reflexivity. Qed.

(** ** C03 *)
Theorem C03_new_clause : forall T ops (C : contract ops) (s0 s : st T) ls, good C s0 -> Reach C s0 s ->
  dlevel s = 0 -> in_scope s ls ->
  exists s' b, new_clause s ls = Ok (s', b) /\
    (b = true -> forall M, smodels C s' M <-> smodels C s M /\ mcl M ls) /\
    (b = false -> s' = s /\ forall M, ~ (smodels C s M /\ mcl M ls)).
Proof. exact clause_meaning. Qed.
Print Assumptions C03_new_clause.
Example C03_case : Reach pureC pinit (after [CVar; CVar; CClause [nb 2]; CPropagate]) /\
  in_scope (after [CVar; CVar; CClause [nb 2]; CPropagate]) [b 2; b 1; b 1; b 2] /\
  exists s', new_clause (after [CVar; CVar; CClause [nb 2]; CPropagate]) [b 2; b 1; b 1; b 2] = Ok (s', true) /\ value s' (b 1) = LTrue.
Proof. split; [apply after_reach; vm_compute; reflexivity|]. split; [apply in_range_scope; vm_compute; reflexivity|]. eexists. split; vm_compute; reflexivity. Qed.

(** ** C04 *)
Theorem C04_search_preserves_models : forall T ops (C : contract ops) (s0 s : st T) fuel c s' r, good C s0 -> Reach C s0 s ->
  search_call c -> legal C s c -> step (ops := ops) fuel s c = Ok (s', r) -> forall M, smodels C s' M <-> smodels C s M.
Proof. exact search_models. Qed.
Print Assumptions C04_search_preserves_models.
(** b1 decided; assuming b3 is refuted by the two clauses: the core learns not b3 and goes back to root level. *)
Example C04_case : good pureC pinit /\ Reach pureC pinit (after c13) /\ legal pureC (after c13) (CAssume (b 3)) /\
  exists s', step (ops := pure_ops) 50 (after c13) (CAssume (b 3)) = Ok (s', RBool true) /\ decisions s' = [] /\ map (value s') [b 1; b 3] = [LUndef; LFalse].
Proof. split; [exact pinit_good|]. split; [apply after_reach; vm_compute; reflexivity|]. split; [apply legalb_ok; vm_compute; reflexivity|]. eexists. split; [vm_compute; reflexivity|]. split; vm_compute; reflexivity. Qed.

(** ** C05 *)
Theorem C05_false_is_final : forall T ops (C : contract ops) (s0 s : st T) fuel s', good C s0 -> Reach C s0 s ->
  propagate ops fuel s = Ok (s', false) -> forall M, ~ smodels C s M.
Proof. exact false_final. Qed.
Print Assumptions C05_false_is_final.
(** From creation, without theories: no assignment satisfies everything that has been stated. *)
Theorem C05_false_is_final_client (sr : sorter) : forall tr s fuel s', Trace pureC pinit tr s -> simple tr ->
  propagate pure_ops fuel s = Ok (s', false) -> forall M, ~ stated tr M.
Proof. exact client_false. Qed.
Print Assumptions C05_false_is_final_client.
Definition c05 : list call := [CVar; CVar; CClause [b 1; b 2]; CClause [b 1; nb 2]; CClause [nb 1; b 2]; CClause [nb 1]].
Example C05_case : exists tr, Trace pureC pinit tr (after c05) /\ simple tr /\ length tr = 6 /\ exists s', propagate pure_ops 50 (after c05) = Ok (s', false).
Proof.
  destruct (exec c05) as [[tr s]|] eqn:E; [|vm_compute in E; discriminate]. exists tr.
  assert (Es : after c05 = s) by (unfold after; rewrite E; reflexivity). rewrite Es.
  split; [apply (exec_trace c05), E|]. assert (Et : Some (map ev_call tr) = Some (rev c05) \/ Some (map ev_call tr) = Some c05).
  { assert (H : option_map (fun x => map ev_call (fst x)) (exec c05) = Some (map ev_call tr)) by (rewrite E; reflexivity). rewrite <- H.
    first [left; vm_compute; reflexivity|right; vm_compute; reflexivity]. }
  split; [|split; [|subst s; eexists; vm_compute; reflexivity]].
  - intros e He. apply (in_map ev_call) in He. destruct Et as [Et|Et]; injection Et as Et; rewrite Et in He; cbn in He; repeat (destruct He as [<-|He]; [exact I|]); contradiction.
  - destruct Et as [Et|Et]; injection Et as Et; rewrite <- (map_length ev_call), Et; reflexivity.
Qed.

(** ** C06 *)
Theorem C06_termination : forall T ops (C : contract ops) (s0 s : st T), good C s0 -> Reach C s0 s -> th_total C ->
  exists s' b, forall fuel, 2 * (nv s * nv s ^ dlevel s) + nv s < fuel -> propagate ops fuel s = Ok (s', b).
Proof. exact terminates. Qed.
Print Assumptions C06_termination.
Theorem C06_termination_no_theories (sr : sorter) : forall s, Reach pureC pinit s ->
  exists s' b, forall fuel, 2 * (nv s * nv s ^ dlevel s) + nv s < fuel -> propagate pure_ops fuel s = Ok (s', b).
Proof. exact terminates_pure. Qed.
Print Assumptions C06_termination_no_theories.
(** not b3 is pending: propagation makes b4 true; the second clause keeps two open literals. *)
Definition c07 : list call := [CVar; CVar; CVar; CVar; CClause [b 3; b 4]; CClause [b 1; b 2; b 3]; CClause [nb 3]].
Example C06_case : th_total pureC /\ Reach pureC pinit (after c07) /\ nv (after c07) = 5 /\ propagate pure_ops 1 (after c07) = OOF /\ exists s', propagate pure_ops 10 (after c07) = Ok (s', true).
Proof. split; [exact pure_total|]. split; [apply after_reach; vm_compute; reflexivity|]. split; [vm_compute; reflexivity|]. split; [vm_compute; reflexivity|]. eexists. vm_compute. reflexivity. Qed.

(** ** C07 *)
Theorem C07_unit_propagation_complete : forall T ops (C : contract ops) (s0 s : st T) fuel s', good C s0 -> Reach C s0 s ->
  propagate ops fuel s = Ok (s', true) -> forall c, In c (constrs s') ->
  (exists q, In q (cls s' c) /\ value s' q = LTrue) \/
  (exists x y, In x (cls s' c) /\ In y (cls s' c) /\ x <> y /\ lvar x <> lvar y /\ value s' x = LUndef /\ value s' y = LUndef).
Proof. exact unit_complete. Qed.
Print Assumptions C07_unit_propagation_complete.
Theorem C07_total_assignment_is_model (sr : sorter) : forall tr s fuel s', Trace pureC pinit tr s -> simple tr ->
  propagate pure_ops fuel s = Ok (s', true) -> total s' -> stated tr (values s').
Proof. exact client_model. Qed.
Print Assumptions C07_total_assignment_is_model.
Example C07_case : Reach pureC pinit (after c07) /\ exists s', propagate pure_ops 50 (after c07) = Ok (s', true) /\
  map (value (after c07)) [b 3; b 4] = [LFalse; LUndef] /\ map (value s') [b 3; b 4; b 1] = [LFalse; LTrue; LUndef] /\ map (cls s') (constrs s') = [[b 4; b 3]; [b 1; b 2; b 3]].
Proof. split; [apply after_reach; vm_compute; reflexivity|]. eexists. split; [vm_compute; reflexivity|]. split; [vm_compute; reflexivity|]. split; [vm_compute; reflexivity|]. vm_compute. reflexivity. Qed.

(** ** C08: the decision number [k] (newest first) belongs to the level [dlevel s - k]. *)
Theorem C08_values_are_consequences : forall T ops (C : contract ops) (s0 s : st T) M q, good C s0 -> Reach C s0 s ->
  smodels C s M -> value s q = LTrue ->
  (forall k d, nth_error (decisions s) k = Some d -> dlevel s - k <= level s (lvar q) -> mlit M d = true) -> mlit M q = true.
Proof. exact values_implied. Qed.
Print Assumptions C08_values_are_consequences.
Theorem C08_values_are_consequences_client (sr : sorter) : forall tr s q M, Trace pureC pinit tr s -> simple tr -> value s q = LTrue -> stated tr M ->
  (forall k d, nth_error (decisions s) k = Some d -> dlevel s - k <= level s (lvar q) -> mlit M d = true) -> mlit M q = true.
Proof. exact client_implied. Qed.
Print Assumptions C08_values_are_consequences_client.
Definition c08 : list call := [CVar; CVar; CVar; CVar; CClause [nb 1; b 2]; CClause [nb 2; nb 3; b 4]; CPropagate; CAssume (b 1); CAssume (b 3)].
Example C08_case : Reach pureC pinit (after c08) /\ decisions (after c08) = [b 3; b 1] /\ map (value (after c08)) [b 2; b 4] = [LTrue; LTrue] /\ map (level (after c08)) [2; 4] = [1; 2] /\
  smodels pureC (after c08) (asg [false; true; true; true; true]) /\ smodels pureC (after c08) (asg [false; true; true; false; false]) /\ smodels pureC (after c08) (asg [false; false; false; true; false]).
Proof. split; [apply after_reach; vm_compute; reflexivity|]. split; [vm_compute; reflexivity|]. split; [vm_compute; reflexivity|]. split; [vm_compute; reflexivity|]. split; [|split]; apply reach_model; vm_compute; reflexivity. Qed.

(** ** C09: every conflict analysed by a call of propagate() or assume(). *)
Theorem C09_learned_clause_asserting : forall T ops (C : contract ops) (s0 s : st T) fuel x lits, good C s0 -> Reach C s0 s ->
  In (x, lits) (conflicts (ops := ops) fuel s) -> asserting C x lits.
Proof. exact learned_propagate. Qed.
Print Assumptions C09_learned_clause_asserting.
Theorem C09_learned_clause_asserting_assume : forall T ops (C : contract ops) (s0 s : st T) fuel p x lits, good C s0 -> Reach C s0 s ->
  legal C s (CAssume p) -> In (x, lits) (conflicts (ops := ops) fuel (@assumed T ops s p)) -> asserting C x lits.
Proof. exact learned_assume. Qed.
Print Assumptions C09_learned_clause_asserting_assume.
Example C09_case : exists x lits, In (x, lits) (conflicts (ops := pure_ops) 50 (@assumed _ pure_ops (after c13) (b 3))).
Proof. eexists; eexists. vm_compute. left. reflexivity. Qed.

(** ** C10 *)
Theorem C10_pop_undoes_assume : forall T ops (C : contract ops) (s0 s s' : st T) p fuel, good C s0 -> Reach C s0 s -> legal C s (CAssume p) ->
  assume ops fuel s p = Ok (s', true) -> dlevel s' = S (dlevel s) ->
  exists s'', pop ops s' = Ok s'' /\ same_state s s'' /\ (forall M, smodels C s'' M <-> smodels C s M).
Proof. exact pop_assume. Qed.
Print Assumptions C10_pop_undoes_assume.
Example C10_case : Reach pureC pinit (after (removelast c08)) /\
  legal pureC (after (removelast c08)) (CAssume (b 3)) /\ exists s', assume pure_ops 50 (after (removelast c08)) (b 3) = Ok (s', true) /\
  dlevel s' = S (dlevel (after (removelast c08))) /\ dlevel s' = 2 /\ length (trail s') = 2 + length (trail (after (removelast c08))).
Proof. split; [apply after_reach; vm_compute; reflexivity|]. split; [apply legalb_ok; vm_compute; reflexivity|]. eexists. split; [vm_compute; reflexivity|]. split; [vm_compute; reflexivity|]. split; [vm_compute; reflexivity|]. vm_compute. reflexivity. Qed.

(** ** C11 *)
Theorem C11_no_undefined_behaviour : forall T ops (C : contract ops) (s0 s : st T) fuel c, good C s0 -> Reach C s0 s ->
  legal C s c -> step (ops := ops) fuel s c <> UB.
Proof. exact no_ub. Qed.
Print Assumptions C11_no_undefined_behaviour.
Theorem C11_calls_return (sr : sorter) : forall tr s c fuel, Trace pureC pinit tr s -> legal pureC s c -> fuel_bound s c < fuel ->
  exists s' r, step (ops := pure_ops) fuel s c = Ok (s', r).
Proof. exact client_total. Qed.
Print Assumptions C11_calls_return.
Example C11_case : Reach pureC pinit (after c08) /\ legal pureC (after c08) CNext /\ legal pureC (after c08) (CCheck [b 4; b 2]) /\ legal pureC (after c08) CPop /\ fuel_bound (after c08) CPop = 256.
Proof. split; [apply after_reach; vm_compute; reflexivity|]. split; [apply legalb_ok; vm_compute; reflexivity|]. split; [apply legalb_ok; vm_compute; reflexivity|]. split; [apply legalb_ok; vm_compute; reflexivity|]. vm_compute. reflexivity. Qed.
(** The precondition on next() (no redundant decision) is not enforced by the code. *)
Theorem C11_next_redundant_refuted : exists s, Reach pureC pinit s /\ step (ops := pure_ops) 50 s CNext = UB.
Proof. exact next_redundant_refuted. Qed.
Print Assumptions C11_next_redundant_refuted.

(** ** C12, C13 *)
Theorem C12_check : forall T ops (C : contract ops) (s0 s : st T) fuel ls s' r, good C s0 -> Reach C s0 s -> legal C s (CCheck ls) ->
  check ops fuel s ls = Ok (s', r) ->
  (r = false -> forall M, smodels C s M -> exists d, In d (decisions s ++ ls) /\ mlit M d = false) /\
  (r = true -> same_state s s') /\ (forall M, smodels C s' M <-> smodels C s M).
Proof. exact check_sound. Qed.
Print Assumptions C12_check.
Example C12_case : Reach pureC pinit (after (removelast c08)) /\ legal pureC (after (removelast c08)) (CCheck [b 3; b 4]) /\
  (exists s', check pure_ops 50 (after (removelast c08)) [b 3; b 4] = Ok (s', true)) /\
  exists s', check pure_ops 50 (after (removelast c08)) [b 3; nb 4] = Ok (s', false).
Proof. split; [apply after_reach; vm_compute; reflexivity|]. split; [apply legalb_ok; vm_compute; reflexivity|]. split; eexists; vm_compute; reflexivity. Qed.
(** What does hold: the decisions that remain are the oldest ones, and what was known at their levels still is.
    (The full statement would have dlevel s' = dlevel s.) *)
Theorem C13_failed_check_partial : forall T ops (C : contract ops) (s0 s : st T) fuel ls s', good C s0 -> Reach C s0 s -> legal C s (CCheck ls) ->
  check ops fuel s ls = Ok (s', false) ->
  dlevel s' <= dlevel s /\ decisions s' = skipn (dlevel s - dlevel s') (decisions s) /\
  (forall q, value s q = LTrue -> level s (lvar q) <= dlevel s' -> value s' q = LTrue /\ level s' (lvar q) = level s (lvar q)).
Proof. exact failed_check. Qed.
Print Assumptions C13_failed_check_partial.
(** Two decisions, a failed check: the newer one is taken back. *)
Definition c13b : list call := [CVar; CVar; CVar; CVar; CClause [nb 1; nb 3; b 4]; CClause [nb 3; nb 4]; CPropagate; CAssume (b 1); CAssume (b 2)].
Example C13_case : Reach pureC pinit (after c13b) /\ legal pureC (after c13b) (CCheck [b 3]) /\ exists s', check pure_ops 50 (after c13b) [b 3] = Ok (s', false) /\
  decisions (after c13b) = [b 2; b 1] /\ decisions s' = [b 1] /\ map (value s') [b 1; b 3] = [LTrue; LFalse].
Proof. split; [apply after_reach; vm_compute; reflexivity|]. split; [apply legalb_ok; vm_compute; reflexivity|]. eexists. split; [vm_compute; reflexivity|]. split; [vm_compute; reflexivity|]. split; [vm_compute; reflexivity|]. vm_compute. reflexivity. Qed.
Theorem C13_failed_check_refuted : exists s s', Reach pureC pinit s /\ legal pureC s (CCheck [b 3]) /\
  step (ops := pure_ops) 50 s (CCheck [b 3]) = Ok (s', RBool false) /\ decisions s = [b 1] /\ decisions s' = [] /\ exists M, smodels pureC s' M.
Proof. exact check_decisions_refuted. Qed.
Print Assumptions C13_failed_check_refuted.

(** ** C14 *)
Theorem C14_next : forall T ops (C : contract ops) (s0 s : st T) fuel s' r, good C s0 -> Reach C s0 s -> legal C s CNext ->
  next ops fuel s = Ok (s', r) ->
  (dlevel s = 0 -> s' = s /\ r = false) /\
  (dlevel s <> 0 -> (forall M, smodels C s' M <-> smodels C s M /\ exists d, In d (decisions s) /\ mlit M d = false) /\
     (r = false -> forall M, ~ smodels C s' M) /\ dlevel s' < dlevel s).
Proof. exact next_excludes. Qed.
Print Assumptions C14_next.
Example C14_case : Reach pureC pinit (after c08) /\ legal pureC (after c08) CNext /\ dlevel (after c08) = 2 /\ exists s', next pure_ops 50 (after c08) = Ok (s', true) /\
  map (value s') [b 1; b 2; b 3] = [LTrue; LTrue; LFalse] /\ map (cls s') (constrs s') = [[b 2; nb 1]; [b 4; nb 3; nb 2]; [nb 3; nb 1]].
Proof. split; [apply after_reach; vm_compute; reflexivity|]. split; [apply legalb_ok; vm_compute; reflexivity|]. split; [vm_compute; reflexivity|]. eexists. split; [vm_compute; reflexivity|]. split; [vm_compute; reflexivity|]. vm_compute. reflexivity. Qed.

(** ** C20 *)
Theorem C20_keys_injective : forall o1 o2, key_of o1 = key_of o2 -> op_same o1 o2.
Proof. exact keys_injective. Qed.
Print Assumptions C20_keys_injective.
Example C20_case : key_of (OConj [b 1; nb 23]) = "&b1¬b23"%string /\ key_of (OConj [b 12; b 3]) <> key_of (OConj [b 1; b 23]).
Proof. split; [vm_compute; reflexivity|vm_compute; discriminate]. Qed.

(** ** C21 *)
Theorem C21_simplify_db : forall T ops (C : contract ops) (s0 s : st T) fuel s' r, good C s0 -> Reach C s0 s -> dlevel s = 0 ->
  simplify_db ops fuel s = Ok (s', r) ->
  (forall M, smodels C s' M <-> smodels C s M) /\
  (r = false -> forall M, ~ smodels C s' M) /\
  (r = true -> forall c, In c (constrs s') -> 2 <= length (cls s' c) /\ NoDup (cls s' c) /\ (forall q, In q (cls s' c) -> value s' q = LUndef) /\
     exists x y t, cls s' c = x :: y :: t /\ In c (watches s' (negl x)) /\ In c (watches s' (negl y))).
Proof. exact simplify_ok. Qed.
Print Assumptions C21_simplify_db.
Theorem C21_simplify_db_safe : forall T ops (C : contract ops) (s0 s : st T) fuel, good C s0 -> Reach C s0 s -> dlevel s = 0 -> simplify_db ops fuel s <> UB.
Proof. exact simplify_safe. Qed.
Print Assumptions C21_simplify_db_safe.
Definition c21 : list call := [CVar; CVar; CVar; CVar; CClause [b 1; b 2; b 3]; CClause [b 4; b 2]; CClause [nb 3]; CClause [b 4]; CPropagate].
Example C21_case : Reach pureC pinit (after c21) /\ dlevel (after c21) = 0 /\ exists s', simplify_db pure_ops 50 (after c21) = Ok (s', true) /\
  map (cls (after c21)) (constrs (after c21)) = [[b 1; b 2; b 3]; [b 2; b 4]] /\ map (cls s') (constrs s') = [[b 1; b 2]].
Proof. split; [apply after_reach; vm_compute; reflexivity|]. split; [vm_compute; reflexivity|]. eexists. split; [vm_compute; reflexivity|]. split; [vm_compute; reflexivity|]. vm_compute. reflexivity. Qed.

(** ** C22 *)
Theorem C22_stack_push (sr : sorter) : forall k s r fuel, SReach k -> k = s :: r -> prop_q s = [] -> 0 < fuel ->
  exists s', stack_push pure_ops fuel k = Ok (s' :: k) /\ dlevel s' = 0 /\ (forall p, value s' p = value s p) /\
    (forall M, smodels pureC s' M <-> smodels pureC s M /\ forall p, value s p = LTrue -> mlit M p = true).
Proof. exact stack_push_ok. Qed.
Print Assumptions C22_stack_push.
Theorem C22_stack_pop (sr : sorter) : forall fuel s r k1 k2 fuel' k3, sok (s :: r) SPush fuel k1 -> inner (s :: r) k1 k2 -> length k2 = length k1 ->
  sok k2 SPop fuel' k3 -> exists s', k3 = s' :: r /\ same_core s s'.
Proof. exact push_pop. Qed.
Print Assumptions C22_stack_pop.
(** b1 and b2 hold when the core is copied; in the copy not b3 is stated and b4 assumed. *)
Definition c22 : list call := [CVar; CVar; CVar; CVar; CClause [nb 1; b 2]; CClause [nb 2; b 3; b 4]; CPropagate; CAssume (b 1)].
Example C22_case : SReach [after c22] /\ prop_q (after c22) = [] /\ dlevel (after c22) = 1 /\ exists s1 s2 k3,
  sok [after c22] SPush 50 [s1; after c22] /\ inner [after c22] [s1; after c22] [s2; after c22] /\ sok [s2; after c22] SPop 50 k3 /\
  map (value s1) [b 1; b 2; b 3] = [LTrue; LTrue; LUndef] /\ map (value s2) [b 1; b 2; b 3; b 4] = [LTrue; LTrue; LFalse; LTrue].
Proof.
  split; [apply reach_stack, after_reach; vm_compute; reflexivity|]. split; [vm_compute; reflexivity|]. split; [vm_compute; reflexivity|].
  eexists. eexists. eexists. split; [apply sok_push; [vm_compute; reflexivity|apply Nat.lt_0_succ|vm_compute; reflexivity]|]. split; [|split; [|split]].
  - eapply (in_step _ _ _ (SCall CPropagate) 50).
    + eapply (in_step _ _ _ (SCall (CClause [nb 3])) 50); [apply in_refl|eapply sok_call; [split; [vm_compute; reflexivity|apply in_range_scope; vm_compute; reflexivity]|vm_compute; reflexivity|intros X; discriminate X]|apply le_n].
    + eapply sok_call; [exact I|vm_compute; reflexivity|intros X; discriminate X].
    + apply le_n.
  - apply sok_pop. vm_compute. reflexivity.
  - vm_compute. reflexivity.
  - vm_compute. reflexivity.
Qed.

(** ** C23 *)
Theorem C23_listeners : forall T (ops : theory_ops T) (ths : list T) rg s, LHist (ops := ops) (init ths) rg s ->
  (forall l v, In (l, v) rg -> last_told (log s) l v = assigns s v) /\
  (forall l v, alternate (notified (log s) l v)) /\
  (forall l v x, In (l, v, x) (log s) -> In (l, v) rg).
Proof. intros T ops ths rg s H. exact (listen_ok _ _ _ H). Qed.
Print Assumptions C23_listeners.
(** Listener 7 on b1 and b2; b1 assumed (b2 follows), taken back, then not b2 assumed. *)
Definition c23 : list (call + nat * nat) := [inl CVar; inl CVar; inl (CClause [nb 1; b 2]); inl CPropagate; inr (1, 7); inr (2, 7); inl (CAssume (b 1)); inl CPop; inl (CAssume (nb 2))].
Example C23_case : exists s, LHist (ops := pure_ops) (init []) [(7, 2); (7, 1)] s /\ notified (log s) 7 2 = [LFalse; LUndef; LTrue] /\ assigns s 2 = LFalse /\ notified (log s) 7 1 = [LFalse; LUndef; LTrue].
Proof.
  destruct (hist (init []) [] c23) as [[rg s]|] eqn:E; [|vm_compute in E; discriminate]. exists s.
  assert (Er : rg = [(7, 2); (7, 1)] /\ notified (log s) 7 2 = [LFalse; LUndef; LTrue] /\ assigns s 2 = LFalse /\ notified (log s) 7 1 = [LFalse; LUndef; LTrue]).
  { assert (X : option_map (fun x => (fst x, notified (log (snd x)) 7 2, assigns (snd x) 2, notified (log (snd x)) 7 1)) (hist (init []) [] c23) =
      Some ([(7, 2); (7, 1)], [LFalse; LUndef; LTrue], LFalse, [LFalse; LUndef; LTrue])) by (vm_compute; reflexivity).
    rewrite E in X. cbn [option_map fst snd] in X. injection X as X1 X2 X3 X4. auto. }
  destruct Er as (-> & A & B & D). split; [|auto]. apply (hist_ok (init []) c23 (init []) [] _ s); [apply LH_init|exact E].
Qed.

(** ** C62.  [Above C s0 d s]: from [s0] to [s] by legal calls, never below decision level [d]. *)
Theorem C62_values_kept : forall T ops (C : contract ops) (s0 s s' : st T) d q, good C s0 -> Reach C s0 s -> Above C s d s' ->
  value s q = LTrue -> level s (lvar q) <= d -> value s' q = LTrue /\ level s' (lvar q) = level s (lvar q).
Proof. intros T ops C s0 s s' d q G H H2. exact (above_kept C s s' d (reach_good C s0 s G H) H2 q). Qed.
Print Assumptions C62_values_kept.
(** In particular what is known at root level is known for ever. *)
Theorem C62_root_values_final : forall T ops (C : contract ops) (s0 s s' : st T) q, good C s0 -> Reach C s0 s -> Reach C s s' ->
  value s q = LTrue -> level s (lvar q) = 0 -> value s' q = LTrue /\ level s' (lvar q) = 0.
Proof. intros T ops C s0 s s' q G H. exact (root_final C s s' q (reach_good C s0 s G H)). Qed.
Print Assumptions C62_root_values_final.
(** b5 at root level; b1 assumed; then b2 assumed, which conflicts: the core jumps back to level 1, where b1 and b5 are still known and not b2 is learnt. *)
Definition c62 : list call := [CVar; CVar; CVar; CVar; CVar; CClause [b 5]; CClause [nb 1; nb 2; b 3]; CClause [nb 1; nb 2; b 4]; CClause [nb 3; nb 4]; CPropagate; CAssume (b 1)].
Example C62_case : Reach pureC pinit (after c62) /\ map (value (after c62)) [b 1; b 5; b 2] = [LTrue; LTrue; LUndef] /\ map (level (after c62)) [1; 5] = [1; 0] /\
  exists s', Above pureC (after c62) 1 s' /\ map (value s') [b 1; b 5; b 2] = [LTrue; LTrue; LFalse] /\ map (level s') [1; 5; 2] = [1; 0; 1].
Proof.
  split; [apply after_reach; vm_compute; reflexivity|]. split; [vm_compute; reflexivity|]. split; [vm_compute; reflexivity|].
  destruct (step (ops := pure_ops) 50 (after c62) (CAssume (b 2))) as [[s' r]| |] eqn:E; try (vm_compute in E; discriminate E). exists s'.
  assert (X : match step (ops := pure_ops) 50 (after c62) (CAssume (b 2)) with Ok (s', r) => r = RBool true /\ dlevel s' = 1 /\ map (value s') [b 1; b 5; b 2] = [LTrue; LTrue; LFalse] /\ map (level s') [1; 5; 2] = [1; 0; 1] | _ => False end) by (vm_compute; auto).
  rewrite E in X. destruct X as (Er & Ed & X). split; [|exact X]. eapply (Ab_step pureC _ 1 50 _ (CAssume (b 2))); [apply Ab_init; vm_compute; apply le_n|apply legalb_ok; vm_compute; reflexivity|exact E|intros Y; rewrite Er in Y; discriminate Y|rewrite Ed; apply le_n].
Qed.

(** ** C48 *)
Theorem C48_sticky_refuted : exists s s1 s2, Reach pureC pinit s /\
  step (ops := pure_ops) 50 s CPropagate = Ok (s1, RBool false) /\ dlevel s1 = 0 /\
  step (ops := pure_ops) 50 s1 CPropagate = Ok (s2, RBool true).
Proof. exact sticky_refuted. Qed.
Print Assumptions C48_sticky_refuted.
