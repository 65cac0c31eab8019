(** C71: what a client is told, end to end, when its history may also contain equalities between
    literals, at-most-one and exactly-one constraints.  Nothing but statements, closed by lemmas.

    [CTrace C s0 tr s]: the calls [tr] (newest first) lead from the consistent network [s0] to [s].
    [told e M]: the assignment [M] agrees with the answer recorded in the event [e].
    [seen s0 tr v]: the variable existed in [s0] or was given to the client by some answer of [tr].
    [respects C s0 tr M]: [M] is a model of [s0] and agrees with every answer. *)
From Verif Require Import Base Keys Sat SatSpec SatInv SatMain SatApi Reify Amo Run SatFacts SatProps Exec Full FullEnd.
#[local] Existing Instance stable_sort | 100.

(** Every model of the network agrees with every answer... *)
Theorem C71_answers_hold : forall T ops (C : contract ops) (s0 s : st T) tr, good C s0 -> CTrace C s0 tr s ->
  forall M, smodels C s M -> respects C s0 tr M.
Proof. intros T ops C s0 s tr. exact (full_sound C s0 tr s). Qed.
Print Assumptions C71_answers_hold.
(** ... and the network says nothing more about the variables the client knows. *)
Theorem C71_nothing_more : forall T ops (C : contract ops) (s0 s : st T) tr, good C s0 -> CTrace C s0 tr s ->
  forall M, respects C s0 tr M -> exists M', smodels C s M' /\ forall v, seen s0 tr v -> M' v = M v.
Proof. intros T ops C s0 s tr G HT M [H1 H2]. exact (proj2 (full_complete C s0 tr s G HT) M H1 H2). Qed.
Print Assumptions C71_nothing_more.
(** Hence false answers and values mean what they should. *)
Theorem C71_propagate_false : forall T ops (C : contract ops) (s0 s : st T) tr fuel s', good C s0 -> CTrace C s0 tr s ->
  propagate ops fuel s = Ok (s', false) -> forall M, ~ respects C s0 tr M.
Proof. intros T ops C s0 s tr fuel s'. exact (full_false C s0 tr s fuel s'). Qed.
Print Assumptions C71_propagate_false.
Theorem C71_clause_false : forall T ops (C : contract ops) (s0 s : st T) tr ls s', good C s0 -> CTrace C s0 tr s ->
  dlevel s = 0 -> in_scope s ls -> (forall q, In q ls -> seen s0 tr (lvar q)) ->
  new_clause s ls = Ok (s', false) -> forall M, respects C s0 tr M -> forall q, In q ls -> mlit M q = false.
Proof. intros T ops C s0 s tr ls s'. exact (full_clause C s0 tr s ls s'). Qed.
Print Assumptions C71_clause_false.
Theorem C71_check_false : forall T ops (C : contract ops) (s0 s : st T) tr fuel ls s', good C s0 -> CTrace C s0 tr s ->
  legal C s (CCheck ls) -> (forall q, In q (decisions s ++ ls) -> seen s0 tr (lvar q)) ->
  check ops fuel s ls = Ok (s', false) -> forall M, respects C s0 tr M -> exists d, In d (decisions s ++ ls) /\ mlit M d = false.
Proof. intros T ops C s0 s tr fuel ls s'. exact (full_check C s0 tr s fuel ls s'). Qed.
Print Assumptions C71_check_false.
Theorem C71_values : forall T ops (C : contract ops) (s0 s : st T) tr q, good C s0 -> CTrace C s0 tr s ->
  value s q = LTrue -> seen s0 tr (lvar q) -> (forall d, In d (decisions s) -> seen s0 tr (lvar d)) ->
  forall M, respects C s0 tr M ->
  (forall k d, nth_error (decisions s) k = Some d -> dlevel s - k <= level s (lvar q) -> mlit M d = true) -> mlit M q = true.
Proof. intros T ops C s0 s tr q. exact (full_values C s0 tr s q). Qed.
Print Assumptions C71_values.
Theorem C71_total_assignment (sr : sorter) : forall tr s fuel s', CTrace pureC pinit tr s ->
  propagate pure_ops fuel s = Ok (s', true) -> total s' -> respects pureC pinit tr (values s').
Proof. exact full_model. Qed.
Print Assumptions C71_total_assignment.

Definition b (v : nat) : lit := mk_lit v true.
Definition nb (v : nat) : lit := mk_lit v false.
(** At most one of five (product encoding: six hidden variables and more), stated true; exactly one
    of b1, not b2; an equality; then b1 decided. *)
Definition c71 : list call := [CVar; CVar; CVar; CVar; CVar; CAmo [b 1; b 2; b 3; b 4; b 5]].
Definition a71 : lit := match cevs c71 with mk_ev _ _ (RLit p) :: _ => p | _ => FALSE_lit end.
Definition c71' : list call := c71 ++ [CClause [a71]; CExct [b 1; nb 2]; CEq (b 3) (nb 4); CPropagate; CAssume (b 1)].
Example C71_case : CTrace pureC pinit (cevs c71') (cafter c71') /\
  nv (cafter c71') = 16 /\ map (fun e => ev_ret e) (cevs c71') =
    [RBool true; RBool true; RLit (b 15); RLit (b 14); RBool true; RLit (b 13); RVar 5; RVar 4; RVar 3; RVar 2; RVar 1] /\
  map (value (cafter c71')) [b 1; b 2; b 3; b 14; b 15] = [LTrue; LFalse; LFalse; LFalse; LFalse] /\
  smodels pureC (cafter c71') (asg [false; false; false; true; false; false; false; true; false; true; false; true; true; true; false; true]).
Proof. split; [apply cruns_trace; vm_compute; reflexivity|]. split; [vm_compute; reflexivity|]. split; [vm_compute; reflexivity|]. split; [vm_compute; reflexivity|].
  apply modelb_ok; [|vm_compute; reflexivity]. assert (E : cruns c71' = true) by (vm_compute; reflexivity).
  pose proof (cruns_trace c71' E) as HT. apply (ctrace_good (pureC (sr := stable_sort))) in HT; [|exact pinit_good]. exact (t_out _ (i_t _ _ (g_inv _ _ HT))).
Qed.
