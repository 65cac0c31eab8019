(** C60: what the core tells the theories (the public extension point [theory]).  Nothing but statements, closed by lemmas, and concrete cases. *)
From Verif Require Import Base Keys Sat SatSpec SatInv SatPop SatLoop SatMain SatApi SatNext Reify Amo Run ThSum RecTh.
#[local] Existing Instance stable_sort | 100.

(** ** C60: next to any theories that meet the contract, theories that record what they are told.  [bs]: the (theory, variable) pairs
    bound so far; several theories may be bound to one variable.  One group of literals per level; every assigned bound variable that is not
    pending has been told to each of the theories bound to it, in the group of its level; nothing else is in the groups. *)
Theorem C60_theories_are_told (sr : sorter) : forall T (ops : theory_ops T) (C : contract ops) (s0 : st (rec + T)) bs s i t,
  good (sumC rec_ops ops recC C) s0 -> (forall i t, nth_error (theories s0) i = Some (inl t) -> ratoms t = []) -> RHist C s0 bs s ->
  nth_error (theories s) i = Some (inl t) ->
  length (rlev t) = S (dlevel s) /\
  (forall v l, In (i, v) bs -> lvar l = v -> value s l = LTrue -> ~ In l (prop_q s) ->
     exists j ps, nth_error (rlev t) j = Some ps /\ In l ps /\ level s v + j = dlevel s) /\
  (forall j ps l, nth_error (rlev t) j = Some ps -> In l ps -> In (i, lvar l) bs /\ value s l = LTrue /\ level s (lvar l) + j = dlevel s).
Proof. intros T ops C s0 bs s i t. apply rec_told. Qed.
Print Assumptions C60_theories_are_told.

Definition b (v : nat) : lit := mk_lit v true.
Definition nb (v : nat) : lit := mk_lit v false.
(** Theories 0 and 1 are bound to b2, theory 1 also to b3; b1 implies b2; b3 is stated; b1 is assumed; then b4, bound late by theory 0, is assumed false. *)
Definition c60 : list (call + nat * nat) :=
  [inl CVar; inl CVar; inl CVar; inl CVar; inr (0, 2); inr (1, 2); inr (1, 3); inl (CClause [nb 1; b 2]); inl (CClause [b 3]); inl CPropagate; inl (CAssume (b 1)); inr (0, 4); inl (CAssume (nb 4))].
Example C60_case : good eRC (rec_init 2) /\ (forall i t, nth_error (theories (rec_init 2)) i = Some (inl t) -> ratoms t = []) /\
  exists bs s, RHist pureC (rec_init 2) bs s /\ bs = [(0, 4); (1, 3); (1, 2); (0, 2)] /\ dlevel s = 2 /\ prop_q s = [] /\
    theories s = [inl (mk_rec [4; 2] [[nb 4]; [b 2]; []]); inl (mk_rec [3; 2] [[]; [b 2]; [b 3]])].
Proof.
  destruct (rec_init_good 2) as [G H]. split; [exact G|]. split; [exact H|].
  assert (HR := rexec_ok (rec_init 2) c60 [] (rec_init 2) (RH_init _ _)).
  assert (E : match rexec (rec_init 2) [] c60 with Some (bs, s) => bs = [(0, 4); (1, 3); (1, 2); (0, 2)] /\ dlevel s = 2 /\ prop_q s = [] /\
    theories s = [inl (mk_rec [4; 2] [[nb 4]; [b 2]; []]); inl (mk_rec [3; 2] [[]; [b 2]; [b 3]])] | None => False end) by (vm_compute; auto).
  destruct (rexec (rec_init 2) [] c60) as [[bs s]|]; [|contradiction]. exists bs, s. split; [exact (HR _ _ eq_refl)|exact E].
Qed.
