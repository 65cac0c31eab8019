(** Properties of the reified constraints (C15-C19). *)
From Coq Require Import String Permutation.
From Verif Require Import Base Keys Sat SatSpec SatInv SatMain SatApi Reify Amo Run Exec Refute ReifyProps.
#[local] Existing Instance stable_sort | 100.

(** ** C15 *)
Theorem C15_new_conj : forall T ops (C : contract ops) (s0 s : st T) ls, good C s0 -> Reach C s0 s -> dlevel s = 0 -> in_scope s ls ->
  exists s' p, new_conj s ls = Ok (s', p) /\
    (forall M, smodels C s' M <-> smodels C s M /\ (mlit M p = true <-> forall q, In q ls -> mlit M q = true)) /\
    (forall M, smodels C s M -> exists M', agree (nv s) M M' /\ smodels C s' M').
Proof. exact conj_reified. Qed.
Print Assumptions C15_new_conj.
Example C15_case : Reach pureC pinit (after [CVar; CVar; CVar; CClause [b 3]; CPropagate]) /\
  in_scope (after [CVar; CVar; CVar; CClause [b 3]; CPropagate]) [b 1; b 3; nb 2; b 1] /\
  exists s', new_conj (after [CVar; CVar; CVar; CClause [b 3]; CPropagate]) [b 1; b 3; nb 2; b 1] = Ok (s', b 4) /\ List.length (constrs s') = 3.
Proof. split; [apply after_reach; vm_compute; reflexivity|]. split; [apply in_range_scope; vm_compute; reflexivity|]. eexists. split; vm_compute; reflexivity. Qed.

(** ** C16 *)
Theorem C16_new_disj : forall T ops (C : contract ops) (s0 s : st T) ls, good C s0 -> Reach C s0 s -> dlevel s = 0 -> in_scope s ls ->
  exists s' p, new_disj s ls = Ok (s', p) /\
    (forall M, smodels C s' M <-> smodels C s M /\ (mlit M p = true <-> exists q, In q ls /\ mlit M q = true)) /\
    (forall M, smodels C s M -> exists M', agree (nv s) M M' /\ smodels C s' M').
Proof. exact disj_reified. Qed.
Print Assumptions C16_new_disj.
Example C16_case : Reach pureC pinit (after [CVar; CVar; CVar; CClause [nb 3]; CPropagate]) /\
  in_scope (after [CVar; CVar; CVar; CClause [nb 3]; CPropagate]) [b 1; b 3; nb 2; b 1] /\
  exists s', new_disj (after [CVar; CVar; CVar; CClause [nb 3]; CPropagate]) [b 1; b 3; nb 2; b 1] = Ok (s', b 4) /\ List.length (constrs s') = 3.
Proof. split; [apply after_reach; vm_compute; reflexivity|]. split; [apply in_range_scope; vm_compute; reflexivity|]. eexists. split; vm_compute; reflexivity. Qed.

(** ** C17: what holds.  When exactly one of the two sides is assigned the signs must agree, and the
    literal may be false although both sides are false. *)
Theorem C17_new_eq_partial : forall T ops (C : contract ops) (s0 s : st T) l r, good C s0 -> Reach C s0 s -> dlevel s = 0 -> in_scope s [l; r] ->
  exists s' p, new_eq s l r = Ok (s', p) /\
    (l = r \/ (value s l = LUndef <-> value s r = LUndef) \/ lsgn l = lsgn r ->
      forall M, smodels C s' M <-> smodels C s M /\
        (mlit M p = true -> mlit M l = mlit M r) /\ (mlit M l = true -> mlit M r = true -> mlit M p = true)) /\
    (forall M, smodels C s M -> exists M', agree (nv s) M M' /\ smodels C s' M').
Proof. exact eq_reified. Qed.
Print Assumptions C17_new_eq_partial.
Example C17_case : Reach pureC pinit (after [CVar; CVar; CVar; CClause [b 3]; CPropagate]) /\ in_scope (after [CVar; CVar; CVar; CClause [b 3]; CPropagate]) [b 1; nb 2] /\
  exists s' p, new_eq (after [CVar; CVar; CVar; CClause [b 3]; CPropagate]) (b 1) (nb 2) = Ok (s', p) /\ p = b 4 /\ List.length (constrs s') = 3.
Proof. split; [apply after_reach; vm_compute; reflexivity|]. split; [apply in_range_scope; vm_compute; reflexivity|]. eexists. eexists. split; [vm_compute; reflexivity|]. split; vm_compute; reflexivity. Qed.
Theorem C17_polarity_refuted : exists s s' p, Reach pureC pinit s /\ legal pureC s (CEq TRUE_lit (b 1)) /\
  new_eq s TRUE_lit (b 1) = Ok (s', p) /\
  exists M, smodels pureC s' M /\ mlit M p = true /\ mlit M TRUE_lit <> mlit M (b 1).
Proof. exact eq_polarity_refuted. Qed.
Print Assumptions C17_polarity_refuted.
Theorem C17_half_reified_refuted : exists s s' p, Reach pureC pinit s /\ legal pureC s (CEq (b 1) (b 2)) /\
  step (ops := pure_ops) 1 s (CEq (b 1) (b 2)) = Ok (s', RLit p) /\
  exists M, smodels pureC s' M /\ mlit M (b 1) = mlit M (b 2) /\ mlit M p = false.
Proof. exact eq_missing_refuted. Qed.
Print Assumptions C17_half_reified_refuted.

(** ** C18: sound when no literal is already true; always conservative. *)
Theorem C18_at_most_one_partial : forall T ops (C : contract ops) (s0 s : st T) ls, good C s0 -> Reach C s0 s -> dlevel s = 0 -> in_scope s ls ->
  exists s' p, new_at_most_one s ls = Ok (s', p) /\
    ((forall q, In q ls -> value s q <> LTrue) -> forall M, smodels C s' M -> mlit M p = true ->
       forall x y, In x ls -> In y ls -> mlit M x = true -> mlit M y = true -> x = y) /\
    (forall M, smodels C s' M -> smodels C s M) /\
    (forall M, smodels C s M -> exists M', agree (nv s) M M' /\ smodels C s' M').
Proof. exact amo_sound. Qed.
Print Assumptions C18_at_most_one_partial.
(** The control literal of a new constraint is free: it can be false in any model, true in any model with at most one. *)
Theorem C18_at_most_one_free : forall T ops (C : contract ops) (s0 s : st T) ls s' p, good C s0 -> Reach C s0 s -> dlevel s = 0 -> in_scope s ls ->
  NoDup (map lvar ls) -> 2 <= List.length ls -> (forall q, In q ls -> value s q = LUndef) ->
  (forall e, ~ In (key_amo (sort_by lvar ls), e) (exprs s)) ->
  new_at_most_one s ls = Ok (s', p) -> forall M c, smodels C s M ->
  (c = true -> forall x y, In x ls -> In y ls -> mlit M x = true -> mlit M y = true -> x = y) ->
  exists M', agree (nv s) M M' /\ smodels C s' M' /\ mlit M' p = c.
Proof. exact amo_free. Qed.
Print Assumptions C18_at_most_one_free.
Definition ten : list call := repeat CVar 10.
Definition ten_lits : list lit := map b [3; 1; 2; 4; 9; 5; 6; 7; 10; 8].
Example C18_case : Reach pureC pinit (after ten) /\ in_scope (after ten) ten_lits /\
  NoDup (map lvar ten_lits) /\ 2 <= List.length ten_lits /\ (forall q, In q ten_lits -> value (after ten) q = LUndef) /\
  (forall e, ~ In (key_amo (sort_by lvar ten_lits), e) (exprs (after ten))) /\
  exists s', new_at_most_one (after ten) ten_lits = Ok (s', b 26).
Proof.
  split; [apply after_reach; vm_compute; reflexivity|]. split; [apply in_range_scope; vm_compute; reflexivity|].
  split; [repeat (constructor; [cbn; intuition lia|]); constructor|]. split; [cbn; lia|].
  split; [|split; [|eexists; vm_compute; reflexivity]].
  - intros q Hq. cbn in Hq. repeat (destruct Hq as [Hq|Hq]; [subst q; vm_compute; reflexivity|]). destruct Hq.
  - intros e He. assert (K : existsb (fun x => String.eqb (fst x) (key_amo (sort_by lvar ten_lits))) (exprs (after ten)) = true).
    { apply existsb_exists. eexists. split; [exact He|]. apply String.eqb_eq. reflexivity. }
    vm_compute in K. discriminate.
Qed.
Theorem C18_true_literal_refuted : exists s s' p, Reach pureC pinit s /\ legal pureC s (CAmo [TRUE_lit; b 1]) /\
  step (ops := pure_ops) 1 s (CAmo [TRUE_lit; b 1]) = Ok (s', RLit p) /\
  exists M, smodels pureC s' M /\ mlit M p = true /\ ~ at_most_one M [TRUE_lit; b 1].
Proof. exact amo_true_refuted. Qed.
Print Assumptions C18_true_literal_refuted.

(** ** C19: sound when no literal is already true; conservative for distinct positive unassigned
    literals whose at-most-one has not been created before. *)
Theorem C19_exactly_one_partial : forall T ops (C : contract ops) (s0 s : st T) ls, good C s0 -> Reach C s0 s -> dlevel s = 0 -> in_scope s ls ->
  exists s' p, new_exct_one s ls = Ok (s', p) /\
    ((forall q, In q ls -> value s q <> LTrue) -> forall M, smodels C s' M -> mlit M p = true ->
       (forall x y, In x ls -> In y ls -> mlit M x = true -> mlit M y = true -> x = y) /\ exists x, In x ls /\ mlit M x = true) /\
    (forall M, smodels C s' M -> smodels C s M) /\
    (NoDup (map lvar ls) -> (forall q, In q ls -> value s q = LUndef /\ lsgn q = true) ->
     (forall e, ~ In (key_amo (sort_by lvar ls), e) (exprs s)) ->
     forall M, smodels C s M -> exists M', agree (nv s) M M' /\ smodels C s' M').
Proof. exact exct_sound. Qed.
Print Assumptions C19_exactly_one_partial.
Example C19_case : Reach pureC pinit (after ten) /\ in_scope (after ten) ten_lits /\ NoDup (map lvar ten_lits) /\ (forall q, In q ten_lits -> value (after ten) q = LUndef /\ lsgn q = true) /\
  exists s' p, new_exct_one (after ten) ten_lits = Ok (s', p).
Proof. split; [apply after_reach; vm_compute; reflexivity|]. split; [apply in_range_scope; vm_compute; reflexivity|]. split; [repeat (constructor; [cbn; intuition lia|]); constructor|].
  split; [intros q Hq; cbn in Hq; repeat (destruct Hq as [Hq|Hq]; [subst q; split; vm_compute; reflexivity|]); destruct Hq|]. eexists. eexists. vm_compute. reflexivity. Qed.
Theorem C19_true_literal_refuted : exists s s' p, Reach pureC pinit s /\ legal pureC s (CExct [TRUE_lit; b 1]) /\
  step (ops := pure_ops) 1 s (CExct [TRUE_lit; b 1]) = Ok (s', RLit p) /\
  exists M, smodels pureC s' M /\ mlit M p = true /\ ~ exactly_one M [TRUE_lit; b 1].
Proof. exact exct_true_refuted. Qed.
Print Assumptions C19_true_literal_refuted.
Theorem C19_negative_literal_refuted : exists s s' p, Reach pureC pinit s /\ legal pureC s (CExct [nb 1]) /\
  step (ops := pure_ops) 1 s (CExct [nb 1]) = Ok (s', RLit p) /\
  exists M, smodels pureC s M /\ ~ exists M', agree (nv s) M M' /\ smodels pureC s' M'.
Proof. exact exct_neg_refuted. Qed.
Print Assumptions C19_negative_literal_refuted.
Theorem C19_shared_control_refuted : exists s s' p, Reach pureC pinit s /\ legal pureC s (CExct [b 1; b 2]) /\
  step (ops := pure_ops) 1 s (CExct [b 1; b 2]) = Ok (s', RLit p) /\
  exists M, smodels pureC s M /\ ~ exists M', agree (nv s) M M' /\ smodels pureC s' M'.
Proof. exact exct_shared_refuted. Qed.
Print Assumptions C19_shared_control_refuted.
