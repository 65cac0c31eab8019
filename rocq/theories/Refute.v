(** Statements that the code does not satisfy, with concrete reachable witnesses. *)
From Verif Require Import Base Keys Sat SatSpec SatInv SatMain SatApi SatNext Reify Amo Run Exec.

Definition b (v : nat) : lit := mk_lit v true.
Definition nb (v : nat) : lit := mk_lit v false.

Ltac model_of L := exists (asg L); split; [apply reach_model; vm_compute; reflexivity|].

(** C17, wrong polarity: the literal of [TRUE_lit = b1] is [!b1]. *)
Lemma eq_polarity_refuted : exists s s' p, Reach pureC pinit s /\ legal pureC s (CEq TRUE_lit (b 1)) /\
  new_eq s TRUE_lit (b 1) = Ok (s', p) /\
  exists M, smodels pureC s' M /\ mlit M p = true /\ mlit M TRUE_lit <> mlit M (b 1).
Proof.
  exists (after [CVar]), (after [CVar]), (nb 1). split; [apply after_reach; vm_compute; reflexivity|].
  split; [apply legalb_ok; vm_compute; reflexivity|]. split; [vm_compute; reflexivity|].
  model_of [false; false]. split; [reflexivity|]. vm_compute. discriminate.
Qed.
(** C17, missing clause: both sides false and the literal false. *)
Lemma eq_missing_refuted : exists s s' p, Reach pureC pinit s /\ legal pureC s (CEq (b 1) (b 2)) /\
  step (ops := pure_ops) 1 s (CEq (b 1) (b 2)) = Ok (s', RLit p) /\
  exists M, smodels pureC s' M /\ mlit M (b 1) = mlit M (b 2) /\ mlit M p = false.
Proof.
  exists (after [CVar; CVar]), (after [CVar; CVar; CEq (b 1) (b 2)]), (b 3). split; [apply after_reach; vm_compute; reflexivity|].
  split; [apply legalb_ok; vm_compute; reflexivity|]. split; [vm_compute; reflexivity|].
  model_of [false; false; false; false]. split; reflexivity.
Qed.
(** C18: a literal which is already true is forgotten. *)
Lemma amo_true_refuted : exists s s' p, Reach pureC pinit s /\ legal pureC s (CAmo [TRUE_lit; b 1]) /\
  step (ops := pure_ops) 1 s (CAmo [TRUE_lit; b 1]) = Ok (s', RLit p) /\
  exists M, smodels pureC s' M /\ mlit M p = true /\ ~ at_most_one M [TRUE_lit; b 1].
Proof.
  exists (after [CVar]), (after [CVar]), TRUE_lit. split; [apply after_reach; vm_compute; reflexivity|].
  split; [apply legalb_ok; vm_compute; reflexivity|]. split; [vm_compute; reflexivity|].
  model_of [false; true]. split; [reflexivity|]. intros H. discriminate (H TRUE_lit (b 1) (or_introl eq_refl) (or_intror (or_introl eq_refl)) eq_refl eq_refl).
Qed.
(** C19: a literal which is already true is forgotten: exactly-one of {true, b1} is taken to be b1. *)
Lemma exct_true_refuted : exists s s' p, Reach pureC pinit s /\ legal pureC s (CExct [TRUE_lit; b 1]) /\
  step (ops := pure_ops) 1 s (CExct [TRUE_lit; b 1]) = Ok (s', RLit p) /\
  exists M, smodels pureC s' M /\ mlit M p = true /\ ~ exactly_one M [TRUE_lit; b 1].
Proof.
  exists (after [CVar]), (after [CVar]), (b 1). split; [apply after_reach; vm_compute; reflexivity|].
  split; [apply legalb_ok; vm_compute; reflexivity|]. split; [vm_compute; reflexivity|].
  model_of [false; true]. split; [reflexivity|]. intros [H _]. discriminate (H TRUE_lit (b 1) (or_introl eq_refl) (or_intror (or_introl eq_refl)) eq_refl eq_refl).
Qed.
(** C19: exactly-one of a single negative literal asserts that literal. *)
Lemma exct_neg_refuted : exists s s' p, Reach pureC pinit s /\ legal pureC s (CExct [nb 1]) /\
  step (ops := pure_ops) 1 s (CExct [nb 1]) = Ok (s', RLit p) /\
  exists M, smodels pureC s M /\ ~ exists M', agree (nv s) M M' /\ smodels pureC s' M'.
Proof.
  exists (after [CVar]), (after [CVar; CExct [nb 1]]), TRUE_lit. split; [apply after_reach; vm_compute; reflexivity|].
  split; [apply legalb_ok; vm_compute; reflexivity|]. split; [vm_compute; reflexivity|].
  model_of [false; true]. intros (M' & Ha & HM). pose proof (Ha 1 ltac:(vm_compute; lia)) as H1. cbn in H1.
  pose proof (sm_facts _ _ _ HM (nb 1) ltac:(vm_compute; reflexivity) ltac:(vm_compute; reflexivity)) as H2. unfold mlit in H2. cbn in H2. rewrite <- H1 in H2. discriminate.
Qed.
(** C19: when the at-most-one literal of the same literals is already asserted, creating the
    exactly-one literal excludes "none". *)
Lemma exct_shared_refuted : exists s s' p, Reach pureC pinit s /\ legal pureC s (CExct [b 1; b 2]) /\
  step (ops := pure_ops) 1 s (CExct [b 1; b 2]) = Ok (s', RLit p) /\
  exists M, smodels pureC s M /\ ~ exists M', agree (nv s) M M' /\ smodels pureC s' M'.
Proof.
  exists (after [CVar; CVar; CAmo [b 1; b 2]; CClause [b 3]; CPropagate]), (after [CVar; CVar; CAmo [b 1; b 2]; CClause [b 3]; CPropagate; CExct [b 1; b 2]]), (b 3).
  split; [apply after_reach; vm_compute; reflexivity|].
  split; [apply legalb_ok; vm_compute; reflexivity|]. split; [vm_compute; reflexivity|].
  model_of [false; false; false; true]. intros (M' & Ha & HM).
  assert (Hin : In 1 (constrs (after [CVar; CVar; CAmo [b 1; b 2]; CClause [b 3]; CPropagate; CExct [b 1; b 2]]))) by (vm_compute; auto).
  destruct (sm_cls _ _ _ HM 1 Hin) as (q & Hq & Hm).
  assert (Hc : cls (after [CVar; CVar; CAmo [b 1; b 2]; CClause [b 3]; CPropagate; CExct [b 1; b 2]]) 1 = [b 1; b 2]) by (vm_compute; reflexivity).
  rewrite Hc in Hq. pose proof (Ha 1 ltac:(vm_compute; lia)) as H1. pose proof (Ha 2 ltac:(vm_compute; lia)) as H2. cbn in H1, H2.
  clear Hin Hc HM Ha. cbn [In] in Hq. destruct Hq as [Hq|[Hq|[]]]; subst q; unfold mlit in Hm; cbn in Hm; [rewrite <- H1 in Hm|rewrite <- H2 in Hm]; discriminate.
Qed.
(** C13: a failed check may retract decisions taken before it. *)
Definition c13 : list call :=
  [CVar; CVar; CVar; CClause [nb 3; b 2]; CClause [nb 3; nb 2]; CPropagate; CAssume (b 1)].
Lemma check_decisions_refuted : exists s s', Reach pureC pinit s /\ legal pureC s (CCheck [b 3]) /\
  step (ops := pure_ops) 50 s (CCheck [b 3]) = Ok (s', RBool false) /\ decisions s = [b 1] /\ decisions s' = [] /\ exists M, smodels pureC s' M.
Proof.
  exists (after c13). eexists. split; [apply after_reach; vm_compute; reflexivity|]. split; [apply legalb_ok; vm_compute; reflexivity|].
  split; [vm_compute; reflexivity|]. split; [vm_compute; reflexivity|]. split; [vm_compute; reflexivity|].
  exists (asg [false; false; false; false]). apply modelb_ok; [|vm_compute; reflexivity].
  intros v Hv. cbn in Hv. do 4 (destruct v as [|v]; [lia|]). vm_compute. reflexivity.
Qed.
(** C48: after a root-level inconsistency, propagate() answers true. *)
Lemma sticky_refuted : exists s s1 s2, Reach pureC pinit s /\
  step (ops := pure_ops) 50 s CPropagate = Ok (s1, RBool false) /\ dlevel s1 = 0 /\
  step (ops := pure_ops) 50 s1 CPropagate = Ok (s2, RBool true).
Proof.
  set (cs := [CVar; CVar; CClause [b 1; b 2]; CClause [b 1; nb 2]; CClause [nb 1; b 2]; CClause [nb 1]]).
  exists (after cs). eexists. eexists. split; [apply after_reach; vm_compute; reflexivity|].
  split; [vm_compute; reflexivity|]. split; vm_compute; reflexivity.
Qed.
(** C11: next() with a decision that was already true breaks an assertion. *)
Lemma next_redundant_refuted : exists s, Reach pureC pinit s /\ step (ops := pure_ops) 50 s CNext = UB.
Proof.
  set (cs := [CVar; CVar; CClause [b 1]; CPropagate; CAssume (b 1)]).
  exists (after cs). split; [apply after_reach; vm_compute; reflexivity|]. vm_compute. reflexivity.
Qed.
