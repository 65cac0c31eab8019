(** Calls whose result depends on the order of the arguments, or on how the library sorts. *)
From Coq Require Import String Permutation.
From Verif Require Import Base Keys Sat SatSpec SatInv SatMain SatApi Reify Amo Run Exec Refute Sort.

(** A sort that puts positive literals first. *)
Definition sort78 (l : list lit) : list lit := sort_by (fun q => 2 * lvar q + (if lsgn q then 0 else 1)) l.
Lemma sort78_sorts : sorts sort78.
Proof.
  intros l. split; [apply sort_by_perm|]. unfold var_sorted. pose proof (sort_by_sorted (fun q => 2 * lvar q + (if lsgn q then 0 else 1)) l) as H. fold (sort78 l) in H.
  induction H as [|a r H IH F]; constructor; [exact IH|]. eapply Forall_impl; [|exact F]. unfold key_le. cbv beta. intros q Hq. destruct (lsgn a), (lsgn q); lia.
Qed.

Lemma amo_order : exists s1 s2 p, new_at_most_one (after [CVar]) [b 1; nb 1; b 1] = Ok (s1, p) /\ new_at_most_one (after [CVar]) [b 1; b 1; nb 1] = Ok (s2, p) /\
  (forall M, smodels pureC s1 M -> mlit M p = true -> mlit M (b 1) = false) /\
  (exists M, smodels pureC s2 M /\ mlit M p = true /\ mlit M (b 1) = true).
Proof.
  exists (after [CVar; CAmo [b 1; nb 1; b 1]]), (after [CVar; CAmo [b 1; b 1; nb 1]]), (b 2).
  split; [vm_compute; reflexivity|]. split; [vm_compute; reflexivity|]. split.
  - intros M HM Hp. assert (Hc : constrs (after [CVar; CAmo [b 1; nb 1; b 1]]) = [0]) by (vm_compute; reflexivity).
    pose proof (sm_cls _ _ _ HM 0 ltac:(rewrite Hc; left; reflexivity)) as K.
    assert (E : cls (after [CVar; CAmo [b 1; nb 1; b 1]]) 0 = [nb 1; nb 2]) by (vm_compute; reflexivity). rewrite E in K.
    destruct K as (q & [<-|[<-|[]]] & Hq); unfold mlit in *; cbn in *; destruct (M 1), (M 2); cbn in *; congruence.
  - model_of [false; true; true]. split; reflexivity.
Qed.
Lemma amo_order_refuted : exists s s1 s2 p, Reach pureC pinit s /\ legal pureC s (CAmo [b 1; nb 1; b 1]) /\
  Permutation [b 1; nb 1; b 1] [b 1; b 1; nb 1] /\
  new_at_most_one s [b 1; nb 1; b 1] = Ok (s1, p) /\ new_at_most_one s [b 1; b 1; nb 1] = Ok (s2, p) /\
  (forall M, smodels pureC s1 M -> mlit M p = true -> mlit M (b 1) = false) /\
  (exists M, smodels pureC s2 M /\ mlit M p = true /\ mlit M (b 1) = true).
Proof.
  destruct amo_order as (s1 & s2 & p & H). exists (after [CVar]), s1, s2, p. split; [apply after_reach; vm_compute; reflexivity|].
  split; [apply legalb_ok; vm_compute; reflexivity|]. split; [apply perm_skip, perm_swap|exact H].
Qed.
Lemma amo_sort_refuted : exists srt1 srt2 s s1 s2 p, sorts srt1 /\ sorts srt2 /\ Reach pureC pinit s /\ legal pureC s (CAmo [b 1; nb 1; b 1]) /\
  new_at_most_one_by srt1 s [b 1; nb 1; b 1] = Ok (s1, p) /\ new_at_most_one_by srt2 s [b 1; nb 1; b 1] = Ok (s2, p) /\
  (forall M, smodels pureC s1 M -> mlit M p = true -> mlit M (b 1) = false) /\
  (exists M, smodels pureC s2 M /\ mlit M p = true /\ mlit M (b 1) = true).
Proof.
  destruct amo_order as (s1 & s2 & p & H1 & H2 & H). exists (sort_by lvar), sort78, (after [CVar]), s1, s2, p. split; [apply sort_by_sorts|]. split; [apply sort78_sorts|].
  split; [apply after_reach; vm_compute; reflexivity|]. split; [apply legalb_ok; vm_compute; reflexivity|].
  split; [exact H1|]. split; [|exact H]. rewrite <- H2. vm_compute. reflexivity.
Qed.
Lemma amo_repeat_refuted : exists s, Reach pureC pinit s /\ legal pureC s (CAmo [TRUE_lit; TRUE_lit]) /\
  new_at_most_one s [TRUE_lit] = Ok (s, TRUE_lit) /\ new_at_most_one s [TRUE_lit; TRUE_lit] = Ok (s, FALSE_lit).
Proof.
  exists (after [CVar]). split; [apply after_reach; vm_compute; reflexivity|]. split; [apply legalb_ok; vm_compute; reflexivity|]. split; vm_compute; reflexivity.
Qed.
