(** The property lemmas of linear expressions (statements in PropLin.v). *)
From Verif Require Import Base Lin.
Open Scope Q_scope.
Lemma addition : forall x l r, lin_wf l ->
  lval x (lin_add l r) == lval x l + lval x r + (lkt l - lkt r) /\
  lval x (lin_add_in l r) == lval x l + lval x r /\
  (lkt l == lkt r -> lval x (lin_add l r) == lval x l + lval x r).
Proof.
  intros x l r H. split; [apply lin_add_ok, H|]. split; [apply lin_add_in_ok, H|]. intros E. rewrite (lin_add_ok x l r H), E. ring.
Qed.
Lemma addition_clean : forall l r, lin_clean l -> lin_clean r -> lin_clean (lin_add l r) /\ lin_clean (lin_add_in l r).
Proof. intros l r A B. destruct (lin_add_clean l r A B) as (P & Q & _). auto. Qed.
Lemma one_clean k : lin_clean (mk_lin [(0%nat, 1)] k).
Proof. split; [exact I|]. intros v c [E|[]]; inversion E; subst; discriminate. Qed.
Lemma addition_refuted : exists l r, lin_clean l /\ lin_clean r /\ forall x, ~ lval x (lin_add l r) == lval x l + lval x r.
Proof.
  exists (mk_lin [(0%nat, 1)] 1), (mk_lin [(0%nat, 1)] 5). split; [apply one_clean|]. split; [apply one_clean|]. intros x H.
  rewrite lin_add_ok in H by exact I. cbn [lkt] in H. lra.
Qed.
Lemma arithmetic : forall x l r k, lin_wf l ->
  lval x (lin_sub l r) == lval x l - lval x r /\
  lval x (lin_add_in l r) == lval x l + lval x r /\
  lval x (lin_sub_in l r) == lval x l - lval x r /\
  lval x (lin_mul l k) == lval x l * k /\
  lval x (k_mul_lin k l) == k * lval x l /\
  (~ k == 0 -> lval x (lin_div l k) == lval x l / k) /\
  (~ k == 0 -> exists q, lin_div_in l k = Ok q /\ lval x q == lval x l / k) /\
  lval x (lin_add_k l k) == lval x l + k /\ lval x (k_add_lin k l) == k + lval x l /\ lval x (lin_sub_k l k) == lval x l - k /\
  lval x (lin_add_in_k l k) == lval x l + k /\ lval x (lin_sub_in_k l k) == lval x l - k /\
  lval x (lin_const k) == k /\ lval x lin_zero == 0 /\ forall v, lval x (lin_var v k) == k * x v.
Proof.
  intros x l r k H. split; [apply lin_sub_ok, H|]. split; [apply lin_add_in_ok, H|]. split; [apply lin_sub_ok, H|]. split; [apply lin_mul_ok|].
  split; [rewrite (lin_mul_ok x l k); ring|]. split; [apply lin_div_ok|].
  split; [intros Hk; exists (lin_div l k); split; [|apply lin_div_ok, Hk]|].
  { unfold lin_div_in. destruct (qzero k) eqn:Z; [apply qzero_iff in Z; contradiction|reflexivity]. }
  unfold lval, lin_add_k, k_add_lin, lin_sub_k, lin_add_in_k, lin_sub_in_k, lin_const, lin_zero, lin_var. cbn [lvars lkt msum].
  repeat split; intros; ring.
Qed.
Lemma arithmetic_clean : forall l r k, lin_clean l -> lin_clean r ->
  lin_clean (lin_sub l r) /\ lin_clean (lin_sub_in l r) /\ lin_clean (lin_add_in l r) /\
  (~ k == 0 -> lin_clean (lin_mul l k) /\ lin_clean (lin_div l k)).
Proof.
  intros l r k A B. destruct (lin_add_clean l r A B) as (P & _ & R). split; [exact R|]. split; [exact R|]. split; [exact P|].
  intros Hk. destruct A as [A1 A2]. repeat split; cbn [lin_mul lin_div lvars]; try (apply mmap_asc, A1); (apply mmap_nonzero; [|exact A2]); intros c Hc E.
  - apply Qmult_integral in E as [E|E]; contradiction.
  - apply Hc. setoid_replace c with (c / k * k) by (field; exact Hk). rewrite E. ring.
Qed.
Lemma scaling : forall x l k, (lkt l == 0 \/ k == 0 \/ k == 1) -> lval x (lin_mul_in l k) == lval x l * k.
Proof.
  intros x l k H. unfold lin_mul_in. destruct (qzero k) eqn:Z.
  - apply qzero_iff in Z. unfold lval. cbn [lvars lkt msum]. rewrite Z. ring.
  - unfold lval. cbn [lvars lkt]. rewrite (msum_mmap x _ k) by (intros; reflexivity).
    destruct H as [H|[H|H]]; [rewrite H; ring|apply qzero_iff in H; congruence|rewrite H; ring].
Qed.
Lemma minus : forall x l k, lvars l = [] ->
  (exists r, lin_neg l = Ok r /\ lval x r == - lval x l) /\ exists r, k_sub_lin k l = Ok r /\ lval x r == k - lval x l.
Proof.
  intros x l k H. unfold k_sub_lin, lin_neg. rewrite H. cbn [rbind]. split; eexists; (split; [reflexivity|]); unfold lval; rewrite H; cbn [lvars lkt msum]; ring.
Qed.
Lemma scaling_refuted : exists l k, lin_clean l /\ forall x, ~ lval x (lin_mul_in l k) == lval x l * k.
Proof.
  exists (mk_lin [(0%nat, 1)] 1), 2. split; [apply one_clean|]. intros x H. unfold lval in H. cbn in H. lra.
Qed.
Lemma minus_refuted : forall l k, lvars l <> [] -> lin_neg l = UB /\ k_sub_lin k l = UB.
Proof. intros l k H. unfold k_sub_lin, lin_neg. destruct (lvars l); [congruence|]. split; reflexivity. Qed.
