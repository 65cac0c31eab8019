(** Properties of linear expressions (C24-C26). *)
From Verif Require Import Base Lin LinProps.
Open Scope Q_scope.
#[local] Existing Instance stable_sort | 100.

(** ** C24: what the code computes; it is the sum when the two known terms are equal. *)
Theorem C24_addition_partial : forall x l r, lin_wf l ->
  lval x (lin_add l r) == lval x l + lval x r + (lkt l - lkt r) /\
  lval x (lin_add_in l r) == lval x l + lval x r /\
  (lkt l == lkt r -> lval x (lin_add l r) == lval x l + lval x r).
Proof. exact addition. Qed.
Print Assumptions C24_addition_partial.
Theorem C24_addition_no_zero : forall l r, lin_clean l -> lin_clean r -> lin_clean (lin_add l r) /\ lin_clean (lin_add_in l r).
Proof. exact addition_clean. Qed.
Print Assumptions C24_addition_no_zero.
Example C24_case : lin_clean (mk_lin [(0%nat, 2)] 7) /\ lin_add (mk_lin [(0%nat, 2)] 7) (mk_lin [(0%nat, -2 # 1); (1%nat, 1)] 7) = mk_lin [(1%nat, 1)] 14.
Proof. split; [|vm_compute; reflexivity]. split; [cbn; lia|]. intros v c [E|[]]; inversion E; subst; discriminate. Qed.
(** (x0 + 1) + (x0 + 5) is computed as 2*x0 + 2. *)
Theorem C24_addition_refuted : exists l r, lin_clean l /\ lin_clean r /\ forall x, ~ lval x (lin_add l r) == lval x l + lval x r.
Proof. exact addition_refuted. Qed.
Print Assumptions C24_addition_refuted.

(** ** C25 *)
Theorem C25_arithmetic : forall x l r k, lin_wf l ->
  lval x (lin_sub l r) == lval x l - lval x r /\
  lval x (lin_add_in l r) == lval x l + lval x r /\
  lval x (lin_sub_in l r) == lval x l - lval x r /\
  lval x (lin_mul l k) == lval x l * k /\
  lval x (k_mul_lin k l) == k * lval x l /\
  (~ k == 0 -> lval x (lin_div l k) == lval x l / k) /\
  (~ k == 0 -> exists q, lin_div_in l k = Ok q /\ lval x q == lval x l / k) /\
  lval x (lin_add_k l k) == lval x l + k /\ lval x (k_add_lin k l) == k + lval x l /\ lval x (lin_sub_k l k) == lval x l - k /\
  lval x (lin_add_in_k l k) == lval x l + k /\ lval x (lin_sub_in_k l k) == lval x l - k /\
  lval x (lin_const k) == k /\ lval x lin_zero == 0 /\ forall v, lval x (lin_var v k) == k * x v.
Proof. exact arithmetic. Qed.
Print Assumptions C25_arithmetic.
Theorem C25_no_zero : forall l r k, lin_clean l -> lin_clean r ->
  lin_clean (lin_sub l r) /\ lin_clean (lin_sub_in l r) /\ lin_clean (lin_add_in l r) /\
  (~ k == 0 -> lin_clean (lin_mul l k) /\ lin_clean (lin_div l k)).
Proof. exact arithmetic_clean. Qed.
Print Assumptions C25_no_zero.
Example C25_case : lin_clean (mk_lin [(0%nat, 2); (3%nat, 1 # 2)] 7) /\
  lvars (lin_sub (mk_lin [(0%nat, 2); (3%nat, 1 # 2)] 7) (mk_lin [(0%nat, 2); (1%nat, 1)] 1)) = [(1%nat, -1 # 1); (3%nat, 1 # 2)].
Proof. split; [|vm_compute; reflexivity]. split; [cbn; lia|]. intros v c [E|[E|[]]]; inversion E; subst; discriminate. Qed.

(** ** C26: what holds. *)
Theorem C26_scaling_partial : forall x l k, (lkt l == 0 \/ k == 0 \/ k == 1) -> lval x (lin_mul_in l k) == lval x l * k.
Proof. exact scaling. Qed.
Print Assumptions C26_scaling_partial.
(** The negation of a constant is right. *)
Theorem C26_minus_partial : forall x l k, lvars l = [] ->
  (exists r, lin_neg l = Ok r /\ lval x r == - lval x l) /\ exists r, k_sub_lin k l = Ok r /\ lval x r == k - lval x l.
Proof. exact minus. Qed.
Print Assumptions C26_minus_partial.
Example C26_case : lin_mul_in (mk_lin [(0%nat, 2)] 0) 3 = mk_lin [(0%nat, 6)] 0 /\ lin_neg (lin_const 5) = Ok (lin_const (-5 # 1)) /\ lvars (lin_const 5) = [].
Proof. repeat split; vm_compute; reflexivity. Qed.
Theorem C26_scaling_refuted : exists l k, lin_clean l /\ forall x, ~ lval x (lin_mul_in l k) == lval x l * k.
Proof. exact scaling_refuted. Qed.
Print Assumptions C26_scaling_refuted.
(** Negating any expression that has a variable terminates the program. *)
Theorem C26_minus_refuted : forall l k, lvars l <> [] -> lin_neg l = UB /\ k_sub_lin k l = UB.
Proof. exact minus_refuted. Qed.
Print Assumptions C26_minus_refuted.
