(** C77: the operators of linear expressions in place, both operands being the same object.  Nothing but statements, closed by lemmas.
    [lval x l]: the value of the expression [l] under the assignment [x]; [UB]: undefined behaviour. *)
From Verif Require Import Base Lin LinSelf.
Open Scope Q_scope.
#[local] Existing Instance stable_sort | 100.

(** [l += l] doubles the value. *)
Theorem C77_add_self_partial : forall l, lin_clean l -> exists r, lin_add_self l = Ok r /\ lin_clean r /\ forall x, lval x r == lval x l + lval x l.
Proof. exact lin_add_self_ok. Qed.
Print Assumptions C77_add_self_partial.
(** [l -= l] is zero if there is no variable... *)
Theorem C77_sub_self_partial : forall l, lvars l = [] -> exists r, lin_sub_self l = Ok r /\ forall x, lval x r == 0.
Proof. exact lin_sub_self_const. Qed.
Print Assumptions C77_sub_self_partial.
(** ... and undefined behaviour on any other expression: the element under the loop is erased. *)
Theorem C77_sub_self_refuted : forall l, lvars l <> [] -> lin_sub_self l = UB.
Proof. exact lin_sub_self_vars. Qed.
Print Assumptions C77_sub_self_refuted.

Definition l77 : lin := mk_lin [(1%nat, 2); (4%nat, -3 # 5)] (7 # 2).
Example C77_case : lin_clean l77 /\ lin_add_self l77 = Ok (mk_lin [(1%nat, 4); (4%nat, -30 # 25)] (28 # 4)) /\ lin_sub_self l77 = UB.
Proof.
  split; [split; [cbn; repeat split; lia|intros v c Hi; cbn in Hi; decompose [or] Hi; try contradiction; match goal with H : _ = _ |- _ => injection H as <- <- end; discriminate]|].
  split; vm_compute; reflexivity.
Qed.
