(** The textual caches of the theories (C64).  [printer]: what is asked of the text of a rational (LraKeys.v); [dec_printer] is one.
    [lin_str]: the text of a linear expression; [asrt_str]: of an assertion on a variable; [ov_str]: of an equality of object variables;
    [tfind]: lookup in a map with textual keys. *)
From Coq Require Import String.
From Verif Require Import Base Keys Sat Lin Qe Lra Ov OvInv OvRun LraKeys.
From Coq Require Import QArith.
Open Scope string_scope.
Open Scope nat_scope.
#[local] Existing Instance stable_sort | 100.

(** ** C64 *)
(** Two expressions have the same text exactly if they have the same variables with the same coefficients and the same known term. *)
Theorem C64_expressions : forall P l l', lin_str P l = lin_str P l' <->
  Forall2 (fun e e' => fst e = fst e' /\ (snd e == snd e')%Q) (lvars l) (lvars l') /\ (lkt l == lkt l')%Q.
Proof. exact lin_str_iff. Qed.
(** Two assertions have the same text exactly if they are the same bound on the same side of the same variable. *)
Theorem C64_assertions : forall es, (forall a b, (fst a == fst b /\ snd a == snd b)%Q <-> es a = es b) ->
  forall s x c s' x' c', asrt_str es s x c = asrt_str es s' x' c' <-> s = s' /\ x = x' /\ (fst c == fst c' /\ snd c == snd c')%Q.
Proof. exact asrt_str_iff. Qed.
(** Two equalities of object variables have the same text exactly if they relate the same two variables. *)
Theorem C64_object_equalities : forall l r l' r', ov_str l r = ov_str l' r' <-> (l = l' /\ r = r') \/ (l = r' /\ r = l').
Proof. exact ov_str_iff. Qed.
(** Looking up the text finds the entry of the expression, and no other: the theories with textual caches return what the model returns. *)
Theorem C64_find_expression : forall P t l, tfind (lin_str P l) (map (fun e => (lin_str P (fst e), snd e)) (xexprs t)) = find_slack t l.
Proof. exact find_slack_text. Qed.
Theorem C64_find_assertion : forall es, (forall a b, (fst a == fst b /\ snd a == snd b)%Q <-> es a = es b) ->
  forall t s x c, tfind (asrt_str es s x c) (map (fun e => (asrt_str es (fst (fst (fst e))) (snd (fst (fst e))) (snd (fst e)), snd e)) (s_asrts t)) = find_asrt t s x c.
Proof. exact find_asrt_text. Qed.
Theorem C64_find_object_equality (sr : sorter) : forall om oi tr s o l r, (forall m, Permutation m (om m)) -> (forall l, Permutation l (oi l)) -> OTrace om oi tr s -> theories s = [inl o] -> l < r ->
  tfind (ov_str l r) (map (fun e => (ov_str (fst (fst e)) (snd (fst e)), snd e)) (oexp o)) = elook (l, r) (oexp o).
Proof.
  intros om oi tr s o l r H1 H2 HT Ho Hlr. destruct (otrace_good om oi H1 H2 tr s HT) as (o' & G). pose proof (og_th _ _ _ G) as E. rewrite Ho in E. injection E as <-.
  apply elook_text; [|exact Hlr]. intros [[a b] p] He. exact (proj1 (ok_exp _ _ _ (og_ok _ _ _ G) a b p He)).
Qed.
(** Cases: the text of an expression; two expressions that differ in a sign only; a printer exists. *)
Example C64_case : lin_str dec_printer (mk_lin [(1, 1%Q); (12, (-1 # 2)%Q); (13, (3 # 1)%Q)] (-7 # 3)) = "x1 - 1/2*x12 + 3*x13 - 7/3" /\
  lin_str dec_printer (mk_lin [(1, (-1 # 1)%Q); (2, (-1 # 1)%Q)] 0) = "-x1 - x2" /\
  lin_str dec_printer (mk_lin [(1, (2 # 1)%Q); (2, 1%Q)] 3) <> lin_str dec_printer (mk_lin [(1, (2 # 1)%Q); (2, 1%Q)] (-3 # 1)) /\
  lin_str dec_printer (mk_lin [(1, (2 # 4)%Q)] 0) = lin_str dec_printer (mk_lin [(1, (1 # 2)%Q)] 0) /\
  ov_str 3 12 = "=e3e12" /\ ov_str 31 2 = "=e2e31".
Proof. repeat split; vm_compute; congruence. Qed.
Print Assumptions C64_expressions.
Print Assumptions C64_assertions.
Print Assumptions C64_object_equalities.
Print Assumptions C64_find_expression.
Print Assumptions C64_find_assertion.
Print Assumptions C64_find_object_equality.
