(** Export of a network as a JSON document: [to_json] of the core, its clauses, the arithmetic theory, its assertions and its rows.
    The JSON library is not in the repository: a document is modelled by its abstract syntax, an object by the list of its members. *)
From Coq Require Import String Ascii QArith.
From Verif Require Import Base Keys Sat Lin Qe Lra LraKeys.
Local Open Scope string_scope.

Inductive json := JS (s : string) | JA (l : list json) | JO (m : list (string * json)).

(** sat_core.cpp:631-641 *)
Definition lb_name (b : lbool) : string := match b with LFalse => "False" | LTrue => "True" | LUndef => "Undefined" end.
(** clause.cpp:88-99, lra_constraint.cpp:102-113 *)
Definition lb_char (b : lbool) : string := match b with LFalse => "F" | LTrue => "T" | LUndef => "U" end.
(** clause.cpp:85-101 (the body of the loop) *)
Definition lit_json (val : lit -> lbool) (p : lit) : json := JO [("lit", JS (lit_str p)); ("val", JS (lb_char (val p)))].
(** clause.cpp:79-106 *)
Definition clause_json (val : lit -> lbool) (c : list lit) : json := JO [("lits", JA (map (lit_json val) c))].
(** sat_core.cpp:626-643 (the body of the loop) *)
Definition var_json (asg : nat -> lbool) (v : nat) : json := JO [("name", JS (dec v)); ("value", JS (lb_name (asg v)))].
(** sat_core.cpp:620-652; the only constraints of this code base are clauses *)
Definition sat_json {T} (s : st T) : json :=
  JO [("vars", JA (map (var_json (assigns s)) (seq 0 (nv s)))); ("constrs", JA (map (fun c => clause_json (value s) (cls s c)) (constrs s)))].

Section Lra.
Context (P : printer) (es : qe -> string).
(** lra_theory.cpp:497-507 (the body of the loop): the infinite bounds are left out. *)
Definition bnd_json (k : string) (b : bnd) : list (string * json) := match b with Some c => [(k, JS (es c))] | None => [] end.
Definition num_json (t : lra) (x : nat) : json :=
  JO ([("name", JS (dec x)); ("value", JS (es (vals t x)))] ++ bnd_json "lb" (bound t Lo x) ++ bnd_json "ub" (bound t Up x)).
(** lra_constraint.cpp:98-116 *)
Definition asrt_json (val : lit -> lbool) (a : asrt) : json :=
  JO [("lit", JS (lit_str (a_b a))); ("val", JS (lb_char (val (a_b a)))); ("constr", JS (asrt_str es (a_op a) (a_x a) (a_v a)))].
(** lra_constraint.cpp:440-446 *)
Definition row_json (r : nat * lin) : json := JO [("var", JS ("x" ++ dec (fst r))); ("expr", JS (lin_str P (snd r)))].
(** lra_theory.cpp:491-523; [oa]: the order, arbitrary, in which the map of the assertions is iterated (line 512).  Lines 511 and 517 reserve room in an
    array that has been moved away: without effect here. *)
Definition lra_json (oa : list (nat * asrt) -> list (nat * asrt)) (val : lit -> lbool) (t : lra) : json :=
  JO [("vars", JA (map (num_json t) (seq 0 (nx t)))); ("asrts", JA (map (fun e => asrt_json val (snd e)) (oa (v_asrts t)))); ("tableau", JA (map row_json (tab t)))].
End Lra.
