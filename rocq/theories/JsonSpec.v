(** What a document says, read off its members alone. *)
From Coq Require Import String Ascii QArith.
From Verif Require Import Base Keys Sat SatSpec Lin Qe Lra LraTab LraKeys Json.
Local Open Scope string_scope.

Fixpoint member (k : string) (m : list (string * json)) : option json :=
  match m with nil => None | (k', j) :: r => if String.eqb k' k then Some j else member k r end.
Definition field (k : string) (j : json) : option json := match j with JO m => member k m | _ => None end.
Definition text (k : string) (j : json) : option string := match field k j with Some (JS s) => Some s | _ => None end.
Definition items (k : string) (j : json) : list json := match field k j with Some (JA l) => l | _ => nil end.

(** The assignments that a document of a core allows: they have the values it shows and satisfy its clauses. *)
Definition allows (j : json) (M : nat -> bool) : Prop :=
  (forall e, In e (items "vars" j) -> exists v, text "name" e = Some (dec v) /\
     (text "value" e = Some "True" -> M v = true) /\ (text "value" e = Some "False" -> M v = false)) /\
  (forall c, In c (items "constrs" j) -> exists e p, In e (items "lits" c) /\ text "lit" e = Some (lit_str p) /\ mlit M p = true).

(** The assignments and numeric values that a document of an arithmetic theory allows: the values are within the bounds it shows and solve its rows, and its
    literals are true exactly if their assertions hold. *)
Definition lallows (P : printer) (es : qe -> string) (j : json) (M : nat -> bool) (y : nat -> Q) : Prop :=
  (forall e, In e (items "vars" j) -> exists x, text "name" e = Some (dec x) /\
     (forall c, text "lb" e = Some (es c) -> bhold Lo (Some c) (y x)) /\ (forall c, text "ub" e = Some (es c) -> bhold Up (Some c) (y x))) /\
  (forall e, In e (items "asrts" j) -> exists p sd x c, text "lit" e = Some (lit_str p) /\ text "constr" e = Some (asrt_str es sd x c) /\
     (mlit M p = true <-> bhold sd (Some c) (y x))) /\
  (forall e, In e (items "tableau" j) -> exists x l, text "var" e = Some ("x" ++ dec x) /\ text "expr" e = Some (lin_str P l) /\ (y x == lval y l)%Q).
