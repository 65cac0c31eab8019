(** Several kinds of theories on one core: the calls of lra_theory.cpp:28-230 when the core also holds theories of
    another kind [B] (object variables, difference logic, ...).  Each theory registers itself with the core (theory.cpp:9) and is called through
    its index [i]; the definitions are those of Lra.v, except that the [i]-th theory is taken out of a sum. *)
From Verif Require Import Base Keys Sat Reify ThSum Lin Qe Lra.

Section Mix.
Context {B : Type}.
Notation st := (st (B + lra)).
Definition mx_th {A} (s : st) (i : nat) (k : lra -> res A) : res A := match nth_error (theories s) i with Some (inr t) => k t | _ => UB end.
Definition mx_put (s : st) (i : nat) (t : lra) : st := set_theories (set_nth (theories s) i (inr t)) s.
(** lra_theory.cpp:28-39 *)
Definition mx_new_var (s : st) (i : nat) : res (st * nat) :=
  mx_th s i (fun t => let (t1, x) := t_new_var t in Ok (mx_put s i t1, x)).
(** lra_theory.cpp:41-58 *)
Definition mx_new_slack (s : st) (i : nat) (l : lin) : res (st * nat) :=
  mx_th s i (fun t => '(t1, x) <- t_new_slack (root_level s) t l ;; Ok (mx_put s i t1, x)).
(** lra_theory.cpp:60-230, as in Lra.v *)
Definition mx_cmp (s : st) (i : nat) (sd : side) (strict : bool) (left right : lin) : res (st * lit) :=
  mx_th s i (fun t =>
    let e := subst_basic t (lin_sub left right) in
    let c := cmp_right sd strict (lkt e) in
    let e := mk_lin (lvars e) 0 in
    if cmp_sat sd strict c (bound_lin t sd e) then Ok (s, TRUE_lit)
    else if cmp_unsat sd strict c (bound_lin t (other sd) e) then Ok (s, FALSE_lit)
    else
      '(t1, x) <- t_new_slack (root_level s) t e ;;
      let s1 := mx_put s i t1 in
      if cmp_sat sd strict c (bound t1 sd x) then Ok (s1, TRUE_lit)
      else if cmp_unsat sd strict c (bound t1 (other sd) x) then Ok (s1, FALSE_lit)
      else
        match find_asrt t1 sd x c with
        | Some p => Ok (s1, p)
        | None =>
          let (s2, v) := new_var s1 in
          let s3 := bind s2 v i in
          Ok (mx_put s3 i (add_asrt t1 sd x c v), mk_lit v true)
        end).
End Mix.
