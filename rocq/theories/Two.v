(** A difference logic theory on a core that holds theories of another kind [B] as well (linear real arithmetic, object variables, ...): the calls
    that state constraints.  The definitions are those of Dl.v (src/arith/dl/idl_theory.cpp:18-296, rdl_theory.cpp:18-280), except that the
    [i]-th theory is taken out of a sum; Two.v and Dl.v agree on cores that hold difference logic theories only (TwoSame.v). *)
From Verif Require Import Base Keys Sat Reify ThSum Lin Qe Dw Dl.

Section Two.
Context {D : Type} (W : wops D) {B : Type}.
Notation "a +' b" := (wadd W a b) (at level 50, left associativity).
Notation "-' a" := (wneg W a) (at level 35).
Notation dl := (dl D).
Notation st := (st (dl + B)).
Definition tw_th {A} (s : st) (i : nat) (k : dl -> res A) : res A := match nth_error (theories s) i with Some (inl t) => k t | _ => UB end.
Definition tw_put (s : st) (i : nat) (t : dl) : st := set_theories (set_nth (theories s) i (inl t)) s.
(** idl_theory.cpp:18-40 *)
Definition tw_new_var (s : st) (i : nat) : res (st * nat) := tw_th s i (fun t => let (t1, x) := t_dl_var W t in Ok (tw_put s i t1, x)).
(** idl_theory.cpp:42-58 *)
Definition tw_distance (s : st) (i : nat) (from to : nat) (w : D) : res (st * lit) :=
  tw_th s i (fun t =>
    guard (Nat.ltb from (cap t) && Nat.ltb to (cap t))
    (if dist_lt W (dists t to from) (Some (-' w)) then Ok (s, FALSE_lit)
     else if dist_le W (dists t from to) (Some w) then Ok (s, TRUE_lit)
     else
       let (s1, v) := new_var s in
       Ok (tw_put (bind s1 v i) i (add_con t (mk_dcon (mk_lit v true) from to w)), mk_lit v true))).
(** idl_theory.h:38 *)
Definition tw_distance2 (s : st) (i : nat) (from to : nat) (mn mx : D) : res (st * lit) :=
  '(s1, p) <- tw_distance s i to from (-' mn) ;; '(s2, q) <- tw_distance s1 i from to mx ;; new_conj s2 [p; q].
(** idl_theory.cpp:60-108 *)
Definition tw_lt (s : st) (i : nat) (left right : lin) : res (option (st * lit)) :=
  match dl_form W (lin_sub left right) with
  | None => Ok None
  | Some (DConst k) => Ok (Some (s, tf (Qlt_bool k 0)))
  | Some (DOne true v k) => may (tw_distance s i v 0 (k +' -' wunit W))
  | Some (DOne false v k) => may (tw_distance s i 0 v (-' k +' -' wunit W))
  | Some (DTwo true v v1 k) => may (tw_distance s i v v1 (k +' -' wunit W))
  | Some (DTwo false v v1 k) => may (tw_distance s i v1 v (-' k +' -' wunit W))
  end.
(** idl_theory.cpp:110-158 *)
Definition tw_leq (s : st) (i : nat) (left right : lin) : res (option (st * lit)) :=
  match dl_form W (lin_sub left right) with
  | None => Ok None
  | Some (DConst k) => Ok (Some (s, tf (Qle_bool k 0)))
  | Some (DOne true v k) => may (tw_distance s i v 0 k)
  | Some (DOne false v k) => may (tw_distance s i 0 v (-' k))
  | Some (DTwo true v v1 k) => may (tw_distance s i v v1 k)
  | Some (DTwo false v v1 k) => may (tw_distance s i v1 v (-' k))
  end.
(** idl_theory.cpp:160-196 *)
Definition tw_eq_at (s : st) (i : nat) (v v1 : nat) (k : D) : res (option (st * lit)) :=
  tw_th s i (fun t =>
    guard (Nat.ltb v (cap t) && Nat.ltb v1 (cap t))
    (if within W (distance W t v v1) k then
       may ('(s1, p) <- tw_distance s i v v1 k ;; '(s2, q) <- tw_distance s1 i v1 v (-' k) ;; new_conj s2 [p; q])
     else Ok (Some (s, FALSE_lit)))).
Definition tw_eq (s : st) (i : nat) (left right : lin) : res (option (st * lit)) :=
  match dl_form W (lin_sub left right) with
  | None => Ok None
  | Some (DConst k) => Ok (Some (s, tf (Qeq_bool k 0)))
  | Some (DOne _ v k) => tw_eq_at s i v 0 k
  | Some (DTwo _ v v1 k) => tw_eq_at s i v v1 k
  end.
(** idl_theory.cpp:198-246 *)
Definition tw_geq (s : st) (i : nat) (left right : lin) : res (option (st * lit)) :=
  match dl_form W (lin_sub left right) with
  | None => Ok None
  | Some (DConst k) => Ok (Some (s, tf (Qle_bool 0 k)))
  | Some (DOne true v k) => may (tw_distance s i 0 v (-' k))
  | Some (DOne false v k) => may (tw_distance s i v 0 k)
  | Some (DTwo true v v1 k) => may (tw_distance s i v1 v (-' k))
  | Some (DTwo false v v1 k) => may (tw_distance s i v v1 k)
  end.
(** idl_theory.cpp:248-296; the last case, on which the two theories differ (idl_theory.cpp:291, rdl_theory.cpp:275), is a parameter. *)
Definition tw_gt (last : st -> nat -> nat -> nat -> D -> res (st * lit)) (s : st) (i : nat) (left right : lin) : res (option (st * lit)) :=
  match dl_form W (lin_sub left right) with
  | None => Ok None
  | Some (DConst k) => Ok (Some (s, tf (Qlt_bool 0 k)))
  | Some (DOne true v k) => may (tw_distance s i 0 v (-' k +' -' wunit W))
  | Some (DOne false v k) => may (tw_distance s i v 0 (k +' -' wunit W))
  | Some (DTwo true v v1 k) => may (tw_distance s i v1 v (-' k +' -' wunit W))
  | Some (DTwo false v v1 k) => may (last s i v v1 k)
  end.
End Two.
