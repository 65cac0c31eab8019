(** Model of the integer difference logic theory with the integers of a machine: src/arith/dl/idl_theory.cpp,
    include/arith/dl/idl_theory.h.  Dl.v models the same file with unbounded integers and [None] for an infinite distance;
    here distances are integers, infinity is the number [inf()] (idl_theory.h:144), it is added, subtracted, negated and
    compared like the others, and an operation whose result is not between [-mx - 1] and [mx] (the range of [utils::I]) is
    undefined behaviour.
    Not modelled: overflow inside [utils::rational] (outside the repository): the constants of linear expressions are exact. *)
From Verif Require Import Base Sat Run Lin Qe Dw Dl DlNet.
Local Arguments Nat.ltb : simpl never.
Local Arguments Nat.eqb : simpl never.
Open Scope Z_scope.

Section Machine.
(** [std::numeric_limits<utils::I>::max()] *)
Variable mx : Z.
Definition fitb (z : Z) : bool := Z.leb (- mx - 1) z && Z.leb z mx.
(** The result of an arithmetic operation. *)
Definition fit (z : Z) : res Z := guard (fitb z) (Ok z).
(** idl_theory.h:144 *)
Definition inf : Z := mx / 2 - 1.

(** idl_theory.h:176-190, as in Dl.v. *)
Record ilayer := mk_ilayer { io_dists : list (key * Z); io_preds : list (key * option nat); io_constrs : list (key * option (dcon Z)) }.
Record idl := mk_idl {
  ivars : nat;
  icap : nat;
  idist : nat -> nat -> Z;
  ipred : nat -> nat -> option nat;
  icon : list (key * dcon Z);
  icons : list (dcon Z);
  ilayers : list ilayer;
  inotes : list nat }.
Definition set_idist f t := mk_idl (ivars t) (icap t) f (ipred t) (icon t) (icons t) (ilayers t) (inotes t).
Definition set_ipred f t := mk_idl (ivars t) (icap t) (idist t) f (icon t) (icons t) (ilayers t) (inotes t).
Definition set_icon f t := mk_idl (ivars t) (icap t) (idist t) (ipred t) f (icons t) (ilayers t) (inotes t).
Definition set_ilayers f t := mk_idl (ivars t) (icap t) (idist t) (ipred t) (icon t) (icons t) f (inotes t).
Definition set_inotes f t := mk_idl (ivars t) (icap t) (idist t) (ipred t) (icon t) (icons t) (ilayers t) f.

(** idl_theory.cpp:9-17 *)
Definition i_init (size : nat) : idl :=
  mk_idl 1 size (fun i j => if Nat.eqb i j then 0 else inf) (fun i j => if Nat.eqb i j then None else Some i) [] [] [] [].
(** 625-641 *)
Definition i_resize (size : nat) (t : idl) : idl :=
  let c := icap t in
  let inside i j := Nat.ltb i c && Nat.ltb j c in
  mk_idl (ivars t) size
    (fun i j => if inside i j then idist t i j else if Nat.eqb i j then 0 else inf)
    (fun i j => if inside i j then ipred t i j else if Nat.eqb i j then None else Some i)
    (icon t) (icons t) (ilayers t) (inotes t).
(** 34-40 *)
Definition i_var (t : idl) : idl * nat :=
  let tp := ivars t in
  let t1 := mk_idl (S tp) (icap t) (idist t) (ipred t) (icon t) (icons t) (ilayers t) (inotes t) in
  (if Nat.eqb (icap t1) tp then i_resize (icap t1 * 3 / 2 + 1) t1 else t1, tp).
(** 593-614; the assertion is checked. *)
Definition i_set_dist (t : idl) (from to : nat) (d : Z) : res idl :=
  guard (Z.ltb d (idist t from to))
  (let ls := match ilayers t with
             | [] => []
             | l :: r => mk_ilayer (kemplace (from, to) (idist t from to) (io_dists l)) (io_preds l) (io_constrs l) :: r
             end in
   let nt := if Nat.eqb from 0 then to :: inotes t else if Nat.eqb to 0 then from :: inotes t else inotes t in
   Ok (set_inotes nt (set_idist (upd2 (idist t) from to d) (set_ilayers ls t)))).
(** 616-623 *)
Definition i_set_pred (t : idl) (from to : nat) (p : option nat) : idl :=
  let ls := match ilayers t with
            | [] => []
            | l :: r => mk_ilayer (io_dists l) (kemplace (from, to) (Some from) (io_preds l)) (io_constrs l) :: r
            end in
  set_ipred (upd2 (ipred t) from to p) (set_ilayers ls t).
Definition i_set_both (t : idl) (from to : nat) (d : Z) (p : option nat) : res idl := t1 <- i_set_dist t from to d ;; Ok (i_set_pred t1 from to p).
(** The explanation loops read the predecessors and the constraints, no distance: they are those of Dl.v. *)
Definition iview (t : idl) : dl Z := mk_dl (ivars t) (icap t) (fun _ _ => None) (ipred t) (icon t) (icons t) [] [].
Definition i_explain (t : idl) (val : lv) (root c : nat) : res (list lit) := explain (iview t) val root c.

(** 504-591 *)
Record iscan := mk_iscan { ic_t : idl; ic_i : list nat; ic_j : list nat; ic_u : list key }.
(** 518-524; [a && b] does not evaluate [b] when [a] is false. *)
Definition i_scan_i (from to : nat) (w : Z) (s : iscan) (u : nat) : res iscan :=
  let t := ic_t s in
  if Z.eqb (idist t u from) inf then Ok s
  else
    x <- fit (idist t u to - w) ;;
    if Z.ltb (idist t u from) x then
      d <- fit (idist t u from + w) ;; t1 <- i_set_both t u to d (Some from) ;; Ok (mk_iscan t1 (ic_i s ++ [u]) (ic_j s) (ic_u s ++ [(u, to); (to, u)]))
    else Ok s.
(** 526-532 *)
Definition i_scan_j (from to : nat) (w : Z) (s : iscan) (u : nat) : res iscan :=
  let t := ic_t s in
  if Z.eqb (idist t to u) inf then Ok s
  else
    x <- fit (idist t from u - w) ;;
    if Z.ltb (idist t to u) x then
      d <- fit (idist t to u + w) ;; t1 <- i_set_both t from u d (ipred t to u) ;; Ok (mk_iscan t1 (ic_i s) (ic_j s ++ [u]) (ic_u s ++ [(from, u); (u, from)]))
    else Ok s.
Definition i_scan_step (from to : nat) (w : Z) (s : iscan) (u : nat) : res iscan := s1 <- i_scan_i from to w s u ;; i_scan_j from to w s1 u.
(** 536-544 *)
Definition i_cross_step (to : nat) (a : idl * list key) (e : nat * nat) : res (idl * list key) :=
  let (t, us) := a in
  let (i, j) := e in
  if Nat.eqb i j then Ok a
  else
    x <- fit (idist t i to + idist t to j) ;;
    if Z.ltb x (idist t i j) then t1 <- i_set_both t i j x (ipred t to j) ;; Ok (t1, us ++ [(i, j); (j, i)]) else Ok a.
Definition i_close (t : idl) (from to : nat) (w : Z) : res (idl * list key) :=
  t1 <- i_set_both t from to w (Some from) ;;
  s <- rfold (i_scan_step from to w) (seq 0 (ivars t1)) (mk_iscan t1 [] [] [(from, to); (to, from)]) ;;
  rfold (i_cross_step to) (list_prod (ic_i s) (ic_j s)) (ic_t s, ic_u s).
(** 549-589 *)
Definition i_tell_step (t : idl) (a : lv * list (list lit)) (c : dcon Z) : res (lv * list (list lit)) :=
  let (val, ls) := a in
  match val (c_b c) with
  | LUndef =>
    nd <- fit (- c_w c) ;;
    if Z.ltb (idist t (c_to c) (c_from c)) nd then
      e <- i_explain t val (c_to c) (c_from c) ;; Ok (assume_val (negl (c_b c)) val, ls ++ [negl (c_b c) :: e])
    else if Z.leb (idist t (c_from c) (c_to c)) (c_w c) then
      e <- i_explain t val (c_from c) (c_to c) ;; Ok (assume_val (c_b c) val, ls ++ [c_b c :: e])
    else Ok a
  | _ => Ok a
  end.
Definition i_cons_at (t : idl) (k : key) : list (dcon Z) := filter (fun c => key_eqb (c_from c, c_to c) k) (icons t).
(** 504-591; the assertion of line 506 is checked. *)
Definition i_prop_edge (t : idl) (val : lv) (from to : nat) (w : Z) : res (idl * list (list lit)) :=
  guard (Z.ltb (Z.abs w) inf)
  ('(t1, us) <- i_close t from to w ;;
   '(_, ls) <- rfold (i_tell_step t1) (flat_map (i_cons_at t1) us) (val, []) ;;
   Ok (t1, ls)).
(** 419-427, 450-458 *)
Definition i_enforce (t : idl) (k : key) (c : dcon Z) : idl :=
  let ls := match ilayers t with
            | [] => []
            | l :: r => mk_ilayer (io_dists l) (io_preds l) (kemplace k (kfind k (icon t)) (io_constrs l)) :: r
            end in
  set_icon (kemplace k c (icon t)) (set_ilayers ls t).
Definition i_find_con (t : idl) (v : nat) : option (dcon Z) := find (fun c => Nat.eqb (lvar (c_b c)) v) (icons t).
(** 393-469 *)
Definition i_prop (t : idl) (val : lv) (p : lit) : res (idl * list (list lit) * option (list lit)) :=
  match i_find_con t (lvar p) with
  | None => UB
  | Some c =>
    let (from, to) := (c_from c, c_to c) in
    match val (c_b c) with
    | LTrue =>
      nd <- fit (- c_w c) ;;
      if Z.ltb (idist t to from) nd then e <- i_explain t val to from ;; Ok (t, [], Some (e ++ [negl p]))
      else if Z.ltb (c_w c) (idist t from to) then '(t1, ls) <- i_prop_edge (i_enforce t (from, to) c) val from to (c_w c) ;; Ok (t1, ls, None)
      else Ok (t, [], None)
    | LFalse =>
      if Z.leb (idist t from to) (c_w c) then e <- i_explain t val from to ;; Ok (t, [], Some (e ++ [negl p]))
      else
        nd <- fit (- c_w c) ;;
        if Z.leb nd (idist t to from) then
          n1 <- fit (nd - 1) ;; '(t1, ls) <- i_prop_edge (i_enforce t (to, from) c) val to from n1 ;; Ok (t1, ls, None)
        else Ok (t, [], None)
    | LUndef => Ok (t, [], None)
    end
  end.
(** 471-486 *)
Definition i_respected (t : idl) (val : lv) (c : dcon Z) : bool :=
  match val (c_b c) with
  | LTrue => Z.leb (idist t (c_from c) (c_to c)) (c_w c)
  | LFalse => fitb (- c_w c) && Z.ltb (idist t (c_to c) (c_from c)) (- c_w c)
  | LUndef => true
  end.
Definition i_check (t : idl) (val : lv) : res (idl * option (list lit)) := guard (forallb (fun e => i_respected t val (snd e)) (icon t)) (Ok (t, None)).
(** 488 *)
Definition i_push (t : idl) : idl := set_ilayers (mk_ilayer [] [] [] :: ilayers t) t.
(** 490-502 *)
Definition i_pop (t : idl) : idl :=
  match ilayers t with
  | [] => t
  | l :: r =>
    set_icon (fold_left restore_con (io_constrs l) (icon t))
    (set_ipred (restore (io_preds l) (ipred t)) (set_idist (restore (io_dists l) (idist t)) (set_ilayers r t)))
  end.
Definition idl_ops {sr : sorter} : theory_ops idl := mk_ops i_prop i_check i_push i_pop sr.

(** idl_theory.h:87-109 *)
Definition i_distance (t : idl) (from to : nat) : res (Z * Z) := l <- fit (- idist t to from) ;; Ok (l, idist t from to).
Definition i_lb (t : idl) (v : nat) : res Z := fit (- idist t v 0).
Definition i_ub (t : idl) (v : nat) : Z := idist t 0 v.

Notation st := (st idl).
Definition i_th {A} (s : st) (i : nat) (k : idl -> res A) : res A := match nth_error (theories s) i with None => UB | Some t => k t end.
Definition i_put (s : st) (i : nat) (t : idl) : st := set_theories (set_nth (theories s) i t) s.
Definition i_new_var (s : st) (i : nat) : res (st * nat) := i_th s i (fun t => let (t1, x) := i_var t in Ok (i_put s i t1, x)).
(** 52-56 *)
Definition i_add (t : idl) (c : dcon Z) : idl := mk_idl (ivars t) (icap t) (idist t) (ipred t) (icon t) (icons t ++ [c]) (ilayers t) (inotes t).
(** 42-58 *)
Definition i_new_distance (s : st) (i : nat) (from to : nat) (w : Z) : res (st * lit) :=
  i_th s i (fun t =>
    guard (Nat.ltb from (icap t) && Nat.ltb to (icap t))
    (nd <- fit (- w) ;;
     if Z.ltb (idist t to from) nd then Ok (s, FALSE_lit)
     else if Z.leb (idist t from to) w then Ok (s, TRUE_lit)
     else
       let (s1, v) := new_var s in
       Ok (i_put (bind s1 v i) i (i_add t (mk_dcon (mk_lit v true) from to w)), mk_lit v true))).
(** idl_theory.h:38 *)
Definition i_new_distance2 (s : st) (i : nat) (from to : nat) (mn mxd : Z) : res (st * lit) :=
  nm <- fit (- mn) ;; '(s1, p) <- i_new_distance s i to from nm ;; '(s2, q) <- i_new_distance s1 i from to mxd ;; new_conj s2 [p; q].
(** [k - 1], [-k], [-k - 1] *)
Definition i_dec (k : Z) : res Z := fit (k - 1).
Definition i_neg (k : Z) : res Z := fit (- k).
Definition i_negdec (k : Z) : res Z := n <- fit (- k) ;; fit (n - 1).
(** 60-108 *)
Definition i_new_lt (s : st) (i : nat) (left right : lin) : res (option (st * lit)) :=
  match dl_form Zw (lin_sub left right) with
  | None => Ok None
  | Some (DConst k) => Ok (Some (s, tf (Qlt_bool k 0%Q)))
  | Some (DOne true v k) => w <- i_dec k ;; may (i_new_distance s i v 0 w)
  | Some (DOne false v k) => w <- i_negdec k ;; may (i_new_distance s i 0 v w)
  | Some (DTwo true v v1 k) => w <- i_dec k ;; may (i_new_distance s i v v1 w)
  | Some (DTwo false v v1 k) => w <- i_negdec k ;; may (i_new_distance s i v1 v w)
  end.
(** 110-158 *)
Definition i_new_leq (s : st) (i : nat) (left right : lin) : res (option (st * lit)) :=
  match dl_form Zw (lin_sub left right) with
  | None => Ok None
  | Some (DConst k) => Ok (Some (s, tf (Qle_bool k 0%Q)))
  | Some (DOne true v k) => may (i_new_distance s i v 0 k)
  | Some (DOne false v k) => w <- i_neg k ;; may (i_new_distance s i 0 v w)
  | Some (DTwo true v v1 k) => may (i_new_distance s i v v1 k)
  | Some (DTwo false v v1 k) => w <- i_neg k ;; may (i_new_distance s i v1 v w)
  end.
(** 160-196 *)
Definition i_eq_at (s : st) (i : nat) (v v1 : nat) (k : Z) : res (option (st * lit)) :=
  i_th s i (fun t =>
    guard (Nat.ltb v (icap t) && Nat.ltb v1 (icap t))
    ('(l, u) <- i_distance t v v1 ;;
     if Z.leb l k && Z.leb k u then
       may ('(s1, p) <- i_new_distance s i v v1 k ;; nk <- i_neg k ;; '(s2, q) <- i_new_distance s1 i v1 v nk ;; new_conj s2 [p; q])
     else Ok (Some (s, FALSE_lit)))).
Definition i_new_eq (s : st) (i : nat) (left right : lin) : res (option (st * lit)) :=
  match dl_form Zw (lin_sub left right) with
  | None => Ok None
  | Some (DConst k) => Ok (Some (s, tf (Qeq_bool k 0%Q)))
  | Some (DOne _ v k) => i_eq_at s i v 0 k
  | Some (DTwo _ v v1 k) => i_eq_at s i v v1 k
  end.
(** 198-246 *)
Definition i_new_geq (s : st) (i : nat) (left right : lin) : res (option (st * lit)) :=
  match dl_form Zw (lin_sub left right) with
  | None => Ok None
  | Some (DConst k) => Ok (Some (s, tf (Qle_bool 0%Q k)))
  | Some (DOne true v k) => w <- i_neg k ;; may (i_new_distance s i 0 v w)
  | Some (DOne false v k) => may (i_new_distance s i v 0 k)
  | Some (DTwo true v v1 k) => w <- i_neg k ;; may (i_new_distance s i v1 v w)
  | Some (DTwo false v v1 k) => may (i_new_distance s i v v1 k)
  end.
(** 248-296 *)
Definition i_new_gt (s : st) (i : nat) (left right : lin) : res (option (st * lit)) :=
  match dl_form Zw (lin_sub left right) with
  | None => Ok None
  | Some (DConst k) => Ok (Some (s, tf (Qlt_bool 0%Q k)))
  | Some (DOne true v k) => w <- i_negdec k ;; may (i_new_distance s i 0 v w)
  | Some (DOne false v k) => w <- i_dec k ;; may (i_new_distance s i v 0 w)
  | Some (DTwo true v v1 k) => w <- i_negdec k ;; may (i_new_distance s i v1 v w)
  | Some (DTwo false v v1 k) => may (i_new_distance2 s i v v1 k (-1))
  end.
Definition i_rel (r : drel) (s : st) (e1 e2 : lin) : res (option (st * lit)) :=
  match r with
  | DLt => i_new_lt s 0 e1 e2
  | DLeq => i_new_leq s 0 e1 e2
  | DEq => i_new_eq s 0 e1 e2
  | DGeq => i_new_geq s 0 e1 e2
  | DGt => i_new_gt s 0 e1 e2
  end.
(** The calls of a network with one theory; [dcall], [dret] are those of DlNet.v. *)
Definition icstep {sr : sorter} (fl : nat) (s : st) (c : @dcall Z) : res (st * dret) :=
  match c with
  | DSat c => '(s1, r) <- step (ops := idl_ops) fl s c ;; Ok (s1, DR r)
  | DVar => '(s1, x) <- i_new_var s 0 ;; Ok (s1, DX x)
  | DDist from to w => '(s1, p) <- i_new_distance s 0 from to w ;; Ok (s1, DP p)
  | DDist2 from to mn mxd => '(s1, p) <- i_new_distance2 s 0 from to mn mxd ;; Ok (s1, DP p)
  | DCmp r e1 e2 => o <- i_rel r s e1 e2 ;; Ok (match o with Some (s1, p) => (s1, DP p) | None => (s, DThrow) end)
  end.
(** 298-337, the bounds of an expression; [None]: throws. *)
Definition i_bounds (t : idl) (l : lin) : res (option (Z * Z)) :=
  match lvars l with
  | [] => match z_of_q (lkt l) with Some k => Ok (Some (k, k)) | None => Ok None end
  | [(v, c)] =>
    match z_of_q c, z_of_q (lkt l) with
    | Some c, Some k =>
      b <- i_lb t v ;; m <- fit (b * c) ;; lo <- fit (m + k) ;;
      n <- fit (i_ub t v * c) ;; hi <- fit (n + k) ;; Ok (Some (lo, hi))
    | _, _ => Ok None
    end
  | [(v, c); (v1, c1)] =>
    match z_of_q (c1 / c)%Q, z_of_q (lkt l) with
    | Some (-1)%Z, Some _ =>
      let k := Qnum (Qred (lkt l / c)%Q) in
      '(a, b) <- i_distance t v1 v ;; lo <- fit (a + k) ;; hi <- fit (b + k) ;; Ok (Some (lo, hi))
    | _, _ => Ok None
    end
  | _ => Ok None
  end.
(** 339-367; the known term is not computed with: its numerator is returned, or it is dropped. *)
Definition i_distance_lin (t : idl) (from to : lin) : res (option (Z * Z)) :=
  match lvars (lin_sub from to) with
  | [] => Ok (Some (Qnum (Qred (lkt (lin_sub from to))), Qnum (Qred (lkt (lin_sub from to)))))
  | _ =>
    match dl_form Zw (lin_sub from to) with
    | Some (DOne _ v _) => may (i_distance t v 0)
    | Some (DTwo _ v v1 _) => may (i_distance t v v1)
    | _ => Ok None
    end
  end.
(** 369-391; comparisons and sums of a machine integer and a rational are exact. *)
Definition i_inq (b : Z * Z) (q : Q) : bool := Qle_bool (inject_Z (fst b)) q && Qle_bool q (inject_Z (snd b)).
Definition i_matches (t : idl) (l0 l1 : lin) : res (option bool) :=
  match lvars l0, lvars l1 with
  | [], [] => Ok (Some (Qeq_bool (lkt l0) (lkt l1)))
  | [], [_] => o <- i_bounds t l1 ;; Ok (match o with Some b => Some (i_inq b (lkt l0)) | None => None end)
  | [_], [] => o <- i_bounds t l0 ;; Ok (match o with Some b => Some (i_inq b (lkt l1)) | None => None end)
  | [(v0, _)], [(v1, _)] =>
    '(lb, ub) <- i_distance t v0 v1 ;;
    let kt := (lkt l0 - lkt l1)%Q in Ok (Some (Qle_bool (inject_Z lb + kt) 0 && Qle_bool 0 (inject_Z ub + kt)))
  | _, _ => Ok None
  end.
End Machine.
