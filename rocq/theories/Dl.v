(** Model of the difference logic theories: src/arith/dl/idl_theory.cpp and rdl_theory.cpp,
    include/arith/dl/idl_theory.h and rdl_theory.h.  The two files are the same program up to the
    type of the weights; line numbers refer to idl_theory.cpp unless stated otherwise, and the places where the two
    programs differ are parameters ([wops], Dw.v) or separate definitions.
    Not modelled: the copy constructors (18-27), overflow of [utils::I] (Idl.v models it). *)
From Verif Require Import Base Sat Lin Qe Dw.
Local Arguments Nat.ltb : simpl never.
Local Arguments Nat.eqb : simpl never.

(** ** Maps with a pair of variables as a key ([std::map<std::pair<var, var>, A>]). *)
Definition key : Type := (nat * nat)%type.
Definition key_eqb (a b : key) : bool := Nat.eqb (fst a) (fst b) && Nat.eqb (snd a) (snd b).
Definition kfind {A} (k : key) (m : list (key * A)) : option A := match find (fun e => key_eqb (fst e) k) m with Some e => Some (snd e) | None => None end.
(** [emplace], [insert]: no effect when the key is present. *)
Definition kemplace {A} (k : key) (a : A) (m : list (key * A)) : list (key * A) := match kfind k m with Some _ => m | None => (k, a) :: m end.
(** [erase] *)
Definition kerase {A} (k : key) (m : list (key * A)) : list (key * A) := filter (fun e => negb (key_eqb (fst e) k)) m.
Definition upd2 {A} (f : nat -> nat -> A) (i j : nat) (a : A) : nat -> nat -> A := fun x y => if Nat.eqb x i && Nat.eqb y j then a else f x y.

Section Weights.
Context {D : Type} (W : wops D).
Notation "a +' b" := (wadd W a b) (at level 50, left associativity).

(** Distances; [None]: infinite. *)
Definition dist_lt (a b : option D) : bool :=
  match a, b with None, _ => false | Some _, None => true | Some x, Some y => negb (wleb W y x) end.
Definition dist_le (a b : option D) : bool := negb (dist_lt b a).
Definition dist_add (a b : option D) : option D := match a, b with Some x, Some y => Some (x +' y) | _, _ => None end.

(** idl_theory.h:161-174 [idl_distance]: [to - from <= dist], controlled by [b]. *)
Record dcon := mk_dcon { c_b : lit; c_from : nat; c_to : nat; c_w : D }.
(** idl_theory.h:176-181 *)
Record dlayer := mk_dlayer { old_dists : list (key * option D); old_preds : list (key * option nat); old_constrs : list (key * option dcon) }.
(** idl_theory.h:183-190.  The matrices are total functions, with the C++ size in [cap];
    [std::numeric_limits<size_t>::max()] in [preds] is [None].  [constrs] lists the constraints in the order of
    their creation: [var_dists] and [dist_constrs] are the two ways of looking them up.
    [layers] has its C++ [back()] at the head.  [notes] lists the calls of [idl_value_change] that a listener
    of every variable receives, newest first; it has no C++ counterpart. *)
Record dl := mk_dl {
  nvars : nat;
  cap : nat;
  dists : nat -> nat -> option D;
  preds : nat -> nat -> option nat;
  dist_constr : list (key * dcon);
  dcons : list dcon;
  dlayers : list dlayer;
  notes : list nat }.
Definition set_dists f t := mk_dl (nvars t) (cap t) f (preds t) (dist_constr t) (dcons t) (dlayers t) (notes t).
Definition set_preds f t := mk_dl (nvars t) (cap t) (dists t) f (dist_constr t) (dcons t) (dlayers t) (notes t).
Definition set_constr f t := mk_dl (nvars t) (cap t) (dists t) (preds t) f (dcons t) (dlayers t) (notes t).
Definition set_dlayers f t := mk_dl (nvars t) (cap t) (dists t) (preds t) (dist_constr t) (dcons t) f (notes t).
Definition set_notes f t := mk_dl (nvars t) (cap t) (dists t) (preds t) (dist_constr t) (dcons t) (dlayers t) f.

(** Lines 9-17; [n_vars = 1]: variable 0 is the origin. *)
Definition dl_init (size : nat) : dl :=
  mk_dl 1 size (fun i j => if Nat.eqb i j then Some (w0 W) else None) (fun i j => if Nat.eqb i j then None else Some i) [] [] [] [].
(** Lines 625-641 *)
Definition dl_resize (size : nat) (t : dl) : dl :=
  let c := cap t in
  let inside i j := Nat.ltb i c && Nat.ltb j c in
  mk_dl (nvars t) size
    (fun i j => if inside i j then dists t i j else if Nat.eqb i j then Some (w0 W) else None)
    (fun i j => if inside i j then preds t i j else if Nat.eqb i j then None else Some i)
    (dist_constr t) (dcons t) (dlayers t) (notes t).
(** Lines 34-40 *)
Definition t_dl_var (t : dl) : dl * nat :=
  let tp := nvars t in
  let t1 := mk_dl (S tp) (cap t) (dists t) (preds t) (dist_constr t) (dcons t) (dlayers t) (notes t) in
  (if Nat.eqb (cap t1) tp then dl_resize (cap t1 * 3 / 2 + 1) t1 else t1, tp).

(** Lines 593-614; the assertion is checked. *)
Definition set_dist (t : dl) (from to : nat) (d : D) : res dl :=
  guard (dist_lt (Some d) (dists t from to))
  (let ls := match dlayers t with
             | [] => []
             | l :: r => mk_dlayer (kemplace (from, to) (dists t from to) (old_dists l)) (old_preds l) (old_constrs l) :: r
             end in
   let nt := if Nat.eqb from 0 then to :: notes t else if Nat.eqb to 0 then from :: notes t else notes t in
   Ok (set_notes nt (set_dists (upd2 (dists t) from to (Some d)) (set_dlayers ls t)))).
(** Lines 616-623: what is saved is [from], not the current predecessor. *)
Definition set_pred (t : dl) (from to : nat) (p : option nat) : dl :=
  let ls := match dlayers t with
            | [] => []
            | l :: r => mk_dlayer (old_dists l) (kemplace (from, to) (Some from) (old_preds l)) (old_constrs l) :: r
            end in
  set_preds (upd2 (preds t) from to p) (set_dlayers ls t).
Definition set_both (t : dl) (from to : nat) (d : D) (p : option nat) : res dl := t1 <- set_dist t from to d ;; Ok (set_pred t1 from to p).

(** ** Explanations: the loops at 405-415, 436-446, 556-566, 575-585.  The walk from [c] back to [root] along the
    predecessors of row [root] collects the negation of the literal of the constraint enforced on each edge. *)
Definition lv : Type := (lit -> lbool).
Definition edge_lits (t : dl) (val : lv) (u c : nat) : list lit :=
  match kfind (u, c) (dist_constr t) with
  | None => []
  | Some k => match val (c_b k) with LTrue => [negl (c_b k)] | LFalse => [c_b k] | LUndef => [] end
  end.
Fixpoint walk (fuel : nat) (t : dl) (val : lv) (root c : nat) : res (list lit) :=
  if Nat.eqb c root then Ok []
  else
    match fuel with
    | O => OOF
    | S f => match preds t root c with None => UB | Some u => ls <- walk f t val root u ;; Ok (edge_lits t val u c ++ ls) end
    end.
Definition explain (t : dl) (val : lv) (root c : nat) : res (list lit) := walk (S (cap t)) t val root c.

(** ** Propagation of [to - from <= w] (lines 504-591). *)
Record scan := mk_scan { sc_t : dl; sc_i : list nat; sc_j : list nat; sc_u : list key }.
(** [_dists[u][from] < _dists[u][to] - dist], lines 518 and 526 *)
Definition closer (a b : option D) (w : D) : bool :=
  match a, b with None, _ => false | Some _, None => true | Some x, Some y => negb (wleb W (y +' wneg W w) x) end.
(** Lines 516-533 *)
Definition scan_i (from to : nat) (w : D) (s : scan) (u : nat) : res scan :=
  let t := sc_t s in
  match dists t u from with
  | Some a => if closer (dists t u from) (dists t u to) w then t1 <- set_both t u to (a +' w) (Some from) ;; Ok (mk_scan t1 (sc_i s ++ [u]) (sc_j s) (sc_u s ++ [(u, to); (to, u)])) else Ok s
  | None => Ok s
  end.
Definition scan_j (from to : nat) (w : D) (s : scan) (u : nat) : res scan :=
  let t := sc_t s in
  match dists t to u with
  | Some a => if closer (dists t to u) (dists t from u) w then t1 <- set_both t from u (a +' w) (preds t to u) ;; Ok (mk_scan t1 (sc_i s) (sc_j s ++ [u]) (sc_u s ++ [(from, u); (u, from)])) else Ok s
  | None => Ok s
  end.
Definition scan_step (from to : nat) (w : D) (s : scan) (u : nat) : res scan := s1 <- scan_i from to w s u ;; scan_j from to w s1 u.
(** Lines 536-544 *)
Definition cross_step (to : nat) (a : dl * list key) (e : nat * nat) : res (dl * list key) :=
  let (t, us) := a in
  let (i, j) := e in
  if negb (Nat.eqb i j) && dist_lt (dist_add (dists t i to) (dists t to j)) (dists t i j) then
    match dist_add (dists t i to) (dists t to j) with
    | Some d => t1 <- set_both t i j d (preds t to j) ;; Ok (t1, us ++ [(i, j); (j, i)])
    | None => UB
    end
  else Ok (t, us).
(** Lines 507-544: the new distances and the list of pairs that changed. *)
Definition close (t : dl) (from to : nat) (w : D) : res (dl * list key) :=
  t1 <- set_both t from to w (Some from) ;;
  s <- rfold (scan_step from to w) (seq 0 (nvars t1)) (mk_scan t1 [] [] [(from, to); (to, from)]) ;;
  rfold (cross_step to) (list_prod (sc_i s) (sc_j s)) (sc_t s, sc_u s).
(** Lines 549-589: what has become inconsistent or redundant is recorded. *)
Definition assume_val (l : lit) (val : lv) : lv := fun q => if lit_eqb q l then LTrue else if lit_eqb q (negl l) then LFalse else val q.
Definition tell_step (t : dl) (a : lv * list (list lit)) (c : dcon) : res (lv * list (list lit)) :=
  let (val, ls) := a in
  match val (c_b c) with
  | LUndef =>
    if dist_lt (dists t (c_to c) (c_from c)) (Some (wneg W (c_w c))) then
      e <- explain t val (c_to c) (c_from c) ;; Ok (assume_val (negl (c_b c)) val, ls ++ [negl (c_b c) :: e])
    else if dist_le (dists t (c_from c) (c_to c)) (Some (c_w c)) then
      e <- explain t val (c_from c) (c_to c) ;; Ok (assume_val (c_b c) val, ls ++ [c_b c :: e])
    else Ok a
  | _ => Ok a
  end.
Definition cons_at (t : dl) (k : key) : list dcon := filter (fun c => key_eqb (c_from c, c_to c) k) (dcons t).
Definition prop_edge (t : dl) (val : lv) (from to : nat) (w : D) : res (dl * list (list lit)) :=
  '(t1, us) <- close t from to w ;;
  '(_, ls) <- rfold (tell_step t1) (flat_map (cons_at t1) us) (val, []) ;;
  Ok (t1, ls).
(** Lines 419-427, 450-458: the constraint enforced on an edge; [emplace] does not replace. *)
Definition enforce (t : dl) (k : key) (c : dcon) : dl :=
  let ls := match dlayers t with
            | [] => []
            | l :: r => mk_dlayer (old_dists l) (old_preds l) (kemplace k (kfind k (dist_constr t)) (old_constrs l)) :: r
            end in
  set_constr (kemplace k c (dist_constr t)) (set_dlayers ls t).
Definition find_con (t : dl) (v : nat) : option dcon := find (fun c => Nat.eqb (lvar (c_b c)) v) (dcons t).
(** [-dist - 1] *)
Definition nega (w : D) : D := wneg W w +' wneg W (wunit W).
(** Lines 393-469 *)
Definition dl_prop (t : dl) (val : lv) (p : lit) : res (dl * list (list lit) * option (list lit)) :=
  match find_con t (lvar p) with
  | None => UB
  | Some c =>
    let (from, to) := (c_from c, c_to c) in
    match val (c_b c) with
    | LTrue =>
      if dist_lt (dists t to from) (Some (wneg W (c_w c))) then e <- explain t val to from ;; Ok (t, [], Some (e ++ [negl p]))
      else if dist_lt (Some (c_w c)) (dists t from to) then '(t1, ls) <- prop_edge (enforce t (from, to) c) val from to (c_w c) ;; Ok (t1, ls, None)
      else Ok (t, [], None)
    | LFalse =>
      if dist_le (dists t from to) (Some (c_w c)) then e <- explain t val from to ;; Ok (t, [], Some (e ++ [negl p]))
      else if dist_le (Some (wneg W (c_w c))) (dists t to from) then '(t1, ls) <- prop_edge (enforce t (to, from) c) val to from (nega (c_w c)) ;; Ok (t1, ls, None)
      else Ok (t, [], None)
    | LUndef => Ok (t, [], None)
    end
  end.
(** Lines 471-486; the assertion is checked. *)
Definition con_respected (t : dl) (val : lv) (c : dcon) : bool :=
  match val (c_b c) with
  | LTrue => dist_le (dists t (c_from c) (c_to c)) (Some (c_w c))
  | LFalse => dist_lt (dists t (c_to c) (c_from c)) (Some (wneg W (c_w c)))
  | LUndef => true
  end.
Definition dl_check (t : dl) (val : lv) : res (dl * option (list lit)) :=
  guard (forallb (fun e => con_respected t val (snd e)) (dist_constr t)) (Ok (t, None)).
(** Line 488 *)
Definition dl_push (t : dl) : dl := set_dlayers (mk_dlayer [] [] [] :: dlayers t) t.
(** Lines 490-502 *)
Definition restore {A} (m : list (key * A)) (f : nat -> nat -> A) : nat -> nat -> A := fun i j => match kfind (i, j) m with Some a => a | None => f i j end.
Definition restore_con (m : list (key * dcon)) (e : key * option dcon) : list (key * dcon) :=
  match snd e with Some c => kemplace (fst e) c m | None => kerase (fst e) m end.
Definition dl_pop (t : dl) : dl :=
  match dlayers t with
  | [] => t
  | l :: r =>
    set_constr (fold_left restore_con (old_constrs l) (dist_constr t))
    (set_preds (restore (old_preds l) (preds t)) (set_dists (restore (old_dists l) (dists t)) (set_dlayers r t)))
  end.
Definition dl_ops {sr : sorter} : theory_ops dl := mk_ops dl_prop dl_check dl_push dl_pop sr.

(** ** Queries. *)
(** idl_theory.h:109 [distance(from, to)]; the bounds of a variable (87-101) are [distance(0, v)]. [None]: infinite. *)
Definition distance (t : dl) (from to : nat) : option D * option D := (option_map (wneg W) (dists t to from), dists t from to).

(** ** Creation of constraints.  [i] is the index of the theory in the core; accesses beyond the matrix are undefined behaviour. *)
Definition dl_th {A} (s : st dl) (i : nat) (k : dl -> res A) : res A := match nth_error (theories s) i with None => UB | Some t => k t end.
Definition dl_put (s : st dl) (i : nat) (t : dl) : st dl := set_theories (set_nth (theories s) i t) s.
Definition dl_new_var (s : st dl) (i : nat) : res (st dl * nat) := dl_th s i (fun t => let (t1, x) := t_dl_var t in Ok (dl_put s i t1, x)).
(** Lines 52-56 *)
Definition add_con (t : dl) (c : dcon) : dl := mk_dl (nvars t) (cap t) (dists t) (preds t) (dist_constr t) (dcons t ++ [c]) (dlayers t) (notes t).
(** Lines 42-58 *)
Definition new_distance (s : st dl) (i : nat) (from to : nat) (w : D) : res (st dl * lit) :=
  dl_th s i (fun t =>
    guard (Nat.ltb from (cap t) && Nat.ltb to (cap t))
    (if dist_lt (dists t to from) (Some (wneg W w)) then Ok (s, FALSE_lit)
     else if dist_le (dists t from to) (Some w) then Ok (s, TRUE_lit)
     else
       let (s1, v) := new_var s in
       Ok (dl_put (bind s1 v i) i (add_con t (mk_dcon (mk_lit v true) from to w)), mk_lit v true))).
(** idl_theory.h:38 *)
Definition new_distance2 (s : st dl) (i : nat) (from to : nat) (mn mx : D) : res (st dl * lit) :=
  '(s1, p) <- new_distance s i to from (wneg W mn) ;; '(s2, q) <- new_distance s1 i from to mx ;; new_conj s2 [p; q].

(** [Ok None]: the call throws [std::invalid_argument]. *)
Definition may {A} (r : res A) : res (option A) := a <- r ;; Ok (Some a).
Definition neg_coef (c : Q) : bool := negb (Qle_bool 0 c).
(** The expression of difference form on the left of a comparison with 0, divided by its first coefficient:
    [v + k] or [v - v1 + k]. *)
Inductive dform := DConst (k : Q) | DOne (neg : bool) (v : nat) (k : D) | DTwo (neg : bool) (v v1 : nat) (k : D).
(** Lines 62-105: the [switch] that is common to the comparisons (154-156, 165, 181, ... ). *)
Definition dl_form (e : lin) : option dform :=
  match lvars e with
  | [] => Some (DConst (lkt e))
  | [(v, c)] => match wofq W (lkt e / c) with Some k => Some (DOne (neg_coef c) v k) | None => None end
  | [(v, c); (v1, c1)] =>
    if negb (Qeq_bool (c1 / c) (-1 # 1)) then None
    else match wofq W (lkt e / c) with Some k => Some (DTwo (neg_coef c) v v1 k) | None => None end
  | _ => None
  end.
Definition tf (b : bool) : lit := if b then TRUE_lit else FALSE_lit.
Definition Qlt_bool (a b : Q) : bool := negb (Qle_bool b a).
(** Lines 60-108 *)
Definition dl_new_lt (s : st dl) (i : nat) (left right : lin) : res (option (st dl * lit)) :=
  match dl_form (lin_sub left right) with
  | None => Ok None
  | Some (DConst k) => Ok (Some (s, tf (Qlt_bool k 0)))
  | Some (DOne true v k) => may (new_distance s i v 0 (k +' wneg W (wunit W)))
  | Some (DOne false v k) => may (new_distance s i 0 v (wneg W k +' wneg W (wunit W)))
  | Some (DTwo true v v1 k) => may (new_distance s i v v1 (k +' wneg W (wunit W)))
  | Some (DTwo false v v1 k) => may (new_distance s i v1 v (wneg W k +' wneg W (wunit W)))
  end.
(** Lines 110-158 *)
Definition dl_new_leq (s : st dl) (i : nat) (left right : lin) : res (option (st dl * lit)) :=
  match dl_form (lin_sub left right) with
  | None => Ok None
  | Some (DConst k) => Ok (Some (s, tf (Qle_bool k 0)))
  | Some (DOne true v k) => may (new_distance s i v 0 k)
  | Some (DOne false v k) => may (new_distance s i 0 v (wneg W k))
  | Some (DTwo true v v1 k) => may (new_distance s i v v1 k)
  | Some (DTwo false v v1 k) => may (new_distance s i v1 v (wneg W k))
  end.
(** Lines 160-196.  [dist.first <= k && dist.second >= k] *)
Definition within (d : option D * option D) (k : D) : bool :=
  match fst d with None => true | Some l => wleb W l k end && match snd d with None => true | Some u => wleb W k u end.
Definition eq_at (s : st dl) (i : nat) (v v1 : nat) (k : D) : res (option (st dl * lit)) :=
  dl_th s i (fun t =>
    guard (Nat.ltb v (cap t) && Nat.ltb v1 (cap t))
    (if within (distance t v v1) k then
       may ('(s1, p) <- new_distance s i v v1 k ;; '(s2, q) <- new_distance s1 i v1 v (wneg W k) ;; new_conj s2 [p; q])
     else Ok (Some (s, FALSE_lit)))).
Definition dl_new_eq (s : st dl) (i : nat) (left right : lin) : res (option (st dl * lit)) :=
  match dl_form (lin_sub left right) with
  | None => Ok None
  | Some (DConst k) => Ok (Some (s, tf (Qeq_bool k 0)))
  | Some (DOne _ v k) => eq_at s i v 0 k
  | Some (DTwo _ v v1 k) => eq_at s i v v1 k
  end.
(** Lines 198-246 *)
Definition dl_new_geq (s : st dl) (i : nat) (left right : lin) : res (option (st dl * lit)) :=
  match dl_form (lin_sub left right) with
  | None => Ok None
  | Some (DConst k) => Ok (Some (s, tf (Qle_bool 0 k)))
  | Some (DOne true v k) => may (new_distance s i 0 v (wneg W k))
  | Some (DOne false v k) => may (new_distance s i v 0 k)
  | Some (DTwo true v v1 k) => may (new_distance s i v1 v (wneg W k))
  | Some (DTwo false v v1 k) => may (new_distance s i v v1 k)
  end.
(** Lines 248-296 up to the last case, which is a parameter. *)
Definition new_gt_with (last : st dl -> nat -> nat -> nat -> D -> res (st dl * lit)) (s : st dl) (i : nat) (left right : lin) : res (option (st dl * lit)) :=
  match dl_form (lin_sub left right) with
  | None => Ok None
  | Some (DConst k) => Ok (Some (s, tf (Qlt_bool 0 k)))
  | Some (DOne true v k) => may (new_distance s i 0 v (wneg W k +' wneg W (wunit W)))
  | Some (DOne false v k) => may (new_distance s i v 0 (k +' wneg W (wunit W)))
  | Some (DTwo true v v1 k) => may (new_distance s i v1 v (wneg W k +' wneg W (wunit W)))
  | Some (DTwo false v v1 k) => may (last s i v v1 k)
  end.
End Weights.
Arguments dcon D : clear implicits.
Arguments dl D : clear implicits.
Arguments dlayer D : clear implicits.

(** idl_theory.cpp:291: a comma, so that the overload with a minimum and a maximum is called. *)
Definition idl_new_gt : st (dl Z) -> nat -> lin -> lin -> res (option (st (dl Z) * lit)) := new_gt_with Zw (fun s i v v1 k => new_distance2 Zw s i v v1 k (-1)%Z).
(** rdl_theory.cpp:275 *)
Definition rdl_new_gt : st (dl qe) -> nat -> lin -> lin -> res (option (st (dl qe) * lit)) :=
  new_gt_with Qw (fun s i v v1 k => new_distance Qw s i v v1 (wadd Qw k (wneg Qw (wunit Qw)))).

(** ** Queries on expressions. *)
(** [a * q + k] for a possibly infinite [a] *)
Definition zaff (a : option Z) (c k : Z) : option Z := option_map (fun x => (x * c + k)%Z) a.
Definition qaff (a : option qe) (c : Q) (k : Q) : option qe := option_map (fun x => qe_add (qe_scale c x) (qe_of k)) a.
(** idl_theory.cpp:298-337.  [None] as the lower (upper) component: -inf (+inf).  With an infinite bound the C++
    program multiplies the sentinel (Idl.v). Outer [None]: throws. *)
Definition idl_bounds (t : dl Z) (l : lin) : option (option Z * option Z) :=
  match lvars l with
  | [] => match z_of_q (lkt l) with Some k => Some (Some k, Some k) | None => None end
  | [(v, c)] =>
    match z_of_q c, z_of_q (lkt l) with
    | Some c, Some k => Some (zaff (fst (distance Zw t 0 v)) c k, zaff (snd (distance Zw t 0 v)) c k)
    | _, _ => None
    end
  | [(v, c); (v1, c1)] =>
    match z_of_q (c1 / c), z_of_q (lkt l) with
    | Some (-1)%Z, Some _ => let k := Qnum (Qred (lkt l / c)) in Some (zaff (fst (distance Zw t v1 v)) 1 k, zaff (snd (distance Zw t v1 v)) 1 k)
    | _, _ => None
    end
  | _ => None
  end.
(** rdl_theory.cpp:282-318 *)
Definition rdl_bounds (t : dl qe) (l : lin) : option (option qe * option qe) :=
  match lvars l with
  | [] => Some (Some (qe_of (lkt l)), Some (qe_of (lkt l)))
  | [(v, c)] => Some (qaff (fst (distance Qw t 0 v)) c (lkt l), qaff (snd (distance Qw t 0 v)) c (lkt l))
  | [(v, c); (v1, c1)] =>
    if Qeq_bool (c1 / c) (-1 # 1) then Some (qaff (fst (distance Qw t v v1)) 1 (lkt l / c), qaff (snd (distance Qw t v v1)) 1 (lkt l / c)) else None
  | _ => None
  end.
(** idl_theory.cpp:339-367, rdl_theory.cpp:320-346 (where the constant need not be an integer). *)
Definition dl_distance {D} (W : wops D) (t : dl D) (konst : Q -> D) (from to : lin) : option (option D * option D) :=
  match lvars (lin_sub from to) with
  | [] => Some (Some (konst (lkt (lin_sub from to))), Some (konst (lkt (lin_sub from to))))
  | _ =>
    match dl_form W (lin_sub from to) with
    | Some (DOne _ v _) => Some (distance W t v 0)
    | Some (DTwo _ v v1 _) => Some (distance W t v v1)
    | _ => None
    end
  end.
Definition idl_distance : dl Z -> lin -> lin -> option (option Z * option Z) := fun t => dl_distance Zw t (fun q => Qnum (Qred q)).
Definition rdl_distance : dl qe -> lin -> lin -> option (option qe * option qe) := fun t => dl_distance Qw t (fun q => qe_of q).
(** idl_theory.cpp:369-391, rdl_theory.cpp:348-370.  [inq lo hi q]: [lo <= q && hi >= q]. Outer [None]: throws. *)
Definition dl_matches {D} (W : wops D) (bounds : lin -> option (option D * option D)) (inq : option D * option D -> Q -> bool) (t : dl D) (l0 l1 : lin) : option bool :=
  match lvars l0, lvars l1 with
  | [], [] => Some (Qeq_bool (lkt l0) (lkt l1))
  | [], [_] => match bounds l1 with Some b => Some (inq b (lkt l0)) | None => None end
  | [_], [] => match bounds l0 with Some b => Some (inq b (lkt l1)) | None => None end
  | [(v0, _)], [(v1, _)] => Some (inq (distance W t v0 v1) (- (lkt l0 - lkt l1)))
  | _, _ => None
  end.
Definition in_z (b : option Z * option Z) (q : Q) : bool :=
  match fst b with None => true | Some l => Qle_bool (inject_Z l) q end && match snd b with None => true | Some u => Qle_bool q (inject_Z u) end.
Definition in_q (b : option qe * option qe) (q : Q) : bool :=
  match fst b with None => true | Some l => qe_leb l (qe_of q) end && match snd b with None => true | Some u => qe_leb (qe_of q) u end.
Definition idl_matches (t : dl Z) : lin -> lin -> option bool := dl_matches Zw (idl_bounds t) in_z t.
Definition rdl_matches (t : dl qe) : lin -> lin -> option bool := dl_matches Qw (rdl_bounds t) in_q t.
