(** Model of the linear real arithmetic theory: src/arith/lra/lra_theory.cpp, lra_constraint.cpp,
    include/arith/lra/lra_theory.h, lra_constraint.h.
    Not modelled: value listeners ([listening]; see LraLis.v), the copy constructor (see Copy.v), [set_lb]/[set_ub]/
    [set] called directly by a client (see LraSet.v), [to_json]. *)
From Verif Require Import Base Sat Lin Qe.
From Coq Require Import Lqa.
Open Scope Q_scope.
Local Arguments Nat.ltb : simpl never.
Local Arguments Nat.eqb : simpl never.

(** ** Ordered maps with [nat] keys ([std::map<const var, row *>]). *)
Fixpoint gfind {A} (v : nat) (m : list (nat * A)) : option A :=
  match m with [] => None | (k, a) :: r => if Nat.eqb k v then Some a else gfind v r end.
Fixpoint gput {A} (v : nat) (a : A) (m : list (nat * A)) : list (nat * A) :=
  match m with
  | [] => [(v, a)]
  | (k, b) :: r => if Nat.ltb v k then (v, a) :: m else if Nat.eqb k v then (v, a) :: r else (k, b) :: gput v a r
  end.
Fixpoint gdel {A} (v : nat) (m : list (nat * A)) : list (nat * A) :=
  match m with [] => [] | (k, a) :: r => if Nat.eqb k v then r else (k, a) :: gdel v r end.

(** ** Sets ([std::unordered_set<row *>]); a row is identified by its basic variable. *)
Definition sadd (x : nat) (l : list nat) : list nat := if memn x l then l else x :: l.
Definition srem (x : nat) (l : list nat) : list nat := filter (fun y => negb (Nat.eqb y x)) l.

(** lra_constraint.h:13-44: [a_op = Up] is [op::leq], [Lo] is [op::geq]. *)
Record asrt := mk_asrt { a_op : side; a_b : lit; a_x : nat; a_v : qe }.
Definition cbound : Type := (bnd * lit)%type.
Definition layer : Type := list ((side * nat) * cbound).

(** lra_theory.h:212-227.  [c_bounds] is indexed by side and variable (lb_index, ub_index);
    [xexprs] and [s_asrts] are keyed by the expression / the assertion instead of its text;
    [layers] has its C++ [back()] at the head.  [facts] and [tick] have no C++ counterpart:
    the root-level literals that justify bounds whose recorded reason is TRUE_lit, and
    a counter of the calls that iterate over an unordered set. *)
Record lra := mk_lra {
  nx : nat;
  cb : side -> nat -> cbound;
  vals : nat -> qe;
  tab : list (nat * lin);
  tw : nat -> list nat;
  xexprs : list (lin * nat);
  s_asrts : list ((side * nat * qe) * lit);
  v_asrts : list (nat * asrt);
  aw : nat -> list asrt;
  layers : list layer;
  facts : list lit;
  tick : nat }.
Definition set_cb f t := mk_lra (nx t) f (vals t) (tab t) (tw t) (xexprs t) (s_asrts t) (v_asrts t) (aw t) (layers t) (facts t) (tick t).
Definition set_vals f t := mk_lra (nx t) (cb t) f (tab t) (tw t) (xexprs t) (s_asrts t) (v_asrts t) (aw t) (layers t) (facts t) (tick t).
Definition set_tab f w t := mk_lra (nx t) (cb t) (vals t) f w (xexprs t) (s_asrts t) (v_asrts t) (aw t) (layers t) (facts t) (tick t).
Definition set_layers f t := mk_lra (nx t) (cb t) (vals t) (tab t) (tw t) (xexprs t) (s_asrts t) (v_asrts t) (aw t) f (facts t) (tick t).
Definition set_tick f t := mk_lra (nx t) (cb t) (vals t) (tab t) (tw t) (xexprs t) (s_asrts t) (v_asrts t) (aw t) (layers t) (facts t) f.

(** lra_theory.cpp:9 *)
Definition lra_init : lra :=
  mk_lra 0 (fun _ _ => (None, TRUE_lit)) (fun _ => (0, 0)) [] (fun _ => []) [] [] [] (fun _ => []) [] [] 0.

(** lra_theory.h:82-89 [lb], [ub] *)
Definition bound (t : lra) (s : side) (x : nat) : bnd := fst (cb t s x).
Definition breason (t : lra) (s : side) (x : nat) : lit := snd (cb t s x).
Definition updc (f : side -> nat -> cbound) (s : side) (x : nat) (b : cbound) : side -> nat -> cbound :=
  fun s' x' => if side_eqb s' s && Nat.eqb x' x then b else f s' x'.
(** lra_theory.h:33 *)
Definition is_basic (t : lra) (x : nat) : bool := match gfind x (tab t) with Some _ => true | None => false end.

(** lra_theory.h:104-123 [lb(lin)], [ub(lin)]; a zero coefficient times an infinite bound is not modelled. *)
Definition bound_lin (t : lra) (s : side) (l : lin) : bnd :=
  fold_left (fun acc e => badd acc (bscale (snd e) (bound t (tside s (snd e)) (fst e)))) (lvars l) (Some (qe_of (lkt l))).
(** lra_theory.h:147-153 [value(lin)] *)
Definition val_lin (t : lra) (l : lin) : qe :=
  fold_left (fun acc e => qe_add acc (qe_scale (snd e) (vals t (fst e)))) (lvars l) (qe_of (lkt l)).
(** lra_theory.cpp:232-237 *)
Definition matches (t : lra) (l0 l1 : lin) : bool :=
  match bound_lin t Up l0, bound_lin t Lo l1 with Some u, Some l => qe_leb l u | _, _ => true end &&
  match bound_lin t Lo l0, bound_lin t Up l1 with Some l, Some u => qe_leb l u | _, _ => true end.

(** ** Creation of variables. *)
(** lra_theory.cpp:28-39; [exprs.emplace] does not replace. *)
Definition t_new_var (t : lra) : lra * nat :=
  let x := nx t in
  (mk_lra (S x) (updc (updc (cb t) Lo x (None, TRUE_lit)) Up x (None, TRUE_lit)) (upd (vals t) x (0, 0))
     (tab t) (upd (tw t) x []) (xexprs t ++ [(lin_var x 1, x)]) (s_asrts t) (v_asrts t) (upd (aw t) x []) (layers t) (facts t) (tick t), x).

Fixpoint qmap_eqb (a b : qmap) : bool :=
  match a, b with
  | [], [] => true
  | (v, c) :: a', (w, d) :: b' => Nat.eqb v w && Qeq_bool c d && qmap_eqb a' b'
  | _, _ => false
  end.
Definition lin_eqb (a b : lin) : bool := qmap_eqb (lvars a) (lvars b) && Qeq_bool (lkt a) (lkt b).
Definition find_slack (t : lra) (l : lin) : option nat :=
  match find (fun e => lin_eqb (fst e) l) (xexprs t) with Some e => Some (snd e) | None => None end.

(** lra_theory.cpp:483-489 *)
Definition new_row (x : nat) (l : lin) (tb : list (nat * lin)) (w : nat -> list nat) : list (nat * lin) * (nat -> list nat) :=
  (gput x l tb, fold_left (fun w e => upd w (fst e) (sadd x (w (fst e)))) (lvars l) w).
(** The literals that justify the root-level bounds of an expression (ghost). *)
Definition just_lits (t : lra) (l : lin) : list lit :=
  filter (fun r => negb (lit_eqb r TRUE_lit)) (flat_map (fun e => [breason t (tside Lo (snd e)) (fst e); breason t (tside Up (snd e)) (fst e)]) (lvars l)).
(** lra_theory.cpp:41-58; [root]: [sat->root_level()]. *)
Definition t_new_slack (root : bool) (t : lra) (l : lin) : res (lra * nat) :=
  guard (match lvars l with [] => false | _ => true end)
  (match find_slack t l with
   | Some x => Ok (t, x)
   | None =>
     guard root
     (let (t1, x) := t_new_var t in
      let (tb, w) := new_row x l (tab t1) (tw t1) in
      Ok (mk_lra (nx t1) (updc (updc (cb t1) Lo x (bound_lin t1 Lo l, TRUE_lit)) Up x (bound_lin t1 Up l, TRUE_lit))
            (upd (vals t1) x (val_lin t1 l)) tb w (xexprs t1 ++ [(l, x)]) (s_asrts t1) (v_asrts t1) (aw t1) (layers t1)
            (just_lits t1 l ++ facts t1) (tick t1), x))
   end).

(** ** Values and pivoting. *)
Definition row_of (t : lra) (r : nat) : res lin := match gfind r (tab t) with Some l => Ok l | None => UB end.
(** [r->l.vars.at(x)] *)
Definition row_coef (t : lra) (r x : nat) : res Q :=
  l <- row_of t r ;; match mfind x (lvars l) with Some c => Ok c | None => UB end.
(** [vals[c->x] += c->l.vars.at(x) * d] *)
Definition shift_row (t : lra) (x : nat) (d : qe) (vs : nat -> qe) (r : nat) : res (nat -> qe) :=
  c <- row_coef t r x ;; Ok (upd vs r (qe_add (vs r) (qe_scale c d))).
(** lra_theory.cpp:386-402; the order of the rows does not matter. *)
Definition update (t : lra) (x : nat) (v : qe) : res lra :=
  guard (negb (is_basic t x))
  (vs <- rfold (shift_row t x (qe_sub v (vals t x))) (tw t x) (vals t) ;; Ok (set_vals (upd vs x v) t)).

(** lra_theory.cpp:461-475: one term of the entering expression is added to a row. *)
Definition pivot_term (r : nat) (cc : Q) (a : qmap * (nat -> list nat)) (e : nat * Q) : qmap * (nat -> list nat) :=
  let (m, w) := a in
  let (v, c) := e in
  match mfind v m with
  | None => (mput v (c * cc) m, upd w v (sadd r (w v)))
  | Some d => if qzero (d + c * cc) then (mdel v m, upd w v (srem r (w v))) else (mput v (d + c * cc) m, w)
  end.
(** lra_theory.cpp:457-477: one row in which [xj] appears. *)
Definition pivot_row (xj : nat) (e : lin) (a : list (nat * lin) * (nat -> list nat)) (r : nat) : res (list (nat * lin) * (nat -> list nat)) :=
  let (tb, w) := a in
  match gfind r tb with
  | None => UB
  | Some l =>
    let cc := match mfind xj (lvars l) with Some c => c | None => 0 end in
    let (m, w1) := fold_left (pivot_term r cc) (lvars e) (mdel xj (lvars l), w) in
    Ok (gput r (mk_lin m (lkt l + lkt e * cc)) tb, w1)
  end.
(** lra_theory.cpp:438-481 *)
Definition pivot (t : lra) (xi xj : nat) : res lra :=
  l <- row_of t xi ;;
  let tb := gdel xi (tab t) in
  let w := fold_left (fun w e => upd w (fst e) (srem xi (w (fst e)))) (lvars l) (tw t) in
  let cf := match mfind xj (lvars l) with Some c => c | None => 0 end in
  e0 <- lin_div_in (mk_lin (mdel xj (lvars l)) (lkt l)) (- cf) ;;
  let e := mk_lin (match mfind xi (lvars e0) with Some _ => lvars e0 | None => mput xi (1 / cf) (lvars e0) end) (lkt e0) in
  let ws := w xj in
  '(tb1, w1) <- rfold (pivot_row xj e) ws (tb, upd w xj []) ;;
  let (tb2, w2) := new_row xj e tb1 w1 in
  Ok (set_tab tb2 w2 t).
(** lra_theory.cpp:404-436 *)
Definition pivot_and_update (t : lra) (xi xj : nat) (v : qe) : res lra :=
  guard (is_basic t xi) (guard (negb (is_basic t xj))
  (a <- row_coef t xi xj ;;
   guard (negb (qzero a))
   (let theta := qe_scale (1 / a) (qe_sub v (vals t xi)) in
    let vs := upd (vals t) xi v in
    let vs := upd vs xj (qe_add (vs xj) theta) in
    vs <- rfold (shift_row t xj theta) (filter (fun r => negb (Nat.eqb r xi)) (tw t xj)) vs ;;
    pivot (set_vals vs t) xi xj))).

(** ** check (lra_theory.cpp:258-306). *)
(** The value of [x] is beyond its bound on side [s]. *)
Definition viol (t : lra) (s : side) (x : nat) : bool :=
  match bound t s x with None => false | Some b => negb (sle s b (vals t x)) end.
(** The value of [x] can move towards its bound on side [s] ([value < ub], [value > lb]). *)
Definition room (t : lra) (s : side) (x : nat) : bool :=
  match bound t s x with None => true | Some b => negb (sle s (vals t x) b) end.
(** Lines 272-289 (s = Lo) and 290-304 (s = Up).  Coefficients are never zero, so that the two tests
    on the sign are complementary. *)
Definition fix_row (t : lra) (s : side) (xi : nat) (l : lin) : res (lra * option (list lit)) :=
  match find (fun e => room t (other (tside s (snd e))) (fst e)) (lvars l) with
  | Some (xj, _) =>
    match bound t s xi with
    | Some b => t1 <- pivot_and_update t xi xj b ;; Ok (t1, None)
    | None => UB
    end
  | None =>
    Ok (t, Some (map (fun e => negl (breason t (other (tside s (snd e))) (fst e))) (lvars l) ++ [negl (breason t s xi)]))
  end.
Fixpoint lra_check (fuel : nat) (t : lra) : res (lra * option (list lit)) :=
  match fuel with
  | O => OOF
  | S f =>
    match find (fun e => viol t Lo (fst e) || viol t Up (fst e)) (tab t) with
    | None => Ok (t, None)
    | Some (xi, l) =>
      '(t1, cf) <- fix_row t (if viol t Lo xi then Lo else Up) xi l ;;
      match cf with Some c => Ok (t1, Some c) | None => lra_check f t1 end
    end
  end.

(** ** Propagation. *)
(** What the bound [b] on side [s] of the variable of an assertion says about its literal
    (lra_constraint.cpp:13-49, 57-93, 151-191, ...). *)
Definition implied (s : side) (b : bnd) (a : asrt) : option lit :=
  match b with
  | None => None
  | Some b =>
    if side_eqb (a_op a) s then if sle s (a_v a) b then Some (a_b a) else None
    else if negb (sle s b (a_v a)) then Some (negl (a_b a)) else None
  end.
(** The [switch] on the value of the literal: false is a conflict, undefined is recorded. *)
Definition lv : Type := (lit -> lbool).
Fixpoint tell (s : side) (b : bnd) (why : list lit) (al : list asrt) (val : lv) : lv * list (list lit) * option (list lit) :=
  match al with
  | [] => (val, [], None)
  | a :: r =>
    match implied s b a with
    | None => tell s b why r val
    | Some l =>
      match val l with
      | LTrue => tell s b why r val
      | LFalse => (val, [], Some (l :: why))
      | LUndef =>
        let v1 := fun q => if lit_eqb q l then LTrue else if lit_eqb q (negl l) then LFalse else val q in
        let '(v2, ls, cf) := tell s b why r v1 in (v2, (l :: why) :: ls, cf)
      end
    end
  end.
(** The bound on side [s] of a row, with its reasons; [None]: some bound is infinite, nothing to
    propagate.  [tst v c] is the bound that the code tests for being infinite, [bound t s v] in all
    cases but one: [row::propagate_ub], lra_constraint.cpp:304. *)
Fixpoint row_sum (t : lra) (s : side) (tst : nat -> Q -> bnd) (m : qmap) (acc : bnd) (why : list lit) : option (bnd * list lit) :=
  match m with
  | [] => Some (acc, why)
  | (v, c) :: r =>
    match tst v c with
    | None => None
    | Some _ => row_sum t s tst r (badd acc (bscale c (bound t (tside s c) v))) (why ++ [negl (breason t (tside s c) v)])
    end
  end.
(** lra_constraint.cpp:120-278 ([s = Lo]), 280-438 ([s = Up]): the bound on side [s] of the non-basic
    variable [x] of row [r] has changed. *)
Definition row_prop (t : lra) (s : side) (x : nat) (r : nat) (val : lv) : res (lv * list (list lit) * option (list lit)) :=
  l <- row_of t r ;;
  match mfind x (lvars l) with
  | None => UB
  | Some c0 =>
    let ts := tside s c0 in
    let tst v c :=
      if side_eqb s Up && qpos c0 && negb (qpos c) then bound t Lo x else bound t (tside ts c) v in
    match row_sum t ts tst (lvars l) (Some (qe_of 0)) [] with
    | None => Ok (val, [], None)
    | Some (tot, why) =>
      if bsle ts (bound t ts r) tot then Ok (tell ts tot why (aw t r) val) else Ok (val, [], None)
    end
  end.
Fixpoint rows_prop (t : lra) (s : side) (x : nat) (rs : list nat) (val : lv) : res (lv * list (list lit) * option (list lit)) :=
  match rs with
  | [] => Ok (val, [], None)
  | r :: rs' =>
    '(v1, l1, cf) <- row_prop t s x r val ;;
    match cf with
    | Some c => Ok (v1, l1, Some c)
    | None => '(v2, l2, cf2) <- rows_prop t s x rs' v1 ;; Ok (v2, l1 ++ l2, cf2)
    end
  end.

Section Order.
(** The iteration order of an unordered set: any permutation, which may change at each call. *)
Context (ord : nat -> list nat -> list nat).

(** lra_theory.cpp:318-350 ([s = Lo]), 352-384 ([s = Up]). *)
Definition save (t : lra) (s : side) (x : nat) : list layer :=
  match layers t with
  | [] => []
  | L :: r =>
    if existsb (fun e => side_eqb (fst (fst e)) s && Nat.eqb (snd (fst e)) x) L then L :: r
    else (((s, x), cb t s x) :: L) :: r
  end.
Definition assert_bound (t : lra) (s : side) (x : nat) (v : qe) (p : lit) (val : lv) : res (lra * list (list lit) * option (list lit)) :=
  if bsle s (Some v) (bound t s x) then Ok (t, [], None)
  else if (match bound t (other s) x with None => false | Some b => negb (sle s v b) end)
  then Ok (t, [], Some [negl p; negl (breason t (other s) x)])
  else
    let t1 := set_cb (updc (cb t) s x (Some v, p)) (set_layers (save t s x) t) in
    t2 <- (if negb (sle s v (vals t1 x)) && negb (is_basic t1 x) then update t1 x v else Ok t1) ;;
    let t2 := set_tick (S (tick t2)) t2 in
    let '(v1, l1, c1) := tell s (bound t2 s x) [negl (breason t2 s x)] (aw t2 x) val in
    match c1 with
    | Some c => Ok (t2, l1, Some c)
    | None => '(v2, l2, c2) <- rows_prop t2 s x (ord (tick t2) (tw t2 x)) v1 ;; Ok (t2, l1 ++ l2, c2)
    end.

(** The bound that the negation of an assertion enforces (lra_theory.cpp:250). *)
Definition neg_bound (a : asrt) : qe :=
  match a_op a with Up => qe_add (a_v a) (0, 1) | Lo => qe_sub (a_v a) (0, 1) end.
(** lra_theory.cpp:239-256 *)
Definition lra_prop (t : lra) (val : lv) (p : lit) : res (lra * list (list lit) * option (list lit)) :=
  match gfind (lvar p) (v_asrts t) with
  | None => UB
  | Some a =>
    match val (a_b a) with
    | LTrue => assert_bound t (a_op a) (a_x a) (a_v a) p val
    | LFalse => assert_bound t (other (a_op a)) (a_x a) (neg_bound a) p val
    | LUndef => Ok (t, [], None)
    end
  end.

(** lra_theory.cpp:308 *)
Definition lra_push (t : lra) : lra := set_layers ([] :: layers t) t.
(** lra_theory.cpp:310-316 *)
Definition lookup_layer (L : layer) (s : side) (x : nat) : option cbound :=
  match find (fun e => side_eqb (fst (fst e)) s && Nat.eqb (snd (fst e)) x) L with Some e => Some (snd e) | None => None end.
Definition undo (L : layer) (f : side -> nat -> cbound) : side -> nat -> cbound :=
  fun s x => match lookup_layer L s x with Some b => b | None => f s x end.
Definition lra_pop (t : lra) : lra :=
  match layers t with [] => t | L :: r => set_layers r (set_cb (undo L (cb t)) t) end.

(** [fuel t] bounds the number of pivoting steps of a check. *)
Definition lra_ops {sr : sorter} (fuel : lra -> nat) : theory_ops lra :=
  mk_ops lra_prop (fun t _ => lra_check (fuel t) t) lra_push lra_pop sr.
End Order.

(** ** The calls that create constraints (lra_theory.cpp:60-230); [i] is the index of the theory in the core. *)
Definition with_th {A} (s : st lra) (i : nat) (k : lra -> res A) : res A :=
  match nth_error (theories s) i with None => UB | Some t => k t end.
Definition put_th (s : st lra) (i : nat) (t : lra) : st lra := set_theories (set_nth (theories s) i t) s.
Definition lra_new_var (s : st lra) (i : nat) : res (st lra * nat) :=
  with_th s i (fun t => let (t1, x) := t_new_var t in Ok (put_th s i t1, x)).
Definition lra_new_slack (s : st lra) (i : nat) (l : lin) : res (st lra * nat) :=
  with_th s i (fun t => '(t1, x) <- t_new_slack (root_level s) t l ;; Ok (put_th s i t1, x)).

(** Substitution of the basic variables (lra_theory.cpp:63-73). *)
Definition subst_row (t : lra) (e : lin) (v : nat) : lin :=
  match gfind v (tab t) with
  | None => e
  | Some l =>
    let c := match mfind v (lvars e) with Some c => c | None => 0 end in
    lin_add_in (mk_lin (mdel v (lvars e)) (lkt e)) (lin_mul l c)
  end.
Definition subst_basic (t : lra) (e : lin) : lin := fold_left (subst_row t) (map fst (lvars e)) e.

(** The tests that answer at once: e.g. [ub(expr) <= c_right] / [lb(expr) > c_right] for new_leq, and
    [ub(expr) < c_right] / [lb(expr) >= c_right] for new_lt. *)
Definition cmp_sat (s : side) (strict : bool) (c : qe) (b : bnd) : bool :=
  match b with None => false | Some u => if strict then negb (sle s u c) else sle s c u end.
Definition cmp_unsat (s : side) (strict : bool) (c : qe) (b : bnd) : bool :=
  match b with None => false | Some l => if strict then sle (other s) c l else negb (sle (other s) l c) end.
(** The right-hand side: [-known_term], with an infinitesimal for the strict comparisons. *)
Definition cmp_right (s : side) (strict : bool) (k : Q) : qe :=
  (- k, if strict then match s with Up => -1 # 1 | Lo => 1 end else 0).
Definition find_asrt (t : lra) (s : side) (x : nat) (v : qe) : option lit :=
  match find (fun e => side_eqb (fst (fst (fst e))) s && Nat.eqb (snd (fst (fst e))) x && qe_eqb (snd (fst e)) v) (s_asrts t) with
  | Some e => Some (snd e) | None => None end.
(** lra_constraint.cpp:8 and lines 94-98: a new assertion controlled by the variable [v]. *)
Definition add_asrt (t : lra) (s : side) (x : nat) (c : qe) (v : nat) : lra :=
  let p := mk_lit v true in
  let a := mk_asrt s p x c in
  mk_lra (nx t) (cb t) (vals t) (tab t) (tw t) (xexprs t) (s_asrts t ++ [((s, x, c), p)]) (v_asrts t ++ [(v, a)])
    (upd (aw t) x (aw t x ++ [a])) (layers t) (facts t) (tick t).
Definition lra_cmp (s : st lra) (i : nat) (sd : side) (strict : bool) (left right : lin) : res (st lra * lit) :=
  with_th s i (fun t =>
    let e := subst_basic t (lin_sub left right) in
    let c := cmp_right sd strict (lkt e) in
    let e := mk_lin (lvars e) 0 in
    if cmp_sat sd strict c (bound_lin t sd e) then Ok (s, TRUE_lit)
    else if cmp_unsat sd strict c (bound_lin t (other sd) e) then Ok (s, FALSE_lit)
    else
      '(t1, x) <- t_new_slack (root_level s) t e ;;
      let s1 := put_th s i t1 in
      if cmp_sat sd strict c (bound t1 sd x) then Ok (s1, TRUE_lit)
      else if cmp_unsat sd strict c (bound t1 (other sd) x) then Ok (s1, FALSE_lit)
      else
        match find_asrt t1 sd x c with
        | Some p => Ok (s1, p)
        | None =>
          let (s2, v) := new_var s1 in
          let s3 := bind s2 v i in
          Ok (put_th s3 i (add_asrt t1 sd x c v), mk_lit v true)
        end).
(** lra_theory.cpp:60-101 *)
Definition lra_new_lt s i l r := lra_cmp s i Up true l r.
(** lra_theory.cpp:103-144 *)
Definition lra_new_leq s i l r := lra_cmp s i Up false l r.
(** lra_theory.cpp:146-187 *)
Definition lra_new_geq s i l r := lra_cmp s i Lo false l r.
(** lra_theory.cpp:189-230 *)
Definition lra_new_gt s i l r := lra_cmp s i Lo true l r.
(** lra_theory.h:58; the initialiser list is evaluated left to right. *)
Definition lra_new_eq (s : st lra) (i : nat) (l r : lin) : res (st lra * lit) :=
  '(s1, p) <- lra_new_geq s i l r ;; '(s2, q) <- lra_new_leq s1 i l r ;; new_conj s2 [p; q].
