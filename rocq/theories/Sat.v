(** Model of the SAT core: src/sat_core.cpp, src/clause.cpp, src/constr.cpp, src/theory.cpp and the
    inline functions of include/sat_core.h, include/theory.h. *)
From Coq Require Import String.
From Verif Require Import Base Keys.

Section Model.
Context {T : Type}.

(** ** The interface of a theory, as the core uses it (include/theory.h:38-66).
    A theory may read the current values of the core and, while propagating, ask the core to
    [record] clauses (theory.cpp:51); these are returned, in order, as the second component: the theory
    function is given the values at call time and is responsible for taking into account the ones
    it added itself.  The third component is the content of [theory::cnfl] when the C++ function
    returns [false].  [th_sort] is no operation of a theory: it is the [std::sort] of [record] (sat_core.cpp:574) and the order
    of the addresses of the theories (sat_core.h:176), kept here so that every theorem about the core ranges over it. *)
Record theory_ops := mk_ops {
  th_prop : T -> (lit -> lbool) -> lit -> res (T * list (list lit) * option (list lit));
  th_check : T -> (lit -> lbool) -> res (T * option (list lit));
  th_push : T -> T;
  th_pop : T -> T;
  th_sort : sorter }.

(** ** State of [sat_core] (include/sat_core.h:161-178).
    Clauses live in a heap [cls] indexed by an identity (the C++ pointer); [constrs] lists the ones
    owned by the core.  [trail], [trail_lim] and [decisions] have their C++ [back()] at the head.
    [prop_q] has its front at the head.  Vectors indexed by variable are total functions, with the
    C++ size in [nv]; accesses beyond [nv] are rejected at the API boundary.  [bounds], [listening]
    map a variable to the (possibly empty) collection of theories / listeners.  [log] is the
    sequence of calls [sat_value_change] (listener, variable, new value), newest first; it has no
    C++ counterpart. *)
Record st := mk_st {
  nv : nat;
  cls : nat -> list lit;
  ncid : nat;
  constrs : list nat;
  watches : lit -> list nat;
  assigns : nat -> lbool;
  level : nat -> nat;
  reason : nat -> option nat;
  prop_q : list lit;
  trail : list lit;
  trail_lim : list nat;
  decisions : list lit;
  exprs : list (string * lit);
  theories : list T;
  bounds : nat -> list nat;
  listening : nat -> list nat;
  log : list (nat * nat * lbool) }.

Definition set_cls f s := mk_st (nv s) f (ncid s) (constrs s) (watches s) (assigns s) (level s) (reason s) (prop_q s) (trail s) (trail_lim s) (decisions s) (exprs s) (theories s) (bounds s) (listening s) (log s).
Definition set_constrs f s := mk_st (nv s) (cls s) (ncid s) f (watches s) (assigns s) (level s) (reason s) (prop_q s) (trail s) (trail_lim s) (decisions s) (exprs s) (theories s) (bounds s) (listening s) (log s).
Definition set_watches f s := mk_st (nv s) (cls s) (ncid s) (constrs s) f (assigns s) (level s) (reason s) (prop_q s) (trail s) (trail_lim s) (decisions s) (exprs s) (theories s) (bounds s) (listening s) (log s).
Definition set_reason f s := mk_st (nv s) (cls s) (ncid s) (constrs s) (watches s) (assigns s) (level s) f (prop_q s) (trail s) (trail_lim s) (decisions s) (exprs s) (theories s) (bounds s) (listening s) (log s).
Definition set_prop_q f s := mk_st (nv s) (cls s) (ncid s) (constrs s) (watches s) (assigns s) (level s) (reason s) f (trail s) (trail_lim s) (decisions s) (exprs s) (theories s) (bounds s) (listening s) (log s).
Definition set_exprs f s := mk_st (nv s) (cls s) (ncid s) (constrs s) (watches s) (assigns s) (level s) (reason s) (prop_q s) (trail s) (trail_lim s) (decisions s) f (theories s) (bounds s) (listening s) (log s).
Definition set_theories f s := mk_st (nv s) (cls s) (ncid s) (constrs s) (watches s) (assigns s) (level s) (reason s) (prop_q s) (trail s) (trail_lim s) (decisions s) (exprs s) f (bounds s) (listening s) (log s).
Definition set_bounds f s := mk_st (nv s) (cls s) (ncid s) (constrs s) (watches s) (assigns s) (level s) (reason s) (prop_q s) (trail s) (trail_lim s) (decisions s) (exprs s) (theories s) f (listening s) (log s).
Definition set_listening f s := mk_st (nv s) (cls s) (ncid s) (constrs s) (watches s) (assigns s) (level s) (reason s) (prop_q s) (trail s) (trail_lim s) (decisions s) (exprs s) (theories s) (bounds s) f (log s).

(** sat_core.h:121-133 [value(const lit&)] *)
Definition vlit (asg : nat -> lbool) (p : lit) : lbool :=
  match asg (lvar p) with
  | LTrue => if lsgn p then LTrue else LFalse
  | LFalse => if lsgn p then LFalse else LTrue
  | LUndef => LUndef
  end.
Definition value (s : st) (p : lit) : lbool := vlit (assigns s) p.
Definition is_true s p := lbool_eqb (value s p) LTrue.
Definition is_false s p := lbool_eqb (value s p) LFalse.
Definition is_undef s p := lbool_eqb (value s p) LUndef.

(** sat_core.h:134-135 *)
Definition dlevel (s : st) : nat := length (trail_lim s).
Definition root_level (s : st) : bool := match trail_lim s with [] => true | _ => false end.
(** [assigns.at(x)] throws (hence terminates: every caller is noexcept) unless the variable exists. *)
Definition in_range (s : st) (ls : list lit) : bool := forallb (fun p => lvar p <? nv s) ls.

(** sat_core.cpp:42-52 *)
Definition new_var (s : st) : st * nat :=
  let id := nv s in
  (mk_st (S id) (cls s) (ncid s) (constrs s)
     (updl (updl (watches s) (mk_lit id false) []) (mk_lit id true) [])
     (upd (assigns s) id LUndef) (upd (level s) id 0) (upd (reason s) id None)
     (prop_q s) (trail s) (trail_lim s) (decisions s)
     (exprs s ++ [(key_var id, mk_lit id true)])
     (theories s) (bounds s) (listening s) (log s), id).

(** sat_core.cpp:11-17: the empty core, with the constant-false variable 0 (a default-constructed
    core has all containers empty). *)
Definition init0 (ths : list T) : st :=
  mk_st 0 (fun _ => []) 0 [] (fun _ => []) (fun _ => LUndef) (fun _ => 0) (fun _ => None) [] [] [] [] []
    ths (fun _ => []) (fun _ => []) [].
Definition init (ths : list T) : st :=
  let s := fst (new_var (init0 ths)) in
  mk_st (nv s) (cls s) (ncid s) (constrs s) (watches s) (upd (assigns s) 0 LFalse) (upd (level s) 0 0)
    (reason s) (prop_q s) (trail s) (trail_lim s) (decisions s) (exprs s) (theories s) (bounds s)
    (listening s) (log s).

(** Calls to the listeners of [v] with the value [b] just given to it. *)
Definition notify (ls : list nat) (v : nat) (b : lbool) (lg : list (nat * nat * lbool)) :=
  rev (map (fun l => (l, v, b)) ls) ++ lg.

(** sat_core.cpp:585-606.  [return val] converts the lbool to bool: True gives true, False false. *)
Definition enqueue (s : st) (p : lit) (c : option nat) : st * bool :=
  match value s p with
  | LTrue => (s, true)
  | LFalse => (s, false)
  | LUndef =>
    let v := lvar p in
    let b := if lsgn p then LTrue else LFalse in
    (mk_st (nv s) (cls s) (ncid s) (constrs s) (watches s) (upd (assigns s) v b)
       (upd (level s) v (dlevel s)) (upd (reason s) v c) (prop_q s ++ [p]) (p :: trail s)
       (trail_lim s) (decisions s) (exprs s) (theories s) (bounds s)
       (if root_level s then upd (listening s) v [] else listening s)
       (notify (listening s v) v b (log s)), true)
  end.

(** sat_core.cpp:608-618; UB on an empty trail ([back] and [pop_back] of an empty vector). *)
Definition pop_one (s : st) : res st :=
  match trail s with
  | [] => UB
  | p :: tr =>
    let v := lvar p in
    Ok (mk_st (nv s) (cls s) (ncid s) (constrs s) (watches s) (upd (assigns s) v LUndef)
         (upd (level s) v 0) (upd (reason s) v None) (prop_q s) tr
         (trail_lim s) (decisions s) (exprs s) (theories s) (bounds s) (listening s)
         (notify (listening s v) v LUndef (log s)))
  end.

(** clause.cpp:8-14 *)
Definition new_constr (s : st) (ls : list lit) : res (st * nat) :=
  match ls with
  | l0 :: l1 :: _ =>
    let c := ncid s in
    let w := updl (watches s) (negl l0) (watches s (negl l0) ++ [c]) in
    let w := updl w (negl l1) (w (negl l1) ++ [c]) in
    Ok (mk_st (nv s) (upd (cls s) c ls) (S c) (constrs s) w (assigns s) (level s) (reason s)
         (prop_q s) (trail s) (trail_lim s) (decisions s) (exprs s) (theories s) (bounds s)
         (listening s) (log s), c)
  | _ => UB
  end.

(** Filtering loop of [new_clause] (sat_core.cpp:58-70), on the sorted literals: [None] = already
    satisfied or tautology.  [p] is the last literal kept ([lit()] is [None]). *)
Fixpoint clause_filter (v : lit -> lbool) (p : option lit) (ls : list lit) : option (list lit) :=
  match ls with
  | [] => Some []
  | q :: r =>
    if lbool_eqb (v q) LTrue || is_lit p (negl q) then None
    else if negb (lbool_eqb (v q) LFalse) && negb (is_lit p q) then
      match clause_filter v (Some q) r with None => None | Some k => Some (q :: k) end
    else clause_filter v p r
  end.

(** sat_core.cpp:54-82 *)
Definition new_clause (s : st) (ls : list lit) : res (st * bool) :=
  guard (root_level s) (guard (in_range s ls)
  (match clause_filter (value s) None (sort_by lvar ls) with
   | None => Ok (s, true)
   | Some [] => Ok (s, false)
   | Some [p] => Ok (enqueue s p None)
   | Some ls' => '(s1, c) <- new_constr s ls' ;; Ok (set_constrs (constrs s1 ++ [c]) s1, true)
   end)).

(** exprs.find / exprs.emplace (emplace does not replace an existing entry). *)
Definition find_expr (s : st) (k : string) : option lit :=
  match find (fun e => String.eqb (fst e) k) (exprs s) with Some e => Some (snd e) | None => None end.
Definition add_expr (s : st) (k : string) (p : lit) : st :=
  match find_expr s k with Some _ => s | None => set_exprs (exprs s ++ [(k, p)]) s end.

(** Adds the clauses in order, stopping at the first failure (the [if (!new_clause(..)) return
    FALSE_lit;] sequences). *)
Fixpoint new_clauses (s : st) (cs : list (list lit)) : res (st * bool) :=
  match cs with
  | [] => Ok (s, true)
  | c :: r => '(s1, b) <- new_clause s c ;; if b then new_clauses s1 r else Ok (s1, false)
  end.

(** Tail shared by the reification functions: clauses for [ctr], then the cache entry. *)
Definition reify (s : st) (cs : list (list lit)) (k : string) (ctr : lit) : res (st * lit) :=
  '(s1, b) <- new_clauses s cs ;;
  if b then Ok (add_expr s1 k ctr, ctr) else Ok (s1, FALSE_lit).

(** sat_core.cpp:84-141 (the [sign(left) == sign(right)] tests are the C++ ones) *)
Definition new_eq (s : st) (l r : lit) : res (st * lit) :=
  guard (root_level s) (guard (in_range s [l; r])
  (if lit_eqb l r then Ok (s, TRUE_lit) else
   let same := Bool.eqb (lsgn l) (lsgn r) in
   match value s l, value s r with
   | LTrue, LTrue => Ok (s, TRUE_lit)
   | LTrue, LFalse => Ok (s, FALSE_lit)
   | LTrue, LUndef => Ok (s, if same then r else negl r)
   | LFalse, LTrue => Ok (s, FALSE_lit)
   | LFalse, LFalse => Ok (s, TRUE_lit)
   | LFalse, LUndef => Ok (s, if same then negl r else r)
   | LUndef, LTrue => Ok (s, if same then l else negl l)
   | LUndef, LFalse => Ok (s, if same then negl l else l)
   | LUndef, LUndef =>
     match find_expr s (key_eq l r) with
     | Some e => Ok (s, e)
     | None =>
       let (s1, v) := new_var s in
       let ctr := mk_lit v true in
       reify s1 [[negl ctr; negl l; r]; [negl ctr; l; negl r]; [ctr; negl l; negl r]] (key_eq l r) ctr
     end
   end)).

(** Filtering loop of [new_conj] (sat_core.cpp:152-161): [None] = cannot be satisfied. *)
Fixpoint conj_filter (v : lit -> lbool) (p : option lit) (ls : list lit) : option (list lit) :=
  match ls with
  | [] => Some []
  | q :: r =>
    if lbool_eqb (v q) LFalse || is_lit p (negl q) then None
    else if negb (lbool_eqb (v q) LTrue) && negb (is_lit p q) then
      match conj_filter v (Some q) r with None => None | Some k => Some (q :: k) end
    else conj_filter v p r
  end.

(** sat_core.cpp:143-186 *)
Definition new_conj (s : st) (ls : list lit) : res (st * lit) :=
  guard (root_level s) (guard (in_range s ls)
  (match conj_filter (value s) None (sort_by lvar ls) with
   | None => Ok (s, FALSE_lit)
   | Some [] => Ok (s, TRUE_lit)
   | Some [p] => Ok (s, p)
   | Some ls' =>
     match find_expr s (key_conj ls') with
     | Some e => Ok (s, e)
     | None =>
       let (s1, v) := new_var s in
       let ctr := mk_lit v true in
       reify s1 (map (fun l => [negl ctr; l]) ls' ++ [ctr :: map negl ls']) (key_conj ls') ctr
     end
   end)).

(** sat_core.cpp:188-231; its filtering loop (197-206) is that of [new_clause]. *)
Definition new_disj (s : st) (ls : list lit) : res (st * lit) :=
  guard (root_level s) (guard (in_range s ls)
  (match clause_filter (value s) None (sort_by lvar ls) with
   | None => Ok (s, TRUE_lit)
   | Some [] => Ok (s, FALSE_lit)
   | Some [p] => Ok (s, p)
   | Some ls' =>
     match find_expr s (key_disj ls') with
     | Some e => Ok (s, e)
     | None =>
       let (s1, v) := new_var s in
       let ctr := mk_lit v true in
       reify s1 (map (fun l => [negl l; ctr]) ls' ++ [negl ctr :: ls']) (key_disj ls') ctr
     end
   end)).

(** Inner loop of the at-most-one / exactly-one filters, once a true literal has been met
    (sat_core.cpp:245-255, 319-329). *)
Fixpoint amo_filter2 (v : lit -> lbool) (p : option lit) (ls : list lit) : option (list lit) :=
  match ls with
  | [] => Some []
  | q :: r =>
    if lbool_eqb (v q) LTrue || is_lit p (negl q) then None
    else if negb (lbool_eqb (v q) LFalse) && negb (is_lit p q) then
      match amo_filter2 v (Some q) r with None => None | Some k => Some (q :: k) end
    else amo_filter2 v p r
  end.
(** Outer loop (sat_core.cpp:242-263, 316-337). *)
Fixpoint amo_filter (v : lit -> lbool) (p : option lit) (ls : list lit) : option (list lit) :=
  match ls with
  | [] => Some []
  | q :: r =>
    if lbool_eqb (v q) LTrue then amo_filter2 v p r
    else if negb (lbool_eqb (v q) LFalse) && negb (is_lit p q) then
      match amo_filter v (Some q) r with None => None | Some k => Some (q :: k) end
    else amo_filter v p r
  end.

(** [for i, for j > i: {!ls[i], !ls[j], !ctr}] (sat_core.cpp:274-277) *)
Fixpoint pair_clauses (ctr : lit) (ls : list lit) : list (list lit) :=
  match ls with
  | [] => []
  | l :: r => map (fun k => [negl l; negl k; negl ctr]) r ++ pair_clauses ctr r
  end.

Fixpoint new_vars (s : st) (n : nat) : st * list lit :=
  match n with
  | 0 => (s, [])
  | S m => let (s1, v) := new_var s in let (s2, r) := new_vars s1 m in (s2, mk_lit v true :: r)
  end.

(** The clauses of the product encoding (sat_core.cpp:294-298), for [k = i*qs+j < ls.size()]. *)
Definition prod_clauses (ctr : lit) (ls u v : list lit) : list (list lit) :=
  flat_map (fun i => flat_map (fun j =>
    match nth_error ls (i * length v + j), nth_error u i, nth_error v j with
    | Some l, Some x, Some y => [[negl l; x; negl ctr]; [negl l; y; negl ctr]]
    | _, _, _ => []
    end) (seq 0 (length v))) (seq 0 (length u)).

(** ceil(sqrt n) and ceil(n / p): the C++ computes them in double precision, which is exact for the
    sizes a vector can have here (below 2^52). *)
Definition ceil_sqrt (n : nat) : nat := Nat.sqrt_up n.
Definition ceil_div (n p : nat) : nat := (n + p - 1) / p.

(** sat_core.cpp:233-305; [fuel] bounds the depth of the recursion on [u], [v].  The order of
    evaluation of the two recursive calls at line 292 is left to right (braced initialisation). *)
Fixpoint new_amo_f (fuel : nat) (s : st) (ls : list lit) : res (st * lit) :=
  match fuel with
  | 0 => OOF
  | S fuel' =>
    guard (root_level s) (guard (in_range s ls)
    (match amo_filter (value s) None (sort_by lvar ls) with
     | None => Ok (s, FALSE_lit)
     | Some [] => Ok (s, TRUE_lit)
     | Some [p] => Ok (s, TRUE_lit)
     | Some ls' =>
       match find_expr s (key_amo ls') with
       | Some e => Ok (s, e)
       | None =>
         if length ls' <? 4 then
           let (s1, v) := new_var s in
           let ctr := mk_lit v true in
           reify s1 (pair_clauses ctr ls') (key_amo ls') ctr
         else
           let ps := ceil_sqrt (length ls') in
           let qs := ceil_div (length ls') ps in
           let (s1, u) := new_vars s ps in
           let (s2, v) := new_vars s1 qs in
           '(s3, cu) <- new_amo_f fuel' s2 u ;;
           '(s4, cv) <- new_amo_f fuel' s3 v ;;
           '(s5, ctr) <- new_conj s4 [cu; cv] ;;
           reify s5 (prod_clauses ctr ls' u v) (key_amo ls') ctr
       end
     end))
  end.
Definition new_at_most_one (s : st) (ls : list lit) : res (st * lit) :=
  new_amo_f (S (length ls)) s ls.

(** sat_core.cpp:307-355 *)
Definition new_exct_one (s : st) (ls : list lit) : res (st * lit) :=
  guard (root_level s) (guard (in_range s ls)
  (match amo_filter (value s) None (sort_by lvar ls) with
   | None => Ok (s, FALSE_lit)
   | Some ls' =>
     match ls' with
     | [] => Ok (s, FALSE_lit)
     | p :: r =>
       if (match r with [] => lsgn p | _ => false end) then Ok (s, p) else
       match find_expr s (key_exct ls') with
       | Some e => Ok (s, e)
       | None =>
         '(s1, ctr) <- new_at_most_one s ls' ;;
         '(s2, b) <- new_clause s1 (ls' ++ [negl ctr]) ;;
         if b then Ok (add_expr s2 (key_exct ls') ctr, ctr) else Ok (s2, FALSE_lit)
       end
     end
   end)).

(** ** Propagation of one clause (clause.cpp:25-50), [p] being the literal that became true. *)
Definition swap_watch (p : lit) (ls : list lit) : list lit :=
  match ls with
  | a :: b :: r => if lvar a =? lvar p then b :: a :: r else a :: b :: r
  | _ => ls
  end.
(** First element satisfying [f], with what precedes and follows it. *)
Fixpoint find_split {A} (f : A -> bool) (l : list A) : option (list A * A * list A) :=
  match l with
  | [] => None
  | x :: r => if f x then Some ([], x, r)
              else match find_split f r with None => None | Some (a, y, b) => Some (x :: a, y, b) end
  end.
Definition push_watch (s : st) (p : lit) (c : nat) : st :=
  set_watches (updl (watches s) p (watches s p ++ [c])) s.

Definition clause_propagate (s : st) (c : nat) (p : lit) : res (st * bool) :=
  match swap_watch p (cls s c) with
  | x0 :: x1 :: r =>
    let s1 := set_cls (upd (cls s) c (x0 :: x1 :: r)) s in
    if is_true s x0 then Ok (push_watch s1 p c, true)
    else if negb (is_false s x1) then Ok (push_watch s1 (negl x1) c, true)
    else match find_split (fun l => negb (is_false s l)) r with
         | Some (pre, l, post) =>
           let s2 := set_cls (upd (cls s1) c (x0 :: l :: pre ++ x1 :: post)) s1 in
           Ok (push_watch s2 (negl l) c, true)
         | None => Ok (enqueue (push_watch s1 p c) x0 (Some c))
         end
  | _ => UB
  end.

(** The loop over [tmp] (sat_core.cpp:405-411): on a conflict the rest of [tmp] goes back into the
    watch list. *)
Fixpoint prop_clauses (s : st) (p : lit) (tmp : list nat) : res (st * option nat) :=
  match tmp with
  | [] => Ok (s, None)
  | c :: r =>
    '(s1, b) <- clause_propagate s c p ;;
    if b then prop_clauses s1 p r
    else Ok (set_watches (updl (watches s1) p (watches s1 p ++ r)) s1, Some c)
  end.

(** ** Conflict analysis (sat_core.cpp:511-554). *)

(** clause.cpp:68-77 with a defined [p]. *)
Definition get_reason_of (s : st) (ls : list lit) (p : lit) : res (list lit) :=
  match ls with
  | x :: r => guard (lit_eqb x p) (guard (forallb (is_false s) r) (Ok (map negl r)))
  | [] => UB
  end.
(** clause.cpp:68-77 with the undefined literal. *)
Definition get_reason_all (s : st) (ls : list lit) : res (list lit) :=
  guard (forallb (is_false s) ls) (Ok (map negl ls)).

Record an := mk_an { an_seen : list nat; an_counter : Z; an_learnt : list lit; an_bt : nat }.

(** sat_core.cpp:523-534: the visit of one literal of the reason. *)
Definition an_visit (s : st) (a : an) (q : lit) : res an :=
  if memn (lvar q) (an_seen a) then Ok a else
  guard (is_true s q)
  (let seen := lvar q :: an_seen a in
   let l := level s (lvar q) in
   if l =? dlevel s then Ok (mk_an seen (an_counter a + 1) (an_learnt a) (an_bt a))
   else if 0 <? l then Ok (mk_an seen (an_counter a) (an_learnt a ++ [negl q]) (Nat.max (an_bt a) l))
   else Ok (mk_an seen (an_counter a) (an_learnt a) (an_bt a))).

(** sat_core.cpp:536-546: the inner do-while.  [fuel] is the length of the trail: the trail gets
    shorter at each iteration and running out of it is UB anyway. *)
Fixpoint an_select (fuel : nat) (s : st) (seen : list nat) (pr : list lit) : res (st * lit * list lit) :=
  match fuel with
  | 0 => UB
  | S f =>
    match trail s with
    | [] => UB
    | p :: _ =>
      guard (level s (lvar p) =? dlevel s)
      (pr' <- match reason s (lvar p) with
              | Some c => get_reason_of s (cls s c) p
              | None => Ok pr
              end ;;
       s1 <- pop_one s ;;
       if memn (lvar p) seen then Ok (s1, p, pr') else an_select f s1 seen pr')
    end
  end.

(** sat_core.cpp:520-549: the outer do-while. *)
Fixpoint an_loop (fuel : nat) (s : st) (a : an) (pr : list lit) : res (st * an * lit) :=
  match fuel with
  | 0 => UB
  | S f =>
    a1 <- rfold (an_visit s) pr a ;;
    '(s1, p, pr1) <- an_select (length (trail s)) s (an_seen a1) pr ;;
    let a2 := mk_an (an_seen a1) (an_counter a1 - 1) (an_learnt a1) (an_bt a1) in
    if (0 <? an_counter a2)%Z then an_loop f s1 a2 pr1 else Ok (s1, a2, p)
  end.

(** sat_core.cpp:511-554: result = (state, learnt clause, back-jump level).  [lits] are the literals
    of the conflicting clause. *)
Definition analyze (s : st) (lits : list lit) : res (st * list lit * nat) :=
  pr <- get_reason_all s lits ;;
  '(s1, a, p) <- an_loop (S (length (trail s))) s (mk_an [] 0 [] 0) pr ;;
  guard (is_undef s1 p) (guard (forallb (is_false s1) (an_learnt a))
  (Ok (s1, negl p :: an_learnt a, an_bt a))).

Context (ops : theory_ops).

(** sat_core.cpp:371-373; the loop stops at [trail_lim.back()]. *)
Fixpoint pop_until (fuel : nat) (s : st) (n : nat) : res st :=
  match fuel with
  | 0 => Ok s
  | S f => if n <? length (trail s) then s1 <- pop_one s ;; pop_until f s1 n else Ok s
  end.
(** sat_core.cpp:368-378.  UB when there is nothing to pop. *)
Definition pop (s : st) : res st :=
  match trail_lim s with
  | [] => UB
  | n :: tl =>
    s1 <- pop_until (length (trail s)) s n ;;
    match decisions s1 with
    | [] => UB
    | _ :: ds =>
      Ok (mk_st (nv s1) (cls s1) (ncid s1) (constrs s1) (watches s1) (assigns s1) (level s1)
           (reason s1) (prop_q s1) (trail s1) tl ds (exprs s1) (map (th_pop ops) (theories s1))
           (bounds s1) (listening s1) (log s1))
    end
  end.

(** [while (decision_level() > lvl) pop();] *)
Fixpoint pop_to (n : nat) (s : st) (lvl : nat) : res st :=
  if lvl <? dlevel s then
    match n with 0 => UB | S m => s1 <- pop s ;; pop_to m s1 lvl end
  else Ok s.
Definition backjump (s : st) (lvl : nat) : res st := pop_to (dlevel s) s lvl.

Definition count_by (f : lit -> bool) (ls : list lit) : nat := length (filter f ls).

(** sat_core.cpp:556-583.  The sort is by decreasing level; ties are in any order. *)
Definition record (s : st) (lits : list lit) : res st :=
  match lits with
  | [] => UB
  | l0 :: tl =>
    guard (in_range s lits) (guard (is_undef s l0)
    (guard (count_by (is_true s) lits =? 0) (guard (count_by (is_undef s) lits =? 1)
    (guard (count_by (is_false s) lits =? length lits - 1)
    (match tl with
     | [] => guard (root_level s) (let (s1, e) := enqueue s l0 None in guard e (Ok s1))
     | _ =>
       let tl' := srt (sorter := th_sort ops) (fun l => level s (lvar l)) tl in
       '(s1, c) <- new_constr s (l0 :: tl') ;;
       let (s2, e) := enqueue s1 l0 (Some c) in
       guard e (Ok (set_constrs (constrs s2 ++ [c]) s2))
     end)))))
  end.

(** sat_core.cpp:420-426 and theory.cpp:34-50: analysis, backjump, record.  For a theory conflict a
    temporary clause is created (asserting at least two literals) and destroyed at the end of the
    block; its two watch entries are removed then, so that the watch lists are left as they were. *)
Definition resolve (s : st) (lits : list lit) : res st :=
  '(s1, ng, bt) <- analyze s lits ;;
  s2 <- backjump s1 bt ;;
  record s2 ng.
Definition theory_resolve (s : st) (lits : list lit) : res st :=
  guard (2 <=? length lits) (guard (in_range s lits) (resolve s lits)).

Definition set_nth {A} (l : list A) (i : nat) (a : A) : list A :=
  firstn i l ++ match skipn i l with [] => [] | _ :: r => a :: r end.

(** One theory propagating one literal (sat_core.cpp:434-435). *)
Definition th_prop_at (s : st) (i : nat) (p : lit) : res (st * option (list lit)) :=
  match nth_error (theories s) i with
  | None => UB
  | Some t =>
    '(t1, lemmas, cf) <- th_prop ops t (value s) p ;;
    s1 <- rfold record lemmas (set_theories (set_nth (theories s) i t1) s) ;;
    Ok (s1, cf)
  end.
Fixpoint th_prop_all (s : st) (is : list nat) (p : lit) : res (st * option (list lit)) :=
  match is with
  | [] => Ok (s, None)
  | i :: r =>
    '(s1, cf) <- th_prop_at s i p ;;
    match cf with Some c => Ok (s1, Some c) | None => th_prop_all s1 r p end
  end.
(** The final checks (sat_core.cpp:452-465), for the theories of index [i], [i+1], ... *)
Fixpoint th_check_all (s : st) (n i : nat) : res (st * option (list lit)) :=
  match n with
  | 0 => Ok (s, None)
  | S m =>
    match nth_error (theories s) i with
    | None => Ok (s, None)
    | Some t =>
      '(t1, cf) <- th_check ops t (value s) ;;
      let s1 := set_theories (set_nth (theories s) i t1) s in
      match cf with Some c => Ok (s1, Some c) | None => th_check_all s1 m (S i) end
    end
  end.

(** sat_core.cpp:396-468.  The theories bound to a variable are visited in the order of their addresses (any order).  One unit of fuel per iteration of the main loop. *)
Fixpoint propagate (fuel : nat) (s : st) : res (st * bool) :=
  match fuel with
  | 0 => OOF
  | S f =>
    match prop_q s with
    | p :: q =>
      let s1 := set_watches (updl (watches s) p []) (set_prop_q q s) in
      '(s2, cf) <- prop_clauses s1 p (watches s p) ;;
      match cf with
      | Some c =>
        let s3 := set_prop_q [] s2 in
        if root_level s3 then Ok (s3, false)
        else s4 <- resolve s3 (cls s3 c) ;; propagate f s4
      | None =>
        '(s3, tcf) <- th_prop_all s2 (visit (sorter := th_sort ops) (bounds s2 (lvar p))) p ;;
        match tcf with
        | Some c =>
          let s4 := set_prop_q [] s3 in
          if root_level s4 then Ok (s4, false)
          else s5 <- theory_resolve s4 c ;; propagate f s5
        | None =>
          propagate f (if root_level s3 then set_bounds (upd (bounds s3) (lvar p) []) s3 else s3)
        end
      end
    | [] =>
      '(s1, tcf) <- th_check_all s (length (theories s)) 0 ;;
      match tcf with
      | None => Ok (s1, true)
      | Some c =>
        if root_level s1 then Ok (s1, false)
        else s2 <- theory_resolve s1 c ;; propagate f s2
      end
    end
  end.

(** sat_core.cpp:357-366 *)
Definition assume (fuel : nat) (s : st) (p : lit) : res (st * bool) :=
  guard (match prop_q s with [] => true | _ => false end) (guard (in_range s [p])
  (let s1 := mk_st (nv s) (cls s) (ncid s) (constrs s) (watches s) (assigns s) (level s) (reason s)
               (prop_q s) (trail s) (length (trail s) :: trail_lim s) (p :: decisions s) (exprs s)
               (map (th_push ops) (theories s)) (bounds s) (listening s) (log s) in
   let (s2, b) := enqueue s1 p None in
   if b then propagate fuel s2 else Ok (s2, false))).

(** sat_core.cpp:470-489 *)
Definition next (fuel : nat) (s : st) : res (st * bool) :=
  if root_level s then Ok (s, false) else
  s1 <- pop s ;;
  match map negl (decisions s) with
  | [] => UB
  | p :: r => guard (is_undef s1 p) (s2 <- record s1 (p :: r) ;; propagate fuel s2)
  end.

(** sat_core.cpp:491-509 *)
Fixpoint check_loop (fuel : nat) (s : st) (rl : nat) (lits : list lit) : res (st * bool) :=
  match lits with
  | [] => Ok (s, true)
  | p :: r =>
    let dl := dlevel s in
    '(s1, b1) <- assume fuel s p ;;
    '(s2, b2) <- (if b1 then propagate fuel s1 else Ok (s1, false)) ;;
    if negb b2 || (dlevel s2 <=? dl) then Ok (s2, false) else check_loop fuel s2 rl r
  end.
Definition check (fuel : nat) (s : st) (lits : list lit) : res (st * bool) :=
  let rl := dlevel s in
  '(s1, b) <- check_loop fuel s rl lits ;;
  if b then guard (rl + length lits =? dlevel s1) (s2 <- backjump s1 rl ;; Ok (s2, true))
  else s2 <- backjump s1 rl ;; Ok (s2, false).

(** ** Clause simplification (clause.cpp:52-66): [true] = satisfied, to be removed.  The compaction is
    in place: when a true literal is met the undefined literals met before it have already been
    moved to the front, the rest of the vector is as it was. *)
Fixpoint before_true (s : st) (ls : list lit) : list lit :=
  match ls with
  | [] => []
  | l :: r => if is_true s l then [] else l :: before_true s r
  end.
Definition clause_simplify (s : st) (c : nat) : st * bool :=
  let ls := cls s c in
  let out := filter (is_undef s) (before_true s ls) in
  if existsb (is_true s) ls
  then (set_cls (upd (cls s) c (out ++ skipn (length out) ls)) s, true)
  else (set_cls (upd (cls s) c out) s, false).

Fixpoint remove_first (c : nat) (l : list nat) : option (list nat) :=
  match l with
  | [] => None
  | x :: r => if x =? c then Some r
              else match remove_first c r with None => None | Some r' => Some (x :: r') end
  end.
(** constr.cpp:13-17 *)
Definition drop_reason (c : nat) (rs : nat -> option nat) (v : nat) : nat -> option nat :=
  match rs v with Some d => if d =? c then upd rs v None else rs | None => rs end.
(** clause.cpp:15-23; [erase(end())] is UB. *)
Definition destroy (s : st) (c : nat) : res st :=
  match cls s c with
  | l0 :: l1 :: _ =>
    match remove_first c (watches s (negl l0)) with
    | None => UB
    | Some w0 =>
      let w := updl (watches s) (negl l0) w0 in
      match remove_first c (w (negl l1)) with
      | None => UB
      | Some w1 =>
        Ok (set_reason (fold_left (drop_reason c) (map lvar (cls s c)) (reason s))
             (set_watches (updl w (negl l1) w1) s))
      end
    end
  | _ => UB
  end.

(** sat_core.cpp:386-391.  The vector [constrs] is [kept ++ mid ++ out], with [i = length kept] and
    [j = length (kept ++ mid)]; a satisfied clause is swapped with the last one of [mid]. *)
Fixpoint simp_loop (n : nat) (s : st) (kept mid out : list nat) : st * list nat * list nat :=
  match n with
  | 0 => (s, kept ++ mid, out)
  | S m =>
    match mid with
    | [] => (s, kept, out)
    | c :: r =>
      let (s1, b) := clause_simplify s c in
      if b then
        match r with
        | [] => simp_loop m s1 kept [] (c :: out)
        | _ => simp_loop m s1 kept (last r c :: removelast r) (c :: out)
        end
      else simp_loop m s1 (kept ++ [c]) r out
    end
  end.
(** sat_core.cpp:380-394; [constrs.resize(j)] destroys the dropped clauses. *)
Definition simplify_db (fuel : nat) (s : st) : res (st * bool) :=
  guard (root_level s)
  ('(s1, b) <- propagate fuel s ;;
   if b then
     let '(s2, kept, out) := simp_loop (length (constrs s1)) s1 [] (constrs s1) [] in
     s3 <- rfold destroy out (set_constrs kept s2) ;;
     Ok (s3, true)
   else Ok (s1, false)).

(** sat_core.h:152 (theory.cpp:11): [bounds] holds a set of theories. *)
Definition bind (s : st) (v i : nat) : st :=
  if memn i (bounds s v) then s else set_bounds (upd (bounds s) v (bounds s v ++ [i])) s.
(** sat_core.h:153-157 *)
Definition listen (s : st) (v l : nat) : res st :=
  guard (v <? nv s)
  (if is_undef s (mk_lit v true) then
     if memn l (listening s v) then Ok s
     else Ok (set_listening (upd (listening s) v (listening s v ++ [l])) s)
   else Ok s).

(** Watch lists built by re-creating the clauses in order (sat_core.cpp:25-29, clause.h:33 [copy]). *)
Definition copy_watch (s : st) (w : lit -> list nat) (c : nat) : lit -> list nat :=
  match cls s c with
  | l0 :: l1 :: _ =>
    let w1 := updl w (negl l0) (w (negl l0) ++ [c]) in
    updl w1 (negl l1) (w1 (negl l1) ++ [c])
  | _ => w
  end.
(** sat_core.cpp:18-36: the copy constructor up to the final [simplify_db].  The copies of the
    clauses keep the identities of the originals.  UB if a clause has fewer than two literals
    (assert in the clause constructor) or a reason is not one of the clauses
    ([constr_map.at] throws). *)
Definition copy_core (s : st) : res st :=
  guard (match prop_q s with [] => true | _ => false end)
  (guard (forallb (fun c => 2 <=? length (cls s c)) (constrs s))
  (guard (forallb (fun v => match reason s v with None => true | Some c => memn c (constrs s) end)
            (seq 0 (nv s)))
  (Ok (mk_st (nv s) (cls s) (ncid s) (constrs s)
        (fold_left (copy_watch s) (constrs s) (fun _ => []))
        (assigns s) (fun _ => 0) (reason s) [] [] [] [] (exprs s) (theories s) (bounds s)
        (listening s) (log s))))).
Definition copy_ctor (fuel : nat) (s : st) : res st :=
  s1 <- copy_core s ;; '(s2, _) <- simplify_db fuel s1 ;; Ok s2.

End Model.
Arguments st T : clear implicits.
Arguments theory_ops T : clear implicits.
