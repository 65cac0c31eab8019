(** Model of the object variables (src/ov/ov_theory.cpp, include/ov/ov_theory.h, include/ov/ov_value_listener.h).
    An [enum_val *] is a natural number (pointers are only compared).  An unordered_map is the list of its entries, in the order of
    insertion; the order in which it is iterated is given by arbitrary functions ([om] for maps, [oi] for sets). *)
From Verif Require Import Base Sat SatSpec ThSum.

(** ov_theory.h:40-42 ([assigns], [exprs], [is_contained_in]).  The keys of [exprs] are strings "=e" l "e" r with l < r: here, pairs.
    [obnd] has no counterpart: the variables passed to [bind] (the core records them, theory.cpp:11). *)
Record ovs := mk_ovs {
  odom : list (list (nat * lit));
  oexp : list ((nat * nat) * lit);
  ocont : nat -> list nat;
  obnd : list nat }.
Definition ov_empty : ovs := mk_ovs [] [] (fun _ => []) [].
(** ov_theory.h:32-35: the callbacks do nothing. *)
Definition ov_ops {sr : sorter} : theory_ops ovs := mk_ops (fun t _ _ => Ok (t, [], None)) (fun t _ => Ok (t, None)) (fun t => t) (fun t => t) sr.

(** [unordered_map::find], [emplace] (which keeps an existing entry), [set::insert]. *)
Fixpoint alook (x : nat) (m : list (nat * lit)) : option lit :=
  match m with [] => None | (y, l) :: r => if Nat.eqb x y then Some l else alook x r end.
Definition emplace (x : nat) (l : lit) (m : list (nat * lit)) : list (nat * lit) := match alook x m with Some _ => m | None => m ++ [(x, l)] end.
Definition has (x : nat) (m : list (nat * lit)) : bool := match alook x m with Some _ => true | None => false end.
Definition insn (x : nat) (l : list nat) : list nat := if memn x l then l else l ++ [x].
Fixpoint alooks (m : list (nat * lit)) (xs : list nat) : option (list lit) :=
  match xs with
  | [] => Some []
  | x :: r => match alook x m, alooks m r with Some l, Some ls => Some (l :: ls) | _, _ => None end
  end.
Fixpoint elook (k : nat * nat) (m : list ((nat * nat) * lit)) : option lit :=
  match m with [] => None | ((a, b), l) :: r => if Nat.eqb (fst k) a && Nat.eqb (snd k) b then Some l else elook k r end.

Section Ov.
(** The network holds object theories and theories of another kind. *)
Context {T : Type}.
Notation st := (st (ovs + T)).
Definition ov_th {A} (s : st) (i : nat) (k : ovs -> res A) : res A := match nth_error (theories s) i with Some (inl o) => k o | _ => UB end.
Definition ov_put (s : st) (i : nat) (o : ovs) : st := set_theories (set_nth (theories s) i (inl o)) s.
Definition add_cont (o : ovs) (v id : nat) : ovs := mk_ovs (odom o) (oexp o) (upd (ocont o) v (insn id (ocont o v))) (obnd o).
Definition add_bound (o : ovs) (v : nat) : ovs := mk_ovs (odom o) (oexp o) (ocont o) (obnd o ++ [v]).
Definition add_dom (o : ovs) (m : list (nat * lit)) : ovs := mk_ovs (odom o ++ [m]) (oexp o) (ocont o) (obnd o).
(** ov_theory.cpp:19-25, one iteration. *)
Definition ov_item (s : st) (i : nat) (o : ovs) (id x : nat) (m : list (nat * lit)) : st * ovs * list (nat * lit) :=
  let (s1, bv) := new_var s in
  let o1 := add_cont (add_bound o bv) bv id in
  (ov_put (bind s1 bv i) i o1, o1, emplace x (mk_lit bv true) m).
Fixpoint ov_items (s : st) (i : nat) (o : ovs) (id : nat) (xs : list nat) (m : list (nat * lit)) : st * ovs * list (nat * lit) :=
  match xs with
  | [] => (s, o, m)
  | x :: r => let '(s1, o1, m1) := ov_item s i o id x m in ov_items s1 i o1 id r m1
  end.
(** ov_theory.cpp:10-38.  A failed assert is [UB]. *)
Definition ov_new_var (s : st) (i : nat) (items : list nat) (enforce : bool) : res (st * nat) :=
  ov_th s i (fun o =>
  let id := length (odom o) in
  match items with
  | [] => UB
  | [x] => Ok (ov_put s i (add_dom o [(x, TRUE_lit)]), id)
  | _ =>
    let '(s1, o1, m) := ov_items s i o id items [] in
    if enforce then
      match alooks m items with
      | None => UB
      | Some lits =>
        '(s2, p) <- new_exct_one s1 lits ;;
        '(s3, b) <- new_clause s2 [p] ;;
        guard b (Ok (ov_put s3 i (add_dom o1 m), id))
      end
    else Ok (ov_put s1 i (add_dom o1 m), id)
  end).
(** ov_theory.cpp:40-53 *)
Definition ov_new_var_lits (s : st) (i : nat) (lits : list lit) (vals : list nat) : res (st * nat) :=
  ov_th s i (fun o =>
  let id := length (odom o) in
  guard (negb (Nat.eqb (length lits) 0) && Nat.eqb (length lits) (length vals))
  (let m := fold_left (fun m e => emplace (snd e) (fst e) m) (combine lits vals) [] in
   let o1 := fold_left (fun o l => add_cont o (lvar l) id) lits o in
   Ok (ov_put s i (add_dom o1 m), id))).
(** ov_theory.cpp:55-61; [None]: no such variable (undefined behaviour). *)
Definition ov_allows (o : ovs) (v x : nat) : option lit :=
  match nth_error (odom o) v with
  | None => None
  | Some m => Some (match alook x m with Some l => l | None => FALSE_lit end)
  end.
Context (om : list (nat * lit) -> list (nat * lit)) (oi : list nat -> list nat).
(** ov_theory.cpp:88-110: the clauses, in the order in which they are stated. *)
Definition ov_eq_clauses (eq : lit) (dl dr : list (nat * lit)) (common : list nat) : list (list lit) :=
  map (fun e => [negl eq; negl (snd e)]) (filter (fun e => negb (memn (fst e) common)) (om dl)) ++
  map (fun e => [negl eq; negl (snd e)]) (filter (fun e => negb (memn (fst e) common)) (om dr)) ++
  flat_map (fun v => match alook v dl, alook v dr with
    | Some l, Some r => [[negl eq; negl l; r]; [negl eq; l; negl r]; [eq; negl l; negl r]]
    | _, _ => []
    end) (oi common).
Definition add_eq (o : ovs) (k : nat * nat) (p : lit) : ovs := mk_ovs (odom o) (oexp o ++ [(k, p)]) (ocont o) (obnd o).
(** ov_theory.cpp:71-114, for [left < right]; a failed assert is [UB]. *)
Definition ov_new_eq_lt (s : st) (i : nat) (left right : nat) : res (st * lit) :=
  ov_th s i (fun o =>
  match elook (left, right) (oexp o) with
  | Some p => Ok (s, p)
  | None =>
    match nth_error (odom o) left, nth_error (odom o) right with
    | Some dl, Some dr =>
      let common := filter (fun x => has x dr) (map fst (om dl)) in
      match common with
      | [] => Ok (s, FALSE_lit)
      | _ =>
        let (s1, v) := new_var s in
        let eq := mk_lit v true in
        '(s2, nc) <- new_clauses s1 (ov_eq_clauses eq dl dr common) ;;
        guard nc (Ok (ov_put s2 i (add_eq o (left, right) eq), eq))
      end
    | _, _ => UB
    end
  end).
(** ov_theory.cpp:63-69 *)
Definition ov_new_eq (s : st) (i : nat) (left right : nat) : res (st * lit) :=
  if Nat.eqb left right then Ok (s, TRUE_lit)
  else if Nat.ltb right left then ov_new_eq_lt s i right left
  else ov_new_eq_lt s i left right.
(** ov_theory.cpp:117-124 *)
Definition ov_value (s : st) (o : ovs) (v : nat) : option (list nat) :=
  match nth_error (odom o) v with
  | None => None
  | Some m => Some (map fst (filter (fun e => negb (is_false s (snd e))) (om m)))
  end.
(** ov_theory.cpp:126-134, ov_value_listener.h:18: registering listener [l] for the object variable [v]. *)
Definition ov_listen (s : st) (o : ovs) (v l : nat) : res st :=
  match nth_error (odom o) v with
  | None => UB
  | Some m =>
    let dom := filter (fun e => negb (is_false s (snd e))) m in
    if Nat.ltb 1 (length dom) then rfold (fun s e => listen s (lvar (snd e)) l) (om dom) s else Ok s
  end.
(** ov_value_listener.h:23-27: what the listener [l] is told, given what the core told it (newest first): the object variables, newest first. *)
Definition ov_told (o : ovs) (lg : list (nat * nat * lbool)) (l : nat) : list nat :=
  flat_map (fun e => if Nat.eqb (fst (fst e)) l then rev (ocont o (snd (fst e))) else []) lg.
End Ov.

(** The contract: an object theory constrains nothing by itself. *)
Definition ovC {sr : sorter} : contract ov_ops.
Proof.
  refine (mk_strict ov_ops (fun _ _ => True) (fun o v => In v (obnd o)) (fun _ _ => True) (fun _ => True) _ _ _ _ _); intros t; cbn.
  - auto.
  - intros vs _ _. split; [exact I|]. split; [exact I|]. split; intros; reflexivity.
  - intros v w vs _. split; [exact I|]. split; [exact I|]. split; intros; reflexivity.
  - intros v vs val p _ _ _ _ _ _. split; [exists (p :: v); auto|]. split; [reflexivity|]. split; [reflexivity|]. exists val. split; [constructor|]. intros c; discriminate.
  - intros v vs val _ _ _ _. split; [exact I|]. split; [auto|]. split; [reflexivity|]. split; [reflexivity|]. intros c; discriminate.
Defined.
