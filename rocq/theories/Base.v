(** Basic vocabulary shared by the whole model: outcomes, three-valued booleans, literals,
    total maps with update, sorting. *)
From Coq Require Export List Arith Bool Lia Permutation Sorted ZArith.
Export ListNotations.

(** ** Outcomes.
    [UB] stands for anything the C++ program must not do: a failing [assert], an out-of-range or
    empty-container access, [erase(end())], an exception leaving a [noexcept] function.
    [OOF] is fuel exhaustion of a loop that has no structural measure in the model. *)
Inductive res (A : Type) : Type :=
| Ok (a : A)
| UB
| OOF.
Arguments Ok {A} a.
Arguments UB {A}.
Arguments OOF {A}.

Definition rbind {A B} (r : res A) (f : A -> res B) : res B :=
  match r with Ok a => f a | UB => UB | OOF => OOF end.
Notation "x <- r ;; k" := (rbind r (fun x => k)) (at level 61, r at next level, right associativity).
Notation "' p <- r ;; k" := (rbind r (fun p => k)) (at level 61, p pattern, r at next level, right associativity).

(** [guard b k]: the C++ [assert(b); k]. *)
Definition guard {A} (b : bool) (k : res A) : res A := if b then k else UB.

(** Partial-correctness-with-safety reading of an outcome: not [UB], and if [Ok] then [P]. *)
Definition safe {A} (r : res A) (P : A -> Prop) : Prop :=
  match r with Ok a => P a | UB => False | OOF => True end.

Lemma safe_bind {A B} (r : res A) (f : A -> res B) (P : B -> Prop) :
  safe r (fun a => safe (f a) P) -> safe (rbind r f) P.
Proof. destruct r; cbn; auto. Qed.
Lemma safe_mono {A} (r : res A) (P Q : A -> Prop) :
  safe r P -> (forall a, P a -> Q a) -> safe r Q.
Proof. destruct r; cbn; auto. Qed.
Lemma safe_ok {A} (r : res A) (P : A -> Prop) a : safe r P -> r = Ok a -> P a.
Proof. intros H ->; exact H. Qed.
Lemma safe_guard {A} (b : bool) (k : res A) P : b = true -> safe k P -> safe (guard b k) P.
Proof. intros ->; exact (fun H => H). Qed.

(** [fold_left] in the outcome monad. *)
Fixpoint rfold {A B} (f : A -> B -> res A) (l : list B) (a : A) : res A :=
  match l with [] => Ok a | b :: l' => a' <- f a b ;; rfold f l' a' end.

(** ** Three-valued booleans: utils::lbool (bool.h of the utils submodule, not in /repo;
    used in include/sat_core.h:121-133 with False/True/Undefined). *)
Inductive lbool := LFalse | LTrue | LUndef.
Definition lbool_eqb (a b : lbool) : bool :=
  match a, b with LFalse, LFalse | LTrue, LTrue | LUndef, LUndef => true | _, _ => false end.
Lemma lbool_eqb_spec a b : reflect (a = b) (lbool_eqb a b).
Proof. destruct a, b; constructor; congruence. Qed.
Definition lneg (b : lbool) : lbool :=
  match b with LFalse => LTrue | LTrue => LFalse | LUndef => LUndef end.

(** ** Literals (include/lit.h:10-50). The C++ class packs [(v << 1) + sign] in a [size_t]; here a
    literal is the pair, which is the same thing for variables below 2^63-1 (proved in Lit.v).
    The default-constructed literal [lit()] (the "undefined" one) is modelled by [None] where it is
    used as a marker. *)
Record lit := mk_lit { lvar : nat; lsgn : bool }.
(** lit.h:36-41 *)
Definition negl (p : lit) : lit := mk_lit (lvar p) (negb (lsgn p)).
(** lit.h:43 *)
Definition lit_eqb (p q : lit) : bool := Nat.eqb (lvar p) (lvar q) && Bool.eqb (lsgn p) (lsgn q).
(** lit.h:33 *)
Definition lindex (p : lit) : nat := 2 * lvar p + (if lsgn p then 1 else 0).
(** lit.h:52-53: FALSE_lit is the *positive* literal of variable 0, TRUE_lit its negation. *)
Definition FALSE_lit : lit := mk_lit 0 true.
Definition TRUE_lit : lit := mk_lit 0 false.

Lemma lit_eqb_spec p q : reflect (p = q) (lit_eqb p q).
Proof.
  destruct p as [v s], q as [w t]; unfold lit_eqb; cbn.
  destruct (Nat.eqb_spec v w), s, t; cbn; constructor; congruence.
Qed.
Lemma lit_eqb_refl p : lit_eqb p p = true.
Proof. destruct (lit_eqb_spec p p) as [|n]; [reflexivity|destruct n; reflexivity]. Qed.
Lemma lit_eq_dec (p q : lit) : {p = q} + {p <> q}.
Proof. destruct (lit_eqb_spec p q); auto. Qed.
Lemma negl_invol p : negl (negl p) = p.
Proof. destruct p as [v []]; reflexivity. Qed.
Lemma negl_neq p : negl p <> p.
Proof. destruct p as [v []]; intros H; apply (f_equal lsgn) in H; discriminate H. Qed.
Lemma negl_inj p q : negl p = negl q -> p = q.
Proof. intros H; rewrite <- (negl_invol p), H; apply negl_invol. Qed.
Lemma lvar_negl p : lvar (negl p) = lvar p.
Proof. reflexivity. Qed.
Lemma same_var p q : lvar p = lvar q -> p = q \/ p = negl q.
Proof. destruct p as [v []], q as [w []]; cbn; intros ->; auto. Qed.

(** Optional literal (the sentinel [lit()] is [None]). *)
Definition is_lit (o : option lit) (p : lit) : bool :=
  match o with Some q => lit_eqb q p | None => false end.

(** ** Total maps with update. *)
Definition upd {A} (f : nat -> A) (k : nat) (a : A) : nat -> A :=
  fun x => if Nat.eqb x k then a else f x.
Definition updl {A} (f : lit -> A) (k : lit) (a : A) : lit -> A :=
  fun x => if lit_eqb x k then a else f x.
Lemma upd_eq {A} (f : nat -> A) k a : upd f k a k = a.
Proof. unfold upd; rewrite Nat.eqb_refl; reflexivity. Qed.
Lemma upd_neq {A} (f : nat -> A) k a x : x <> k -> upd f k a x = f x.
Proof. unfold upd; intros H; destruct (Nat.eqb_spec x k); congruence. Qed.
Lemma updl_eq {A} (f : lit -> A) k a : updl f k a k = a.
Proof. unfold updl; rewrite lit_eqb_refl; reflexivity. Qed.
Lemma updl_neq {A} (f : lit -> A) k a x : x <> k -> updl f k a x = f x.
Proof. unfold updl; intros H; destruct (lit_eqb_spec x k); congruence. Qed.

Definition memn (x : nat) (l : list nat) : bool := existsb (Nat.eqb x) l.
Lemma memn_In x l : memn x l = true <-> In x l.
Proof.
  unfold memn; rewrite existsb_exists; split.
  - intros (y & Hy & E); apply Nat.eqb_eq in E; subst; exact Hy.
  - intros H; exists x; split; [exact H|apply Nat.eqb_refl].
Qed.
Lemma memn_nIn x l : memn x l = false <-> ~ In x l.
Proof. rewrite <- memn_In; destruct (memn x l); split; congruence. Qed.

(** ** Stable insertion sort by a [nat] key, ascending: models std::sort by variable in the calls that state constraints
    (C78: any other sort by variable gives the same results, with the exceptions proved there). *)
Fixpoint ins_by {A} (key : A -> nat) (x : A) (l : list A) : list A :=
  match l with
  | [] => [x]
  | y :: l' => if key y <=? key x then y :: ins_by key x l' else x :: l
  end.
Definition sort_by {A} (key : A -> nat) (l : list A) : list A :=
  fold_left (fun acc x => ins_by key x acc) l [].

Definition key_le {A} (key : A -> nat) (x y : A) : Prop := key x <= key y.

Lemma ins_by_perm {A} (key : A -> nat) x l : Permutation (x :: l) (ins_by key x l).
Proof.
  induction l as [|y l IH]; cbn; [reflexivity|].
  destruct (key y <=? key x); [|reflexivity].
  etransitivity; [apply perm_swap|]. constructor; exact IH.
Qed.
Lemma sort_by_perm_aux {A} (key : A -> nat) l acc :
  Permutation (acc ++ l) (fold_left (fun acc x => ins_by key x acc) l acc).
Proof.
  revert acc; induction l as [|x l IH]; intros acc; cbn; [rewrite app_nil_r; reflexivity|].
  rewrite <- IH. rewrite <- ins_by_perm. cbn. symmetry. apply Permutation_middle.
Qed.
Lemma sort_by_perm {A} (key : A -> nat) l : Permutation l (sort_by key l).
Proof. apply (sort_by_perm_aux key l []). Qed.
Lemma ins_by_sorted {A} (key : A -> nat) x l :
  StronglySorted (key_le key) l -> StronglySorted (key_le key) (ins_by key x l).
Proof.
  induction 1 as [|y l Hs IH Hf]; cbn; [repeat constructor|].
  destruct (Nat.leb_spec (key y) (key x)) as [H|H].
  - constructor; [exact IH|].
    eapply Permutation_Forall; [apply ins_by_perm|]. constructor; [exact H|exact Hf].
  - constructor; [constructor; assumption|].
    constructor; [unfold key_le; lia|]. eapply Forall_impl; [|exact Hf]; unfold key_le; intros; lia.
Qed.
Lemma sort_by_sorted {A} (key : A -> nat) l : StronglySorted (key_le key) (sort_by key l).
Proof.
  unfold sort_by.
  assert (H : StronglySorted (key_le key) (@nil A)) by constructor.
  revert H; generalize (@nil A) as acc; induction l as [|x l IH]; cbn; intros acc H; [exact H|].
  apply IH, ins_by_sorted, H.
Qed.
(** [std::sort] with a comparison that may tie elements: any function that returns a permutation of its argument, here with keys not increasing.
    How ties are ordered is left open.  [visit]: the order in which a [std::set] of addresses is visited (by address: any order). *)
Class sorter := mk_sorter {
  srt : (lit -> nat) -> list lit -> list lit;
  srt_perm : forall key l, Permutation l (srt key l);
  srt_sorted : forall key l, StronglySorted (fun a b => key b <= key a) (srt key l);
  visit : list nat -> list nat;
  visit_perm : forall l, Permutation l (visit l) }.

Lemma srt_in (sr : sorter) (key : lit -> nat) ls q : In q (srt key ls) <-> In q ls.
Proof. split; apply Permutation_in; [symmetry|]; apply srt_perm. Qed.
(** One such function. *)
Lemma rev_sorted (key : lit -> nat) l : StronglySorted (key_le key) l -> StronglySorted (fun a b => key b <= key a) (rev l).
Proof.
  assert (S : forall r a, StronglySorted (fun a b => key b <= key a) r -> Forall (key_le key a) r -> StronglySorted (fun a b => key b <= key a) (r ++ [a])).
  { induction 1 as [|x r H IH F]; intros Fa; cbn; [repeat constructor|]. inversion Fa; subst. constructor; [apply IH; assumption|].
    apply Forall_app. split; [exact F|]. repeat constructor. assumption. }
  induction 1 as [|a r H IH F]; cbn; [constructor|]. apply S; [exact IH|]. apply Forall_rev, F.
Qed.
Definition stable_sort : sorter :=
  mk_sorter (fun key l => rev (sort_by key l)) (fun key l => Permutation_trans (sort_by_perm key l) (Permutation_rev (sort_by key l)))
    (fun key l => rev_sorted key _ (sort_by_sorted key l)) (fun l => l) (fun l => Permutation_refl l).

Lemma sort_by_In {A} (key : A -> nat) l x : In x (sort_by key l) <-> In x l.
Proof.
  split; apply Permutation_in; [symmetry|]; apply sort_by_perm.
Qed.
