(** Textual keys of the expression cache [sat_core::exprs] (include/sat_core.h:172) and their
    injectivity. *)
From Coq Require Import String Ascii Decimal DecimalString DecimalNat DecimalFacts.
From Verif Require Import Base.
Local Open Scope string_scope.

(** std::to_string on an unsigned number: decimal digits, no leading zero. *)
Definition dec (n : nat) : string := NilEmpty.string_of_uint (Nat.to_uint n).

(** lit.h:46 [to_string(const lit&)]: "b<var>" or "¬b<var>" (the negation sign is the two UTF-8
    bytes C2 AC). *)
Definition lit_str (p : lit) : string :=
  if lsgn p then "b" ++ dec (lvar p) else "¬b" ++ dec (lvar p).

(** Concatenation of the textual literals, in order (sat_core.cpp:156,164: [s_expr += to_string(p)]). *)
Fixpoint lits_str (ls : list lit) : string :=
  match ls with nil => "" | p :: r => lit_str p ++ lits_str r end.

(** sat_core.cpp:48 *)
Definition key_var (v : nat) : string := "b" ++ dec v.
(** sat_core.cpp:126 ([left < right] compares the packed indices, lit.h:42) *)
Definition key_eq (l r : lit) : string :=
  "=" ++ (if Nat.ltb (lindex l) (lindex r) then lit_str l ++ lit_str r else lit_str r ++ lit_str l).
(** sat_core.cpp:151 *)
Definition key_conj (ls : list lit) : string := "&" ++ lits_str ls.
(** sat_core.cpp:196 *)
Definition key_disj (ls : list lit) : string := "|" ++ lits_str ls.
(** sat_core.cpp:241 *)
Definition key_amo (ls : list lit) : string := "amo" ++ lits_str ls.
(** sat_core.cpp:315 *)
Definition key_exct (ls : list lit) : string := "^" ++ lits_str ls.

(** ** Injectivity. *)
Definition is_dig (c : ascii) : bool :=
  match c with
  | "0" | "1" | "2" | "3" | "4" | "5" | "6" | "7" | "8" | "9" => true
  | _ => false
  end%char.
Fixpoint all_dig (s : string) : bool :=
  match s with EmptyString => true | String c r => (is_dig c && all_dig r)%bool end.
Definition head_dig (s : string) : bool :=
  match s with EmptyString => false | String c _ => is_dig c end.

Lemma all_dig_uint u : all_dig (NilEmpty.string_of_uint u) = true.
Proof. induction u; cbn; auto. Qed.
Lemma dec_dig n : all_dig (dec n) = true.
Proof. apply all_dig_uint. Qed.
Lemma dec_inj m n : dec m = dec n -> m = n.
Proof.
  intros H. unfold dec in H. apply (f_equal NilEmpty.uint_of_string) in H. rewrite !NilEmpty.usu in H.
  inversion H as [H1]. apply Unsigned.to_uint_inj in H1. exact H1.
Qed.
Lemma app_dig_inj : forall d1 d2 r1 r2, all_dig d1 = true -> all_dig d2 = true -> head_dig r1 = false -> head_dig r2 = false ->
  d1 ++ r1 = d2 ++ r2 -> d1 = d2 /\ r1 = r2.
Proof.
  induction d1 as [|c d1 IH]; intros [|e d2] r1 r2 H1 H2 N1 N2 E; cbn in *.
  - auto.
  - subst r1. cbn in N1. apply andb_prop in H2 as [H2 _]. congruence.
  - subst r2. cbn in N2. apply andb_prop in H1 as [H1 _]. congruence.
  - inversion E; subst. apply andb_prop in H1 as [_ H1]. apply andb_prop in H2 as [_ H2].
    destruct (IH d2 r1 r2 H1 H2 N1 N2) as [-> ->]; auto.
Qed.
Lemma lit_str_head p r : head_dig (lit_str p ++ r) = false.
Proof. unfold lit_str. destruct (lsgn p); reflexivity. Qed.
Lemma lits_str_head ls : head_dig (lits_str ls) = false.
Proof. destruct ls; [reflexivity|]. cbn [lits_str]. apply lit_str_head. Qed.
Lemma app_assoc_s a b c : (a ++ b) ++ c = a ++ (b ++ c).
Proof. induction a as [|x a IH]; cbn; [reflexivity|]. rewrite IH. reflexivity. Qed.
Lemma app_nil_r_s a : a ++ "" = a.
Proof. induction a as [|x a IH]; cbn; [reflexivity|]. rewrite IH. reflexivity. Qed.
Lemma lit_str_inj p q r1 r2 : head_dig r1 = false -> head_dig r2 = false ->
  lit_str p ++ r1 = lit_str q ++ r2 -> p = q /\ r1 = r2.
Proof.
  intros N1 N2. destruct p as [v []], q as [w []]; unfold lit_str; cbn [lsgn lvar]; rewrite !app_assoc_s; cbn; intros E; inversion E as [E'];
    (apply app_dig_inj in E'; [|apply dec_dig|apply dec_dig|assumption|assumption]); destruct E' as [E1 E2]; apply dec_inj in E1; subst; auto.
Qed.
Lemma lits_str_inj : forall l1 l2, lits_str l1 = lits_str l2 -> l1 = l2.
Proof.
  induction l1 as [|p l1 IH]; intros [|q l2] E; cbn [lits_str] in E.
  - reflexivity.
  - destruct q as [v []]; discriminate.
  - destruct p as [v []]; discriminate.
  - apply lit_str_inj in E as [-> E]; [|apply lits_str_head|apply lits_str_head]. f_equal. apply IH, E.
Qed.

Lemma key_conj_inj l1 l2 : key_conj l1 = key_conj l2 -> l1 = l2.
Proof. unfold key_conj. cbn. intros E. inversion E. apply lits_str_inj; assumption. Qed.
Lemma key_disj_inj l1 l2 : key_disj l1 = key_disj l2 -> l1 = l2.
Proof. unfold key_disj. cbn. intros E. inversion E. apply lits_str_inj; assumption. Qed.
Lemma key_amo_inj l1 l2 : key_amo l1 = key_amo l2 -> l1 = l2.
Proof. unfold key_amo. cbn. intros E. inversion E. apply lits_str_inj; assumption. Qed.
Lemma key_exct_inj l1 l2 : key_exct l1 = key_exct l2 -> l1 = l2.
Proof. unfold key_exct. cbn. intros E. inversion E. apply lits_str_inj; assumption. Qed.
Lemma key_var_inj v w : key_var v = key_var w -> v = w.
Proof. unfold key_var. cbn. intros E. inversion E. apply dec_inj; assumption. Qed.
Lemma key_eq_lits l r : key_eq l r = "=" ++ lits_str (if Nat.ltb (lindex l) (lindex r) then [l; r] else [r; l]).
Proof. unfold key_eq. destruct (Nat.ltb _ _); cbn [lits_str]; rewrite app_nil_r_s; reflexivity. Qed.
Lemma key_eq_inj l r l' r' : key_eq l r = key_eq l' r' -> (l = l' /\ r = r') \/ (l = r' /\ r = l').
Proof.
  rewrite !key_eq_lits. cbn [append]. intros E. inversion E as [E']. apply lits_str_inj in E'.
  destruct (Nat.ltb (lindex l) (lindex r)), (Nat.ltb (lindex l') (lindex r')); inversion E'; auto.
Qed.

(** The operators of the cache. *)
Inductive op := OVar (v : nat) | OEq (l r : lit) | OConj (ls : list lit) | ODisj (ls : list lit) | OAmo (ls : list lit) | OExct (ls : list lit).
Definition key_of (o : op) : string :=
  match o with
  | OVar v => key_var v | OEq l r => key_eq l r | OConj ls => key_conj ls | ODisj ls => key_disj ls
  | OAmo ls => key_amo ls | OExct ls => key_exct ls
  end.
(** Two expressions with the same key are the same, up to the order of the sides of an equality. *)
Definition op_same (o o' : op) : Prop :=
  match o, o' with
  | OEq l r, OEq l' r' => (l = l' /\ r = r') \/ (l = r' /\ r = l')
  | _, _ => o = o'
  end.
Theorem key_of_inj o o' : key_of o = key_of o' -> op_same o o'.
Proof.
  destruct o, o'; cbn [key_of op_same]; intros E;
    try (rewrite ?key_eq_lits in E; unfold key_var, key_conj, key_disj, key_amo, key_exct in E; cbn in E; discriminate E).
  - f_equal. apply key_var_inj, E.
  - apply key_eq_inj, E.
  - f_equal. apply key_conj_inj, E.
  - f_equal. apply key_disj_inj, E.
  - f_equal. apply key_amo_inj, E.
  - f_equal. apply key_exct_inj, E.
Qed.
