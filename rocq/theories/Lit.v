(** The packed literal (include/lit.h:10-53) on 64-bit words, with the wrap-around written out. *)
From Coq Require Import NArith Lia Bool.
From Verif Require Import Base.
Local Open Scope N_scope.

(** defs.h: [var] is [size_t], 64 bits. *)
Definition W : N := 18446744073709551616.
Definition max_word : N := W - 1.
(** lit.h:16 [x((v << 1) + sign)] *)
Definition pack (v : N) (b : bool) : N := ((v * 2) mod W + N.b2n b) mod W.
(** lit.h:16, default arguments *)
Definition pack_default : N := pack max_word true.
(** lit.h:24 *)
Definition unpack_var (x : N) : N := N.shiftr x 1.
(** lit.h:31 *)
Definition unpack_sign (x : N) : bool := negb (N.land x 1 =? 0).
(** lit.h:34 *)
Definition is_undefined (x : N) : bool := x =? max_word.
(** lit.h:36-41 *)
Definition wneg (x : N) : N := N.lxor x 1.
(** lit.h:52 with defs.h [FALSE_var = 0] *)
Definition W_FALSE : N := pack 0 true.
Definition W_TRUE : N := wneg W_FALSE.

Lemma b2n_lt b : N.b2n b < 2.
Proof. destruct b; cbn; lia. Qed.
Lemma pack_val v b : v < W / 2 -> pack v b = 2 * v + N.b2n b.
Proof.
  intros H. unfold pack. assert (HW : W / 2 = 9223372036854775808) by reflexivity. rewrite HW in H. pose proof (b2n_lt b). change W with 18446744073709551616.
  rewrite (N.mod_small (v * 2)) by lia. rewrite N.mod_small by lia. lia.
Qed.
Lemma unpack_var_pack v b : v < W / 2 -> unpack_var (pack v b) = v.
Proof.
  intros H. rewrite pack_val by exact H. unfold unpack_var. rewrite N.shiftr_div_pow2. change (2 ^ 1) with 2.
  symmetry. apply N.div_unique with (N.b2n b); [apply b2n_lt|reflexivity].
Qed.
Lemma land1 x : N.land x 1 = x mod 2.
Proof. change 1 with (N.ones 1) at 1. rewrite N.land_ones. reflexivity. Qed.
Lemma unpack_sign_pack v b : v < W / 2 -> unpack_sign (pack v b) = b.
Proof.
  intros H. rewrite pack_val by exact H. unfold unpack_sign. rewrite land1.
  replace ((2 * v + N.b2n b) mod 2) with (N.b2n b). { destruct b; reflexivity. }
  apply N.mod_unique with v; [apply b2n_lt|reflexivity].
Qed.
Lemma pack_inj v b w c : v < W / 2 -> w < W / 2 -> pack v b = pack w c -> v = w /\ b = c.
Proof.
  intros Hv Hw E. split.
  - rewrite <- (unpack_var_pack v b Hv), <- (unpack_var_pack w c Hw), E. reflexivity.
  - rewrite <- (unpack_sign_pack v b Hv), <- (unpack_sign_pack w c Hw), E. reflexivity.
Qed.
Lemma wneg_pack v b : v < W / 2 -> wneg (pack v b) = pack v (negb b).
Proof.
  intros H. rewrite !pack_val by exact H. unfold wneg. destruct b; cbn [negb N.b2n].
  - rewrite N.add_0_r. destruct v; reflexivity.
  - rewrite N.add_0_r. destruct v; reflexivity.
Qed.
(** The packing is a bijection between words and pairs of a variable below 2^63 and a sign. *)
Lemma pack_onto x : x < W -> exists v b, v < W / 2 /\ x = pack v b.
Proof.
  intros H. exists (x / 2), (x mod 2 =? 1). assert (Hd : x / 2 < W / 2).
  { apply N.div_lt_upper_bound; [lia|]. change (2 * (W / 2)) with W. exact H. }
  split; [exact Hd|]. rewrite pack_val by exact Hd. pose proof (N.div_mod x 2 ltac:(lia)). pose proof (N.mod_lt x 2 ltac:(lia)).
  remember (x / 2) as d. remember (x mod 2) as m. clear Heqd Heqm. destruct (N.eqb_spec m 1); unfold N.b2n; lia.
Qed.
Lemma pack_defined v b : v < max_word / 2 -> is_undefined (pack v b) = false.
Proof.
  intros H. assert (HW : max_word / 2 = 9223372036854775807) by reflexivity. rewrite HW in H.
  assert (H2 : v < W / 2) by (change (W / 2) with 9223372036854775808; lia). unfold is_undefined. rewrite (pack_val v b H2).
  apply N.eqb_neq. change max_word with 18446744073709551615. pose proof (b2n_lt b). lia.
Qed.
(** The correspondence with the pairs used by the rest of the model. *)
Definition word_of (p : lit) : N := pack (N.of_nat (lvar p)) (lsgn p).
Definition small (p : lit) : Prop := N.of_nat (lvar p) < max_word / 2.
Lemma small_half p : small p -> N.of_nat (lvar p) < W / 2.
Proof. unfold small. change (max_word / 2) with 9223372036854775807. change (W / 2) with 9223372036854775808. lia. Qed.
Lemma word_ok p q : small p -> small q ->
  (word_of p = word_of q <-> p = q) /\ word_of (negl p) = wneg (word_of p) /\
  unpack_var (word_of p) = N.of_nat (lvar p) /\ unpack_sign (word_of p) = lsgn p /\ is_undefined (word_of p) = false /\
  word_of p = N.of_nat (lindex p) /\ (word_of p <? word_of q) = (lindex p <? lindex q)%nat.
Proof.
  intros Hp Hq. pose proof (small_half p Hp) as Hp2. pose proof (small_half q Hq) as Hq2.
  assert (Hix : forall r, small r -> word_of r = N.of_nat (lindex r)).
  { intros r Hr. unfold word_of. rewrite pack_val by (apply small_half, Hr). unfold lindex. destruct (lsgn r); cbn [N.b2n Nat.b2n]; lia. }
  split; [|split; [|split; [|split; [|split; [|split]]]]].
  - split; [|intros ->; reflexivity]. intros E. apply pack_inj in E as [E1 E2]; [|assumption..]. apply Nnat.Nat2N.inj in E1. destruct p, q; cbn in *; subst; reflexivity.
  - unfold word_of. cbn. symmetry. apply wneg_pack, Hp2.
  - apply unpack_var_pack, Hp2.
  - apply unpack_sign_pack, Hp2.
  - apply pack_defined, Hp.
  - apply Hix, Hp.
  - rewrite (Hix p Hp), (Hix q Hq). destruct (Nat.ltb_spec (lindex p) (lindex q)); [apply N.ltb_lt|apply N.ltb_ge]; lia.
Qed.
