(** Rationals extended with an infinitesimal, and bounds.
    [utils::inf_rational] is not in the repository; its finite values are modelled by pairs
    [(r, e)] read [r + e*epsilon], ordered lexicographically; an infinite value only occurs as "no
    bound", see [bnd] below. *)
From Verif Require Import Base Lin.
Open Scope Q_scope.

Definition qe : Type := (Q * Q)%type.
Definition qe_leb (a b : qe) : bool := if Qeq_bool (fst a) (fst b) then Qle_bool (snd a) (snd b) else Qle_bool (fst a) (fst b).
Definition qe_eqb (a b : qe) : bool := Qeq_bool (fst a) (fst b) && Qeq_bool (snd a) (snd b).
Definition qe_add (a b : qe) : qe := (fst a + fst b, snd a + snd b).
Definition qe_sub (a b : qe) : qe := (fst a - fst b, snd a - snd b).
Definition qe_scale (c : Q) (a : qe) : qe := (c * fst a, c * snd a).
Definition qe_of (q : Q) : qe := (q, 0).

Definition qle (a b : qe) : Prop := fst a < fst b \/ (fst a == fst b /\ snd a <= snd b).
Definition qlt (a b : qe) : Prop := fst a < fst b \/ (fst a == fst b /\ snd a < snd b).

Lemma qe_leb_iff a b : qe_leb a b = true <-> qle a b.
Proof.
  unfold qe_leb, qle. destruct (Qeq_bool (fst a) (fst b)) eqn:E.
  - apply Qeq_bool_iff in E. rewrite Qle_bool_iff. split; [auto|]. intros [H|[_ H]]; [lra|exact H].
  - apply Qeq_bool_neq in E. rewrite Qle_bool_iff. split; [intros H; left; lra|]. intros [H|[H _]]; [lra|contradiction].
Qed.
Lemma qe_leb_false a b : qe_leb a b = false <-> qlt b a.
Proof.
  rewrite <- Bool.not_true_iff_false, qe_leb_iff. unfold qle, qlt. lra.
Qed.
Lemma qle_refl a : qle a a.
Proof. unfold qle. lra. Qed.
Lemma qle_trans a b c : qle a b -> qle b c -> qle a c.
Proof. unfold qle. lra. Qed.
Lemma qlt_le a b : qlt a b -> qle a b.
Proof. unfold qle, qlt. lra. Qed.
Lemma qle_lt_trans a b c : qle a b -> qlt b c -> qlt a c.
Proof. unfold qle, qlt. lra. Qed.
Lemma qlt_le_trans a b c : qlt a b -> qle b c -> qlt a c.
Proof. unfold qle, qlt. lra. Qed.
Lemma qlt_irrefl a : ~ qlt a a.
Proof. unfold qlt. lra. Qed.
Lemma qle_add a b c d : qle a b -> qle c d -> qle (qe_add a c) (qe_add b d).
Proof. unfold qle, qe_add; cbn. lra. Qed.
Lemma qle_scale_pos k a b : 0 < k -> qle a b -> qle (qe_scale k a) (qe_scale k b).
Proof.
  unfold qle, qe_scale; cbn. intros Hk [H|[H1 H2]].
  - left. apply Qmult_lt_l; assumption.
  - right. rewrite H1. split; [reflexivity|]. apply Qmult_le_l; assumption.
Qed.
Lemma qle_scale_neg k a b : k < 0 -> qle a b -> qle (qe_scale k b) (qe_scale k a).
Proof.
  intros Hk H. assert (Hp : 0 < - k) by lra. apply (qle_scale_pos _ _ _ Hp) in H. unfold qle, qe_scale in *; cbn in *.
  assert (E : forall q, (- k) * q == - (k * q)) by (intros; ring). rewrite !E in H. lra.
Qed.

(** ** Sides.  [Lo]: lower bounds and [op::geq]; [Up]: upper bounds and [op::leq]. *)
Inductive side := Lo | Up.
Definition other (s : side) : side := match s with Lo => Up | Up => Lo end.
Definition side_eqb (a b : side) : bool := match a, b with Lo, Lo | Up, Up => true | _, _ => false end.
Lemma side_eqb_spec a b : reflect (a = b) (side_eqb a b).
Proof. destruct a, b; constructor; congruence. Qed.
Lemma other_other s : other (other s) = s.
Proof. destruct s; reflexivity. Qed.
Lemma other_neq s : other s <> s.
Proof. destruct s; discriminate. Qed.

(** [sle s a b]: as a bound on side [s], [a] is at most as strong as [b]; also: the value [b]
    respects the bound [a]. *)
Definition sle (s : side) (a b : qe) : bool := match s with Lo => qe_leb a b | Up => qe_leb b a end.
Definition sleP (s : side) (a b : qe) : Prop := match s with Lo => qle a b | Up => qle b a end.
Definition sltP (s : side) (a b : qe) : Prop := match s with Lo => qlt a b | Up => qlt b a end.
Lemma sle_iff s a b : sle s a b = true <-> sleP s a b.
Proof. destruct s; apply qe_leb_iff. Qed.
Lemma sle_false s a b : sle s a b = false <-> sltP s b a.
Proof. destruct s; apply qe_leb_false. Qed.
Lemma sleP_refl s a : sleP s a a.
Proof. destruct s; apply qle_refl. Qed.
Lemma sleP_trans s a b c : sleP s a b -> sleP s b c -> sleP s a c.
Proof. destruct s; cbn; eauto using qle_trans. Qed.
Lemma sltP_le s a b : sltP s a b -> sleP s a b.
Proof. destruct s; apply qlt_le. Qed.
Lemma sleP_other s a b : sleP (other s) a b <-> sleP s b a.
Proof. destruct s; reflexivity. Qed.
Lemma sltP_other s a b : sltP (other s) a b <-> sltP s b a.
Proof. destruct s; reflexivity. Qed.
Lemma sle_lt_trans s a b c : sleP s a b -> sltP s b c -> sltP s a c.
Proof. destruct s; cbn; eauto using qle_lt_trans, qlt_le_trans. Qed.
Lemma slt_le_trans s a b c : sltP s a b -> sleP s b c -> sltP s a c.
Proof. destruct s; cbn; eauto using qle_lt_trans, qlt_le_trans. Qed.
Lemma sltP_irrefl s a : ~ sltP s a a.
Proof. destruct s; apply qlt_irrefl. Qed.

(** ** Bounds.  [None]: infinite, i.e. -inf for a lower bound, +inf for an upper bound.  (A lower bound
    is never +inf nor an upper bound -inf: bounds are created infinite on their own side and only
    ever set to finite values, or to the bound on the same side of an expression.) *)
Definition bnd := option qe.
Definition bsle (s : side) (a b : bnd) : bool :=
  match a, b with None, _ => true | Some _, None => false | Some x, Some y => sle s x y end.
(** [q] respects the bound. *)
Definition inb (s : side) (b : bnd) (q : qe) : Prop := match b with None => True | Some x => sleP s x q end.
Lemma bsle_refl s a : bsle s a a = true.
Proof. destruct a; cbn; [apply sle_iff, sleP_refl|reflexivity]. Qed.
Lemma bsle_trans s a b c : bsle s a b = true -> bsle s b c = true -> bsle s a c = true.
Proof. destruct a as [a|], b as [b|], c as [c|]; cbn; try congruence. rewrite !sle_iff. apply sleP_trans. Qed.
Lemma bsle_inb s a b q : bsle s a b = true -> inb s b q -> inb s a q.
Proof. destruct a as [a|], b as [b|]; cbn; try congruence; auto. rewrite sle_iff. apply sleP_trans. Qed.

(** The rational [q] respects the bound [r + e*epsilon] on side [s], for every small enough epsilon. *)
Definition bhold (s : side) (b : bnd) (q : Q) : Prop :=
  match b with
  | None => True
  | Some (r, e) => match s with Lo => r <= q /\ (0 < e -> r < q) | Up => q <= r /\ (e < 0 -> q < r) end
  end.
(** Lower bounds have a non-negative infinitesimal part, upper bounds a non-positive one. *)
Definition bsgn (s : side) (b : bnd) : Prop :=
  match b with None => True | Some (_, e) => match s with Lo => 0 <= e | Up => e <= 0 end end.

Lemma bhold_weak s a b q : bsle s a b = true -> bhold s b q -> bhold s a q.
Proof.
  destruct a as [[ar ae]|], b as [[br be]|]; cbn; try congruence; auto.
  rewrite sle_iff. destruct s; cbn; unfold qle; cbn; lra.
Qed.
(** Incompatible bounds. *)
Lemma bhold_conflict s a b q : bsgn s (Some a) -> bsgn (other s) (Some b) -> sltP s b a -> bhold s (Some a) q -> bhold (other s) (Some b) q -> False.
Proof. destruct a as [ar ae], b as [br be], s; cbn; unfold qlt; cbn; lra. Qed.
Lemma bhold_eq s b q q' : q == q' -> bhold s b q -> bhold s b q'.
Proof. destruct b as [[r e]|]; [|auto]. destruct s; cbn; lra. Qed.

(** ** Sums of bounds. *)
Definition badd (a b : bnd) : bnd := match a, b with Some x, Some y => Some (qe_add x y) | _, _ => None end.
Definition bscale (c : Q) (a : bnd) : bnd := match a with Some x => Some (qe_scale c x) | None => None end.
Definition qpos (c : Q) : bool := negb (Qle_bool c 0).
Lemma qpos_true c : qpos c = true <-> 0 < c.
Proof. unfold qpos. rewrite negb_true_iff, <- not_true_iff_false, Qle_bool_iff. lra. Qed.
Lemma qpos_false c : qpos c = false <-> c <= 0.
Proof. unfold qpos. rewrite negb_false_iff, Qle_bool_iff. reflexivity. Qed.
(** The side of the bound of a variable that matters for the bound on side [s] of [c * variable]. *)
Definition tside (s : side) (c : Q) : side := if qpos c then s else other s.

Lemma badd_hold s a b p q : bsgn s a -> bsgn s b -> bhold s a p -> bhold s b q -> bhold s (badd a b) (p + q).
Proof.
  destruct a as [[ar ae]|], b as [[br be]|]; cbn; auto. destruct s; cbn; intros; lra.
Qed.
Lemma badd_sgn s a b : bsgn s a -> bsgn s b -> bsgn s (badd a b).
Proof. destruct a as [[ar ae]|], b as [[br be]|]; cbn; auto. destruct s; lra. Qed.
Lemma mul_pos c a b : 0 < c -> a < b -> c * a < c * b.
Proof. intros. apply Qmult_lt_l; assumption. Qed.
Lemma mul_pos_le c a b : 0 < c -> a <= b -> c * a <= c * b.
Proof. intros. apply Qmult_le_l; assumption. Qed.
Lemma mul_neg c a b : c < 0 -> a < b -> c * b < c * a.
Proof. intros Hc H. assert (H1 := mul_pos (- c) a b ltac:(lra) H). lra. Qed.
Lemma mul_neg_le c a b : c < 0 -> a <= b -> c * b <= c * a.
Proof. intros Hc H. assert (H1 := mul_pos_le (- c) a b ltac:(lra) H). lra. Qed.
Lemma mul_pos_rev c a : 0 < c -> 0 < c * a -> 0 < a.
Proof. intros Hc H. destruct (Qlt_le_dec 0 a) as [|Hn]; [assumption|]. pose proof (mul_pos_le c a 0 Hc Hn). lra. Qed.
Lemma mul_pos_rev2 c a : 0 < c -> c * a < 0 -> a < 0.
Proof. intros Hc H. destruct (Qlt_le_dec a 0) as [|Hn]; [assumption|]. pose proof (mul_pos_le c 0 a Hc Hn). lra. Qed.
Lemma mul_neg_rev c a : c < 0 -> 0 < c * a -> a < 0.
Proof. intros Hc H. destruct (Qlt_le_dec a 0) as [|Hn]; [assumption|]. pose proof (mul_neg_le c 0 a Hc Hn). lra. Qed.
Lemma mul_neg_rev2 c a : c < 0 -> c * a < 0 -> 0 < a.
Proof. intros Hc H. destruct (Qlt_le_dec 0 a) as [|Hn]; [assumption|]. pose proof (mul_neg_le c a 0 Hc Hn). lra. Qed.

Lemma bscale_hold s c b q : ~ c == 0 -> bhold (tside s c) b q -> bhold s (bscale c b) (c * q).
Proof.
  destruct b as [[r e]|]; cbn; auto. intros Hc. unfold tside. destruct (qpos c) eqn:E.
  - apply qpos_true in E. destruct s; cbn; intros [A B]; (split; [apply mul_pos_le; assumption|]); intros H; apply mul_pos; auto; apply B; eauto using mul_pos_rev, mul_pos_rev2.
  - apply qpos_false in E. assert (En : c < 0) by lra. destruct s; cbn; intros [A B]; (split; [apply mul_neg_le; assumption|]); intros H; apply mul_neg; auto; apply B; eauto using mul_neg_rev, mul_neg_rev2.
Qed.
Lemma bscale_sgn s c b : ~ c == 0 -> bsgn (tside s c) b -> bsgn s (bscale c b).
Proof.
  destruct b as [[r e]|]; cbn; auto. intros Hc. unfold tside. destruct (qpos c) eqn:E.
  - apply qpos_true in E. destruct s; cbn; intros A; [pose proof (mul_pos_le c 0 e E A)|pose proof (mul_pos_le c e 0 E A)]; lra.
  - apply qpos_false in E. assert (En : c < 0) by lra. destruct s; cbn; intros A; [pose proof (mul_neg_le c e 0 En A)|pose proof (mul_neg_le c 0 e En A)]; lra.
Qed.
(** The same for extended values. *)
Lemma badd_inb s a b p q : inb s a p -> inb s b q -> inb s (badd a b) (qe_add p q).
Proof. destruct a as [a|], b as [b|]; cbn; auto. destruct s; cbn; intros; apply qle_add; assumption. Qed.
Lemma bscale_inb s c b q : ~ c == 0 -> inb (tside s c) b q -> inb s (bscale c b) (qe_scale c q).
Proof.
  destruct b as [b|]; cbn; auto. intros Hc. unfold tside. destruct (qpos c) eqn:E.
  - apply qpos_true in E. destruct s; cbn; intros; apply qle_scale_pos; assumption.
  - apply qpos_false in E. assert (En : c < 0) by lra. destruct s; cbn; intros; apply qle_scale_neg; assumption.
Qed.
