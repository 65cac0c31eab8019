(** Distance matrices: closure under the triangle inequality and the effect of a new edge. *)
From Verif Require Import Base Sat Lin Qe Dw Dl.
From Coq Require Import Lqa.
Local Arguments Nat.ltb : simpl never.
Local Arguments Nat.eqb : simpl never.

Section Clo.
Context {D : Type} {W : wops D} (L : wlaws W).
Notation "a +' b" := (wadd W a b) (at level 50, left associativity).
Notation mat := (nat -> nat -> option D).
Notation pmat := (nat -> nat -> option nat).

Definition dle (o : option D) (x : D) : Prop := exists c, o = Some c /\ wle L c x.
Definition dlt (c : D) (o : option D) : Prop := match o with None => True | Some x => wlt L c x end.
Lemma dist_lt_some o x : dist_lt W o (Some x) = true <-> exists c, o = Some c /\ wlt L c x.
Proof.
  destruct o as [c|]; cbn; [|split; [discriminate|intros (c & E & _); discriminate]].
  rewrite negb_true_iff, (wlt_iff L). split; [eauto|]. intros (y & E & H). injection E as ->. exact H.
Qed.
Lemma dist_lt_left c o : dist_lt W (Some c) o = true <-> dlt c o.
Proof. destruct o as [x|]; cbn; [|tauto]. rewrite negb_true_iff. apply wlt_iff. Qed.
Lemma dist_le_some o x : dist_le W o (Some x) = true <-> dle o x.
Proof.
  unfold dist_le. destruct o as [c|]; cbn; [|split; [discriminate|intros (c & E & _); discriminate]].
  rewrite negb_involutive, (wle_iff L). split; [intros H; exists c; auto|]. intros (y & E & H). injection E as ->. exact H.
Qed.
Lemma dle_trans o x y : dle o x -> wle L x y -> dle o y.
Proof. intros (c & E & H) K. exists c. split; [exact E|]. wlra L. Qed.
Lemma dle_not_lt o x : dle o x -> ~ dlt x o.
Proof. intros (c & -> & H) K. cbn in K. apply (wlt_not_le L _ _ K), H. Qed.
Lemma dle_or o x : dle o x \/ dlt x o.
Proof. destruct o as [c|]; [|right; exact I]. destruct (wle_or L c x) as [H|H]; [left; exists c; auto|right; exact H]. Qed.

Record closed (d : mat) : Prop := {
  cl_diag : forall i, d i i = Some (w0 W);
  cl_tri : forall i j k a b, d i j = Some a -> d j k = Some b -> dle (d i k) (a +' b);
  cl_ok : forall i j a, d i j = Some a -> wok L a }.

(** The valuations that respect every distance. *)
Definition respects (d : mat) (y : nat -> Q) : Prop := forall i j a, d i j = Some a -> wsat L a (y j - y i).

(** The predecessors of row [r] lead back to [r] along shortest paths made of edges [E u v x] of weight [x]. *)
Notation edges := (nat -> nat -> D -> Prop).
Inductive path (E : edges) (d : mat) (p : pmat) (r : nat) : nat -> Prop :=
| p_root : path E d p r r
| p_step u v : v <> r -> p r v = Some u -> path E d p r u ->
    (exists a b c, d r u = Some a /\ E u v b /\ d r v = Some c /\ wle L (a +' b) c) -> path E d p r v.
Definition paths (E : edges) (d : mat) (p : pmat) : Prop := forall r v, d r v <> None -> path E d p r v.
(** The edges that the distances themselves provide. *)
Definition virt (d : mat) : edges := fun u v x => dle (d u v) x.

(** Some predecessors forgotten: what [pop] may do. *)
Definition blurred (p p' : pmat) : Prop := forall i j, i <> j -> p' i j = p i j \/ p' i j = Some i.
Lemma blur_refl p : blurred p p.
Proof. intros i j _. auto. Qed.
Lemma blur_trans p1 p2 p3 : blurred p1 p2 -> blurred p2 p3 -> blurred p1 p3.
Proof. intros H1 H2 i j Hij. destruct (H2 i j Hij) as [->|H]; auto. Qed.
Lemma blur_paths d p p' : closed d -> blurred p p' -> paths (virt d) d p -> paths (virt d) d p'.
Proof.
  intros HC HB HP r v Hv. specialize (HP r v Hv). clear Hv. induction HP as [|u v Hv E HP IH (a & b & c & Ea & Eb & Ec & H)]; [constructor|].
  destruct (HB r v (not_eq_sym Hv)) as [K|K].
  - apply (p_step _ _ _ _ u); auto; [congruence|]. exists a, b, c. auto.
  - apply (p_step _ _ _ _ r); auto; [constructor|]. exists (w0 W), c, c. repeat split; auto; [apply HC|exists c; split; [exact Ec|apply wle_refl]|]. wlra L.
Qed.
Lemma path_ext (E E' : edges) d p d' p' r v : (forall i j x, E i j x -> E' i j x) -> (forall i j, d' i j = d i j) -> (forall i j, i <> j -> p' i j = p i j) -> path E d p r v -> path E' d' p' r v.
Proof.
  intros HE Hd Hp HP. induction HP as [|u v Hv Eu HP IH (a & b & c & Ea & Eb & Ec & H)]; [constructor|]. apply (p_step _ _ _ _ u); auto; [rewrite Hp; auto|]. rewrite !Hd. exists a, b, c. auto.
Qed.
Lemma closed_ext (d d' : mat) : (forall i j, d' i j = d i j) -> closed d -> closed d'.
Proof. intros E [A B C]. split; intros; rewrite ?E in *; eauto. Qed.

(** ** A new edge. *)
Section Edge.
Context (from to : nat) (w : D) (d : mat) (p : pmat).
Definition cand (a b : D) : D := a +' w +' b.
Definition changed (d' : mat) (p' : pmat) (i j : nat) : Prop :=
  exists a b c, d i from = Some a /\ d to j = Some b /\ d' i j = Some c /\ weq L c (cand a b) /\ dlt c (d i j) /\ wok L c /\ p' i j = if Nat.eqb j to then Some from else p to j.
Definition updated (d' : mat) (p' : pmat) : Prop := forall i j, (d' i j = d i j /\ p' i j = p i j) \/ changed d' p' i j.
Definition reached (d' : mat) : Prop := forall i j a b, d i from = Some a -> d to j = Some b -> dle (d' i j) (cand a b).
Hypothesis HC : closed d.
Hypothesis Hcon : forall x, d to from = Some x -> wle L (w0 W) (w +' x).

Lemma no_shortcut a b i : d i from = Some a -> d to i = Some b -> wle L (w0 W) (cand a b).
Proof.
  intros Ha Hb. destruct (cl_tri d HC to i from b a Hb Ha) as (x & Ex & Hx). pose proof (Hcon x Ex) as H. unfold cand. wlra L.
Qed.
Lemma diag_same d' p' i : updated d' p' -> d' i i = d i i /\ p' i i = p i i.
Proof.
  intros HU. destruct (HU i i) as [H|(a & b & c & Ha & Hb & Ec & Ew & Hlt & _)]; [exact H|]. exfalso.
  rewrite (cl_diag d HC) in Hlt. cbn in Hlt. pose proof (no_shortcut a b i Ha Hb) as H. refine (wlt_not_le L _ _ Hlt _). wlra L.
Qed.
(** Column [from] and row [to] do not change. *)
Lemma col_same d' p' i : updated d' p' -> d' i from = d i from /\ p' i from = p i from.
Proof.
  intros HU. destruct (HU i from) as [H|(a & b & c & Ha & Hb & Ec & Ew & Hlt & _)]; [exact H|]. exfalso.
  rewrite Ha in Hlt. cbn in Hlt. pose proof (Hcon b Hb) as H. refine (wlt_not_le L _ _ Hlt _). unfold cand in Ew. wlra L.
Qed.
Lemma row_same d' p' j : updated d' p' -> d' to j = d to j /\ p' to j = p to j.
Proof.
  intros HU. destruct (HU to j) as [H|(a & b & c & Ha & Hb & Ec & Ew & Hlt & _)]; [exact H|]. exfalso.
  rewrite Hb in Hlt. cbn in Hlt. pose proof (Hcon a Ha) as H. refine (wlt_not_le L _ _ Hlt _). unfold cand in Ew. wlra L.
Qed.
Lemma upd_le d' p' i j x : updated d' p' -> dle (d i j) x -> dle (d' i j) x.
Proof.
  intros HU Hx. destruct (HU i j) as [[-> _]|(a & b & c & Ha & Hb & Ec & Ew & Hlt & _)]; [exact Hx|].
  destruct Hx as (e & Ee & He). rewrite Ee in Hlt. cbn in Hlt. exists c. split; [exact Ec|]. wlra L.
Qed.
Lemma closed_edge d' p' : updated d' p' -> reached d' -> closed d'.
Proof.
  intros HU HR. split.
  - intros i. rewrite (proj1 (diag_same d' p' i HU)). apply HC.
  - intros i j k a b Ea Eb.
    destruct (HU i j) as [[E1 _]|(a1 & b1 & c1 & A1 & B1 & C1 & W1 & _)]; destruct (HU j k) as [[E2 _]|(a2 & b2 & c2 & A2 & B2 & C2 & W2 & _)].
    + apply (upd_le d' p'); [exact HU|]. apply (cl_tri d HC i j k); congruence.
    + rewrite C2 in Eb. injection Eb as ->. rewrite E1 in Ea. destruct (cl_tri d HC i j from a a2 Ea A2) as (x & Ex & Hx).
      apply (dle_trans _ _ _ (HR i k x b2 Ex B2)). unfold cand in *. wlra L.
    + rewrite C1 in Ea. injection Ea as ->. rewrite E2 in Eb. destruct (cl_tri d HC to j k b1 b B1 Eb) as (x & Ex & Hx).
      apply (dle_trans _ _ _ (HR i k a1 x A1 Ex)). unfold cand in *. wlra L.
    + rewrite C1 in Ea. injection Ea as ->. rewrite C2 in Eb. injection Eb as ->. pose proof (no_shortcut a2 b1 j A2 B1) as H.
      apply (dle_trans _ _ _ (HR i k a1 b2 A1 B2)). unfold cand in *. wlra L.
  - intros i j x Ex. destruct (HU i j) as [[E _]|(a & b & c & Ha & Hb & Ec & Ew & _ & Hk & _)].
    + apply (cl_ok d HC i j). congruence.
    + congruence.
Qed.
Lemma respects_edge d' p' y : d from from = Some (w0 W) -> updated d' p' -> reached d' -> (respects d' y <-> respects d y /\ wsat L w (y to - y from)%Q).
Proof.
  intros Hff HU HR. split.
  - intros H. split.
    + intros i j a Ea. destruct (upd_le d' p' i j a HU) as (c & Ec & Hc); [exists a; split; [exact Ea|apply wle_refl]|]. apply (wsat_le L c); [exact Hc|apply H, Ec].
    + destruct (HR from to (w0 W) (w0 W) Hff (cl_diag d HC to)) as (c & Ec & Hc). apply (wsat_le L c); [|apply H, Ec]. unfold cand in Hc. wlra L.
  - intros [H Hw] i j x Ex. destruct (HU i j) as [[E _]|(a & b & c & Ha & Hb & Ec & Ew & _)]; [apply H; congruence|].
    rewrite Ec in Ex. injection Ex as ->. pose proof (H _ _ _ Ha) as H1. pose proof (H _ _ _ Hb) as H2. unfold cand in Ew. wlra L.
Qed.
(** Vertices that did not change have ancestors that did not change. *)
Context (E E' : edges).
Hypothesis HE : forall u v x, E u v x -> dle (d u v) x.
Hypothesis HE' : forall u v x, E u v x -> E' u v x.
Hypothesis Hnew : E' from to w.
Lemma path_same d' p' r v : updated d' p' -> reached d' -> path E d p r v -> d' r v = d r v -> p' r v = p r v -> path E' d' p' r v.
Proof.
  intros HU HR HP. induction HP as [|u v Hv Eu HP IH (a & b & c & Ea & Eb & Ec & Hle)]; intros Ed Ep; [constructor|].
  destruct (HU r u) as [[Er Eq]|(a1 & b1 & c1 & A1 & B1 & C1 & W1 & Hlt & _)].
  - apply (p_step _ _ _ _ u); auto; [congruence|]. exists a, b, c. rewrite Er, Ed. repeat split; auto.
  - exfalso. rewrite Ea in Hlt. cbn in Hlt. destruct (HE u v b Eb) as (b2 & Eb2 & Hb2). destruct (cl_tri d HC to u v b1 b2 B1 Eb2) as (x & Ex & Hx).
    destruct (HR r v a1 x A1 Ex) as (y & Ey & Hy). rewrite Ed, Ec in Ey. injection Ey as <-. unfold cand in *. refine (wlt_not_le L _ _ Hlt _). wlra L.
Qed.
Lemma paths_edge d' p' : from <> to -> updated d' p' -> reached d' -> paths E d p -> paths E' d' p'.
Proof.
  intros Hft HU HR HP r v Hv.
  destruct (HU r v) as [[E1 E2]|HCh]; [apply path_same; auto; apply HP; congruence|].
  assert (Hb : d to v <> None) by (destruct HCh as (a & b & c & Ha & Hb & _); congruence).
  pose proof (HP to v Hb) as Hpath. clear Hv Hb. revert HCh. induction Hpath as [|u v Hv Eu Hpath IH (a & b & c & Ea & Eb & Ec & Hle)]; intros (a1 & b1 & c1 & A1 & B1 & C1 & W1 & Hlt & _ & Hp).
  - rewrite Nat.eqb_refl in Hp. destruct (col_same d' p' r HU) as [Ef Ep].
    assert (Hne : to <> r). { intros <-. destruct (diag_same d' p' to HU) as [Ed _]. rewrite (cl_diag d HC) in Hlt. rewrite (cl_diag d HC) in Ed. assert (c1 = w0 W) by congruence. subst c1. cbn in Hlt. apply (wlt_not_le L _ _ Hlt), wle_refl. }
    apply (p_step _ _ _ _ from); auto.
    + apply path_same; auto. apply HP. congruence.
    + exists a1, w, c1. rewrite Ef. repeat split; auto.
      rewrite (cl_diag d HC) in B1. injection B1 as <-. unfold cand in *. wlra L.
  - destruct (Nat.eqb_spec v to) as [->|_]; [congruence|].
    assert (Hne : v <> r). { intros <-. destruct (diag_same d' p' v HU) as [Ed _]. rewrite (cl_diag d HC) in Hlt. rewrite (cl_diag d HC) in Ed. assert (c1 = w0 W) by congruence. subst c1. cbn in Hlt. apply (wlt_not_le L _ _ Hlt), wle_refl. }
    rewrite B1 in Ec. injection Ec as <-.
    apply (p_step _ _ _ _ u); auto; [congruence| |].
    + destruct (HU r u) as [[E1 E2]|HCh]; [|apply IH, HCh]. apply path_same; auto. apply HP. destruct (HR r u a1 a A1 Ea) as (x & Ex & _). congruence.
    + destruct (HR r u a1 a A1 Ea) as (x & Ex & Hx).
      exists x, b, c1. repeat split; auto. unfold cand in *. wlra L.
Qed.
End Edge.

(** ** Walks are short: no vertex appears twice. *)
Inductive steps (p : pmat) (r : nat) : list nat -> nat -> Prop :=
| s_nil : steps p r [] r
| s_cons u v l : v <> r -> p r v = Some u -> steps p r l u -> steps p r (v :: l) v.
Lemma path_steps E d p r v : path E d p r v -> exists l, steps p r l v /\ forall x, In x l -> x <> r /\ d r x <> None.
Proof.
  induction 1 as [|u v Hv Eu HP [l [IH IH']] (a & b & c & Ea & Eb & Ec & _)]; [exists []; split; [constructor|intros x []]|].
  exists (v :: l). split; [apply (s_cons _ _ u); auto|]. intros x [<-|Hx]; [split; congruence|auto].
Qed.
Lemma steps_det p r l v : steps p r l v -> forall l', steps p r l' v -> l = l'.
Proof.
  induction 1 as [|u v l Hv E _ IH]; intros l' H'; inversion H'; subst; try congruence.
  f_equal. apply IH. assert (u0 = u) as <- by congruence. assumption.
Qed.
Lemma steps_suffix p r l v x : steps p r l v -> In x l -> exists k, steps p r k x /\ exists h, l = h ++ k.
Proof.
  induction 1 as [|u v l Hv E HS IH]; [intros []|]. intros [<-|Hx].
  - exists (v :: l). split; [apply (s_cons _ _ u); auto|exists []; reflexivity].
  - destruct (IH Hx) as (k & Hk & h & ->). exists k. split; [exact Hk|exists (v :: h); reflexivity].
Qed.
Lemma steps_nodup p r l v : steps p r l v -> NoDup l.
Proof.
  induction 1 as [|u v l Hv E HS IH]; [constructor|]. constructor; [|exact IH]. intros Hin.
  destruct (steps_suffix p r l u v HS Hin) as (k & Hk & h & ->).
  assert (Hv' : steps p r (v :: h ++ k) v) by (apply (s_cons _ _ u); auto).
  pose proof (steps_det p r k v Hk _ Hv') as Ek. apply (f_equal (@length nat)) in Ek. cbn in Ek. rewrite app_length in Ek. lia.
Qed.
Lemma bounded_nodup (l : list nat) n : NoDup l -> (forall x, In x l -> x < n)%nat -> (length l <= n)%nat.
Proof.
  intros H1 H2. rewrite <- (seq_length n 0). apply NoDup_incl_length; [exact H1|]. intros x Hx. apply in_seq. specialize (H2 x Hx). lia.
Qed.
End Clo.
