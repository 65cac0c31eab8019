(** Difference logic theories: what the queries return. *)
From Verif Require Import Base Sat Lin Qe Dw Dl DlClo DlTight DlEdge DlTh DlFacts DlVal DlApi DlSpec.
From Coq Require Import Lqa Qround.
Open Scope nat_scope.
Local Arguments Nat.ltb : simpl never.
Local Arguments Nat.eqb : simpl never.
Section Srt.
Context {sr : sorter}.

(** ** Specification: the least and the greatest value over the solutions.  [None]: there is none. *)
Definition z_spans (t : dl Z) (ps : list lit) (f : (nat -> Z) -> Q) (b : option Z * option Z) : Prop :=
  match fst b with
  | Some a => (forall y, z_sol t ps y -> y 0 = 0%Z -> (inject_Z a <= f y)%Q) /\ exists y, z_sol t ps y /\ y 0 = 0%Z /\ (f y == inject_Z a)%Q
  | None => forall k, exists y, z_sol t ps y /\ y 0 = 0%Z /\ (f y < k)%Q
  end /\
  match snd b with
  | Some a => (forall y, z_sol t ps y -> y 0 = 0%Z -> (f y <= inject_Z a)%Q) /\ exists y, z_sol t ps y /\ y 0 = 0%Z /\ (f y == inject_Z a)%Q
  | None => forall k, exists y, z_sol t ps y /\ y 0 = 0%Z /\ (k < f y)%Q
  end.
(** For rationals: the infimum and the supremum; they are attained unless the infinitesimal part makes them strict. *)
Definition q_over (v : Q) (w : qe) : Prop := (fst w <= v /\ (0 < snd w -> fst w < v))%Q.
Definition q_spans (t : dl qe) (ps : list lit) (f : (nat -> Q) -> Q) (b : option qe * option qe) : Prop :=
  match fst b with
  | Some a => (forall y, q_sol t ps y -> (y O == 0)%Q -> q_over (f y) a) /\ (forall d, 0 < d -> exists y, q_sol t ps y /\ y O == 0 /\ f y < fst a + d)%Q /\
              (snd a <= 0 -> exists y, q_sol t ps y /\ y O == 0 /\ f y == fst a)%Q
  | None => (forall k, exists y, q_sol t ps y /\ y O == 0 /\ f y < k)%Q
  end /\
  match snd b with
  | Some a => (forall y, q_sol t ps y -> (y O == 0)%Q -> q_under (f y) a) /\ (forall d, 0 < d -> exists y, q_sol t ps y /\ y O == 0 /\ fst a - d < f y)%Q /\
              (0 <= snd a -> exists y, q_sol t ps y /\ y O == 0 /\ f y == fst a)%Q
  | None => (forall k, exists y, q_sol t ps y /\ y O == 0 /\ k < f y)%Q
  end.

(** ** Solutions can be shifted. *)
Lemma z_shift t ps y k : z_sol t ps y -> z_sol t ps (fun v => (y v - k)%Z).
Proof. intros H p c Hp Hc E. specialize (H p c Hp Hc E). unfold z_con in *. destruct (lsgn p); lia. Qed.
Lemma z_norm t ps y : z_sol t ps y -> exists y', z_sol t ps y' /\ y' 0 = 0%Z /\ forall i j, (y' j - y' i = y j - y i)%Z.
Proof. intros H. exists (fun v => (y v - y O)%Z). split; [apply z_shift, H|]. split; [lia|]. intros; lia. Qed.
Lemma q_under_eq v v' w : (v == v')%Q -> q_under v w -> q_under v' w.
Proof. unfold q_under. intros E. rewrite E. auto. Qed.
Lemma q_shift t ps y k : q_sol t ps y -> q_sol t ps (fun v => (y v - k)%Q).
Proof.
  intros H p c Hp Hc E. specialize (H p c Hp Hc E). unfold q_con in *. cbv beta. assert (Ed : (y (c_to c) - y (c_from c) == y (c_to c) - k - (y (c_from c) - k))%Q) by ring.
  destruct (lsgn p); [apply (q_under_eq _ _ _ Ed H)|]. intros K. apply H, (q_under_eq _ _ _ (Qeq_sym _ _ Ed) K).
Qed.
Lemma q_norm t ps y : q_sol t ps y -> exists y', q_sol t ps y' /\ (y' O == 0)%Q /\ forall i j, (y' j - y' i == y j - y i)%Q.
Proof. intros H. exists (fun v => (y v - y O)%Q). split; [apply q_shift, H|]. split; [lra|]. intros; lra. Qed.

(** ** Distances between variables. *)
Theorem z_distance t vs i j : DReach ZL t vs -> i < nvars t -> j < nvars t -> z_spans t (concat vs) (fun y => inject_Z (y j - y i)) (distance Zw t i j).
Proof.
  intros HR Hi Hj. pose proof (reach_core ZL t vs HR) as HC. unfold z_spans, distance. cbn [fst snd].
  assert (Hle : forall i j a y, dists t i j = Some a -> z_sol t (concat vs) y -> (y j - y i <= a)%Z).
  { intros i' j' a y E Hy. apply z_solves in Hy. pose proof (dist_sound ZL t _ _ i' j' a HC Hy E) as H. apply z_wsat in H. exact H. }
  assert (Hat : forall i j a, i < nvars t -> j < nvars t -> dists t i j = Some a -> exists y, z_sol t (concat vs) y /\ y 0 = 0%Z /\ (y j - y i = a)%Z).
  { intros i' j' a Hi' Hj' E. destruct (evt_ex _ (dist_attained ZL t _ i' j' a HC Hi' Hj' E)) as (e & _ & y & Hy & Ey). apply z_solved in Hy as (z & Hz & Ez). apply z_norm in Hz as (z' & Hz' & H0 & Hd).
    exists z'. split; [exact Hz'|]. split; [exact H0|]. rewrite Hd. cbn in Ey. rewrite !Ez, inject_sub in Ey. unfold Qeq in Ey. cbn in Ey. lia. }
  assert (Hun : forall i j k, i < nvars t -> j < nvars t -> dists t i j = None -> exists y, z_sol t (concat vs) y /\ y 0 = 0%Z /\ (k < inject_Z (y j - y i))%Q).
  { intros i' j' k Hi' Hj' E. destruct (dist_unbounded ZL t _ i' j' (Qceiling k) HC Hi' Hj' E I) as (y & Hy & Hn). apply z_solved in Hy as (z & Hz & Ez). apply z_norm in Hz as (z' & Hz' & H0 & Hd).
    exists z'. split; [exact Hz'|]. split; [exact H0|]. rewrite Hd. assert (Hn' : ~ (z j' - z i' <= Qceiling k)%Z) by (intros K; apply Hn, (wsat_eq ZL _ (inject_Z (z j') - inject_Z (z i'))%Q); [rewrite !Ez; reflexivity|apply z_wsat, K]).
    apply Qle_lt_trans with (inject_Z (Qceiling k)); [apply Qle_ceiling|]. rewrite <- Zlt_Qlt. lia. }
  split.
  - destruct (dists t j i) as [a|] eqn:E; cbn.
    + split.
      * intros y Hy _. rewrite <- Zle_Qle. specialize (Hle j i a y E Hy). lia.
      * destruct (Hat j i a Hj Hi E) as (y & Hy & H0 & Ey). exists y. split; [exact Hy|]. split; [exact H0|]. replace (y j - y i)%Z with (- a)%Z by lia. reflexivity.
    + intros k. destruct (Hun j i (- k)%Q Hj Hi E) as (y & Hy & H0 & Hk). exists y. split; [exact Hy|]. split; [exact H0|]. replace (y j - y i)%Z with (- (y i - y j))%Z by lia. rewrite inject_Z_opp. lra.
  - destruct (dists t i j) as [a|] eqn:E; cbn.
    + split.
      * intros y Hy _. rewrite <- Zle_Qle. apply (Hle i j a y E Hy).
      * destruct (Hat i j a Hi Hj E) as (y & Hy & H0 & Ey). exists y. split; [exact Hy|]. split; [exact H0|]. rewrite Ey. reflexivity.
    + intros k. apply (Hun i j k Hi Hj E).
Qed.
(** A number close to [a]. *)
Lemma near a d : (0 < d)%Q -> forall e0, (0 < e0)%Q -> exists e, (0 < e /\ e <= e0 /\ - d < a * e)%Q.
Proof.
  intros Hd e0 He0. destruct (Qlt_le_dec a 0) as [Ha|Ha]; [|exists e0; split; [exact He0|split; [lra|nra]]].
  set (x := (d / (2 * - a))%Q). assert (Hx : (0 < x)%Q) by (apply Qlt_shift_div_l; lra). assert (Ex : (x * (2 * - a) == d)%Q) by (unfold x; field; lra).
  destruct (Qlt_le_dec x e0) as [K|K]; [exists x|exists e0]; (split; [assumption|]); (split; [lra|nra]).
Qed.
Theorem q_distance t vs i j : DReach QL t vs -> i < nvars t -> j < nvars t -> q_spans t (concat vs) (fun y => (y j - y i)%Q) (distance Qw t i j).
Proof.
  intros HR Hi Hj. pose proof (reach_core QL t vs HR) as HC. unfold q_spans, distance. cbn [fst snd].
  assert (Hle : forall i j a y, dists t i j = Some a -> q_sol t (concat vs) y -> q_under (y j - y i)%Q a).
  { intros i' j' a y E Hy. apply q_solves in Hy. pose proof (dist_sound QL t _ _ i' j' a HC Hy E) as H. apply q_wsat in H. exact H. }
  assert (Hat : forall i j a, i < nvars t -> j < nvars t -> dists t i j = Some a -> (forall d, 0 < d -> exists y, q_sol t (concat vs) y /\ y O == 0 /\ fst a - d < y j - y i)%Q /\ (0 <= snd a -> exists y, q_sol t (concat vs) y /\ y O == 0 /\ y j - y i == fst a)%Q).
  { intros i' j' a Hi' Hj' E. destruct (dist_attained QL t _ i' j' a HC Hi' Hj' E) as (e0 & He0 & H). cbn in H. unfold at_q in H. split.
    - intros d Hd. destruct (near (snd a) d Hd e0 He0) as (e & He & Hle' & Hn). destruct (H e He Hle') as (y & Hy & Ey). apply q_solves, q_norm in Hy as (y' & Hy' & H0 & Hd'). exists y'. split; [exact Hy'|]. split; [exact H0|]. rewrite Hd', Ey. lra.
    - intros Hz. destruct (H e0 He0 (Qle_refl _)) as (y & Hy & Ey). apply q_solves, q_norm in Hy as (y' & Hy' & H0 & Hd'). exists y'. split; [exact Hy'|]. split; [exact H0|]. rewrite Hd', Ey.
      destruct (Hle i' j' a y' E Hy') as [K _]. rewrite Hd', Ey in K. nra. }
  assert (Hun : forall i j k, i < nvars t -> j < nvars t -> dists t i j = None -> exists y, q_sol t (concat vs) y /\ (y O == 0)%Q /\ (k < y j - y i)%Q).
  { intros i' j' k Hi' Hj' E. destruct (dist_unbounded QL t _ i' j' (k, 0)%Q HC Hi' Hj' E (or_introl (Qeq_refl _))) as (y & Hy & Hn). apply q_solves, q_norm in Hy as (z' & Hz' & H0 & Hd).
    exists z'. split; [exact Hz'|]. split; [exact H0|]. rewrite Hd. rewrite q_wsat in Hn. unfold q_under in Hn. cbn in Hn. lra. }
  split.
  - destruct (dists t j i) as [a|] eqn:E; cbn.
    + split; [|split].
      * intros y Hy _. specialize (Hle j i a y E Hy). unfold q_under, q_over in *. cbn. lra.
      * intros d Hd. destruct (Hat j i a Hj Hi E) as (H & _). destruct (H d Hd) as (y & Hy & H0 & Ey). exists y. split; [exact Hy|]. split; [exact H0|]. lra.
      * intros Hz. destruct (Hat j i a Hj Hi E) as (_ & H). destruct H as (y & Hy & H0 & Ey); [lra|]. exists y. split; [exact Hy|]. split; [exact H0|]. lra.
    + intros k. destruct (Hun j i (- k)%Q Hj Hi E) as (y & Hy & H0 & Hk). exists y. split; [exact Hy|]. split; [exact H0|]. lra.
  - destruct (dists t i j) as [a|] eqn:E; cbn.
    + split; [|apply (Hat i j a Hi Hj E)]. intros y Hy _. apply (Hle i j a y E Hy).
    + intros k. apply (Hun i j k Hi Hj E).
Qed.

(** ** Affine images. *)
Lemma z_spans_aff t ps f g b c k : (0 < c)%Z -> (forall y, y 0 = 0%Z -> (f y == inject_Z c * g y + inject_Z k)%Q) -> z_spans t ps g b -> z_spans t ps f (zaff (fst b) c k, zaff (snd b) c k).
Proof.
  intros Hc Hf [H1 H2]. assert (Hc' : (0 < inject_Z c)%Q) by (rewrite Zlt_Qlt in Hc; exact Hc).
  split; cbn [fst snd].
  - destruct (fst b) as [a|]; cbn.
    + destruct H1 as (A & y & Hy & H0 & Ey). split.
      * intros y' Hy' H0'. rewrite (Hf y' H0'). specialize (A y' Hy' H0'). rewrite inject_Z_plus, inject_Z_mult. nra.
      * exists y. split; [exact Hy|]. split; [exact H0|]. rewrite (Hf y H0), Ey, inject_Z_plus, inject_Z_mult. ring.
    + intros x. destruct (H1 ((x - inject_Z k) / inject_Z c)%Q) as (y & Hy & H0 & Ey). exists y. split; [exact Hy|]. split; [exact H0|]. rewrite (Hf y H0).
      assert (E : ((x - inject_Z k) / inject_Z c * inject_Z c == x - inject_Z k)%Q) by (field; lra). nra.
  - destruct (snd b) as [a|]; cbn.
    + destruct H2 as (A & y & Hy & H0 & Ey). split.
      * intros y' Hy' H0'. rewrite (Hf y' H0'). specialize (A y' Hy' H0'). rewrite inject_Z_plus, inject_Z_mult. nra.
      * exists y. split; [exact Hy|]. split; [exact H0|]. rewrite (Hf y H0), Ey, inject_Z_plus, inject_Z_mult. ring.
    + intros x. destruct (H2 ((x - inject_Z k) / inject_Z c)%Q) as (y & Hy & H0 & Ey). exists y. split; [exact Hy|]. split; [exact H0|]. rewrite (Hf y H0).
      assert (E : ((x - inject_Z k) / inject_Z c * inject_Z c == x - inject_Z k)%Q) by (field; lra). nra.
Qed.
Lemma q_spans_aff t ps f g b c k : (0 < c)%Q -> (forall y, (y O == 0)%Q -> (f y == c * g y + k)%Q) -> q_spans t ps g b -> q_spans t ps f (qaff (fst b) c k, qaff (snd b) c k).
Proof.
  intros Hc Hf [H1 H2]. assert (Hd : forall d, (0 < d -> 0 < d / c)%Q) by (intros d H; apply Qlt_shift_div_l; lra). assert (Ed : forall d, (d / c * c == d)%Q) by (intros d; field; lra).
  split; cbn [fst snd].
  - destruct (fst b) as [a|]; cbn.
    + destruct H1 as (A & B & C). split; [|split].
      * intros y' Hy' H0'. specialize (A y' Hy' H0'). unfold q_over in *. cbn. rewrite (Hf y' H0'). destruct A as [A1 A2]. split; [nra|]. intros K. assert (K' : (0 < snd a)%Q) by nra. specialize (A2 K'). nra.
      * intros d H. destruct (B (d / c)%Q (Hd d H)) as (y & Hy & H0 & Ey). exists y. split; [exact Hy|]. split; [exact H0|]. rewrite (Hf y H0). specialize (Ed d). nra.
      * intros K. destruct C as (y & Hy & H0 & Ey); [nra|]. exists y. split; [exact Hy|]. split; [exact H0|]. rewrite (Hf y H0), Ey. ring.
    + intros x. destruct (H1 ((x - k) / c)%Q) as (y & Hy & H0 & Ey). exists y. split; [exact Hy|]. split; [exact H0|]. rewrite (Hf y H0). specialize (Ed (x - k)%Q). nra.
  - destruct (snd b) as [a|]; cbn.
    + destruct H2 as (A & B & C). split; [|split].
      * intros y' Hy' H0'. specialize (A y' Hy' H0'). unfold q_under in *. cbn. rewrite (Hf y' H0'). destruct A as [A1 A2]. split; [nra|]. intros K. assert (K' : (snd a < 0)%Q) by nra. specialize (A2 K'). nra.
      * intros d H. destruct (B (d / c)%Q (Hd d H)) as (y & Hy & H0 & Ey). exists y. split; [exact Hy|]. split; [exact H0|]. rewrite (Hf y H0). specialize (Ed d). nra.
      * intros K. destruct C as (y & Hy & H0 & Ey); [nra|]. exists y. split; [exact Hy|]. split; [exact H0|]. rewrite (Hf y H0), Ey. ring.
    + intros x. destruct (H2 ((x - k) / c)%Q) as (y & Hy & H0 & Ey). exists y. split; [exact Hy|]. split; [exact H0|]. rewrite (Hf y H0). specialize (Ed (x - k)%Q). nra.
Qed.

(** ** Between two solutions there is one for every value in between. *)
Lemma z_between t ps y1 y2 i j w : z_sol t ps y1 -> z_sol t ps y2 -> (y1 j - y1 i <= w)%Z -> (w <= y2 j - y2 i)%Z -> exists y, z_sol t ps y /\ y O = 0%Z /\ (y j - y i = w)%Z.
Proof.
  intros H1 H2 L1 L2. set (a := ((y2 j - y2 i) - w)%Z). set (b := (w - (y1 j - y1 i))%Z).
  destruct (Z.eq_dec (a + b) 0) as [E|E].
  { apply z_norm in H1 as (y & Hy & H0 & Hd). exists y. split; [exact Hy|]. split; [exact H0|]. rewrite Hd. unfold a, b in E. lia. }
  assert (Ha : (0 <= a)%Z) by (unfold a; lia). assert (Hb : (0 <= b)%Z) by (unfold b; lia). assert (Hn : (0 < a + b)%Z) by lia. clear E.
  set (x := fun v => (a * (y1 v - y1 i) + b * (y2 v - y2 i))%Z). set (z := fun v => (x v / (a + b))%Z).
  assert (Hdiv : forall u v k, (x v - x u <= (a + b) * k -> z v - z u <= k)%Z).
  { intros u v k H. unfold z. assert (K : (x v / (a + b) <= (x u + k * (a + b)) / (a + b))%Z) by (apply Z.div_le_mono; lia). rewrite Z.div_add in K by lia. lia. }
  assert (Hz : z_sol t ps z).
  { intros p c Hp Hc Ev. specialize (H1 p c Hp Hc Ev). specialize (H2 p c Hp Hc Ev). unfold z_con in *. destruct (lsgn p).
    - apply Hdiv. unfold x. nia.
    - enough (z (c_from c) - z (c_to c) <= - c_w c - 1)%Z by lia. apply Hdiv. unfold x. nia. }
  assert (Ez : (z j - z i = w)%Z).
  { unfold z. assert (Exi : x i = 0%Z) by (unfold x; ring). assert (Exj : x j = (w * (a + b))%Z) by (unfold x, a, b; ring). rewrite Exi, Exj, Z.div_mul, Z.div_0_l by lia. lia. }
  apply z_norm in Hz as (y & Hy & H0 & Hd). exists y. split; [exact Hy|]. split; [exact H0|]. rewrite Hd. exact Ez.
Qed.
Lemma q_mix y1 y2 l w : (0 <= l)%Q -> (l <= 1)%Q -> q_under y1 w -> q_under y2 w -> q_under (l * y1 + (1 - l) * y2)%Q w.
Proof.
  intros H0 H1 [A1 A2] [B1 B2]. split; [nra|]. intros K. specialize (A2 K). specialize (B2 K).
  destruct (Qlt_le_dec 0 l) as [L|L]; [|assert (E : (l == 0)%Q) by lra; rewrite E; lra]. nra.
Qed.
Lemma q_unmix y1 y2 l w : (0 <= l)%Q -> (l <= 1)%Q -> ~ q_under y1 w -> ~ q_under y2 w -> ~ q_under (l * y1 + (1 - l) * y2)%Q w.
Proof.
  unfold q_under. intros H0 H1 A B [K1 K2].
  destruct (Qlt_le_dec (snd w) 0) as [S|S].
  - specialize (K2 S). assert (A' : (fst w <= y1)%Q) by (destruct (Qlt_le_dec y1 (fst w)); [exfalso; apply A; split; [lra|intros; lra]|assumption]).
    assert (B' : (fst w <= y2)%Q) by (destruct (Qlt_le_dec y2 (fst w)); [exfalso; apply B; split; [lra|intros; lra]|assumption]). nra.
  - assert (A' : (fst w < y1)%Q) by (destruct (Qlt_le_dec (fst w) y1); [assumption|exfalso; apply A; split; [lra|intros; lra]]).
    assert (B' : (fst w < y2)%Q) by (destruct (Qlt_le_dec (fst w) y2); [assumption|exfalso; apply B; split; [lra|intros; lra]]).
    destruct (Qlt_le_dec 0 l) as [L|L]; [|assert (E : (l == 0)%Q) by lra; rewrite E in K1; lra]. nra.
Qed.
Lemma q_between t ps y1 y2 i j w : q_sol t ps y1 -> q_sol t ps y2 -> (y1 j - y1 i <= w)%Q -> (w <= y2 j - y2 i)%Q -> exists y, q_sol t ps y /\ (y O == 0)%Q /\ (y j - y i == w)%Q.
Proof.
  intros H1 H2 L1 L2. destruct (Qeq_dec (y1 j - y1 i) (y2 j - y2 i)) as [E|E].
  { apply q_norm in H1 as (y & Hy & H0 & Hd). exists y. split; [exact Hy|]. split; [exact H0|]. rewrite Hd. lra. }
  set (d1 := (y1 j - y1 i)%Q) in *. set (d2 := (y2 j - y2 i)%Q) in *. assert (Hd : (0 < d2 - d1)%Q) by lra. set (l := ((d2 - w) / (d2 - d1))%Q).
  assert (El : (l * (d2 - d1) == d2 - w)%Q) by (unfold l; field; lra). assert (Hl0 : (0 <= l)%Q) by (apply Qle_shift_div_l; lra). assert (Hl1 : (l <= 1)%Q) by (apply Qle_shift_div_r; lra).
  set (z := fun v => (l * y1 v + (1 - l) * y2 v)%Q).
  assert (Hz : q_sol t ps z).
  { intros p c Hp Hc Ev. specialize (H1 p c Hp Hc Ev). specialize (H2 p c Hp Hc Ev). unfold q_con in *.
    assert (Ed : (l * (y1 (c_to c) - y1 (c_from c)) + (1 - l) * (y2 (c_to c) - y2 (c_from c)) == z (c_to c) - z (c_from c))%Q) by (unfold z; ring).
    destruct (lsgn p); [apply (q_under_eq _ _ _ Ed), q_mix; assumption|]. intros K. apply (q_under_eq _ _ _ (Qeq_sym _ _ Ed)) in K. revert K. apply q_unmix; assumption. }
  apply q_norm in Hz as (y & Hy & H0 & Hdd). exists y. split; [exact Hy|]. split; [exact H0|]. rewrite Hdd. unfold z. unfold d1, d2 in *. lra.
Qed.

(** ** [bounds] of an expression. *)
Lemma z_of_q_int z q : (q == inject_Z z)%Q -> exists k, z_of_q q = Some k /\ k = z.
Proof.
  intros E. unfold z_of_q. unfold Qeq in E. cbn in E. rewrite Z.mul_1_r in E. rewrite E, Z.mod_mul, Z.eqb_refl, Z.div_mul by discriminate. eauto.
Qed.
Theorem idl_bounds_const t vs l z : DReach ZL t vs -> lvars l = [] -> (lkt l == inject_Z z)%Q -> idl_bounds t l = Some (Some z, Some z) /\ z_spans t (concat vs) (fun y => lval (zq y) l) (Some z, Some z).
Proof.
  intros HR Hl Hk. destruct (z_of_q_int z _ Hk) as (k & E & ->). unfold idl_bounds. rewrite Hl, E. split; [reflexivity|].
  destruct (solution_exists ZL t _ (reach_core ZL t vs HR)) as (y & Hy). apply z_solved in Hy as (y' & Hy & _). apply z_norm in Hy as (y0 & Hy & H0 & _).
  unfold lval. rewrite Hl. cbn [msum]. split; cbn; (split; [intros; lra|]); exists y0; (split; [exact Hy|]); (split; [exact H0|lra]).
Qed.
Theorem idl_bounds_one t vs l v c z k : DReach ZL t vs -> lvars l = [(v, c)] -> v < nvars t -> (c == inject_Z z)%Q -> (0 < z)%Z -> (lkt l == inject_Z k)%Q ->
  exists b, idl_bounds t l = Some b /\ z_spans t (concat vs) (fun y => lval (zq y) l) b.
Proof.
  intros HR Hl Hv Hc Hz Hk. pose proof (dc_n ZL _ _ (reach_core ZL t vs HR)) as H0. destruct (z_of_q_int z _ Hc) as (c' & Ec & ->). destruct (z_of_q_int k _ Hk) as (k' & Ek & ->).
  unfold idl_bounds. rewrite Hl, Ec, Ek. eexists. split; [reflexivity|]. apply (z_spans_aff t (concat vs) _ (fun y => inject_Z (y v - y O)) (distance Zw t 0 v) z k Hz); [|apply z_distance; [exact HR|lia|exact Hv]].
  intros y E0. unfold lval. rewrite Hl. cbn [msum]. unfold zq. rewrite E0, Hc, Hk, Z.sub_0_r. ring.
Qed.
Theorem idl_bounds_two t vs l v v1 c c1 k : DReach ZL t vs -> lvars l = [(v, c); (v1, c1)] -> v < nvars t -> v1 < nvars t -> (c == 1)%Q -> (c1 == - (1))%Q -> (lkt l == inject_Z k)%Q ->
  exists b, idl_bounds t l = Some b /\ z_spans t (concat vs) (fun y => lval (zq y) l) b.
Proof.
  intros HR Hl Hv Hv1 Hc Hc1 Hk. unfold idl_bounds. rewrite Hl. destruct (z_of_q_int (-1) (c1 / c)%Q) as (c' & Ec & ->); [rewrite Hc, Hc1; reflexivity|]. destruct (z_of_q_int k _ Hk) as (k' & Ek & ->). rewrite Ec, Ek.
  assert (Er : Qnum (Qred (lkt l / c)) = k) by (rewrite (Qred_complete (lkt l / c)%Q (inject_Z k)); [unfold inject_Z, Qred; pose proof (Z.ggcd_gcd k 1) as G; pose proof (Z.ggcd_correct_divisors k 1) as D; destruct (Z.ggcd k 1) as [g [a b]]; cbn in *; rewrite Z.gcd_1_r in G; subst g; destruct D as [D1 _]; lia|rewrite Hc, Hk; field]).
  eexists. split; [reflexivity|]. rewrite Er. apply (z_spans_aff t (concat vs) _ (fun y => inject_Z (y v - y v1)) (distance Zw t v1 v) 1 k); [lia| |apply z_distance; assumption].
  intros y E0. unfold lval. rewrite Hl. cbn [msum]. unfold zq. rewrite Hc, Hc1, Hk, <- inject_sub. change (inject_Z 1) with 1%Q. ring.
Qed.
Theorem rdl_bounds_const t vs l : DReach QL t vs -> lvars l = [] -> rdl_bounds t l = Some (Some (lkt l, 0%Q), Some (lkt l, 0%Q)) /\ q_spans t (concat vs) (fun y => lval y l) (Some (lkt l, 0%Q), Some (lkt l, 0%Q)).
Proof.
  intros HR Hl. unfold rdl_bounds. rewrite Hl. split; [reflexivity|].
  destruct (solution_exists QL t _ (reach_core QL t vs HR)) as (y & Hy). apply q_solves, q_norm in Hy as (y0 & Hy & H0 & _).
  unfold lval. rewrite Hl. cbn [msum]. split; cbn; unfold q_over, q_under; cbn; (split; [intros; lra|]); (split; [intros d Hd|intros _]); exists y0; (split; [exact Hy|]); (split; [exact H0|lra]).
Qed.
Theorem rdl_bounds_one t vs l v c : DReach QL t vs -> lvars l = [(v, c)] -> v < nvars t -> (0 < c)%Q -> exists b, rdl_bounds t l = Some b /\ q_spans t (concat vs) (fun y => lval y l) b.
Proof.
  intros HR Hl Hv Hc. pose proof (dc_n QL _ _ (reach_core QL t vs HR)) as H0. unfold rdl_bounds. rewrite Hl. eexists. split; [reflexivity|].
  apply (q_spans_aff t (concat vs) _ (fun y => (y v - y O)%Q) (distance Qw t 0 v) c (lkt l) Hc); [|apply q_distance; [exact HR|lia|exact Hv]]. intros y E0. unfold lval. rewrite Hl. cbn [msum]. rewrite E0. ring.
Qed.

(** ** [distance] between expressions: right when their difference is a variable or a difference of variables. *)
Definition pure_diff (e : lin) (v v1 : nat) : Prop :=
  (lkt e == 0)%Q /\ ((v = v1 /\ lvars e = []) \/ (exists c, lvars e = [(v, c)] /\ (c == 1)%Q /\ v1 = 0) \/ exists c c1, lvars e = [(v, c); (v1, c1)] /\ (c == 1)%Q /\ (c1 == - (1))%Q).
Lemma pure_val e v v1 y : pure_diff e v v1 -> (y O == 0)%Q -> (lval y e == y v - y v1)%Q.
Proof.
  intros [Hk [(-> & E)|[(c & E & Hc & ->)|(c & c1 & E & Hc & Hc1)]]] H0; unfold lval; rewrite E, Hk; cbn [msum]; rewrite ?Hc, ?Hc1, ?H0; ring.
Qed.
Lemma Qnum_red0 q : (q == 0)%Q -> Qnum (Qred q) = 0%Z.
Proof. intros H. rewrite (Qred_complete q 0 H). reflexivity. Qed.
Theorem idl_distance_diff t vs from to v v1 : DReach ZL t vs -> lin_clean from -> pure_diff (lin_sub from to) v v1 -> v < nvars t -> v1 < nvars t ->
  exists b, idl_distance t from to = Some b /\ z_spans t (concat vs) (fun y => (lval (zq y) to - lval (zq y) from)%Q) b.
Proof.
  intros HR Hcl HP Hv Hv1. assert (HS : forall f b, (forall y, y 0 = 0%Z -> (f y == lval (zq y) to - lval (zq y) from)%Q) -> z_spans t (concat vs) f b -> z_spans t (concat vs) (fun y => (lval (zq y) to - lval (zq y) from)%Q) b).
  { intros f b Hf HB. assert (E : b = (zaff (fst b) 1 0, zaff (snd b) 1 0)) by (destruct b as [[x|] [y|]]; cbn; rewrite ?Z.mul_1_r, ?Z.add_0_r; reflexivity). rewrite E. apply (z_spans_aff t _ _ f b 1 0); [lia| |exact HB].
    intros y E0. rewrite (Hf y E0). change (inject_Z 1) with 1%Q. change (inject_Z 0) with 0%Q. ring. }
  assert (Hd : forall y, y 0 = 0%Z -> (inject_Z (y v1 - y v) == lval (zq y) to - lval (zq y) from)%Q).
  { intros y E0. pose proof (pure_val _ v v1 (zq y) HP) as H. unfold zq at 1 in H. rewrite E0 in H. specialize (H (Qeq_refl _)). pose proof (lin_sub_ok (zq y) from to (proj1 Hcl)) as H'. rewrite H in H'. unfold zq in H' at 1 2. rewrite <- inject_sub. lra. }
  unfold idl_distance, dl_distance. pose proof HP as [Hk [(-> & E)|[(c & E & Hc & ->)|(c & c1 & E & Hc & Hc1)]]].
  - rewrite E. eexists. split; [reflexivity|]. rewrite Qnum_red0 by exact Hk. apply (HS _ _ Hd).
    destruct (solution_exists ZL t _ (reach_core ZL t vs HR)) as (y & Hy). apply z_solved in Hy as (y' & Hy & _). apply z_norm in Hy as (y0 & Hy & H0 & _).
    assert (Ez : forall z : nat -> Z, (z v1 - z v1)%Z = 0%Z) by (intros; lia).
    split; cbn; (split; [intros y1 _ _; rewrite Ez; lra|]); exists y0; (split; [exact Hy|]); (split; [exact H0|rewrite Ez; reflexivity]).
  - unfold dl_form. rewrite E. cbn [wofq Zw]. destruct (z_of_q_int 0 (lkt (lin_sub from to) / c)%Q) as (k & Ek & ->); [rewrite Hk, Hc; reflexivity|]. rewrite Ek. eexists. split; [reflexivity|]. apply (HS _ _ Hd), z_distance; assumption.
  - unfold dl_form. rewrite E. replace (Qeq_bool (c1 / c) (-1 # 1)) with true by (symmetry; apply Qeq_bool_iff; rewrite Hc, Hc1; reflexivity). cbn [negb wofq Zw].
    destruct (z_of_q_int 0 (lkt (lin_sub from to) / c)%Q) as (k & Ek & ->); [rewrite Hk, Hc; reflexivity|]. rewrite Ek. eexists. split; [reflexivity|]. apply (HS _ _ Hd), z_distance; assumption.
Qed.
Theorem rdl_distance_diff t vs from to v v1 : DReach QL t vs -> lin_clean from -> pure_diff (lin_sub from to) v v1 -> v < nvars t -> v1 < nvars t ->
  exists b, rdl_distance t from to = Some b /\ q_spans t (concat vs) (fun y => (lval y to - lval y from)%Q) b.
Proof.
  intros HR Hcl HP Hv Hv1. assert (Hd : forall y, (y O == 0)%Q -> (y v1 - y v == lval y to - lval y from)%Q).
  { intros y E0. pose proof (pure_val _ v v1 y HP E0) as H. pose proof (lin_sub_ok y from to (proj1 Hcl)) as H'. rewrite H in H'. lra. }
  assert (HS : forall f b, (forall y, (y O == 0)%Q -> (f y == lval y to - lval y from)%Q) -> q_spans t (concat vs) f b -> q_spans t (concat vs) (fun y => (lval y to - lval y from)%Q) b).
  { intros f b Hf [H1 H2]. split.
    - destruct (fst b) as [a|]; [destruct H1 as (A & B & C); split; [|split]|].
      + intros y Hy E0. specialize (A y Hy E0). unfold q_over in *. rewrite <- (Hf y E0). exact A.
      + intros d Hd'. destruct (B d Hd') as (y & Hy & E0 & K). exists y. rewrite <- (Hf y E0). auto.
      + intros Hz. destruct (C Hz) as (y & Hy & E0 & K). exists y. rewrite <- (Hf y E0). auto.
      + intros k. destruct (H1 k) as (y & Hy & E0 & K). exists y. rewrite <- (Hf y E0). auto.
    - destruct (snd b) as [a|]; [destruct H2 as (A & B & C); split; [|split]|].
      + intros y Hy E0. specialize (A y Hy E0). unfold q_under in *. rewrite <- (Hf y E0). exact A.
      + intros d Hd'. destruct (B d Hd') as (y & Hy & E0 & K). exists y. rewrite <- (Hf y E0). auto.
      + intros Hz. destruct (C Hz) as (y & Hy & E0 & K). exists y. rewrite <- (Hf y E0). auto.
      + intros k. destruct (H2 k) as (y & Hy & E0 & K). exists y. rewrite <- (Hf y E0). auto. }
  unfold rdl_distance, dl_distance. pose proof HP as [Hk [(-> & E)|[(c & E & Hc & ->)|(c & c1 & E & Hc & Hc1)]]].
  - rewrite E. eexists. split; [reflexivity|]. apply (HS _ _ Hd). destruct (solution_exists QL t _ (reach_core QL t vs HR)) as (y & Hy). apply q_solves, q_norm in Hy as (y0 & Hy & H0 & _).
    unfold q_spans, qe_of; cbn [fst snd]. unfold q_over, q_under. cbn [fst snd]. set (k := lkt (lin_sub from to)) in *. clearbody k.
    split; (split; [intros; lra|split; [intros d Hd'; exists y0; split; [exact Hy|split; [exact H0|lra]]|intros _; exists y0; split; [exact Hy|split; [exact H0|lra]]]]).
  - unfold dl_form. rewrite E. cbn [wofq Qw]. eexists. split; [reflexivity|]. apply (HS _ _ Hd), q_distance; assumption.
  - unfold dl_form. rewrite E. replace (Qeq_bool (c1 / c) (-1 # 1)) with true by (symmetry; apply Qeq_bool_iff; rewrite Hc, Hc1; reflexivity). cbn [negb wofq Qw]. eexists. split; [reflexivity|]. apply (HS _ _ Hd), q_distance; assumption.
Qed.

(** ** [matches] *)
Lemma in_z_iff b q : in_z b q = true <-> (forall a, fst b = Some a -> (inject_Z a <= q)%Q) /\ (forall a, snd b = Some a -> (q <= inject_Z a)%Q).
Proof.
  unfold in_z. rewrite andb_true_iff. destruct (fst b) as [x|], (snd b) as [y|]; rewrite ?Qle_bool_iff; split; intros [H1 H2]; split; auto; intros a E; try discriminate; injection E as <-; assumption.
Qed.
(** A value between the bounds of a difference is taken by a solution. *)
Lemma z_taken t vs i j w : DReach ZL t vs -> i < nvars t -> j < nvars t -> in_z (distance Zw t i j) (inject_Z w) = true <-> exists y, z_sol t (concat vs) y /\ y 0 = 0%Z /\ (y j - y i = w)%Z.
Proof.
  intros HR Hi Hj. destruct (z_distance t vs i j HR Hi Hj) as [H1 H2]. rewrite in_z_iff. split.
  - intros [A B].
    assert (X1 : exists y, z_sol t (concat vs) y /\ (y j - y i <= w)%Z).
    { destruct (fst (distance Zw t i j)) as [a|]; [destruct H1 as (_ & y & Hy & _ & Ey)|destruct (H1 (inject_Z w)) as (y & Hy & _ & Ey)]; exists y; (split; [exact Hy|]); rewrite Zle_Qle; [rewrite Ey; apply A; reflexivity|lra]. }
    assert (X2 : exists y, z_sol t (concat vs) y /\ (w <= y j - y i)%Z).
    { destruct (snd (distance Zw t i j)) as [a|]; [destruct H2 as (_ & y & Hy & _ & Ey)|destruct (H2 (inject_Z w)) as (y & Hy & _ & Ey)]; exists y; (split; [exact Hy|]); rewrite Zle_Qle; [rewrite Ey; apply B; reflexivity|lra]. }
    destruct X1 as (y1 & Y1 & L1), X2 as (y2 & Y2 & L2). apply (z_between t _ y1 y2); assumption.
  - intros (y & Hy & E0 & Ey). split; intros a Ea; rewrite Ea in *; [destruct H1 as (K & _)|destruct H2 as (K & _)]; specialize (K y Hy E0); cbv beta in K; rewrite Ey in K; exact K.
Qed.
Lemma in_q_iff b q : in_q b q = true <-> (forall a, fst b = Some a -> q_over q a) /\ (forall a, snd b = Some a -> q_under q a).
Proof.
  assert (O : forall a, qe_leb a (qe_of q) = true <-> q_over q a) by (intros a; rewrite qe_leb_iff; unfold qle, q_over, qe_of; cbn; destruct (Qlt_le_dec 0 (snd a)); destruct (Qlt_le_dec (fst a) q); intuition lra).
  assert (U : forall a, qe_leb (qe_of q) a = true <-> q_under q a) by (intros a; rewrite qe_leb_iff; unfold qle, q_under, qe_of; cbn; destruct (Qlt_le_dec (snd a) 0); destruct (Qlt_le_dec q (fst a)); intuition lra).
  unfold in_q. rewrite andb_true_iff. destruct (fst b) as [x|], (snd b) as [y|]; rewrite ?O, ?U; split; intros [H1 H2]; split; auto; intros a E; try discriminate; injection E as <-; assumption.
Qed.
Lemma q_taken t vs i j w : DReach QL t vs -> i < nvars t -> j < nvars t -> in_q (distance Qw t i j) w = true <-> exists y, q_sol t (concat vs) y /\ (y O == 0)%Q /\ (y j - y i == w)%Q.
Proof.
  intros HR Hi Hj. destruct (q_distance t vs i j HR Hi Hj) as [H1 H2]. rewrite in_q_iff. split.
  - intros [A B].
    assert (X1 : exists y, q_sol t (concat vs) y /\ (y j - y i <= w)%Q).
    { destruct (fst (distance Qw t i j)) as [a|]; [|destruct (H1 w) as (y & Hy & _ & Ey); exists y; split; [exact Hy|lra]].
      destruct H1 as (_ & K1 & K2). destruct (A a eq_refl) as [A1 A2]. destruct (Qlt_le_dec (fst a) w) as [L|L].
      - destruct (K1 (w - fst a)%Q) as (y & Hy & _ & Ey); [lra|]. exists y. split; [exact Hy|lra].
      - destruct (Qlt_le_dec 0 (snd a)) as [S|S]; [specialize (A2 S); lra|]. destruct (K2 S) as (y & Hy & _ & Ey); exists y; split; [exact Hy|lra]. }
    assert (X2 : exists y, q_sol t (concat vs) y /\ (w <= y j - y i)%Q).
    { destruct (snd (distance Qw t i j)) as [a|]; [|destruct (H2 w) as (y & Hy & _ & Ey); exists y; split; [exact Hy|lra]].
      destruct H2 as (_ & K1 & K2). destruct (B a eq_refl) as [A1 A2]. destruct (Qlt_le_dec w (fst a)) as [L|L].
      - destruct (K1 (fst a - w)%Q) as (y & Hy & _ & Ey); [lra|]. exists y. split; [exact Hy|lra].
      - destruct (Qlt_le_dec (snd a) 0) as [S|S]; [specialize (A2 S); lra|]. destruct (K2 S) as (y & Hy & _ & Ey); exists y; split; [exact Hy|lra]. }
    destruct X1 as (y1 & Y1 & L1), X2 as (y2 & Y2 & L2). apply (q_between t _ y1 y2); assumption.
  - intros (y & Hy & E0 & Ey). split; intros a Ea; rewrite Ea in *; [destruct H1 as (K & _)|destruct H2 as (K & _)]; specialize (K y Hy E0); cbv beta in K; unfold q_over, q_under in *; rewrite Ey in K; exact K.
Qed.
(** An expression without variables, or a variable and a known term. *)
Definition unit_lin (n : nat) (l : lin) : Prop := lvars l = [] \/ exists v c, lvars l = [(v, c)] /\ (c == 1)%Q /\ v < n.
Lemma unit_val l v c y : lvars l = [(v, c)] -> (c == 1)%Q -> (lval y l == y v + lkt l)%Q.
Proof. intros E Hc. unfold lval. rewrite E. cbn [msum]. rewrite Hc. ring. Qed.
Lemma const_val l y : lvars l = [] -> (lval y l == lkt l)%Q.
Proof. intros E. unfold lval. rewrite E. cbn [msum]. ring. Qed.
Lemma in_z_aff d k q : in_z (zaff (fst d) 1 k, zaff (snd d) 1 k) q = true <-> in_z d (q - inject_Z k) = true.
Proof.
  rewrite !in_z_iff. destruct d as [[a|] [b|]]; cbn [zaff option_map fst snd]; split; intros [A B]; split; intros x E; try discriminate; injection E as <-;
    try (specialize (A _ eq_refl)); try (specialize (B _ eq_refl)); rewrite ?inject_Z_plus, ?inject_Z_mult in *; change (inject_Z 1) with 1%Q in *; lra.
Qed.
Lemma in_z_eq d q q' : (q == q')%Q -> in_z d q = true <-> in_z d q' = true.
Proof. intros E. rewrite !in_z_iff. split; intros [A B]; split; intros x Ex; [rewrite <- E|rewrite <- E|rewrite E|rewrite E]; auto. Qed.
Lemma z_one_const t vs l v c k q z : DReach ZL t vs -> lvars l = [(v, c)] -> (c == 1)%Q -> v < nvars t -> (lkt l == inject_Z k)%Q -> (q == inject_Z z)%Q ->
  exists b, idl_bounds t l = Some b /\ (in_z b q = true <-> exists y, z_sol t (concat vs) y /\ y 0 = 0%Z /\ (lval (zq y) l == q)%Q).
Proof.
  intros HR El Hc Hv Hk Hq. pose proof (dc_n ZL _ _ (reach_core ZL t vs HR)) as H0. unfold idl_bounds. rewrite El. destruct (z_of_q_int 1 c Hc) as (c' & Ec & ->). destruct (z_of_q_int k _ Hk) as (k' & Ek & ->). rewrite Ec, Ek.
  eexists. split; [reflexivity|]. rewrite in_z_aff, (in_z_eq _ _ (inject_Z (z - k))) by (rewrite Hq; apply inject_sub). rewrite (z_taken t vs 0 v (z - k) HR (proj1 H0) Hv).
  split; intros (y & Hy & E0 & Ey); exists y; (split; [exact Hy|]); (split; [exact E0|]).
  - rewrite (unit_val l v c _ El Hc), Hk, Hq. unfold zq. rewrite <- inject_Z_plus. replace (y v + k)%Z with z by lia. reflexivity.
  - rewrite (unit_val l v c _ El Hc), Hk, Hq in Ey. unfold zq in Ey. rewrite <- inject_Z_plus in Ey. unfold Qeq in Ey. cbn in Ey. lia.
Qed.
Theorem idl_matches_unit t vs l0 l1 k0 k1 : DReach ZL t vs -> unit_lin (nvars t) l0 -> unit_lin (nvars t) l1 -> (lkt l0 == inject_Z k0)%Q -> (lkt l1 == inject_Z k1)%Q ->
  (lvars l0 <> [] -> lvars l1 <> [] -> k0 = k1) ->
  exists b, idl_matches t l0 l1 = Some b /\ (b = true <-> exists y, z_sol t (concat vs) y /\ y 0 = 0%Z /\ (lval (zq y) l0 == lval (zq y) l1)%Q).
Proof.
  intros HR [E0|(v0 & c0 & E0 & Hc0 & Hv0)] [E1|(v1 & c1 & E1 & Hc1 & Hv1)] Hk0 Hk1 Hkk; unfold idl_matches, dl_matches; rewrite E0, E1.
  - eexists. split; [reflexivity|]. rewrite Qeq_bool_iff. split; [|intros (y & _ & _ & E); rewrite !const_val in E by assumption; exact E]. intros E.
    destruct (solution_exists ZL t _ (reach_core ZL t vs HR)) as (y & Hy). apply z_solved in Hy as (y' & Hy & _). apply z_norm in Hy as (z & Hz & H0 & _). exists z. split; [exact Hz|]. split; [exact H0|]. rewrite !const_val by assumption. exact E.
  - destruct (z_one_const t vs l1 v1 c1 k1 (lkt l0) k0 HR E1 Hc1 Hv1 Hk1 Hk0) as (b & Eb & HB). rewrite Eb. eexists. split; [reflexivity|]. rewrite HB.
    split; intros (y & Hy & H0 & E); exists y; (split; [exact Hy|]); (split; [exact H0|]); [rewrite (const_val l0) by assumption; rewrite E; reflexivity|rewrite (const_val l0) in E by assumption; rewrite E; reflexivity].
  - destruct (z_one_const t vs l0 v0 c0 k0 (lkt l1) k1 HR E0 Hc0 Hv0 Hk0 Hk1) as (b & Eb & HB). rewrite Eb. eexists. split; [reflexivity|]. rewrite HB.
    split; intros (y & Hy & H0 & E); exists y; (split; [exact Hy|]); (split; [exact H0|]); [rewrite (const_val l1) by assumption; exact E|rewrite (const_val l1) in E by assumption; exact E].
  - eexists. split; [reflexivity|]. assert (Ek : k0 = k1) by (apply Hkk; congruence). subst k1. rewrite (in_z_eq _ _ (inject_Z 0)) by (rewrite Hk0, Hk1; change (inject_Z 0) with 0%Q; ring). rewrite (z_taken t vs v0 v1 0 HR Hv0 Hv1).
    split; intros (y & Hy & H0 & E); exists y; (split; [exact Hy|]); (split; [exact H0|]).
    + rewrite (unit_val l0 v0 c0 _ E0 Hc0), (unit_val l1 v1 c1 _ E1 Hc1), Hk0, Hk1. unfold zq. replace (y v1) with (y v0) by lia. reflexivity.
    + rewrite (unit_val l0 v0 c0 _ E0 Hc0), (unit_val l1 v1 c1 _ E1 Hc1), Hk0, Hk1 in E. unfold zq in E. rewrite <- !inject_Z_plus in E. unfold Qeq in E. cbn in E. lia.
Qed.
Lemma in_q_aff d c k q : (c == 1)%Q -> in_q (qaff (fst d) c k, qaff (snd d) c k) q = true <-> in_q d (q - k) = true.
Proof.
  intros Hc. rewrite !in_q_iff.
  assert (O : forall x, q_over q (qe_add (qe_scale c x) (qe_of k)) <-> q_over (q - k)%Q x).
  { intros x. unfold q_over. cbn. assert (E1 : (c * fst x == fst x)%Q) by (rewrite Hc; ring). assert (E2 : (c * snd x == snd x)%Q) by (rewrite Hc; ring).
    split; intros [A B]; (split; [lra|]); intros K; (assert (K' := B ltac:(lra))); lra. }
  assert (U : forall x, q_under q (qe_add (qe_scale c x) (qe_of k)) <-> q_under (q - k)%Q x).
  { intros x. unfold q_under. cbn. assert (E1 : (c * fst x == fst x)%Q) by (rewrite Hc; ring). assert (E2 : (c * snd x == snd x)%Q) by (rewrite Hc; ring).
    split; intros [A B]; (split; [lra|]); intros K; (assert (K' := B ltac:(lra))); lra. }
  destruct d as [[a|] [b|]]; cbn [qaff option_map fst snd]; (split; intros [A B]; split; intros x E; try discriminate; injection E as <-;
    [> match goal with |- q_over _ _ => apply O, A; reflexivity | |- q_under _ _ => apply U, B; reflexivity end ..]).
Qed.
Lemma in_q_eq d q q' : (q == q')%Q -> in_q d q = true <-> in_q d q' = true.
Proof. intros E. rewrite !in_q_iff. unfold q_over, q_under. split; intros [A B]; split; intros x Ex; [rewrite <- E|rewrite <- E|rewrite E|rewrite E]; auto. Qed.
Lemma q_one_const t vs l v c q : DReach QL t vs -> lvars l = [(v, c)] -> (c == 1)%Q -> v < nvars t ->
  exists b, rdl_bounds t l = Some b /\ (in_q b q = true <-> exists y, q_sol t (concat vs) y /\ (y O == 0)%Q /\ (lval y l == q)%Q).
Proof.
  intros HR El Hc Hv. pose proof (dc_n QL _ _ (reach_core QL t vs HR)) as H0. unfold rdl_bounds. rewrite El. eexists. split; [reflexivity|]. rewrite in_q_aff by exact Hc. rewrite (q_taken t vs 0 v (q - lkt l) HR (proj1 H0) Hv).
  split; intros (y & Hy & E0 & Ey); exists y; (split; [exact Hy|]); (split; [exact E0|]); [rewrite (unit_val l v c _ El Hc)|rewrite (unit_val l v c _ El Hc) in Ey]; lra.
Qed.
Theorem rdl_matches_unit t vs l0 l1 : DReach QL t vs -> unit_lin (nvars t) l0 -> unit_lin (nvars t) l1 -> (lvars l0 <> [] -> lvars l1 <> [] -> (lkt l0 == lkt l1)%Q) ->
  exists b, rdl_matches t l0 l1 = Some b /\ (b = true <-> exists y, q_sol t (concat vs) y /\ (y O == 0)%Q /\ (lval y l0 == lval y l1)%Q).
Proof.
  intros HR [E0|(v0 & c0 & E0 & Hc0 & Hv0)] [E1|(v1 & c1 & E1 & Hc1 & Hv1)] Hkk; unfold rdl_matches, dl_matches; rewrite E0, E1.
  - eexists. split; [reflexivity|]. rewrite Qeq_bool_iff. split; [|intros (y & _ & _ & E); rewrite !const_val in E by assumption; exact E]. intros E.
    destruct (solution_exists QL t _ (reach_core QL t vs HR)) as (y & Hy). apply q_solves, q_norm in Hy as (z & Hz & H0 & _). exists z. split; [exact Hz|]. split; [exact H0|]. rewrite !const_val by assumption. exact E.
  - destruct (q_one_const t vs l1 v1 c1 (lkt l0) HR E1 Hc1 Hv1) as (b & Eb & HB). rewrite Eb. eexists. split; [reflexivity|]. rewrite HB.
    split; intros (y & Hy & H0 & E); exists y; (split; [exact Hy|]); (split; [exact H0|]); [rewrite (const_val l0) by assumption; rewrite E; reflexivity|rewrite (const_val l0) in E by assumption; rewrite E; reflexivity].
  - destruct (q_one_const t vs l0 v0 c0 (lkt l1) HR E0 Hc0 Hv0) as (b & Eb & HB). rewrite Eb. eexists. split; [reflexivity|]. rewrite HB.
    split; intros (y & Hy & H0 & E); exists y; (split; [exact Hy|]); (split; [exact H0|]); [rewrite (const_val l1) by assumption; exact E|rewrite (const_val l1) in E by assumption; exact E].
  - eexists. split; [reflexivity|]. assert (Ek : (lkt l0 == lkt l1)%Q) by (apply Hkk; congruence). rewrite (in_q_eq _ _ 0%Q) by (rewrite Ek; ring). rewrite (q_taken t vs v0 v1 0 HR Hv0 Hv1).
    split; intros (y & Hy & H0 & E); exists y; (split; [exact Hy|]); (split; [exact H0|]); [rewrite (unit_val l0 v0 c0 _ E0 Hc0), (unit_val l1 v1 c1 _ E1 Hc1)|rewrite (unit_val l0 v0 c0 _ E0 Hc0), (unit_val l1 v1 c1 _ E1 Hc1) in E]; lra.
Qed.

(** ** The other facts, for integers and for rationals. *)
Theorem z_triangle t vs i j k a b : DReach ZL t vs -> snd (distance Zw t i j) = Some a -> snd (distance Zw t j k) = Some b -> exists c, snd (distance Zw t i k) = Some c /\ (c <= a + b)%Z.
Proof.
  intros HR E1 E2. destruct (dist_triangle ZL t _ i j k a b (reach_core ZL t vs HR) E1 E2) as (c & E & H). exists c. split; [exact E|]. apply wle_iff in H. apply Z.leb_le, H.
Qed.
Theorem q_triangle t vs i j k a b : DReach QL t vs -> snd (distance Qw t i j) = Some a -> snd (distance Qw t j k) = Some b -> exists c, snd (distance Qw t i k) = Some c /\ qle c (qe_add a b).
Proof.
  intros HR E1 E2. destruct (dist_triangle QL t _ i j k a b (reach_core QL t vs HR) E1 E2) as (c & E & H). exists c. split; [exact E|]. apply wle_iff in H. apply qe_leb_iff, H.
Qed.
Lemma z_forall t ps (P : (nat -> Q) -> Prop) : (forall y y', (forall v, y v == y' v)%Q -> P y -> P y') -> (forall y, solves ZL t ps y -> P y) <-> (forall y, z_sol t ps y -> P (zq y)).
Proof.
  intros HP. split; intros H y Hy; [apply H, z_solves, Hy|]. apply z_solved in Hy as (z & Hz & Ez). apply (HP (zq z)); [intros v; symmetry; apply Ez|apply H, Hz].
Qed.
Theorem z_new_distance s i t vs from to w : host ZL s i t vs -> from < nvars t -> to < nvars t ->
  exists s' l, new_distance Zw s i from to w = Ok (s', l) /\ (l = FALSE_lit <-> forall y, z_sol t (concat vs) y -> ~ (y to - y from <= w)%Z) /\ (l = TRUE_lit <-> forall y, z_sol t (concat vs) y -> (y to - y from <= w)%Z).
Proof.
  intros HH Hf Ht. destruct (new_distance_gives ZL s i t vs from to w HH Hf Ht I) as (s' & t' & l & E & _ & H1 & H2 & _). exists s', l. split; [exact E|]. rewrite H1, H2. split.
  - rewrite z_forall; [|intros y y' Ey K K'; apply K, (wsat_eq ZL _ (y' to - y' from)%Q); [rewrite !Ey; reflexivity|exact K']]. split; intros H y Hy; specialize (H y Hy); rewrite <- z_wsat in *; exact H.
  - rewrite z_forall; [|intros y y' Ey; apply wsat_eq; rewrite !Ey; reflexivity]. split; intros H y Hy; specialize (H y Hy); rewrite <- z_wsat in *; exact H.
Qed.
Theorem q_new_distance s i t vs from to w : host QL s i t vs -> from < nvars t -> to < nvars t -> q_weight w ->
  exists s' l, new_distance Qw s i from to w = Ok (s', l) /\ (l = FALSE_lit <-> forall y, q_sol t (concat vs) y -> ~ q_under (y to - y from)%Q w) /\ (l = TRUE_lit <-> forall y, q_sol t (concat vs) y -> q_under (y to - y from)%Q w).
Proof.
  intros HH Hf Ht Hw. destruct (new_distance_gives QL s i t vs from to w HH Hf Ht Hw) as (s' & t' & l & E & _ & H1 & H2 & _). exists s', l. split; [exact E|]. rewrite H1, H2.
  split; split; intros H y Hy; apply q_solves in Hy; specialize (H y Hy); rewrite q_wsat in *; exact H.
Qed.
Theorem z_conflict t v vs val p : DReach ZL t (v :: vs) -> atom t (lvar p) -> reads val (p :: concat (v :: vs)) ->
  exists t' ls cf, dl_prop Zw t val p = Ok (t', ls, cf) /\ (cf <> None <-> forall y, ~ z_sol t (p :: concat (v :: vs)) y) /\ (cf <> None -> t' = t /\ ls = []).
Proof.
  intros HR Ha Hr. destruct (prop_conflict_iff ZL t _ val p (reach_core ZL t _ HR) Ha Hr) as (t' & ls & cf & E & H & H'). exists t', ls, cf. split; [exact E|]. split; [|exact H']. rewrite H. clear.
  split; intros K y Hy; [apply z_solves in Hy; apply (K _ Hy)|apply z_solved in Hy as (z & Hz & _); apply (K _ Hz)].
Qed.
Theorem q_conflict t v vs val p : DReach QL t (v :: vs) -> atom t (lvar p) -> reads val (p :: concat (v :: vs)) ->
  exists t' ls cf, dl_prop Qw t val p = Ok (t', ls, cf) /\ (cf <> None <-> forall y, ~ q_sol t (p :: concat (v :: vs)) y) /\ (cf <> None -> t' = t /\ ls = []).
Proof.
  intros HR Ha Hr. destruct (prop_conflict_iff QL t _ val p (reach_core QL t _ HR) Ha Hr) as (t' & ls & cf & E & H & H'). exists t', ls, cf. split; [exact E|]. split; [|exact H']. rewrite H. clear.
  split; intros K y Hy; apply q_solves in Hy; apply (K _ Hy).
Qed.
(** A new variable. *)
Theorem var_neutral {D} {W : wops D} (L : wlaws W) t vs : DReach L t vs -> let x := snd (t_dl_var W t) in let t' := fst (t_dl_var W t) in
  x = nvars t /\ nvars t' = S (nvars t) /\ (forall i j, i < nvars t -> j < nvars t -> distance W t' i j = distance W t i j) /\ dcons t' = dcons t /\
  (forall i, i <> x -> distance W t' i x = (None, None) /\ distance W t' x i = (None, None)) /\ distance W t' x x = (Some (wneg W (w0 W)), Some (w0 W)).
Proof.
  intros HR x t'. pose proof (reach_core L t vs HR) as HC. destruct (var_sim L t (concat vs) HC) as [HS HN]. pose proof (dc_in L _ _ HC) as Hin. split; [reflexivity|].
  assert (Hd : forall i j, dists t' i j = dists t i j) by apply (sm_d L _ _ HS). unfold distance.
  assert (Hn : forall i, i <> x -> dists t i x = None /\ dists t x i = None).
  { intros i Hi. unfold x in *. cbn in *. split; [destruct (dists t i (nvars t)) as [a|] eqn:E1; [exfalso; destruct (Hin _ _ _ E1); lia|reflexivity]|destruct (dists t (nvars t) i) as [a|] eqn:E1; [exfalso; destruct (Hin _ _ _ E1); lia|reflexivity]]. }
  split; [exact HN|]. split; [intros i j _ _; rewrite !Hd; reflexivity|]. split; [unfold t', t_dl_var; destruct (Nat.eqb _ _); reflexivity|].
  split; [intros i Hi; rewrite !Hd; destruct (Hn i Hi) as [-> ->]; split; reflexivity|]. rewrite !Hd, (cl_diag L _ (dc_closed L _ _ HC)). reflexivity.
Qed.
(** A constraint that the told literals decide. *)
Lemma decided_iff {D} {W : wops D} (L : wlaws W) t ps c : DCore L t ps -> In c (dcons t) -> decided (W := W) t c <-> ((forall y, solves L t ps y -> con_sat L c y) \/ (forall y, solves L t ps y -> ~ con_sat L c y)).
Proof.
  intros HC Hc. destruct (dc_cons L _ _ HC c Hc) as (Hw & Hf & Ht & _). unfold decided, con_sat. rewrite (dist_refutes L t ps _ _ _ HC Hf Ht Hw), (dist_entails L t ps _ _ _ HC Hf Ht Hw). tauto.
Qed.
Theorem tell_complete {D} {W : wops D} (L : wlaws W) t v vs val p t' ls : DReach L t (v :: vs) -> atom t (lvar p) -> reads val (p :: concat (v :: vs)) -> dl_prop W t val p = Ok (t', ls, None) ->
  forall c, In c (dcons t) -> val (c_b c) = LUndef ->
  ~ ((forall y, solves L t (concat (v :: vs)) y -> con_sat L c y) \/ (forall y, solves L t (concat (v :: vs)) y -> ~ con_sat L c y)) ->
  ((forall y, solves L t (p :: concat (v :: vs)) y -> con_sat L c y) \/ (forall y, solves L t (p :: concat (v :: vs)) y -> ~ con_sat L c y)) ->
  exists h e, In (h :: e) ls /\ lvar h = lvar (c_b c).
Proof.
  intros HR Ha Hv E c Hc Hu Hn Hd. pose proof (reach_core L t _ HR) as HC. assert (HR' : DReach L t' ((p :: v) :: vs)) by (apply (DR_step L t (v :: vs)); [exact HR|apply (ds_prop L t v vs p val t' ls Ha Hv E)]).
  pose proof (reach_core L t' _ HR') as HC'. cbn [concat app] in HC'.
  assert (Ec : dcons t' = dcons t).
  { destruct Ha as (c0 & Hc0 & Ev0). destruct (prop_core L t (concat (v :: vs)) p c0 val HC Hc0 Ev0 Hv) as [(e & E' & _)|[(E' & _)|(t1 & us & val' & ls' & E' & _ & HF & _)]]; rewrite E' in E; [discriminate| |]; injection E as <- <-; [reflexivity|apply (fo_cons t t1 HF)]. }
  apply (prop_complete L t (concat (v :: vs)) val p t' ls HC Ha Hv E c Hc Hu).
  - rewrite (decided_iff L t _ c HC Hc). exact Hn.
  - assert (Hc' : In c (dcons t')) by (rewrite Ec; exact Hc). apply (decided_iff L t' _ c HC' Hc'). unfold solves, lits_hold in *. rewrite Ec. exact Hd.
Qed.
(** The listeners. *)
Theorem tell_notes {D} {W : wops D} (L : wlaws W) t v vs val p t' ls : DReach L t (v :: vs) -> atom t (lvar p) -> reads val (p :: concat (v :: vs)) -> dl_prop W t val p = Ok (t', ls, None) ->
  exists k, notes t' = k ++ notes t /\ forall x, distance W t' 0 x <> distance W t 0 x -> In x k.
Proof.
  intros HR (c & Hc & Ev) Hv E. destruct (prop_core L t (concat (v :: vs)) p c val (reach_core L t _ HR) Hc Ev Hv) as [(e & E' & _)|[(E' & _)|(t1 & us & val' & ls' & E' & _ & HF & _)]]; rewrite E' in E; [discriminate| |]; injection E as <- <-.
  - exists []. split; [reflexivity|]. intros x Hx. contradiction.
  - destruct (fo_notes t t1 HF) as (k & Ek & H). exists k. split; [exact Ek|]. intros x Hx. destruct (H x) as [K|[K1 K2]]; [exact K|]. exfalso. apply Hx. unfold distance. rewrite K1, K2. reflexivity.
Qed.
End Srt.
