(** Integer difference logic: how far apart two variables can be forced. *)
From Verif Require Import Base Sat Lin Qe Dw Dl DlClo DlTight DlEdge DlTh DlFacts DlVal DlApi DlSpec DlQ.
Open Scope nat_scope.
Local Arguments Nat.ltb : simpl never.
Local Arguments Nat.eqb : simpl never.
Local Arguments Z.mul : simpl never.
Local Arguments Z.div : simpl never.

(** [n] numbers, one of them [a]: among the [n] intervals of length [K] that follow [a] one holds none of them. *)
Lemma gap (y : nat -> Z) (n i : nat) (K : Z) : i < n -> (0 < K)%Z ->
  exists k, (0 <= k < Z.of_nat n)%Z /\ forall v, v < n -> (y v <= y i + k * K)%Z \/ (y i + (k + 1) * K < y v)%Z.
Proof.
  intros Hi HK. set (blk := fun v => ((y v - y i - 1) / K)%Z). set (bs := map blk (seq 0 n)).
  assert (Hb : forall v k, blk v <> k -> (y v <= y i + k * K)%Z \/ (y i + (k + 1) * K < y v)%Z).
  { intros v k Hk. unfold blk in Hk. pose proof (Z.div_mod (y v - y i - 1) K ltac:(lia)) as Hd. pose proof (Z.mod_pos_bound (y v - y i - 1) K HK) as Hm.
    set (q := ((y v - y i - 1) / K)%Z) in *. destruct (Z.lt_trichotomy q k) as [Hq|[Hq|Hq]]; [left|lia|right]; nia. }
  set (ks := map Z.of_nat (seq 0 n)).
  assert (Hd : exists k, In k ks /\ ~ In k bs).
  { destruct (Exists_dec (fun k => ~ In k bs) ks) as [E|E]; [intros k; destruct (in_dec Z.eq_dec k bs) as [H|H]; [right; tauto|left; exact H]|apply Exists_exists in E; exact E|].
    exfalso. assert (Hinc : incl ((-1)%Z :: ks) bs).
    { intros k [<-|Hk].
      - apply in_map_iff. exists i. split; [|apply in_seq; lia]. unfold blk. replace (y i - y i - 1)%Z with (-1)%Z by lia. symmetry. apply (Z.div_unique _ _ _ (K - 1)); lia.
      - destruct (in_dec Z.eq_dec k bs) as [H|H]; [exact H|]. exfalso. apply E, Exists_exists. eauto. }
    assert (Hnd : NoDup ((-1)%Z :: ks)).
    { constructor; [intros H; apply in_map_iff in H as (x & Ex & _); lia|]. apply FinFun.Injective_map_NoDup; [intros a b; lia|apply seq_NoDup]. }
    pose proof (NoDup_incl_length Hnd Hinc) as Hl. unfold ks, bs in Hl. cbn [length] in Hl. rewrite !map_length, !seq_length in Hl. lia. }
  destruct Hd as (k & Hk & Hn). apply in_map_iff in Hk as (x & <- & Hx). apply in_seq in Hx. exists (Z.of_nat x). split; [lia|].
  intros v Hv. apply Hb. intros E. apply Hn. rewrite <- E. apply in_map, in_seq. lia.
Qed.

Section Bd.
Context {sr : sorter}.
Definition small_cons (M : Z) (t : dl Z) : Prop := forall c, In c (dcons t) -> (Z.abs (c_w c) <= M)%Z.
(** Moving the upper part of a solution across a gap. *)
Lemma move_up t ps y M a K s : small_cons M t -> (M + 1 <= K)%Z -> (forall c, In c (dcons t) -> c_from c < nvars t /\ c_to c < nvars t) ->
  (forall v, v < nvars t -> (y v <= a)%Z \/ (a + K < y v)%Z) -> (-1 <= s <= 1)%Z -> z_sol t ps y -> z_sol t ps (fun v => if Z.leb (y v) a then y v else (y v + s)%Z).
Proof.
  intros Hs HK Hc Hg Hr H p c Hp Hin Ev. specialize (H p c Hp Hin Ev). specialize (Hs c Hin). destruct (Hc c Hin) as [Hf Ht]. apply Hg in Hf, Ht. unfold z_con in *.
  destruct (Z.leb_spec (y (c_to c)) a), (Z.leb_spec (y (c_from c)) a); destruct (lsgn p); lia.
Qed.
(** Every finite distance is at most the number of variables times the greatest weight. *)
Theorem z_bounded t vs M i j d : DReach ZL t vs -> (0 <= M)%Z -> small_cons M t -> i < nvars t -> j < nvars t -> dists t i j = Some d -> (Z.abs d <= Z.of_nat (nvars t) * (M + 1))%Z.
Proof.
  intros HR HM Hs Hi Hj E. pose proof (z_distance t vs i j HR Hi Hj) as [_ Hu]. unfold distance in Hu. cbn [snd] in Hu. rewrite E in Hu. destruct Hu as [Hmax (y & Hy & _ & Ey)].
  assert (Hd : (y j - y i = d)%Z) by (unfold Qeq in Ey; cbn in Ey; lia). clear Ey.
  assert (Hm : forall z, z_sol t (concat vs) z -> (z j - z i <= d)%Z).
  { intros z Hz. destruct (z_norm _ _ _ Hz) as (z' & Hz' & H0 & Ed). specialize (Hmax z' Hz' H0). rewrite <- Zle_Qle in Hmax. rewrite <- Ed. exact Hmax. }
  pose proof (reach_core ZL t vs HR) as HC.
  assert (Hc : forall c, In c (dcons t) -> c_from c < nvars t /\ c_to c < nvars t) by (intros c Hc; destruct (dc_cons ZL _ _ HC c Hc) as (_ & A & B & _); auto).
  set (n := Z.of_nat (nvars t)) in *. assert (Hcases : (d <= n * (M + 1) \/ n * (M + 1) < d)%Z) by lia. assert (Hcases' : (- (n * (M + 1)) <= d \/ n * (M + 1) < - d)%Z) by lia.
  destruct Hcases as [A|A].
  - destruct Hcases' as [B|B]; [lia|]. exfalso. destruct (gap y (nvars t) j (M + 1) Hj ltac:(lia)) as (k & Hk & Hg).
    pose proof (move_up t (concat vs) y M (y j + k * (M + 1))%Z (M + 1) (-1) Hs ltac:(lia) Hc) as Hz. apply Hm in Hz; [| |lia|exact Hy].
    + cbv beta in Hz. destruct (Z.leb_spec (y j) (y j + k * (M + 1))); [|nia]. destruct (Z.leb_spec (y i) (y j + k * (M + 1))); [nia|lia].
    + intros v Hv. destruct (Hg v Hv) as [G|G]; [left; exact G|right; lia].
  - exfalso. destruct (gap y (nvars t) i (M + 1) Hi ltac:(lia)) as (k & Hk & Hg).
    pose proof (move_up t (concat vs) y M (y i + k * (M + 1))%Z (M + 1) 1 Hs ltac:(lia) Hc) as Hz. apply Hm in Hz; [| |lia|exact Hy].
    + cbv beta in Hz. destruct (Z.leb_spec (y i) (y i + k * (M + 1))); [|nia]. destruct (Z.leb_spec (y j) (y i + k * (M + 1))); [nia|lia].
    + intros v Hv. destruct (Hg v Hv) as [G|G]; [left; exact G|right; lia].
Qed.
(** Everywhere in the matrix. *)
Corollary z_bounded_all t vs M i j d : DReach ZL t vs -> (0 <= M)%Z -> small_cons M t -> dists t i j = Some d -> (Z.abs d <= Z.of_nat (nvars t) * (M + 1))%Z.
Proof.
  intros HR HM Hs E. pose proof (reach_core ZL t vs HR) as HC. destruct (Nat.eq_dec i j) as [<-|Hij].
  - destruct (lt_dec i (nvars t)) as [Hi|Hi]; [apply (z_bounded t vs M i i d); auto|]. pose proof (cl_diag ZL _ (dc_closed ZL _ _ HC) i) as H. rewrite E in H. cbn in H. injection H as ->. change (Z.abs 0) with 0%Z. nia.
  - destruct (dc_in ZL _ _ HC i j d E Hij). apply (z_bounded t vs M i j d); auto.
Qed.
End Bd.
