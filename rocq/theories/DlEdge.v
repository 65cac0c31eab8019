(** The loops of [propagate(from, to, dist)]: they compute the closure with the new edge, and keep what is
    needed to undo it. *)
From Verif Require Import Base Sat Lin Qe Dw Dl DlClo DlTight.
From Coq Require Import Lqa.
Open Scope nat_scope.
Local Arguments Nat.ltb : simpl never.
Local Arguments Nat.eqb : simpl never.

Lemma key_eqb_spec a b : reflect (a = b) (key_eqb a b).
Proof.
  destruct a as [a a'], b as [b b']. unfold key_eqb; cbn. destruct (Nat.eqb_spec a b), (Nat.eqb_spec a' b'); cbn; constructor; congruence.
Qed.
Lemma key_eqb_refl a : key_eqb a a = true.
Proof. destruct (key_eqb_spec a a); congruence. Qed.
Lemma kfind_cons {A} k k' (a : A) m : kfind k ((k', a) :: m) = if key_eqb k' k then Some a else kfind k m.
Proof. unfold kfind; cbn. destruct (key_eqb k' k); reflexivity. Qed.
Lemma kfind_emplace {A} k k' (a : A) m : kfind k (kemplace k' a m) = match kfind k m with Some b => Some b | None => if key_eqb k' k then Some a else None end.
Proof.
  unfold kemplace. destruct (kfind k' m) eqn:E.
  - destruct (key_eqb_spec k' k) as [<-|Hn]; [rewrite E; reflexivity|]. destruct (kfind k m); reflexivity.
  - rewrite kfind_cons. destruct (key_eqb_spec k' k) as [<-|Hn]; [rewrite E; reflexivity|]. destruct (kfind k m); reflexivity.
Qed.
Lemma kfind_In {A} k (m : list (key * A)) a : kfind k m = Some a -> In (k, a) m.
Proof.
  unfold kfind. destruct (find (fun e => key_eqb (fst e) k) m) as [e|] eqn:E; [|discriminate]. intros H. injection H as <-.
  apply find_some in E as [Hi He]. destruct e as [k' a]. cbn in *. destruct (key_eqb_spec k' k) as [<-|]; [exact Hi|discriminate].
Qed.
Lemma kfind_some {A} k a (m : list (key * A)) : In (k, a) m -> kfind k m <> None.
Proof.
  unfold kfind. intros H E. destruct (find (fun e => key_eqb (fst e) k) m) eqn:F; [discriminate|]. apply (find_none _ _ F) in H. cbn in H. rewrite key_eqb_refl in H. discriminate.
Qed.
Lemma upd2_spec {A} (f : nat -> nat -> A) i j a x y : upd2 f i j a x y = if key_eqb (i, j) (x, y) then a else f x y.
Proof. unfold upd2, key_eqb; cbn. rewrite (Nat.eqb_sym x i), (Nat.eqb_sym y j). reflexivity. Qed.
Lemma upd2_same {A} (f : nat -> nat -> A) i j a : upd2 f i j a i j = a.
Proof. rewrite upd2_spec, key_eqb_refl. reflexivity. Qed.
Lemma upd2_other {A} (f : nat -> nat -> A) i j a x y : (i, j) <> (x, y) -> upd2 f i j a x y = f x y.
Proof. intros H. rewrite upd2_spec. destruct (key_eqb_spec (i, j) (x, y)); congruence. Qed.

Section Edge.
Context {D : Type} {W : wops D} (L : wlaws W).
Notation "a +' b" := (wadd W a b) (at level 50, left associativity).
Notation dl := (dl D).

(** ** What a change of the matrices preserves. *)
Record touch (t t' : dl) : Prop := {
  tc_n : nvars t' = nvars t;
  tc_cap : cap t' = cap t;
  tc_con : dist_constr t' = dist_constr t;
  tc_cons : dcons t' = dcons t;
  tc_lay : match dlayers t, dlayers t' with
           | [], [] => True
           | l :: r, l' :: r' => r' = r /\ old_constrs l' = old_constrs l /\
               (forall i j, restore (old_dists l') (dists t') i j = restore (old_dists l) (dists t) i j) /\
               blurred (restore (old_preds l) (preds t)) (restore (old_preds l') (preds t'))
           | _, _ => False
           end;
  tc_notes : exists k, notes t' = k ++ notes t /\ forall v, In v k \/ (dists t' 0 v = dists t 0 v /\ dists t' v 0 = dists t v 0) }.
Lemma touch_refl t : touch t t.
Proof.
  constructor; auto.
  - destruct (dlayers t); auto. repeat split; auto. apply blur_refl.
  - exists []. split; [reflexivity|]. auto.
Qed.
Lemma touch_trans t1 t2 t3 : touch t1 t2 -> touch t2 t3 -> touch t1 t3.
Proof.
  intros [A1 A2 A3 A4 A5 (k1 & K1 & K1')] [B1 B2 B3 B4 B5 (k2 & K2 & K2')]. constructor; try congruence.
  - destruct (dlayers t1) as [|l1 r1], (dlayers t2) as [|l2 r2], (dlayers t3) as [|l3 r3]; try contradiction; auto.
    destruct A5 as (-> & E1 & F1 & G1), B5 as (-> & E2 & F2 & G2). repeat split; [congruence| |].
    + intros i j. rewrite F2. apply F1.
    + eapply blur_trans; eassumption.
  - exists (k2 ++ k1). split; [rewrite K2, K1; apply app_assoc|]. intros v. destruct (K1' v) as [H|[H1 H2]]; [left; apply in_or_app; auto|]. destruct (K2' v) as [H|[H3 H4]]; [left; apply in_or_app; auto|]. right. split; congruence.
Qed.
Lemma restore_save {A} (m : list (key * A)) (f : nat -> nat -> A) i j b x y : restore (kemplace (i, j) (f i j) m) (upd2 f i j b) x y = restore m f x y.
Proof.
  unfold restore. rewrite kfind_emplace, upd2_spec. destruct (kfind (x, y) m) eqn:E; [reflexivity|]. destruct (key_eqb_spec (i, j) (x, y)) as [K|K]; [|reflexivity]. injection K as -> ->. reflexivity.
Qed.
Lemma restore_blur (m : list (key * option nat)) (f : nat -> nat -> option nat) i j b : blurred (restore m f) (restore (kemplace (i, j) (Some i) m) (upd2 f i j b)).
Proof.
  intros x y _. unfold restore. rewrite kfind_emplace, upd2_spec. destruct (kfind (x, y) m) eqn:E; [auto|]. destruct (key_eqb_spec (i, j) (x, y)) as [K|K]; [|auto]. injection K as -> ->. auto.
Qed.
Lemma set_both_ok (t : dl) i j c q : dlt L c (dists t i j) ->
  exists t', set_both W t i j c q = Ok t' /\ dists t' = upd2 (dists t) i j (Some c) /\ preds t' = upd2 (preds t) i j q /\ touch t t'.
Proof.
  intros H. unfold set_both, set_dist, guard. rewrite (proj2 (dist_lt_left L c (dists t i j)) H). cbn. eexists. split; [reflexivity|]. split; [reflexivity|]. split; [reflexivity|].
  constructor; try reflexivity.
  - cbn. destruct (dlayers t) as [|l r]; cbn; [exact I|]. repeat split.
    + intros x y. apply restore_save.
    + apply restore_blur.
  - cbn. eexists (if Nat.eqb i 0 then [j] else if Nat.eqb j 0 then [i] else []). split; [destruct (Nat.eqb i 0), (Nat.eqb j 0); reflexivity|].
    intros v. destruct (Nat.eqb_spec i 0) as [Hi|Hi]; [|destruct (Nat.eqb_spec j 0) as [Hj|Hj]].
    + destruct (Nat.eq_dec j v) as [Hv|Hv]; [left; left; exact Hv|right]. rewrite !upd2_other; auto; intros K; injection K; intros; subst; congruence.
    + destruct (Nat.eq_dec i v) as [Hv|Hv]; [left; left; exact Hv|right]. rewrite !upd2_other; auto; intros K; injection K; intros; subst; congruence.
    + right. rewrite !upd2_other; auto; intros K; injection K; intros; subst; congruence.
Qed.

Section Close.
Context (from to : nat) (w : D) (t0 : dl).
Notation d0 := (dists t0).
Notation p0 := (preds t0).
Notation n := (nvars t0).
Hypothesis HC : closed L d0.
Hypothesis HI : inside d0 n.
Hypothesis Hcon : forall x, d0 to from = Some x -> wle L (w0 W) (w +' x).
Hypothesis Hw : wok L w.
Hypothesis Hlt : dlt L w (d0 from to).
Hypothesis Hft : from <> to.
Hypothesis Hfn : from < n.
Hypothesis Htn : to < n.
Notation upd_ok := (updated L from to w d0 p0).
Notation diag0 := (cl_diag L d0 HC).

Lemma upd_step (t t' : dl) i j a b c q : upd_ok (dists t) (preds t) -> d0 i from = Some a -> d0 to j = Some b -> weq L c (a +' w +' b) -> dlt L c (d0 i j) -> wok L c ->
  q = (if Nat.eqb j to then Some from else p0 to j) -> dists t' = upd2 (dists t) i j (Some c) -> preds t' = upd2 (preds t) i j q -> upd_ok (dists t') (preds t').
Proof.
  intros HU Ha Hb Hc Hl Hk Hq Ed Ep x y. rewrite Ed, Ep. destruct (key_eqb_spec (i, j) (x, y)) as [K|K].
  - injection K as <- <-. right. exists a, b, c. rewrite !upd2_same. repeat split; auto.
  - destruct (HU x y) as [[E1 E2]|(a' & b' & c' & H1 & H2 & H3 & H4 & H5 & H6)]; [left|right; exists a', b', c']; rewrite !upd2_other by exact K; auto 10.
Qed.
Lemma upd_lt (t : dl) i j c : upd_ok (dists t) (preds t) -> dlt L c (dists t i j) -> dlt L c (d0 i j).
Proof.
  intros HU H. destruct (HU i j) as [[E _]|(a & b & x & _ & _ & Ex & _ & Hx & _)]; [congruence|]. rewrite Ex in H. cbn in H. destruct (d0 i j) as [y|]; [|exact I]. cbn in *. wlra L.
Qed.
Lemma closer_iff a o : closer W (Some a) o w = true <-> dlt L (a +' w) o.
Proof.
  destruct o as [y|]; cbn; [|tauto]. rewrite negb_true_iff, (wlt_iff L). split; intros H; wlra L.
Qed.
Lemma step_le (t t' : dl) i j c x y z : dists t' = upd2 (dists t) i j (Some c) -> dlt L c (dists t i j) -> dle L (dists t x y) z -> dle L (dists t' x y) z.
Proof.
  intros Ed Hl H. rewrite Ed, upd2_spec. destruct (key_eqb_spec (i, j) (x, y)) as [K|K]; [|exact H]. injection K as <- <-.
  destruct H as (v & Ev & Hv). rewrite Ev in Hl. cbn in Hl. exists c. split; [reflexivity|]. wlra L.
Qed.

Record scan_inv (k : nat) (s : scan) : Prop := {
  si_touch : touch t0 (sc_t s);
  si_upd : upd_ok (dists (sc_t s)) (preds (sc_t s));
  si_ft : dle L (dists (sc_t s) from to) w;
  si_i : forall i, In i (sc_i s) -> exists a, d0 i from = Some a /\ dlt L (a +' w) (d0 i to) /\ dle L (dists (sc_t s) i to) (a +' w);
  si_j : forall j, In j (sc_j s) -> j <> to /\ exists b, d0 to j = Some b;
  si_ci : forall i, dists (sc_t s) i to = d0 i to \/ In i (sc_i s) \/ i = from;
  si_cj : forall j, dists (sc_t s) from j = d0 from j \/ In j (sc_j s) \/ j = to;
  si_ri : forall i a, i < k -> d0 i from = Some a -> dle L (dists (sc_t s) i to) (a +' w);
  si_rj : forall j b, j < k -> d0 to j = Some b -> dle L (dists (sc_t s) from j) (b +' w);
  si_ni : forall i a, i < k -> d0 i from = Some a -> ~ In i (sc_i s) -> i = from \/ dle L (d0 i to) (a +' w);
  si_nj : forall j b, j < k -> d0 to j = Some b -> ~ In j (sc_j s) -> j = to \/ dle L (d0 from j) (b +' w) }.
(** Everything but the two "processed" clauses for [u] itself. *)
Lemma scan_i_ok k s : scan_inv k s -> exists s', scan_i W from to w s k = Ok s' /\ scan_inv k s' /\
  (forall a, d0 k from = Some a -> dle L (dists (sc_t s') k to) (a +' w)) /\ (forall a, d0 k from = Some a -> ~ In k (sc_i s') -> k = from \/ dle L (d0 k to) (a +' w)).
Proof.
  intros [A B C E F P Q G H I J]. unfold scan_i. destruct (col_same L from to w d0 p0 Hcon _ _ k B) as [Ef _]. rewrite Ef.
  destruct (d0 k from) as [a|] eqn:Ea; [|exists s; split; [reflexivity|split; [constructor; auto|split; intros; discriminate]]].
  destruct (closer W (Some a) (dists (sc_t s) k to) w) eqn:Ec.
  - apply closer_iff in Ec. destruct (set_both_ok (sc_t s) k to (a +' w) (Some from) Ec) as (t' & Et & Ed & Ep & HT). rewrite Et. cbn.
    pose proof (upd_lt _ _ _ _ B Ec) as Hl0.
    assert (HU : upd_ok (dists t') (preds t')).
    { apply (upd_step (sc_t s) t' k to a (w0 W) (a +' w) (Some from)); auto; [apply diag0|wlra L|apply ok_add; auto; apply (cl_ok L d0 HC _ _ _ Ea)|rewrite Nat.eqb_refl; reflexivity]. }
    assert (Hmono : forall x y z, dle L (dists (sc_t s) x y) z -> dle L (dists t' x y) z) by (intros x y z; apply (step_le (sc_t s) t' k to (a +' w) x y z Ed Ec)).
    assert (Hk : dle L (dists t' k to) (a +' w)) by (exists (a +' w); rewrite Ed, upd2_same; split; [reflexivity|apply wle_refl]).
    eexists. split; [reflexivity|]. cbn. split; [constructor; cbn|split].
    + eapply touch_trans; eassumption.
    + exact HU.
    + auto.
    + intros i Hi. apply in_app_or in Hi as [Hi|[<-|[]]]; [destruct (E i Hi) as (a' & ? & ? & ?); exists a'; auto|]. exists a. auto.
    + exact F.
    + intros i. destruct (Nat.eq_dec k i) as [<-|Hn]; [right; left; apply in_or_app; right; left; reflexivity|]. rewrite Ed, upd2_other by congruence. destruct (P i) as [K|[K|K]]; auto. right. left. apply in_or_app. auto.
    + intros j. destruct (Nat.eq_dec j to) as [<-|Hn]; [auto|]. rewrite Ed, upd2_other by congruence. apply Q.
    + intros i a' Hi Ha'. apply Hmono. auto.
    + intros j b Hj Hb. apply Hmono. auto.
    + intros i a' Hi Ha' Hn. apply (I i a' Hi Ha'). intros K. apply Hn, in_or_app. auto.
    + exact J.
    + intros a' Ha'. injection Ha' as <-. exact Hk.
    + intros a' _ Hn. exfalso. apply Hn, in_or_app. right. left. reflexivity.
  - exists s. split; [reflexivity|]. split; [constructor; auto|].
    assert (Hle : dle L (dists (sc_t s) k to) (a +' w)). { destruct (dle_or L (dists (sc_t s) k to) (a +' w)) as [K|K]; [exact K|]. apply closer_iff in K. congruence. }
    split; [intros a' Ha'; injection Ha' as <-; exact Hle|]. intros a' Ha' Hn. injection Ha' as <-.
    destruct (P k) as [Ek|[Ek|Ek]]; [right; rewrite <- Ek; exact Hle|contradiction|auto].
Qed.
Lemma scan_j_ok k s : scan_inv k s -> exists s', scan_j W from to w s k = Ok s' /\ scan_inv k s' /\ sc_i s' = sc_i s /\ (forall x y z, dle L (dists (sc_t s) x y) z -> dle L (dists (sc_t s') x y) z) /\
  (forall b, d0 to k = Some b -> dle L (dists (sc_t s') from k) (b +' w)) /\ (forall b, d0 to k = Some b -> ~ In k (sc_j s') -> k = to \/ dle L (d0 from k) (b +' w)).
Proof.
  intros [A B C E F P Q G H I J]. unfold scan_j. destruct (row_same L from to w d0 p0 Hcon _ _ k B) as [Ef Epr]. rewrite Ef.
  destruct (d0 to k) as [a|] eqn:Ea; [|exists s; split; [reflexivity|split; [constructor; auto|split; [reflexivity|split; [auto|split; intros; discriminate]]]]].
  destruct (closer W (Some a) (dists (sc_t s) from k) w) eqn:Ec.
  - apply closer_iff in Ec.
    assert (Hkt : k <> to). { intros ->. rewrite diag0 in Ea. injection Ea as <-. refine (dle_not_lt L _ _ _ Ec). destruct C as (c & Ec' & Hc). exists c. split; [exact Ec'|]. wlra L. }
    destruct (set_both_ok (sc_t s) from k (a +' w) (preds (sc_t s) to k) Ec) as (t' & Et & Ed & Ep & HT). rewrite Et. cbn.
    pose proof (upd_lt _ _ _ _ B Ec) as Hl0.
    assert (HU : upd_ok (dists t') (preds t')).
    { apply (upd_step (sc_t s) t' from k (w0 W) a (a +' w) (preds (sc_t s) to k)); auto; [apply diag0|wlra L|apply ok_add; auto; apply (cl_ok L d0 HC _ _ _ Ea)|]. rewrite Epr. destruct (Nat.eqb_spec k to); congruence. }
    assert (Hmono : forall x y z, dle L (dists (sc_t s) x y) z -> dle L (dists t' x y) z) by (intros x y z; apply (step_le (sc_t s) t' from k (a +' w) x y z Ed Ec)).
    assert (Hk : dle L (dists t' from k) (a +' w)) by (exists (a +' w); rewrite Ed, upd2_same; split; [reflexivity|apply wle_refl]).
    eexists. split; [reflexivity|]. cbn. split; [constructor; cbn|split; [reflexivity|split; [exact Hmono|split]]].
    + eapply touch_trans; eassumption.
    + exact HU.
    + auto.
    + intros i Hi. destruct (E i Hi) as (a' & ? & ? & ?); exists a'; auto.
    + intros j Hj. apply in_app_or in Hj as [Hj|[<-|[]]]; [apply F, Hj|]. split; [exact Hkt|exists a; exact Ea].
    + intros i. destruct (Nat.eq_dec i from) as [->|Hn]; [auto|]. rewrite Ed, upd2_other by congruence. apply P.
    + intros j. destruct (Nat.eq_dec k j) as [<-|Hn]; [right; left; apply in_or_app; right; left; reflexivity|]. rewrite Ed, upd2_other by congruence. destruct (Q j) as [K|[K|K]]; auto. right. left. apply in_or_app. auto.
    + intros i a' Hi Ha'. apply Hmono. auto.
    + intros j b Hj Hb. apply Hmono. auto.
    + exact I.
    + intros j b Hj Hb Hn. apply (J j b Hj Hb). intros K. apply Hn, in_or_app. auto.
    + intros b Hb. injection Hb as <-. exact Hk.
    + intros b _ Hn. exfalso. apply Hn, in_or_app. right. left. reflexivity.
  - exists s. split; [reflexivity|]. split; [constructor; auto|]. split; [reflexivity|]. split; [auto|].
    assert (Hle : dle L (dists (sc_t s) from k) (a +' w)). { destruct (dle_or L (dists (sc_t s) from k) (a +' w)) as [K|K]; [exact K|]. apply closer_iff in K. congruence. }
    split; [intros b Hb; injection Hb as <-; exact Hle|]. intros b Hb Hn. injection Hb as <-.
    destruct (Q k) as [Ek|[Ek|Ek]]; [right; rewrite <- Ek; exact Hle|contradiction|auto].
Qed.
Lemma scan_step_ok k s : scan_inv k s -> exists s', scan_step W from to w s k = Ok s' /\ scan_inv (S k) s'.
Proof.
  intros H. unfold scan_step. destruct (scan_i_ok k s H) as (s1 & E1 & H1 & R1 & N1). rewrite E1. cbn.
  destruct (scan_j_ok k s1 H1) as (s2 & E2 & H2 & Ei & Hm & R2 & N2). rewrite E2. exists s2. split; [reflexivity|].
  destruct H2 as [A B C E F P Q G H' I J]. constructor; auto.
  - intros i a Hi Ha. destruct (Nat.eq_dec i k) as [->|Hn]; [apply Hm, R1, Ha|apply G; [lia|exact Ha]].
  - intros j b Hj Hb. destruct (Nat.eq_dec j k) as [->|Hn]; [apply R2, Hb|apply H'; [lia|exact Hb]].
  - intros i a Hi Ha Hni. destruct (Nat.eq_dec i k) as [->|Hn]; [apply (N1 a Ha); rewrite <- Ei; exact Hni|apply I; auto; lia].
  - intros j b Hj Hb Hnj. destruct (Nat.eq_dec j k) as [->|Hn]; [apply N2; auto|apply J; auto; lia].
Qed.
Lemma scan_ok m : forall k s, scan_inv k s -> exists s', rfold (scan_step W from to w) (seq k m) s = Ok s' /\ scan_inv (k + m) s'.
Proof.
  induction m as [|m IH]; intros k s H; cbn; [exists s; rewrite Nat.add_0_r; auto|].
  destruct (scan_step_ok k s H) as (s1 & E1 & H1). rewrite E1. cbn. destruct (IH (S k) s1 H1) as (s2 & E2 & H2). exists s2. split; [exact E2|]. replace (k + S m) with (S k + m) by lia. exact H2.
Qed.

Lemma cross_ok (si sj : list nat) : (forall j, In j sj -> j <> to /\ exists b, d0 to j = Some b) -> forall l t us, (forall e, In e l -> In (fst e) si /\ In (snd e) sj) ->
  touch t0 t -> upd_ok (dists t) (preds t) -> (forall i, In i si -> exists a, d0 i from = Some a /\ dlt L (a +' w) (d0 i to) /\ dle L (dists t i to) (a +' w)) ->
  exists t' us', rfold (cross_step W to) l (t, us) = Ok (t', us') /\ touch t0 t' /\ upd_ok (dists t') (preds t') /\ (forall x y z, dle L (dists t x y) z -> dle L (dists t' x y) z) /\
    forall i j a b, In (i, j) l -> i <> j -> d0 i from = Some a -> d0 to j = Some b -> dle L (dists t' i j) (a +' w +' b).
Proof.
  intros Hj. induction l as [|[i j] l IH]; intros t us Hl HT HU Hi; cbn [rfold].
  - exists t, us. refine (conj _ (conj _ (conj _ (conj _ _)))); auto. intros i j a b [].
  - destruct (Hl (i, j) (or_introl eq_refl)) as [Hii Hjj]. cbn in Hii, Hjj. destruct (Hi i Hii) as (a & Ea & Hla & Hle). destruct (Hj j Hjj) as (Hjt & b & Eb).
    (* the current distance from i to [to] is a + w *)
    assert (Hit : exists c, dists t i to = Some c /\ weq L c (a +' w)).
    { destruct (HU i to) as [[E _]|(a1 & b1 & c & E1 & E2 & E3 & E4 & _)]; [exfalso; rewrite E in Hle; exact (dle_not_lt L _ _ Hle Hla)|].
      exists c. split; [exact E3|]. rewrite diag0 in E2. injection E2 as <-. assert (a1 = a) as -> by congruence. unfold cand in E4. wlra L. }
    destruct Hit as (c & Ec & Hc).
    assert (Etj : dists t to j = Some b) by (rewrite (proj1 (row_same L from to w d0 p0 Hcon _ _ j HU)); exact Eb).
    assert (Epj : preds t to j = p0 to j) by apply (row_same L from to w d0 p0 Hcon _ _ j HU).
    unfold cross_step at 1. rewrite Ec, Etj. cbn [dist_add].
    destruct (Nat.eqb_spec i j) as [Hij|Hij]; cbn [negb andb].
    + destruct (IH t us) as (t' & us' & E & HT' & HU' & Hm & HR); [intros e He; apply Hl; right; exact He|exact HT|exact HU|exact Hi|]. exists t', us'. cbn [rbind]. refine (conj _ (conj _ (conj _ (conj _ _)))); auto.
      intros i' j' a' b' [K|K] Hn; [injection K as -> ->; contradiction|]. apply HR; auto.
    + destruct (dist_lt W (Some (c +' b)) (dists t i j)) eqn:Elt.
      * apply (dist_lt_left L) in Elt. destruct (set_both_ok t i j (c +' b) (preds t to j) Elt) as (t1 & Et & Ed & Ep & HT1). rewrite Et. cbn [rbind].
        assert (Hok : wok L c). { destruct (HU i to) as [[E _]|(a1 & b1 & c' & E1 & E2 & E3 & E4 & _ & E5 & _)]; [apply (cl_ok L d0 HC i to); congruence|congruence]. }
        assert (HU1 : upd_ok (dists t1) (preds t1)).
        { apply (upd_step t t1 i j a b (c +' b) (preds t to j)); auto; [wlra L|apply (upd_lt t); auto|apply ok_add; auto; apply (cl_ok L d0 HC _ _ _ Eb)|]. rewrite Epj. destruct (Nat.eqb_spec j to); congruence. }
        assert (Hm1 : forall x y z, dle L (dists t x y) z -> dle L (dists t1 x y) z) by (intros x y z; apply (step_le t t1 i j (c +' b) x y z Ed Elt)).
        destruct (IH t1 (us ++ [(i, j); (j, i)])) as (t' & us' & E & HT' & HU' & Hm & HR).
        { intros e He; apply Hl; right; exact He. } { eapply touch_trans; eassumption. } { exact HU1. }
        { intros i' Hi'. destruct (Hi i' Hi') as (a' & ? & ? & ?). exists a'. auto. }
        exists t', us'. refine (conj _ (conj _ (conj _ (conj _ _)))); auto.
        intros i' j' a' b' [K|K] Hn Ha' Hb'; [|apply HR; auto]. injection K as <- <-. apply Hm. exists (c +' b). rewrite Ed, upd2_same. split; [reflexivity|].
        assert (a' = a) as -> by congruence. assert (b' = b) as -> by congruence. wlra L.
      * destruct (IH t us) as (t' & us' & E & HT' & HU' & Hm & HR); [intros e He; apply Hl; right; exact He|exact HT|exact HU|exact Hi|]. exists t', us'. cbn [rbind]. refine (conj _ (conj _ (conj _ (conj _ _)))); auto.
        intros i' j' a' b' [K|K] Hn Ha' Hb'; [|apply HR; auto]. injection K as <- <-. apply Hm.
        assert (a' = a) as -> by congruence. assert (b' = b) as -> by congruence.
        destruct (dle_or L (dists t i j) (a +' w +' b)) as [Hd|Hd]; [exact Hd|]. exfalso. assert (Hx : dlt L (c +' b) (dists t i j)) by (destruct (dists t i j); [cbn in *; wlra L|exact Logic.I]). apply (dist_lt_left L) in Hx. congruence.
Qed.

Theorem close_ok : exists t' us, close W t0 from to w = Ok (t', us) /\ touch t0 t' /\ upd_ok (dists t') (preds t') /\ reached L from to w d0 (dists t').
Proof.
  unfold close. destruct (set_both_ok t0 from to w (Some from) Hlt) as (t1 & E1 & Ed & Ep & HT). rewrite E1. cbn [rbind].
  assert (HU1 : upd_ok (dists t1) (preds t1)).
  { apply (upd_step t0 t1 from to (w0 W) (w0 W) w (Some from)); [intros i j; auto|apply diag0|apply diag0|wlra L|exact Hlt|exact Hw|rewrite Nat.eqb_refl; reflexivity|exact Ed|exact Ep]. }
  assert (H1 : scan_inv 0 (mk_scan t1 [] [] [(from, to); (to, from)])).
  { constructor; cbn; auto; try (intros; lia); try contradiction.
    - exists w. rewrite Ed, upd2_same. split; [reflexivity|apply wle_refl].
    - intros i. destruct (Nat.eq_dec i from) as [->|Hn]; [auto|]. left. rewrite Ed, upd2_other; congruence.
    - intros j. destruct (Nat.eq_dec j to) as [->|Hn]; [auto|]. left. rewrite Ed, upd2_other; congruence. }
  destruct (scan_ok (nvars t1) 0 _ H1) as (s & Es & Hs). rewrite Es. cbn [rbind]. rewrite (tc_n _ _ HT) in Hs. cbn [plus] in Hs. destruct Hs as [A B C E F P Q G H I J].
  destruct (cross_ok (sc_i s) (sc_j s) F (list_prod (sc_i s) (sc_j s)) (sc_t s) (sc_u s)) as (t' & us & Ec & HT' & HU' & Hm & HR); auto.
  { intros [i j] He. apply in_prod_iff in He. exact He. }
  exists t', us. split; [exact Ec|]. split; [exact HT'|]. split; [exact HU'|].
  intros i j a b Ha Hb. unfold cand.
  assert (Hin : i < n) by (destruct (Nat.eq_dec i from) as [->|Hn]; [exact Hfn|apply (HI i from a Ha Hn)]).
  assert (Hjn : j < n) by (destruct (Nat.eq_dec to j) as [<-|Hn]; [exact Htn|apply (HI to j b Hb Hn)]).
  destruct (Nat.eq_dec i j) as [<-|Hij].
  { rewrite (proj1 (diag_same L from to w d0 p0 HC Hcon _ _ i HU')), diag0. exists (w0 W). split; [reflexivity|]. apply (no_shortcut L from to w d0 HC Hcon a b i Ha Hb). }
  destruct (in_dec Nat.eq_dec i (sc_i s)) as [Hi|Hi]; [destruct (in_dec Nat.eq_dec j (sc_j s)) as [Hj|Hj]|].
  - apply HR; auto. apply in_prod; auto.
  - destruct (J j b Hjn Hb Hj) as [->|(c & Ec' & Hc)].
    + rewrite diag0 in Hb. injection Hb as <-. apply (dle_trans L _ _ _ (Hm _ _ _ (G i a Hin Ha))). wlra L.
    + destruct (cl_tri L d0 HC i from j a c Ha Ec') as (x & Ex & Hx). apply (upd_le L from to w d0 p0 (dists t') (preds t') i j _ HU'). exists x. split; [exact Ex|]. wlra L.
  - destruct (I i a Hin Ha Hi) as [->|(c & Ec' & Hc)].
    + rewrite diag0 in Ha. injection Ha as <-. apply (dle_trans L _ _ _ (Hm _ _ _ (H j b Hjn Hb))). wlra L.
    + destruct (cl_tri L d0 HC i to j c b Ec' Hb) as (x & Ex & Hx). apply (upd_le L from to w d0 p0 (dists t') (preds t') i j _ HU'). exists x. split; [exact Ex|]. wlra L.
Qed.
End Close.
End Edge.
