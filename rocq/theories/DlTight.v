(** Closed distance matrices are tight: every finite distance is attained, every infinite one is
    unbounded. *)
From Verif Require Import Base Sat Lin Qe Dw Dl DlClo.
From Coq Require Import Lqa.
Open Scope nat_scope.
Local Arguments Nat.ltb : simpl never.
Local Arguments Nat.eqb : simpl never.

Section Tight.
Context {D : Type} {W : wops D} (L : wlaws W).
Notation "a +' b" := (wadd W a b) (at level 50, left associativity).
Notation "-' a" := (wneg W a) (at level 35).
Notation mat := (nat -> nat -> option D).

Lemma big (l : list D) : (forall x, In x l -> wint L x) -> exists B, wint L B /\ forall x, In x l -> wle L x B.
Proof.
  induction l as [|a l IH]; intros H.
  - exists (w0 W). split; [apply ok_int, ok_0|intros x []].
  - destruct IH as (B & HB & HB'); [intros x Hx; apply H; right; exact Hx|]. destruct (wle_or L a B) as [K|K].
    + exists B. split; [exact HB|]. intros x [<-|Hx]; auto.
    + exists a. split; [apply H; left; reflexivity|]. intros x [<-|Hx]; [apply wle_refl|]. pose proof (HB' x Hx). wlra L.
Qed.

(** Minima. *)
Definition omin (a b : option D) : option D :=
  match a, b with None, _ => b | _, None => a | Some x, Some y => if wleb W x y then a else b end.
Lemma omin_fold (f : nat -> option D) l : forall acc, let m := fold_left (fun a s => omin a (f s)) l acc in
  (forall x, acc = Some x -> dle L m x) /\ (forall s x, In s l -> f s = Some x -> dle L m x) /\ (m = acc \/ exists s, In s l /\ m = f s).
Proof.
  induction l as [|s l IH]; intros acc; cbn.
  - split; [|split]; [intros x ->; exists x; split; [reflexivity|apply wle_refl]|intros s x []|auto].
  - destruct (IH (omin acc (f s))) as (H1 & H2 & H3).
    assert (HA : forall x, acc = Some x -> exists y, omin acc (f s) = Some y /\ wle L y x).
    { intros x ->. cbn. destruct (f s) as [y|]; [|exists x; split; [reflexivity|apply wle_refl]]. destruct (wleb W x y) eqn:E; [exists x; split; [reflexivity|apply wle_refl]|exists y; split; [reflexivity|]]. apply (wlt_iff L) in E. wlra L. }
    assert (HB : forall x, f s = Some x -> exists y, omin acc (f s) = Some y /\ wle L y x).
    { intros x ->. destruct acc as [y|]; cbn; [|exists x; split; [reflexivity|apply wle_refl]]. destruct (wleb W y x) eqn:E; [exists y; split; [reflexivity|apply (wle_iff L), E]|exists x; split; [reflexivity|apply wle_refl]]. }
    split; [|split].
    + intros x Hx. destruct (HA x Hx) as (y & Ey & Hy). apply (dle_trans L _ _ _ (H1 y Ey) Hy).
    + intros r x [<-|Hr] Hx; [|apply (H2 r); auto]. destruct (HB x Hx) as (y & Ey & Hy). apply (dle_trans L _ _ _ (H1 y Ey) Hy).
    + destruct H3 as [H3|(r & Hr & H3)]; [|right; exists r; auto]. rewrite H3. destruct acc as [a|], (f s) as [b|] eqn:Ef; cbn; try (destruct (wleb W a b)); auto; right; exists s; auto.
Qed.

Definition inside (d : mat) (N : nat) : Prop := forall i j a, d i j = Some a -> i <> j -> i < N /\ j < N.
(** A valuation in weights. *)
Definition fits (d : mat) (Y : nat -> D) : Prop := (forall k, wint L (Y k)) /\ forall k m a, d k m = Some a -> wle L (Y m +' -' Y k) a.

(** Distances from several sources, source [s] being at [c s]. *)
Definition from_all (d : mat) (N : nat) (c : nat -> D) (k : nat) : option D := fold_left (fun a s => omin a (dist_add W (d s k) (Some (c s)))) (seq 0 N) None.
Lemma from_all_le d N c k s x : s < N -> d s k = Some x -> dle L (from_all d N c k) (x +' c s).
Proof. intros Hs E. unfold from_all. apply (omin_fold (fun s => dist_add W (d s k) (Some (c s))) (seq 0 N) None) with (s := s); [apply in_seq; lia|rewrite E; reflexivity]. Qed.
Lemma from_all_at d N c k : k < N -> closed L d -> exists s x, s < N /\ d s k = Some x /\ from_all d N c k = Some (x +' c s).
Proof.
  intros Hk HC. destruct (omin_fold (fun s => dist_add W (d s k) (Some (c s))) (seq 0 N) None) as (_ & _ & H). fold (from_all d N c k) in H.
  assert (Hd : from_all d N c k <> None). { destruct (from_all_le d N c k k (w0 W) Hk (cl_diag L d HC k)) as (x & Ex & _). congruence. }
  destruct H as [H|(s & Hs & E)]; [contradiction|]. apply in_seq in Hs. exists s. destruct (d s k) as [x|] eqn:Ex; [|cbn in E; contradiction]. exists x. split; [lia|]. split; [reflexivity|]. exact E.
Qed.
Definition from_val (d : mat) (N : nat) (c : nat -> D) (k : nat) : D := match from_all d N c k with Some x => if Nat.ltb k N then x else w0 W | None => w0 W end.
Lemma from_fits d N c : closed L d -> inside d N -> (forall s, wint L (c s)) -> fits d (from_val d N c).
Proof.
  intros HC HI Hc. split.
  - intros k. unfold from_val. destruct (from_all d N c k) as [x|] eqn:E; [|apply ok_int, ok_0]. destruct (Nat.ltb_spec k N) as [Hk|Hk]; [|apply ok_int, ok_0].
    destruct (from_all_at d N c k Hk HC) as (s & y & Hs & Ey & Ex). rewrite E in Ex. injection Ex as ->. apply int_add; [apply ok_int, (cl_ok L d HC _ _ _ Ey)|apply Hc].
  - intros k m a Ea. destruct (Nat.eq_dec k m) as [->|Hne].
    + rewrite (cl_diag L d HC) in Ea. injection Ea as <-. wlra L.
    + destruct (HI k m a Ea Hne) as [Hk Hm]. unfold from_val. destruct (Nat.ltb_spec k N); [|lia]. destruct (Nat.ltb_spec m N); [|lia].
      destruct (from_all_at d N c k Hk HC) as (s & x & Hs & Ex & E). rewrite E. destruct (cl_tri L d HC s k m x a Ex Ea) as (z & Ez & Hz).
      destruct (from_all_le d N c m s z Hs Ez) as (y & Ey & Hy). rewrite Ey. wlra L.
Qed.
(** One source at 0, the others at a large distance [B]. *)
Lemma one_source d N i (B : D) : closed L d -> inside d N -> i < N -> wint L B -> (forall s x, s < N -> d s i = Some x -> wle L (-' x) B) ->
  let c := fun s => if Nat.eqb s i then w0 W else B in
  fits d (from_val d N c) /\ weq L (from_val d N c i) (w0 W) /\
  forall j, j < N -> (exists x, d i j = Some x /\ weq L (from_val d N c j) x) \/ (exists s x, s < N /\ d s j = Some x /\ s <> i /\ weq L (from_val d N c j) (x +' B)).
Proof.
  intros HC HI Hi HB HB' c.
  assert (Hat : forall j, j < N -> (exists x, d i j = Some x /\ weq L (from_val d N c j) x) \/ (exists s x, s < N /\ d s j = Some x /\ s <> i /\ weq L (from_val d N c j) (x +' B))).
  { intros j Hj. destruct (from_all_at d N c j Hj HC) as (s & x & Hs & Ex & E). unfold from_val. rewrite E. destruct (Nat.ltb_spec j N); [|lia]. unfold c. destruct (Nat.eqb_spec s i) as [->|Hne].
    - left. exists x. split; [exact Ex|]. wlra L.
    - right. exists s, x. repeat split; auto. wlra L. }
  split; [|split; [|exact Hat]].
  - apply from_fits; auto. intros s. unfold c. destruct (Nat.eqb s i); [apply ok_int, ok_0|exact HB].
  - assert (Hle : wle L (from_val d N c i) (w0 W)).
    { destruct (from_all_le d N c i i (w0 W) Hi (cl_diag L d HC i)) as (y & Ey & Hy). unfold from_val. rewrite Ey. destruct (Nat.ltb_spec i N); [|lia]. unfold c in Hy. rewrite Nat.eqb_refl in Hy. wlra L. }
    destruct (Hat i Hi) as [(x & Ex & H)|(s & x & Hs & Ex & _ & H)].
    + rewrite (cl_diag L d HC) in Ex. injection Ex as <-. exact H.
    + pose proof (HB' s x Hs Ex). wlra L.
Qed.

Definition col (d : mat) (N j : nat) : list D := flat_map (fun s => match d s j with Some x => [x] | None => [] end) (seq 0 N).
Lemma col_In d N j s x : s < N -> d s j = Some x -> In x (col d N j).
Proof. intros Hs E. apply in_flat_map. exists s. split; [apply in_seq; lia|]. rewrite E. left. reflexivity. Qed.
Lemma col_int d N j x : closed L d -> In x (col d N j) -> wint L x.
Proof. intros HC H. apply in_flat_map in H as (s & _ & H). destruct (d s j) as [y|] eqn:E; [|contradiction]. destruct H as [<-|[]]. apply ok_int, (cl_ok L d HC _ _ _ E). Qed.

(** Distances are attained; infinite distances are unbounded. *)
Theorem attained d N i j : closed L d -> inside d N -> i < N -> j < N -> forall B, wint L B ->
  exists Y, fits d Y /\ match d i j with Some c => weq L (Y j +' -' Y i) c | None => wle L B (Y j +' -' Y i) end.
Proof.
  intros HC HI Hi Hj B HB.
  set (ci := match d i j with Some c => c | None => B end). assert (Hci : wint L ci) by (unfold ci; destruct (d i j) eqn:E; [apply ok_int, (cl_ok L d HC _ _ _ E)|exact HB]).
  destruct (big (map (fun x => -' x) (col d N i) ++ map (fun x => ci +' -' x) (col d N j))) as (G & HG & HG').
  { intros x Hx. apply in_app_or in Hx as [Hx|Hx]; apply in_map_iff in Hx as (z & <- & Hz); [apply int_neg, (col_int d N i); auto|apply int_add; [exact Hci|apply int_neg, (col_int d N j); auto]]. }
  destruct (one_source d N i G HC HI Hi HG) as (HF & H0 & HA).
  { intros s x Hs Ex. apply HG', in_or_app. left. apply in_map_iff. exists x. split; [reflexivity|apply (col_In _ _ _ s); auto]. }
  set (Y := from_val d N (fun s => if Nat.eqb s i then w0 W else G)) in *. exists Y. split; [exact HF|].
  destruct (d i j) as [c|] eqn:E.
  - pose proof (proj2 HF i j c E) as Hle. destruct (HA j Hj) as [(x & Ex & H)|(s & x & Hs & Ex & _ & H)].
    + assert (x = c) as -> by congruence. wlra L.
    + assert (HK : wle L (ci +' -' x) G) by (apply HG', in_or_app; right; apply in_map_iff; exists x; split; [reflexivity|apply (col_In _ _ _ s); auto]).
      unfold ci in HK. wlra L.
  - destruct (HA j Hj) as [(x & Ex & H)|(s & x & Hs & Ex & _ & H)]; [congruence|].
    assert (HK : wle L (ci +' -' x) G) by (apply HG', in_or_app; right; apply in_map_iff; exists x; split; [reflexivity|apply (col_In _ _ _ s); auto]).
    unfold ci in HK. wlra L.
Qed.

(** From weights to numbers. *)
Definition pairs (d : mat) (N : nat) : list (nat * nat * D) := flat_map (fun e => match d (fst e) (snd e) with Some a => [(fst e, snd e, a)] | None => [] end) (list_prod (seq 0 N) (seq 0 N)).
Lemma realize d N Y : closed L d -> inside d N -> fits d Y -> evt (fun e => respects L d (fun k => ev L (Y k) e)).
Proof.
  intros HC HI [_ HF].
  assert (H : evt (fun e => forall t, In t (pairs d N) -> wsat L (snd t) (ev L (Y (snd (fst t))) e - ev L (Y (fst (fst t))) e)%Q)).
  { apply evt_list. intros [[i j] a] Hin. apply in_flat_map in Hin as ([k m] & _ & Hin). cbn in Hin. destruct (d k m) as [x|] eqn:E; [|contradiction]. destruct Hin as [K|[]]. injection K as -> -> ->. cbn.
    pose proof (HF i j a E) as Hle. rewrite <- (wle_iff L) in Hle. apply (evt_mp _ _ (sat_real _ L a _ (cl_ok L d HC _ _ _ E) Hle)), evt_all.
    intros e _ He. apply (evt_mp _ _ He), evt_all. intros e' _ K. rewrite (ev_add _ L), (ev_neg _ L) in K. lra. }
  apply (evt_mp _ _ H), evt_all. intros e _ K i j a E. destruct (Nat.eq_dec i j) as [->|Hne].
  - rewrite (cl_diag L d HC) in E. injection E as <-. apply evt_all. intros e' _. rewrite (ev_0 _ L). lra.
  - apply (K (i, j, a)). apply in_flat_map. exists (i, j). destruct (HI i j a E Hne). split; [apply in_prod; apply in_seq; lia|]. cbn. rewrite E. left. reflexivity.
Qed.
Definition vals_ok (y : nat -> Q) : Prop := forall k, isv L (y k).

Theorem solvable d N : closed L d -> inside d N -> exists y, vals_ok y /\ respects L d y.
Proof.
  intros HC HI. destruct (evt_ex _ (realize d N _ HC HI (from_fits d N (fun _ => w0 W) HC HI (fun _ => ok_int _ L _ (ok_0 _ L))))) as (e & _ & H).
  eexists. split; [|exact H]. intros k. apply isv_ev.
Qed.
Theorem attained_val d N i j c : closed L d -> inside d N -> i < N -> j < N -> d i j = Some c -> evt (fun e => exists y, vals_ok y /\ respects L d y /\ (y j - y i == ev L c e)%Q).
Proof.
  intros HC HI Hi Hj E. destruct (attained d N i j HC HI Hi Hj (w0 W) (ok_int _ L _ (ok_0 _ L))) as (Y & HF & HY). rewrite E in HY.
  apply (evt_mp _ _ (realize d N Y HC HI HF)). unfold weq in HY. apply (evt_mp _ _ HY), evt_all. intros e _ K HR. exists (fun k => ev L (Y k) e). split; [intros k; apply isv_ev|]. split; [exact HR|].
  rewrite (ev_add _ L), (ev_neg _ L) in K. lra.
Qed.
Theorem unbounded_val d N i j w : closed L d -> inside d N -> i < N -> j < N -> d i j = None -> wcon L w -> exists y, vals_ok y /\ respects L d y /\ ~ wsat L w (y j - y i)%Q.
Proof.
  intros HC HI Hi Hj E Hw. destruct (attained d N i j HC HI Hi Hj (w +' wunit W)) as (Y & HF & HY).
  { apply int_add; [apply ok_int, con_ok, Hw|apply int_unit]. }
  rewrite E in HY. assert (HN : wleb W (Y j +' -' Y i) w = false) by (pose proof (unit_pos _ L) as HU; wlra L).
  pose proof (unsat_real _ L w _ Hw (int_add _ L _ _ (proj1 HF j) (int_neg _ L _ (proj1 HF i))) HN) as HX.
  destruct (evt_ex _ (evt_and _ _ HX (realize d N Y HC HI HF))) as (e & _ & H1 & H2).
  exists (fun k => ev L (Y k) e). split; [intros k; apply isv_ev|]. split; [exact H2|]. intros K. apply H1. apply (evt_mp _ _ K), evt_all. intros e' _ K'. rewrite (ev_add _ L), (ev_neg _ L). lra.
Qed.
(** What follows from the distances and what contradicts them. *)
Theorem entails_iff d N i j w : closed L d -> inside d N -> i < N -> j < N -> wcon L w ->
  (dle L (d i j) w <-> forall y, vals_ok y -> respects L d y -> wsat L w (y j - y i)%Q).
Proof.
  intros HC HI Hi Hj Hw. split.
  - intros (c & E & Hc) y _ HR. apply (wsat_le L c); [exact Hc|apply HR, E].
  - intros H. destruct (dle_or L (d i j) w) as [K|K]; [exact K|]. exfalso. destruct (d i j) as [c|] eqn:E.
    + cbn in K. destruct (attained d N i j HC HI Hi Hj (w0 W) (ok_int _ L _ (ok_0 _ L))) as (Y & HF & HY). rewrite E in HY.
      assert (HN : wleb W (Y j +' -' Y i) w = false) by wlra L.
      pose proof (unsat_real _ L w _ Hw (int_add _ L _ _ (proj1 HF j) (int_neg _ L _ (proj1 HF i))) HN) as HX.
      destruct (evt_ex _ (evt_and _ _ HX (realize d N Y HC HI HF))) as (e & _ & H1 & H2).
      apply H1. pose proof (H (fun k => ev L (Y k) e) (fun k => isv_ev _ L _ _) H2) as H3. apply (evt_mp _ _ H3), evt_all. intros e' _ K'. rewrite (ev_add _ L), (ev_neg _ L). lra.
    + destruct (unbounded_val d N i j w HC HI Hi Hj E Hw) as (y & H1 & H2 & H3). apply H3, H; auto.
Qed.
Theorem refutes_iff d N i j w : closed L d -> inside d N -> i < N -> j < N -> wcon L w ->
  ((exists x, d j i = Some x /\ wlt L x (-' w)) <-> forall y, vals_ok y -> respects L d y -> ~ wsat L w (y j - y i)%Q).
Proof.
  intros HC HI Hi Hj Hw. split.
  - intros (x & E & Hx) y _ HR HS. pose proof (HR _ _ _ E) as H1. unfold wlt, wsat in *. destruct (evt_ex _ (evt_and _ _ Hx (evt_and _ _ HS H1))) as (e & _ & A & B & C). rewrite (ev_neg _ L) in A. lra.
  - intros H. assert (HB : wint L (-' w)) by apply int_neg, ok_int, con_ok, Hw.
    assert (HX : (exists x, d j i = Some x /\ wlt L x (-' w)) \/ (match d j i with Some x => wle L (-' w) x | None => True end)).
    { destruct (d j i) as [x|]; [|auto]. destruct (wle_or L (-' w) x) as [K|K]; [auto|left; exists x; auto]. }
    destruct HX as [HX|HX]; [exact HX|exfalso].
    destruct (attained d N j i HC HI Hj Hi (-' w) HB) as (Y & HF & HY).
    assert (HL : wleb W (Y j +' -' Y i) w = true) by (destruct (d j i); wlra L).
    destruct (evt_ex _ (evt_and _ _ (sat_real _ L w _ (con_ok _ L _ Hw) HL) (realize d N Y HC HI HF))) as (e & _ & H1 & H2).
    apply (H (fun k => ev L (Y k) e) (fun k => isv_ev _ L _ _) H2). apply (evt_mp _ _ H1), evt_all. intros e' _ K'. rewrite (ev_add _ L), (ev_neg _ L) in K'. lra.
Qed.
End Tight.
