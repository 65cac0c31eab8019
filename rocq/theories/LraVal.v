(** Values: [update] and [pivot_and_update] keep the tableau satisfied. *)
From Verif Require Import Base Sat Lin Qe Lra LraTab.
From Coq Require Import Lqa.
Open Scope Q_scope.
Local Arguments Nat.ltb : simpl never.
Local Arguments Nat.eqb : simpl never.

Definition rat (vs : nat -> qe) : nat -> Q := fun x => fst (vs x).
Definition eps (vs : nat -> qe) : nat -> Q := fun x => snd (vs x).
(** The extended values satisfy the tableau; the known terms have no infinitesimal part. *)
Definition vsol (tb : list (nat * lin)) (vs : nat -> qe) : Prop := tsol tb (rat vs) /\ tsolk 0 tb (eps vs).
Definition coef (tb : list (nat * lin)) (r x : nat) : Q :=
  match gfind r tb with Some l => match mfind x (lvars l) with Some c => c | None => 0 end | None => 0 end.

Lemma shift_solk k n tb w x d y y' : wf_tab n tb w -> gfind x tb = None -> tsolk k tb y -> y' x == y x + d ->
  (forall r, gfind r tb <> None -> y' r == y r + coef tb r x * d) ->
  (forall v, gfind v tb = None -> v <> x -> y' v == y v) -> tsolk k tb y'.
Proof.
  intros Hwf Hx Hy H1 H2 H3 r l Hi. pose proof (gasc_in_find _ (wt_asc _ _ _ Hwf) _ _ Hi) as Hf.
  rewrite (H2 r) by congruence. unfold coef. rewrite Hf, (Hy r l Hi). unfold lvalk.
  assert (E : msum y' (lvars l) == msum (upd y x (y x + d)) (lvars l)).
  { apply msum_ext. intros v Hv. destruct (wt_var _ _ _ Hwf _ _ _ Hi Hv) as [_ Hn]. unfold upd. destruct (Nat.eqb_spec v x) as [->|Hne]; [exact H1|apply H3; assumption]. }
  rewrite E, (msum_upd y x (y x + d) (lvars l) (proj1 (wt_clean _ _ _ Hwf _ _ Hi))). destruct (mfind x (lvars l)); ring.
Qed.

Lemma shift_sol n tb w x d y y' : wf_tab n tb w -> gfind x tb = None -> tsol tb y -> y' x == y x + d ->
  (forall r, gfind r tb <> None -> y' r == y r + coef tb r x * d) ->
  (forall v, gfind v tb = None -> v <> x -> y' v == y v) -> tsol tb y'.
Proof. intros A B D E F G. apply tsolk_1. apply tsolk_1 in D. exact (shift_solk 1 n tb w x d y y' A B D E F G). Qed.

Lemma shift_rows (t : lra) x d : forall rs vs, NoDup rs -> (forall r, In r rs -> exists l, gfind r (tab t) = Some l /\ dom (lvars l) x) ->
  exists vs', rfold (shift_row t x d) rs vs = Ok vs' /\
    forall r, vs' r = if memn r rs then qe_add (vs r) (qe_scale (coef (tab t) r x) d) else vs r.
Proof.
  induction rs as [|r rs IH]; intros vs Hn Hr; cbn [rfold].
  - exists vs. split; [reflexivity|]. intros r. reflexivity.
  - inversion Hn as [|? ? Hni Hn']; subst. destruct (Hr r (or_introl eq_refl)) as (l & Hl & Hd). unfold dom in Hd. destruct (mfind x (lvars l)) as [c|] eqn:Ec; [|congruence].
    assert (E : shift_row t x d vs r = Ok (upd vs r (qe_add (vs r) (qe_scale c d)))) by (unfold shift_row, row_coef, row_of; rewrite Hl; cbn [rbind]; rewrite Ec; reflexivity).
    rewrite E. cbn [rbind]. destruct (IH (upd vs r (qe_add (vs r) (qe_scale c d))) Hn' (fun r' H => Hr r' (or_intror H))) as (vs' & -> & Hv).
    exists vs'. split; [reflexivity|]. intros r'. rewrite Hv. cbn [memn existsb]. fold (memn r' rs). destruct (Nat.eqb_spec r' r) as [->|Hne].
    + apply memn_nIn in Hni. rewrite Hni, upd_eq. cbn [orb]. unfold coef. rewrite Hl, Ec. reflexivity.
    + rewrite !upd_neq by exact Hne. reflexivity.
Qed.

Lemma tw_rows (t : lra) n x : wf_tab n (tab t) (tw t) -> forall r, In r (tw t x) -> exists l, gfind r (tab t) = Some l /\ dom (lvars l) x.
Proof. intros H r Hr. apply (wt_tw _ _ _ H) in Hr as (l & Hl & Hd). exists l. split; [apply gasc_in_find; [apply H|exact Hl]|exact Hd]. Qed.
Lemma tw_coef (t : lra) n x r : wf_tab n (tab t) (tw t) -> ~ In r (tw t x) -> coef (tab t) r x = 0.
Proof.
  intros H Hr. unfold coef. destruct (gfind r (tab t)) as [l|] eqn:E; [|reflexivity]. destruct (mfind x (lvars l)) eqn:F; [|reflexivity].
  exfalso. apply Hr. apply (wt_tw _ _ _ H). exists l. split; [apply gfind_in, E|]. unfold dom. congruence.
Qed.

(** lra_theory.cpp:386-402 *)
Lemma update_ok (t : lra) n x v : wf_tab n (tab t) (tw t) -> gfind x (tab t) = None -> vsol (tab t) (vals t) ->
  exists vs', update t x v = Ok (set_vals vs' t) /\ vsol (tab t) vs' /\ vs' x = v /\ forall z, gfind z (tab t) = None -> z <> x -> vs' z = vals t z.
Proof.
  intros Hwf Hx [S1 S2]. unfold update, is_basic. rewrite Hx. cbn [negb guard].
  destruct (shift_rows t x (qe_sub v (vals t x)) (tw t x) (vals t) (wt_nodup _ _ _ Hwf x) (tw_rows t n x Hwf)) as (vs & -> & Hv). cbn [rbind].
  exists (upd vs x v). split; [reflexivity|].
  assert (Hr : forall r, gfind r (tab t) <> None -> r <> x) by (intros r H ->; congruence).
  assert (Hnb : forall z, gfind z (tab t) = None -> z <> x -> upd vs x v z = vals t z).
  { intros z Hz Hzx. rewrite upd_neq by exact Hzx. rewrite Hv. destruct (memn z (tw t x)) eqn:E; [|reflexivity]. apply memn_In, (tw_rows t n x Hwf) in E as (l & E & _). congruence. }
  assert (Hb : forall r, gfind r (tab t) <> None -> upd vs x v r = qe_add (vals t r) (qe_scale (coef (tab t) r x) (qe_sub v (vals t x))) \/ (upd vs x v r = vals t r /\ coef (tab t) r x = 0)).
  { intros r Hne. rewrite upd_neq by (apply Hr, Hne). rewrite Hv. destruct (memn r (tw t x)) eqn:E; [auto|]. right. split; [reflexivity|]. apply (tw_coef t n); [exact Hwf|]. apply memn_nIn, E. }
  split; [split|split; [apply upd_eq|exact Hnb]].
  - apply (shift_sol n _ (tw t) x (fst v - fst (vals t x)) (rat (vals t))); auto; unfold rat.
    + rewrite upd_eq. ring.
    + intros r Hne. destruct (Hb r Hne) as [->|[-> ->]]; [reflexivity|ring].
    + intros z Hz Hzx. rewrite Hnb by assumption. reflexivity.
  - apply (shift_solk 0 n _ (tw t) x (snd v - snd (vals t x)) (eps (vals t))); auto; unfold eps.
    + rewrite upd_eq. ring.
    + intros r Hne. destruct (Hb r Hne) as [->|[-> ->]]; [reflexivity|ring].
    + intros z Hz Hzx. rewrite Hnb by assumption. reflexivity.
Qed.

(** lra_theory.cpp:404-436 *)
Lemma pivot_and_update_ok (t : lra) n xi xj l cf v : wf_tab n (tab t) (tw t) -> In (xi, l) (tab t) -> mfind xj (lvars l) = Some cf -> vsol (tab t) (vals t) ->
  exists vs' tb2 w2, pivot_and_update t xi xj v = Ok (set_tab tb2 w2 (set_vals vs' t)) /\ pivoted n (tab t) (tw t) xi xj l cf tb2 w2 /\
    vsol (tab t) vs' /\ vs' xi = v /\ vs' xj = qe_add (vals t xj) (qe_scale (1 / cf) (qe_sub v (vals t xi))) /\
    forall z, gfind z (tab t) = None -> z <> xj -> vs' z = vals t z.
Proof.
  intros Hwf Hi Hj [S1 S2]. pose proof (gasc_in_find _ (wt_asc _ _ _ Hwf) _ _ Hi) as Hf.
  pose proof (xj_nonbasic n (tab t) (tw t) xi xj l cf Hwf Hi Hj) as Hxj. pose proof (xi_xj n (tab t) (tw t) xi xj l cf Hwf Hi Hj) as Hne.
  pose proof (cf_nz n (tab t) (tw t) xi xj l cf Hwf Hi Hj) as Hc.
  unfold pivot_and_update, is_basic, row_coef, row_of. rewrite Hf, Hxj. cbn [negb guard rbind]. rewrite Hj. cbn [rbind].
  destruct (qzero cf) eqn:Z; [apply qzero_iff in Z; contradiction|]. cbn [negb guard].
  set (th := qe_scale (1 / cf) (qe_sub v (vals t xi))).
  set (rs := filter (fun r => negb (r =? xi)%nat) (tw t xj)).
  assert (Hrs : forall r, In r rs <-> In r (tw t xj) /\ r <> xi) by (intros r; unfold rs; rewrite filter_In, negb_true_iff, Nat.eqb_neq; tauto).
  destruct (shift_rows t xj th rs (upd (upd (vals t) xi v) xj (qe_add (upd (vals t) xi v xj) th))) as (vs & -> & Hv).
  { apply NoDup_filter, Hwf. }
  { intros r Hr. apply Hrs in Hr as [Hr _]. exact (tw_rows t n xj Hwf r Hr). }
  cbn [rbind].
  assert (Hni : ~ In xi rs) by (rewrite Hrs; tauto).
  assert (Hnj : ~ In xj rs) by (rewrite Hrs; intros [H _]; apply (tw_rows t n xj Hwf) in H as (k & H & _); congruence).
  assert (Vi : vs xi = v) by (rewrite Hv; apply memn_nIn in Hni; rewrite Hni, upd_neq by exact Hne; apply upd_eq).
  assert (Vj : vs xj = qe_add (vals t xj) th) by (rewrite Hv; apply memn_nIn in Hnj; rewrite Hnj, upd_eq, upd_neq by congruence; reflexivity).
  assert (Hnb : forall z, gfind z (tab t) = None -> z <> xj -> vs z = vals t z).
  { intros z Hz Hzx. rewrite Hv. assert (E : memn z rs = false).
    { apply memn_nIn. rewrite Hrs. intros [H _]. apply (tw_rows t n xj Hwf) in H as (k & H & _). congruence. }
    rewrite E, upd_neq by exact Hzx. apply upd_neq. congruence. }
  assert (Hb : forall r, gfind r (tab t) <> None -> r <> xi -> vs r = qe_add (vals t r) (qe_scale (coef (tab t) r xj) th) \/ (vs r = vals t r /\ coef (tab t) r xj = 0)).
  { intros r Hr Hri. assert (Hrj : r <> xj) by congruence. rewrite Hv. rewrite !upd_neq by assumption. destruct (memn r rs) eqn:E; [auto|]. right. split; [reflexivity|].
    apply (tw_coef t n); [exact Hwf|]. apply memn_nIn in E. rewrite Hrs in E. tauto. }
  assert (Hci : coef (tab t) xi xj = cf) by (unfold coef; rewrite Hf, Hj; reflexivity).
  assert (HS : vsol (tab t) vs).
  { split.
    - apply (shift_sol n _ (tw t) xj (fst th) (rat (vals t))); auto; unfold rat.
      + rewrite Vj. reflexivity.
      + intros r Hr. destruct (Nat.eq_dec r xi) as [->|Hri].
        * rewrite Vi, Hci. unfold th; cbn. field. exact Hc.
        * destruct (Hb r Hr Hri) as [->|[-> ->]]; [reflexivity|ring].
      + intros z Hz Hzx. rewrite Hnb by assumption. reflexivity.
    - apply (shift_solk 0 n _ (tw t) xj (snd th) (eps (vals t))); auto; unfold eps.
      + rewrite Vj. reflexivity.
      + intros r Hr. destruct (Nat.eq_dec r xi) as [->|Hri].
        * rewrite Vi, Hci. unfold th; cbn. field. exact Hc.
        * destruct (Hb r Hr Hri) as [->|[-> ->]]; [reflexivity|ring].
      + intros z Hz Hzx. rewrite Hnb by assumption. reflexivity. }
  destruct (pivot_ok (set_vals vs t) n xi xj l cf Hwf Hi Hj) as (tb2 & w2 & E & P).
  exists vs, tb2, w2. split; [exact E|]. split; [exact P|]. split; [exact HS|]. split; [exact Vi|]. split; [exact Vj|exact Hnb].
Qed.
