(** The tableau: ordered maps, sets of watches, pivoting (lra_theory.cpp:386-489). *)
From Verif Require Import Base Sat Lin Qe Lra.
From Coq Require Import Lqa.
Open Scope Q_scope.
Local Arguments Nat.ltb : simpl never.
Local Arguments Nat.eqb : simpl never.

(** ** Ordered maps. *)
Fixpoint gabove {A} (v : nat) (m : list (nat * A)) : Prop := match m with [] => True | (k, _) :: r => (v < k)%nat /\ gabove k r end.
Definition gasc {A} (m : list (nat * A)) : Prop := match m with [] => True | (k, _) :: r => gabove k r end.
Lemma gabove_weaken {A} v w (m : list (nat * A)) : (v <= w)%nat -> gabove w m -> gabove v m.
Proof. destruct m as [|[k c] r]; cbn; [auto|]. intros H [X B]. split; [lia|exact B]. Qed.
Lemma gabove_asc {A} v (m : list (nat * A)) : gabove v m -> gasc m.
Proof. destruct m as [|[k c] r]; cbn; tauto. Qed.
Lemma gabove_in {A} v (m : list (nat * A)) : gabove v m -> forall k c, In (k, c) m -> (v < k)%nat.
Proof.
  revert v. induction m as [|[k c] r IH]; cbn; intros v H k' c' Hi; [destruct Hi|]. destruct H as [X B]. destruct Hi as [E|Hi].
  - inversion E; subst. exact X.
  - specialize (IH k B _ _ Hi). lia.
Qed.
Lemma gfind_in {A} v (m : list (nat * A)) c : gfind v m = Some c -> In (v, c) m.
Proof. induction m as [|[k d] r IH]; cbn; [discriminate|]. destruct (Nat.eqb_spec k v) as [->|]; [intros E; inversion E; auto|auto]. Qed.
Lemma gfind_none {A} v (m : list (nat * A)) : gfind v m = None -> forall c, ~ In (v, c) m.
Proof. induction m as [|[k d] r IH]; cbn; [auto|]. destruct (Nat.eqb_spec k v) as [->|Hn]; [discriminate|]. intros E c [H|H]; [inversion H; congruence|exact (IH E c H)]. Qed.
Lemma gfind_some_iff {A} v (m : list (nat * A)) : gfind v m <> None <-> In v (map fst m).
Proof.
  induction m as [|[k d] r IH]; cbn; [tauto|]. destruct (Nat.eqb_spec k v) as [->|Hn]; [split; [auto|discriminate]|]. rewrite IH. split; [auto|]. intros [H|H]; [congruence|exact H].
Qed.
Lemma gfind_above {A} v (m : list (nat * A)) : gabove v m -> gfind v m = None.
Proof. intros H. destruct (gfind v m) as [c|] eqn:E; [|reflexivity]. apply gfind_in in E. apply (gabove_in _ _ H) in E. lia. Qed.
Lemma gasc_tail {A} k c (r : list (nat * A)) : gasc ((k, c) :: r) -> gabove k r /\ gasc r.
Proof. cbn. intros H. split; [exact H|eapply gabove_asc, H]. Qed.
Lemma gasc_in_find {A} (m : list (nat * A)) : gasc m -> forall v c, In (v, c) m -> gfind v m = Some c.
Proof.
  induction m as [|[k d] r IH]; intros H v c Hi; [destruct Hi|]. apply gasc_tail in H as [X B]. cbn. destruct Hi as [E|Hi].
  - inversion E; subst. rewrite Nat.eqb_refl. reflexivity.
  - pose proof (gabove_in _ _ X _ _ Hi) as Hlt. destruct (Nat.eqb_spec k v); [lia|]. apply IH; assumption.
Qed.
Lemma gin_iff {A} (m : list (nat * A)) : gasc m -> forall v c, In (v, c) m <-> gfind v m = Some c.
Proof. intros H v c. split; [apply gasc_in_find, H|apply gfind_in]. Qed.
Lemma gput_above {A} w v (c : A) m : gabove w m -> (w < v)%nat -> gabove w (gput v c m).
Proof.
  revert w. induction m as [|[k d] r IH]; cbn; intros w H Hv; [auto|]. destruct H as [X B].
  destruct (Nat.ltb_spec v k); [cbn; auto|]. destruct (Nat.eqb_spec k v) as [->|]; cbn; [auto|]. split; [exact X|]. apply IH; [exact B|lia].
Qed.
Lemma gput_asc {A} v (c : A) m : gasc m -> gasc (gput v c m).
Proof.
  destruct m as [|[k d] r]; cbn; intros H; [exact I|]. destruct (Nat.ltb_spec v k); [cbn; auto|].
  destruct (Nat.eqb_spec k v) as [->|]; cbn; [exact H|]. apply gput_above; [exact H|lia].
Qed.
Lemma gdel_above {A} w v (m : list (nat * A)) : gabove w m -> gabove w (gdel v m).
Proof.
  revert w. induction m as [|[k d] r IH]; cbn; intros w H; [auto|]. destruct H as [X B]. destruct (Nat.eqb k v); [eapply gabove_weaken; [|exact B]; lia|].
  cbn. split; [exact X|apply IH, B].
Qed.
Lemma gdel_asc {A} v (m : list (nat * A)) : gasc m -> gasc (gdel v m).
Proof. destruct m as [|[k d] r]; cbn; intros H; [exact I|]. destruct (Nat.eqb k v); [eapply gabove_asc, H|]. cbn. apply gdel_above, H. Qed.
Lemma gput_find {A} v (c : A) m w : gasc m -> gfind w (gput v c m) = if Nat.eqb v w then Some c else gfind w m.
Proof.
  induction m as [|[k d] r IH]; intros H; cbn.
  - destruct (Nat.eqb_spec v w); reflexivity.
  - apply gasc_tail in H as [X B]. destruct (Nat.ltb_spec v k) as [Hlt|Hge].
    + cbn. destruct (Nat.eqb_spec v w) as [->|]; reflexivity.
    + destruct (Nat.eqb_spec k v) as [->|Hn]; cbn.
      * destruct (Nat.eqb_spec v w); reflexivity.
      * rewrite (IH B). destruct (Nat.eqb_spec k w) as [->|]; [|reflexivity]. destruct (Nat.eqb_spec v w); [lia|reflexivity].
Qed.
Lemma gdel_find {A} v (m : list (nat * A)) w : gasc m -> gfind w (gdel v m) = if Nat.eqb v w then None else gfind w m.
Proof.
  induction m as [|[k d] r IH]; intros H; cbn; [destruct (Nat.eqb v w); reflexivity|]. apply gasc_tail in H as [X B].
  destruct (Nat.eqb_spec k v) as [->|Hn].
  - destruct (Nat.eqb_spec v w) as [->|]; [apply gfind_above, X|reflexivity].
  - cbn. rewrite (IH B). destruct (Nat.eqb_spec k w) as [->|]; [|reflexivity]. destruct (Nat.eqb_spec v w); [lia|reflexivity].
Qed.

(** ** Sets. *)
Lemma sadd_in x y l : In y (sadd x l) <-> y = x \/ In y l.
Proof.
  unfold sadd. destruct (memn x l) eqn:E; [apply memn_In in E|]; cbn; split; intros H; auto.
  - destruct H as [->|H]; assumption.
  - destruct H as [<-|H]; auto.
  - destruct H as [->|H]; auto.
Qed.
Lemma sadd_nodup x l : NoDup l -> NoDup (sadd x l).
Proof. intros H. unfold sadd. destruct (memn x l) eqn:E; [exact H|]. constructor; [apply memn_nIn, E|exact H]. Qed.
Lemma srem_in x y l : In y (srem x l) <-> y <> x /\ In y l.
Proof. unfold srem. rewrite filter_In, negb_true_iff, Nat.eqb_neq. tauto. Qed.
Lemma srem_nodup x l : NoDup l -> NoDup (srem x l).
Proof. apply NoDup_filter. Qed.

(** ** The maps of an expression. *)
Lemma min_iff (m : qmap) : asc m -> forall v c, In (v, c) m <-> mfind v m = Some c.
Proof. intros H v c. split; [apply asc_in_find, H|apply mfind_in]. Qed.
Definition dom (m : qmap) (v : nat) : Prop := mfind v m <> None.
Lemma dom_in m v : dom m v <-> exists c, In (v, c) m.
Proof.
  unfold dom. split.
  - intros H. destruct (mfind v m) as [c|] eqn:E; [exists c; apply mfind_in, E|congruence].
  - intros (c & H) E. exact (mfind_none _ _ E c H).
Qed.
Lemma dom_fst m v : dom m v <-> In v (map fst m).
Proof.
  rewrite dom_in, in_map_iff. split.
  - intros (c & H). exists (v, c). auto.
  - intros ((w & c) & <- & H). exists c. exact H.
Qed.
Lemma msum_ext x y m : (forall v, dom m v -> x v == y v) -> msum x m == msum y m.
Proof.
  intros H. assert (Hv : forall v c, In (v, c) m -> x v == y v) by (intros v c Hi; apply H, dom_in; eauto). clear H.
  induction m as [|[v c] r IH]; cbn; [reflexivity|]. rewrite (Hv v c) by (left; reflexivity). rewrite IH; [reflexivity|]. intros w d Hi. apply (Hv w d). right; exact Hi.
Qed.
Lemma msum_lin x y a m : msum (fun v => x v + a * y v) m == msum x m + a * msum y m.
Proof. induction m as [|[v c] r IH]; cbn; [ring|]. rewrite IH. ring. Qed.
(** Changing one variable. *)
Lemma msum_upd x v q m : asc m -> msum (upd x v q) m == msum x m + match mfind v m with Some c => c * (q - x v) | None => 0 end.
Proof.
  intros H. destruct (mfind v m) as [c|] eqn:E.
  - rewrite <- (Qplus_0_r (msum (upd x v q) m)). assert (A := msum_del (upd x v q) v m c E). assert (B := msum_del x v m c E).
    rewrite (msum_ext (upd x v q) x (mdel v m)) in A.
    + rewrite upd_eq in A. rewrite B in A. assert (msum (upd x v q) m == msum x m - c * x v + c * q) by lra. rewrite H0. ring.
    + intros w Hw. apply dom_in in Hw as (d & Hw). apply mdel_in in Hw as [Hw _]; [|exact H]. rewrite upd_neq by exact Hw. reflexivity.
  - rewrite Qplus_0_r. apply msum_ext. intros w Hw. rewrite upd_neq; [reflexivity|]. intros ->. apply Hw, E.
Qed.

(** ** Solutions of a tableau. *)
Definition tsol (tb : list (nat * lin)) (y : nat -> Q) : Prop := forall x l, In (x, l) tb -> y x == lval y l.
(** The known terms scaled by [k]: 1 for the rational part of a solution, 0 for its infinitesimal part. *)
Definition lvalk (k : Q) (y : nat -> Q) (l : lin) : Q := msum y (lvars l) + k * lkt l.
Definition tsolk (k : Q) (tb : list (nat * lin)) (y : nat -> Q) : Prop := forall x l, In (x, l) tb -> y x == lvalk k y l.
Lemma lvalk_1 y l : lvalk 1 y l == lval y l.
Proof. unfold lvalk, lval. ring. Qed.
Lemma tsolk_1 tb y : tsolk 1 tb y <-> tsol tb y.
Proof. split; intros H x l Hi; rewrite (H x l Hi); [apply lvalk_1|symmetry; apply lvalk_1]. Qed.

Record wf_tab (n : nat) (tb : list (nat * lin)) (w : nat -> list nat) : Prop := {
  wt_asc : gasc tb;
  wt_key : forall x l, In (x, l) tb -> (x < n)%nat;
  wt_clean : forall x l, In (x, l) tb -> lin_clean l;
  wt_var : forall x l v, In (x, l) tb -> dom (lvars l) v -> (v < n)%nat /\ gfind v tb = None;
  wt_tw : forall v r, In r (w v) <-> exists l, In (r, l) tb /\ dom (lvars l) v;
  wt_nodup : forall v, NoDup (w v) }.
(** No row is identically zero. *)
Definition indep (tb : list (nat * lin)) : Prop := forall x l, In (x, l) tb -> exists y, tsolk 0 tb y /\ ~ y x == 0.

Lemma msum_nonempty_indicator m v c : asc m -> mfind v m = Some c -> msum (upd (fun _ => 0) v 1) m == c.
Proof.
  intros H E. rewrite (msum_upd _ v 1 m H), E. assert (msum (fun _ => 0) m == 0) as ->; [|ring].
  clear. induction m as [|[v c] r IH]; cbn; [reflexivity|]. rewrite IH. ring.
Qed.
(** Any values of the non-basic variables extend to a solution. *)
Definition extend (tb : list (nat * lin)) (y : nat -> Q) : nat -> Q := fun x => match gfind x tb with Some l => lval y l | None => y x end.
Lemma extend_sol n tb w y : wf_tab n tb w -> tsol tb (extend tb y).
Proof.
  intros H x l Hi. unfold extend at 1. rewrite (gasc_in_find _ (wt_asc _ _ _ H) _ _ Hi).
  unfold lval. rewrite (msum_ext y (extend tb y) (lvars l)); [reflexivity|].
  intros v Hv. unfold extend. destruct (wt_var _ _ _ H x l v Hi Hv) as [_ ->]. reflexivity.
Qed.
Definition extk (k : Q) (tb : list (nat * lin)) (y : nat -> Q) : nat -> Q := fun x => match gfind x tb with Some l => lvalk k y l | None => y x end.
Lemma extk_sol k n tb w y : wf_tab n tb w -> tsolk k tb (extk k tb y).
Proof.
  intros H x l Hi. unfold extk at 1. rewrite (gasc_in_find _ (wt_asc _ _ _ H) _ _ Hi).
  unfold lvalk. rewrite (msum_ext y (extk k tb y) (lvars l)); [reflexivity|].
  intros v Hv. unfold extk. destruct (wt_var _ _ _ H x l v Hi Hv) as [_ ->]. reflexivity.
Qed.
Lemma indep_iff n tb w : wf_tab n tb w -> (indep tb <-> forall x l, In (x, l) tb -> lvars l <> []).
Proof.
  intros H. split.
  - intros HI x l Hi E. destruct (HI x l Hi) as (y & Hy & Hn). apply Hn. rewrite (Hy x l Hi). unfold lvalk. rewrite E. cbn [msum]. ring.
  - intros HN x l Hi. destruct (lvars l) as [|[v c] r] eqn:E; [destruct (HN x l Hi E)|].
    destruct (wt_clean _ _ _ H x l Hi) as [Ha Hz]. rewrite E in Ha, Hz.
    exists (extk 0 tb (upd (fun _ => 0) v 1)). split; [eapply extk_sol, H|]. unfold extk. rewrite (gasc_in_find _ (wt_asc _ _ _ H) _ _ Hi).
    unfold lvalk. rewrite E, (msum_nonempty_indicator _ v c Ha); [|cbn; rewrite Nat.eqb_refl; reflexivity].
    specialize (Hz v c (or_introl eq_refl)). lra.
Qed.

(** ** The pivot operation. *)
Section Pivot.
Variables (n : nat) (tb : list (nat * lin)) (w : nat -> list nat) (xi xj : nat) (l : lin) (cf : Q).
Hypothesis (Hwf : wf_tab n tb w) (Hi : In (xi, l) tb) (Hj : mfind xj (lvars l) = Some cf).

Lemma xi_basic : gfind xi tb = Some l.
Proof. apply gasc_in_find; [apply Hwf|exact Hi]. Qed.
Lemma l_asc : asc (lvars l).
Proof. apply (wt_clean _ _ _ Hwf _ _ Hi). Qed.
Lemma cf_nz : ~ cf == 0.
Proof. destruct (wt_clean _ _ _ Hwf _ _ Hi) as [_ H]. apply (H xj). apply mfind_in, Hj. Qed.
Lemma xj_dom : dom (lvars l) xj.
Proof. unfold dom. rewrite Hj. discriminate. Qed.
Lemma xj_nonbasic : gfind xj tb = None.
Proof. apply (wt_var _ _ _ Hwf _ _ _ Hi xj_dom). Qed.
Lemma xi_xj : xi <> xj.
Proof. intros E. pose proof xi_basic as A. rewrite E, xj_nonbasic in A. discriminate. Qed.
Lemma xi_not_dom r k : In (r, k) tb -> ~ dom (lvars k) xi.
Proof. intros Hk Hd. destruct (wt_var _ _ _ Hwf _ _ _ Hk Hd) as [_ E]. rewrite xi_basic in E. discriminate. Qed.

(** The entering expression. *)
Definition ent0 : qmap := mmap (fun c => c / (- cf)) (mdel xj (lvars l)).
Definition ent : lin := mk_lin (mput xi (1 / cf) ent0) (lkt l / (- cf)).
Lemma mdel_dom v m : asc m -> dom (mdel xj m) v <-> v <> xj /\ dom m v.
Proof. intros H. unfold dom. rewrite mdel_find by exact H. destruct (Nat.eqb_spec xj v) as [->|Hn]; [tauto|]. split; [intros; split; congruence|tauto]. Qed.
Lemma mmap_find f m v : mfind v (mmap f m) = match mfind v m with Some c => Some (f c) | None => None end.
Proof. induction m as [|[k c] r IH]; cbn; [reflexivity|]. destruct (Nat.eqb k v); [reflexivity|exact IH]. Qed.
Lemma mmap_dom f m v : dom (mmap f m) v <-> dom m v.
Proof. unfold dom. rewrite mmap_find. destruct (mfind v m); split; congruence. Qed.
Lemma ent0_asc : asc ent0.
Proof. apply mmap_asc, mdel_asc, l_asc. Qed.
Lemma ent0_dom v : dom ent0 v <-> v <> xj /\ dom (lvars l) v.
Proof. unfold ent0. rewrite mmap_dom. apply mdel_dom, l_asc. Qed.
Lemma ent0_xi : mfind xi ent0 = None.
Proof. destruct (mfind xi ent0) eqn:E; [|reflexivity]. exfalso. apply (xi_not_dom xi l Hi). apply ent0_dom. unfold dom. congruence. Qed.
Lemma ent_dom v : dom (lvars ent) v <-> v = xi \/ (v <> xj /\ dom (lvars l) v).
Proof.
  unfold ent, dom at 1; cbn. rewrite mput_find by apply ent0_asc. destruct (Nat.eqb_spec xi v) as [->|Hn]; [split; [auto|discriminate]|].
  fold (dom ent0 v). rewrite ent0_dom. split; [auto|]. intros [->|H]; [congruence|exact H].
Qed.
Lemma ent_clean : lin_clean ent.
Proof.
  pose proof cf_nz as Hc. split; [apply mput_asc, ent0_asc|]. intros v c Hv. unfold ent in Hv; cbn [lvars] in Hv. apply mput_in in Hv as [[-> ->]|[_ Hv]]; [| |apply ent0_asc].
  - intros E. apply Hc. assert (E2 : cf * (1 / cf) == 1) by (field; exact Hc). rewrite E in E2. lra.
  - revert v c Hv. change (nonzero ent0). apply mmap_nonzero.
    + intros c Hz E. apply Hz. assert (E2 : (c / - cf) * (- cf) == c) by (field; intros F; apply Hc; lra). rewrite E in E2. lra.
    + intros v c Hv. apply mdel_in in Hv as [_ Hv]; [|apply l_asc]. exact (proj2 (wt_clean _ _ _ Hwf _ _ Hi) v c Hv).
Qed.
Lemma ent_sum q y : y xi == lvalk q y l <-> y xj == lvalk q y ent.
Proof.
  pose proof cf_nz as Hc. unfold lvalk, ent; cbn [lvars lkt]. rewrite (msum_put_none _ _ _ _ ent0_xi). unfold ent0. rewrite (msum_mmap y _ (/ (- cf))) by (intros; reflexivity).
  rewrite (msum_del y xj (lvars l) cf Hj).
  set (S := msum y (lvars l)).
  assert (E : (S - cf * y xj) * / - cf + 1 / cf * y xi + q * (lkt l / - cf) == y xj + (y xi - S - q * lkt l) / cf) by (field; exact Hc).
  rewrite E. split; intros H.
  - rewrite H. field. exact Hc.
  - assert (F : (y xi - S - q * lkt l) / cf == 0) by lra. assert (G : cf * ((y xi - S - q * lkt l) / cf) == y xi - S - q * lkt l) by (field; exact Hc). rewrite F in G. lra.
Qed.
Lemma ent_kt : lkt l == 0 -> lkt ent == 0.
Proof. intros E. cbn. rewrite E. field. intros F. apply cf_nz. lra. Qed.

(** One row. *)
Lemma pivot_term_sum y r cc : forall es m w0, asc m ->
  asc (fst (fold_left (pivot_term r cc) es (m, w0))) /\
  msum y (fst (fold_left (pivot_term r cc) es (m, w0))) == msum y m + cc * msum y es /\
  (nonzero m -> nonzero es -> ~ cc == 0 -> nonzero (fst (fold_left (pivot_term r cc) es (m, w0)))).
Proof.
  induction es as [|[v c] es IH]; intros m w0 Ha; cbn [fold_left].
  - cbn. split; [exact Ha|]. split; [ring|auto].
  - cbn [msum]. assert (HT := add_term_sum y m (v, c * cc) Ha). assert (HA := add_term_asc m (v, c * cc) Ha).
    assert (HN : nonzero m -> ~ c == 0 -> ~ cc == 0 -> nonzero (add_term m (v, c * cc))).
    { intros H1 H2 H3. apply add_term_nonzero; [exact Ha|exact H1|]. cbn. intros E. apply Qmult_integral in E. tauto. }
    assert (HE : fst (pivot_term r cc (m, w0) (v, c)) = add_term m (v, c * cc)).
    { unfold pivot_term, add_term; cbn [fst snd]. destruct (mfind v m); [destruct (qzero _)|]; reflexivity. }
    destruct (pivot_term r cc (m, w0) (v, c)) as [m1 w1]. cbn in HE. subst m1. destruct (IH _ w1 HA) as (A & B & D). split; [exact A|]. split.
    + rewrite B, HT. cbn. ring.
    + intros H1 H2 H3. apply D; [apply HN; auto; apply (H2 v c); left; reflexivity| |exact H3]. intros v' c' Hi'. apply (H2 v' c'). right; exact Hi'.
Qed.
Lemma pivot_term_dom r cc : forall es m w0, asc m ->
  (forall v, NoDup (w0 v)) -> (forall v, v <> xj -> (In r (w0 v) <-> dom m v)) -> (forall v c, In (v, c) es -> v <> xj) ->
  let a := fold_left (pivot_term r cc) es (m, w0) in
  (forall v, NoDup (snd a v)) /\ (forall v, v <> xj -> (In r (snd a v) <-> dom (fst a) v)) /\
  (forall v r', r' <> r -> (In r' (snd a v) <-> In r' (w0 v))) /\ (snd a xj = w0 xj) /\
  (forall v, dom (fst a) v -> dom m v \/ dom es v) /\ (mfind xj m = None -> mfind xj (fst a) = None).
Proof.
  induction es as [|[v c] es IH]; intros m w0 Ha Hn Hr Hj'; cbn [fold_left].
  - cbn. split; [exact Hn|]. split; [exact Hr|]. split; [tauto|]. split; [reflexivity|]. split; [auto|auto].
  - assert (Hv : v <> xj) by (apply (Hj' v c); left; reflexivity).
    destruct (pivot_term r cc (m, w0) (v, c)) as [m1 w1] eqn:E. unfold pivot_term in E.
    assert (H1 : asc m1 /\ (forall u, NoDup (w1 u)) /\ (forall u, u <> xj -> (In r (w1 u) <-> dom m1 u)) /\ (forall u r', r' <> r -> (In r' (w1 u) <-> In r' (w0 u))) /\ w1 xj = w0 xj /\ (forall u, dom m1 u -> dom m u \/ u = v) /\ (mfind xj m = None -> mfind xj m1 = None)).
    { destruct (mfind v m) as [d|] eqn:F; [destruct (qzero (d + c * cc))|]; inversion E; subst m1 w1; clear E.
      - split; [apply mdel_asc, Ha|]. split.
        { intros u. unfold upd. destruct (u =? v)%nat; [apply srem_nodup, Hn|apply Hn]. }
        split.
        { intros u Hu. unfold upd, dom. rewrite mdel_find by exact Ha. rewrite (Nat.eqb_sym v u). destruct (Nat.eqb_spec u v) as [->|Huv]; [rewrite srem_in; tauto|apply Hr, Hu]. }
        split.
        { intros u r' Hrr. unfold upd. destruct (Nat.eqb_spec u v) as [->|Huv]; [rewrite srem_in; tauto|tauto]. }
        split; [apply upd_neq; congruence|]. split.
        { intros u Hu. unfold dom in Hu. rewrite mdel_find in Hu by exact Ha. destruct (Nat.eqb v u); [congruence|left; exact Hu]. }
        intros Hx. rewrite mdel_find by exact Ha. destruct (Nat.eqb v xj); [reflexivity|exact Hx].
      - split; [apply mput_asc, Ha|]. split; [exact Hn|]. split.
        { intros u Hu. unfold dom. rewrite mput_find by exact Ha. destruct (Nat.eqb_spec v u) as [->|Huv]; [|apply Hr, Hu]. rewrite Hr by exact Hu. unfold dom. rewrite F. split; congruence. }
        split; [tauto|]. split; [reflexivity|]. split.
        { intros u Hu. unfold dom in Hu. rewrite mput_find in Hu by exact Ha. destruct (Nat.eqb_spec v u); [auto|left; exact Hu]. }
        intros Hx. rewrite mput_find by exact Ha. destruct (Nat.eqb_spec v xj); [congruence|exact Hx].
      - split; [apply mput_asc, Ha|]. split.
        { intros u. unfold upd. destruct (u =? v)%nat; [apply sadd_nodup, Hn|apply Hn]. }
        split.
        { intros u Hu. unfold upd, dom. rewrite mput_find by exact Ha. rewrite (Nat.eqb_sym v u). destruct (Nat.eqb_spec u v) as [->|Huv]; [rewrite sadd_in; split; [discriminate|auto]|apply Hr, Hu]. }
        split.
        { intros u r' Hrr. unfold upd. destruct (Nat.eqb_spec u v) as [->|Huv]; [rewrite sadd_in; tauto|tauto]. }
        split; [apply upd_neq; congruence|]. split.
        { intros u Hu. unfold dom in Hu. rewrite mput_find in Hu by exact Ha. destruct (Nat.eqb_spec v u); [auto|left; exact Hu]. }
        intros Hx. rewrite mput_find by exact Ha. destruct (Nat.eqb_spec v xj); [congruence|exact Hx]. }
    clear E. destruct H1 as (A1 & A2 & A3 & A4 & A5 & A6 & A7).
    destruct (IH m1 w1 A1 A2 A3 (fun u d Hu => Hj' u d (or_intror Hu))) as (B1 & B2 & B3 & B4 & B5 & B6).
    split; [exact B1|]. split; [exact B2|]. split; [intros u r' Hrr; rewrite (B3 u r' Hrr); apply A4, Hrr|].
    split; [rewrite B4; exact A5|]. split; [|intros Hx; apply B6, A7, Hx]. intros u Hu. apply B5 in Hu as [Hu|Hu].
    + apply A6 in Hu as [Hu| ->]; [auto|]. right. unfold dom; cbn. rewrite Nat.eqb_refl. discriminate.
    + right. unfold dom in *; cbn. destruct (Nat.eqb v u); [discriminate|exact Hu].
Qed.

Definition newrow (k : lin) : lin :=
  let cc := match mfind xj (lvars k) with Some c => c | None => 0 end in
  mk_lin (fold_left add_term (mmap (fun c => c * cc) (lvars ent)) (mdel xj (lvars k))) (lkt k + lkt ent * cc).
Lemma pivot_term_fst r cc : forall es m w0, fst (fold_left (pivot_term r cc) es (m, w0)) = fold_left add_term (mmap (fun c => c * cc) es) m.
Proof.
  induction es as [|[v c] es IH]; intros m w0; cbn [fold_left]; [reflexivity|].
  assert (HE : fst (pivot_term r cc (m, w0) (v, c)) = add_term m (v, c * cc)).
  { unfold pivot_term, add_term; cbn [fst snd]. destruct (mfind v m); [destruct (qzero _)|]; reflexivity. }
  destruct (pivot_term r cc (m, w0) (v, c)) as [m1 w1]. cbn in HE. subst m1. rewrite IH. reflexivity.
Qed.
Definition tb0 := gdel xi tb.
Definition wrem := fold_left (fun w0 (e : nat * Q) => upd w0 (fst e) (srem xi (w0 (fst e)))) (lvars l) w.
Lemma tb0_find r : gfind r tb0 = if Nat.eqb xi r then None else gfind r tb.
Proof. apply gdel_find, Hwf. Qed.
Lemma wrem_gen : forall es w0 v r, In r (fold_left (fun w0 (e : nat * Q) => upd w0 (fst e) (srem xi (w0 (fst e)))) es w0 v) <-> In r (w0 v) /\ (r <> xi \/ ~ dom es v).
Proof.
  induction es as [|[u c] es IH]; intros w0 v r; cbn [fold_left fst]; [unfold dom; cbn; split; [intros H; split; [exact H|right; auto]|tauto]|].
  rewrite IH. unfold upd, dom; cbn [mfind]. rewrite (Nat.eqb_sym u v). destruct (Nat.eqb_spec v u) as [->|Hn].
  - rewrite srem_in. split; [tauto|]. intros (A & [B|B]); [tauto|exfalso; apply B; discriminate].
  - tauto.
Qed.
Lemma wrem_in v r : In r (wrem v) <-> In r (w v) /\ r <> xi.
Proof.
  unfold wrem. rewrite wrem_gen. split; [|tauto]. intros (A & B). split; [exact A|]. destruct B as [B|B]; [exact B|]. intros ->.
  apply B. apply (wt_tw _ _ _ Hwf) in A as (k & Hk & Hd). apply (gasc_in_find _ (wt_asc _ _ _ Hwf)) in Hk. rewrite xi_basic in Hk. inversion Hk; subst. exact Hd.
Qed.
Lemma fold_rem_nodup : forall (es : qmap) w0, (forall v, NoDup (w0 v)) -> forall v, NoDup (fold_left (fun w0 (e : nat * Q) => upd w0 (fst e) (srem xi (w0 (fst e)))) es w0 v).
Proof. induction es as [|e es IH]; intros w0 H; cbn [fold_left]; [exact H|]. apply IH. intros v. unfold upd. destruct (v =? fst e)%nat; [apply srem_nodup, H|apply H]. Qed.

Record J (done : list nat) (tb' : list (nat * lin)) (w' : nat -> list nat) : Prop := {
  j_asc : gasc tb';
  j_find : forall r, gfind r tb' = match gfind r tb0 with Some k => Some (if memn r done then newrow k else k) | None => None end;
  j_nodup : forall v, NoDup (w' v);
  j_xj : w' xj = [];
  j_tw : forall v r, v <> xj -> (In r (w' v) <-> exists k, gfind r tb' = Some k /\ dom (lvars k) v) }.
Lemma J_init : J [] tb0 (upd wrem xj []).
Proof.
  constructor.
  - apply gdel_asc, Hwf.
  - intros r. destruct (gfind r tb0); reflexivity.
  - intros v. unfold upd. destruct (v =? xj)%nat; [constructor|]. apply fold_rem_nodup, Hwf.
  - apply upd_eq.
  - intros v r Hv. rewrite upd_neq by exact Hv. rewrite wrem_in, (wt_tw _ _ _ Hwf). split.
    + intros ((k & Hk & Hd) & Hn). exists k. rewrite tb0_find. destruct (Nat.eqb_spec xi r); [congruence|]. split; [apply gasc_in_find; [apply Hwf|exact Hk]|exact Hd].
    + intros (k & Hk & Hd). rewrite tb0_find in Hk. destruct (Nat.eqb_spec xi r) as [->|Hn]; [discriminate|]. split; [exists k; split; [apply gfind_in, Hk|exact Hd]|congruence].
Qed.
Lemma J_step done tb' w' r : J done tb' w' -> ~ In r done -> gfind r tb0 <> None ->
  exists tb1 w1, pivot_row xj ent (tb', w') r = Ok (tb1, w1) /\ J (r :: done) tb1 w1.
Proof.
  intros [J1 J2 J3 J4 J5] Hnd Hf. destruct (gfind r tb0) as [k|] eqn:Ek; [|congruence]. clear Hf.
  assert (Er : gfind r tb' = Some k) by (rewrite J2, Ek; apply memn_nIn in Hnd; rewrite Hnd; reflexivity).
  assert (Hk : In (r, k) tb) by (rewrite tb0_find in Ek; destruct (Nat.eqb xi r); [discriminate|apply gfind_in, Ek]).
  assert (Hka : asc (lvars k)) by apply (wt_clean _ _ _ Hwf _ _ Hk).
  unfold pivot_row. rewrite Er. set (cc := match mfind xj (lvars k) with Some c => c | None => 0 end).
  destruct (pivot_term_dom r cc (lvars ent) (mdel xj (lvars k)) w') as (A1 & A2 & A3 & A4 & A5 & A6).
  - apply mdel_asc, Hka.
  - exact J3.
  - intros v Hv. rewrite J5 by exact Hv. rewrite Er. rewrite mdel_dom by exact Hka. split.
    + intros (k' & E & Hd). inversion E; subst. auto.
    + intros [_ Hd]. exists k. auto.
  - intros v c Hv E. subst v. assert (Hd : dom (lvars ent) xj) by (apply dom_in; eauto). apply ent_dom in Hd as [Hd|[Hd _]]; [symmetry in Hd; exact (xi_xj Hd)|congruence].
  - pose proof (pivot_term_fst r cc (lvars ent) (mdel xj (lvars k)) w') as HF.
    destruct (fold_left (pivot_term r cc) (lvars ent) (mdel xj (lvars k), w')) as [m w1]. cbn [fst snd] in *.
    eexists _, _. split; [reflexivity|].
    assert (HN : mk_lin m (lkt k + lkt ent * cc) = newrow k) by (unfold newrow; rewrite HF; reflexivity). rewrite HN. constructor.
    + apply gput_asc, J1.
    + intros r'. rewrite gput_find by exact J1. destruct (Nat.eqb_spec r r') as [<-|Hn].
      * rewrite Ek. cbn [memn existsb]. rewrite Nat.eqb_refl. reflexivity.
      * rewrite J2. destruct (gfind r' tb0); [|reflexivity]. cbn [memn existsb]. destruct (Nat.eqb_spec r' r); [congruence|]. reflexivity.
    + exact A1.
    + rewrite A4. exact J4.
    + intros v r' Hv. rewrite gput_find by exact J1. destruct (Nat.eqb_spec r r') as [<-|Hn].
      * rewrite A2 by exact Hv. unfold newrow; cbv zeta. fold cc. rewrite <- HF. split.
        -- intros H. eexists. split; [reflexivity|exact H].
        -- intros (k' & E & H). inversion E; subst. exact H.
      * rewrite A3 by congruence. apply J5, Hv.
Qed.
Lemma J_fold : forall ws done tb' w', J done tb' w' -> NoDup ws -> (forall r, In r ws -> ~ In r done /\ gfind r tb0 <> None) ->
  exists tb1 w1, rfold (pivot_row xj ent) ws (tb', w') = Ok (tb1, w1) /\ J (rev ws ++ done) tb1 w1.
Proof.
  induction ws as [|r ws IH]; intros done tb' w' HJ Hn Hw; cbn [rfold rev app]; [eauto|].
  inversion Hn as [|? ? Hr Hn']; subst. destruct (Hw r (or_introl eq_refl)) as [Hd Hf]. destruct (J_step _ _ _ r HJ Hd Hf) as (t1 & w1 & -> & HJ1). cbn [rbind].
  destruct (IH (r :: done) t1 w1 HJ1 Hn') as (t2 & w2 & E & HJ2).
  - intros r' Hr'. destruct (Hw r' (or_intror Hr')) as [A B]. split; [|exact B]. intros [->|H]; [contradiction|exact (A H)].
  - exists t2, w2. split; [exact E|]. rewrite <- app_assoc. exact HJ2.
Qed.
Lemma newrow_val q y k : asc (lvars k) -> y xj == lvalk q y ent -> lvalk q y (newrow k) == lvalk q y k.
Proof.
  intros Hk Hy. unfold newrow. set (cc := match mfind xj (lvars k) with Some c => c | None => 0 end). unfold lvalk; cbn [lvars lkt].
  destruct (fold_add y (mmap (fun c => c * cc) (lvars ent)) (mdel xj (lvars k)) (mdel_asc _ _ Hk)) as (_ & E & _). rewrite E.
  rewrite (msum_mmap y _ cc) by (intros; reflexivity).
  assert (H : msum y (mdel xj (lvars k)) == msum y (lvars k) - cc * y xj).
  { unfold cc. destruct (mfind xj (lvars k)) eqn:F; [apply msum_del, F|]. assert (G : mdel xj (lvars k) = lvars k) by (clear -F; induction (lvars k) as [|[u c] r IH]; cbn in *; [reflexivity|]; destruct (Nat.eqb u xj); [discriminate|]; rewrite IH; auto).
    rewrite G. ring. }
  rewrite H. unfold lvalk in Hy. rewrite Hy. ring.
Qed.

Definition ws := wrem xj.
Lemma ws_in r : In r ws <-> r <> xi /\ exists k, gfind r tb = Some k /\ dom (lvars k) xj.
Proof.
  unfold ws. rewrite wrem_in, (wt_tw _ _ _ Hwf). split.
  - intros ((k & Hk & Hd) & Hn). split; [exact Hn|]. exists k. split; [apply gasc_in_find; [apply Hwf|exact Hk]|exact Hd].
  - intros (Hn & k & Hk & Hd). split; [|exact Hn]. exists k. split; [apply gfind_in, Hk|exact Hd].
Qed.
(** The result of a pivot. *)
Definition prow (r : nat) (k : lin) : lin := if memn r ws then newrow k else k.
Record pivoted (tb2 : list (nat * lin)) (w2 : nat -> list nat) : Prop := {
  pv_wf : wf_tab n tb2 w2;
  pv_find : forall r, gfind r tb2 = if Nat.eqb r xj then Some ent else if Nat.eqb r xi then None else match gfind r tb with Some k => Some (prow r k) | None => None end;
  pv_sol : forall q y, tsolk q tb2 y <-> tsolk q tb y }.
Lemma prow_kt r k : lkt l == 0 -> lkt (prow r k) == lkt k.
Proof. intros H. unfold prow. destruct (memn r ws); [|reflexivity]. unfold newrow. cbn [lkt]. rewrite (ent_kt H). ring. Qed.

Lemma tsol_find q tbx y : gasc tbx -> (tsolk q tbx y <-> forall r k, gfind r tbx = Some k -> y r == lvalk q y k).
Proof. intros H. split; intros A r k Hk; apply A; [apply gfind_in, Hk|apply gasc_in_find; assumption]. Qed.

Lemma new_row_in : forall (es : qmap) w0 v r x, In r (fold_left (fun w0 (e : nat * Q) => upd w0 (fst e) (sadd x (w0 (fst e)))) es w0 v) <-> In r (w0 v) \/ (r = x /\ dom es v).
Proof.
  induction es as [|[u c] es IH]; intros w0 v r x; cbn [fold_left fst]; [unfold dom; cbn; split; [auto|intros [H|[_ H]]; [exact H|congruence]]|].
  rewrite IH. unfold upd, dom; cbn [mfind]. rewrite (Nat.eqb_sym u v). destruct (Nat.eqb_spec v u) as [->|Hn].
  - rewrite sadd_in. split.
    + intros [[A|A]|[A B]]; [right; split; [exact A|discriminate]|left; exact A|right; split; [exact A|discriminate]].
    + intros [A|[A B]]; auto.
  - tauto.
Qed.
Lemma new_row_nodup : forall (es : qmap) w0 x, (forall v, NoDup (w0 v)) -> forall v, NoDup (fold_left (fun w0 (e : nat * Q) => upd w0 (fst e) (sadd x (w0 (fst e)))) es w0 v).
Proof. induction es as [|e es IH]; intros w0 x H; cbn [fold_left]; [exact H|]. apply IH. intros v. unfold upd. destruct (v =? fst e)%nat; [apply sadd_nodup, H|apply H]. Qed.

Theorem pivot_tab : exists tb1 w1, rfold (pivot_row xj ent) ws (tb0, upd wrem xj []) = Ok (tb1, w1) /\
  pivoted (fst (new_row xj ent tb1 w1)) (snd (new_row xj ent tb1 w1)).
Proof.
  destruct (J_fold ws [] tb0 (upd wrem xj []) J_init) as (tb1 & w1 & E & [J1 J2 J3 J4 J5]).
  { apply fold_rem_nodup, Hwf. }
  { intros r Hr. split; [auto|]. apply ws_in in Hr as (Hn & k & Hk & _). rewrite tb0_find. destruct (Nat.eqb_spec xi r); [congruence|]. rewrite Hk. discriminate. }
  exists tb1, w1. split; [exact E|]. clear E. cbn [new_row fst snd]. rewrite app_nil_r in J2.
  assert (Hxj1 : gfind xj tb1 = None) by (rewrite J2, tb0_find; destruct (Nat.eqb xi xj); [reflexivity|]; rewrite xj_nonbasic; reflexivity).
  assert (Hfind : forall r, gfind r (gput xj ent tb1) = if Nat.eqb r xj then Some ent else if Nat.eqb r xi then None else match gfind r tb with Some k => Some (prow r k) | None => None end).
  { intros r. rewrite gput_find by exact J1. rewrite (Nat.eqb_sym xj r). destruct (Nat.eqb_spec r xj) as [->|Hn]; [reflexivity|].
    rewrite J2, tb0_find, (Nat.eqb_sym xi r). destruct (Nat.eqb r xi); [reflexivity|]. destruct (gfind r tb); [|reflexivity]. unfold prow.
    assert (Em : memn r (rev ws) = memn r ws).
    { destruct (memn r ws) eqn:F; [apply memn_In in F; apply memn_In; rewrite <- in_rev; exact F|apply memn_nIn in F; apply memn_nIn; rewrite <- in_rev; exact F]. }
    rewrite Em. reflexivity. }
  assert (Hasc2 : gasc (gput xj ent tb1)) by (apply gput_asc, J1).
  (* facts about a new row *)
  assert (Hnewd : forall r k v, gfind r tb = Some k -> r <> xi -> dom (lvars (prow r k)) v -> v <> xj /\ (v = xi \/ dom (lvars k) v \/ dom (lvars l) v)).
  { intros r k v Hk Hri Hd. unfold prow in Hd. destruct (memn r ws) eqn:F.
    - unfold newrow in Hd; cbn [lvars] in Hd. set (cc := match mfind xj (lvars k) with Some c => c | None => 0 end) in Hd.
      assert (Hka : asc (lvars k)) by (apply (wt_clean _ _ _ Hwf r), gfind_in, Hk).
      rewrite <- (pivot_term_fst r cc (lvars ent) (mdel xj (lvars k)) (fun _ => [])) in Hd.
      assert (HP : forall u c, In (u, c) (lvars ent) -> u <> xj).
      { intros u c Hu E. subst u. assert (Hd' : dom (lvars ent) xj) by (apply dom_in; eauto). apply ent_dom in Hd' as [Hd'|[Hd' _]]; [symmetry in Hd'; exact (xi_xj Hd')|congruence]. }
      (* use pivot_term_dom with an exact watch function *)
      set (w0 := fun u => if mfind u (mdel xj (lvars k)) then [r] else @nil nat).
      rewrite (pivot_term_fst r cc (lvars ent) (mdel xj (lvars k)) (fun _ => [])), <- (pivot_term_fst r cc (lvars ent) (mdel xj (lvars k)) w0) in Hd.
      destruct (pivot_term_dom r cc (lvars ent) (mdel xj (lvars k)) w0) as (_ & _ & _ & _ & A5 & A6).
      + apply mdel_asc, Hka.
      + intros u. unfold w0. destruct (mfind u (mdel xj (lvars k))); repeat constructor. intros [].
      + intros u _. unfold w0, dom. destruct (mfind u (mdel xj (lvars k))); cbn; split; intros H; auto; congruence || (destruct H).
      + exact HP.
      + split.
        * intros ->. apply Hd. apply A6. rewrite mdel_find by exact Hka. rewrite Nat.eqb_refl. reflexivity.
        * apply A5 in Hd as [Hd|Hd]; [apply mdel_dom in Hd; [tauto|exact Hka]|]. apply ent_dom in Hd. tauto.
    - split; [|auto]. intros ->. apply memn_nIn in F. apply F, ws_in. split; [exact Hri|]. exists k. auto. }
  assert (Hnewc : forall r k, gfind r tb = Some k -> lin_clean (prow r k)).
  { intros r k Hk. apply gfind_in in Hk. destruct (wt_clean _ _ _ Hwf r k Hk) as [Ha Hz].
    unfold prow. destruct (memn r ws) eqn:F; [|split; assumption].
    apply memn_In, ws_in in F as (_ & k' & Hk' & Hd). apply (gasc_in_find _ (wt_asc _ _ _ Hwf)) in Hk. rewrite Hk in Hk'. inversion Hk'; subst k'.
    unfold dom in Hd. unfold newrow. destruct (mfind xj (lvars k)) as [cc|] eqn:G; [|congruence]. cbn zeta.
    destruct (fold_add (fun _ => 0) (mmap (fun c => c * cc) (lvars ent)) (mdel xj (lvars k)) (mdel_asc _ _ Ha)) as (A & _ & B).
    split; [exact A|]. apply B.
    - intros u c Hu. apply mdel_in in Hu as [_ Hu]; [|exact Ha]. exact (Hz u c Hu).
    - apply mmap_nonzero; [|apply ent_clean]. intros c Hc E. apply Qmult_integral in E as [E|E]; [exact (Hc E)|]. apply (Hz xj cc); [apply mfind_in, G|exact E]. }
  constructor.
  - constructor.
    + exact Hasc2.
    + intros x k Hk. apply (gin_iff _ Hasc2) in Hk. rewrite Hfind in Hk. destruct (Nat.eqb_spec x xj) as [->|].
      * apply (wt_var _ _ _ Hwf _ _ _ Hi (xj_dom)).
      * destruct (Nat.eqb x xi); [discriminate|]. destruct (gfind x tb) eqn:G; [|discriminate]. apply gfind_in in G. eapply (wt_key _ _ _ Hwf), G.
    + intros x k Hk. apply (gin_iff _ Hasc2) in Hk. rewrite Hfind in Hk. destruct (Nat.eqb x xj); [inversion Hk; subst; apply ent_clean|].
      destruct (Nat.eqb x xi); [discriminate|]. destruct (gfind x tb) eqn:G; [|discriminate]. inversion Hk; subst. apply Hnewc, G.
    + intros x k v Hk Hd. apply (gin_iff _ Hasc2) in Hk. rewrite Hfind in Hk.
      assert (Hv : v <> xj /\ (v = xi \/ exists r k', In (r, k') tb /\ dom (lvars k') v)).
      { destruct (Nat.eqb_spec x xj) as [->|]; [inversion Hk; subst|].
        - apply ent_dom in Hd as [->|[A B]]; [split; [exact xi_xj|auto]|]. split; [exact A|]. right. exists xi, l. auto.
        - destruct (Nat.eqb_spec x xi); [discriminate|]. destruct (gfind x tb) as [k'|] eqn:G; [|discriminate]. inversion Hk; subst.
          destruct (Hnewd x k' v G n1 Hd) as (A & [B|[B|B]]); split; auto; right; [exists x, k'; split; [apply gfind_in, G|exact B]|exists xi, l; auto]. }
      destruct Hv as [Hv1 Hv2]. rewrite Hfind. destruct (Nat.eqb_spec v xj); [congruence|]. destruct Hv2 as [->|(r & k' & Hr & Hd')].
      * rewrite Nat.eqb_refl. split; [|reflexivity]. apply (wt_key _ _ _ Hwf _ _ Hi).
      * destruct (wt_var _ _ _ Hwf _ _ _ Hr Hd') as [A B]. rewrite B. destruct (Nat.eqb v xi); auto.
    + intros v r. rewrite new_row_in. destruct (Nat.eq_dec v xj) as [->|Hv].
      * rewrite J4. split; [intros [[]|[_ H]]; exfalso; apply ent_dom in H as [H|[H _]]; [symmetry in H; exact (xi_xj H)|congruence]|].
        intros (k & Hk & Hd). exfalso. apply (gin_iff _ Hasc2) in Hk. rewrite Hfind in Hk. destruct (Nat.eqb_spec r xj) as [->|].
        -- inversion Hk; subst. apply ent_dom in Hd as [H|[H _]]; [symmetry in H; exact (xi_xj H)|congruence].
        -- destruct (Nat.eqb_spec r xi); [discriminate|]. destruct (gfind r tb) as [k'|] eqn:G; [|discriminate]. inversion Hk; subst. destruct (Hnewd r k' xj G n1 Hd). congruence.
      * rewrite (J5 v r Hv). split.
        -- intros [(k & Hk & Hd)|[-> Hd]].
           ++ exists k. split; [|exact Hd]. apply (gin_iff _ Hasc2). rewrite gput_find by exact J1. destruct (Nat.eqb_spec xj r) as [<-|]; [congruence|exact Hk].
           ++ exists ent. split; [|exact Hd]. apply (gin_iff _ Hasc2). rewrite gput_find by exact J1. rewrite Nat.eqb_refl. reflexivity.
        -- intros (k & Hk & Hd). apply (gin_iff _ Hasc2) in Hk. rewrite gput_find in Hk by exact J1. destruct (Nat.eqb_spec xj r) as [<-|]; [inversion Hk; subst; auto|]. left. eauto.
    + apply new_row_nodup, J3.
  - exact Hfind.
  - intros q y. rewrite !tsol_find by (assumption || apply Hwf). split; intros H r k Hk.
    + assert (Hy : y xj == lvalk q y ent) by (apply H; rewrite Hfind, Nat.eqb_refl; reflexivity).
      destruct (Nat.eq_dec r xi) as [->|Hn].
      * rewrite xi_basic in Hk. inversion Hk; subst. apply ent_sum, Hy.
      * assert (Hrj : r <> xj) by (intros ->; rewrite xj_nonbasic in Hk; discriminate).
        assert (A : y r == lvalk q y (prow r k)).
        { apply H. rewrite Hfind. destruct (Nat.eqb_spec r xj); [congruence|]. destruct (Nat.eqb_spec r xi); [congruence|]. rewrite Hk. reflexivity. }
        rewrite A. unfold prow. destruct (memn r ws); [|reflexivity]. apply newrow_val; [|exact Hy]. apply (wt_clean _ _ _ Hwf r), gfind_in, Hk.
    + assert (Hy : y xj == lvalk q y ent) by (apply ent_sum, H, xi_basic).
      rewrite Hfind in Hk. destruct (Nat.eqb_spec r xj) as [->|]; [inversion Hk; subst; exact Hy|]. destruct (Nat.eqb_spec r xi); [discriminate|].
      destruct (gfind r tb) as [k'|] eqn:G; [|discriminate]. inversion Hk; subst. rewrite (H r k' G). unfold prow. destruct (memn r ws); [|reflexivity]. symmetry. apply newrow_val; [|exact Hy].
      apply (wt_clean _ _ _ Hwf r), gfind_in, G.
Qed.
End Pivot.

(** ** [pivot] as a whole. *)
Theorem pivot_ok (t : lra) (n xi xj : nat) (l : lin) (cf : Q) : wf_tab n (tab t) (tw t) -> In (xi, l) (tab t) -> mfind xj (lvars l) = Some cf ->
  exists tb2 w2, pivot t xi xj = Ok (set_tab tb2 w2 t) /\ pivoted n (tab t) (tw t) xi xj l cf tb2 w2.
Proof.
  intros Hwf Hi Hj. unfold pivot, row_of. rewrite (gasc_in_find _ (wt_asc _ _ _ Hwf) _ _ Hi). cbn [rbind]. rewrite Hj.
  pose proof (cf_nz _ _ _ _ _ _ _ Hwf Hi Hj) as Hc. unfold lin_div_in.
  destruct (qzero (- cf)) eqn:Z; [apply qzero_iff in Z; exfalso; apply Hc; lra|]. cbn [rbind lvars lkt].
  fold (ent0 xj l cf). rewrite (ent0_xi n (tab t) (tw t) xi xj l cf Hwf Hi Hj). fold (ent xi xj l cf).
  destruct (pivot_tab n (tab t) (tw t) xi xj l cf Hwf Hi Hj) as (tb1 & w1 & E & P).
  change (fold_left (fun (w : nat -> list nat) (e : nat * Q) => upd w (fst e) (srem xi (w (fst e)))) (lvars l) (tw t)) with (wrem (tw t) xi l).
  change (gdel xi (tab t)) with (tb0 (tab t) xi). change (wrem (tw t) xi l xj) with (ws (tw t) xi xj l). change (mk_lin (mput xi (1 / cf) (ent0 xj l cf)) (lkt l / - cf)) with (ent xi xj l cf).
  rewrite E. cbn [rbind].
  destruct (new_row xj (ent xi xj l cf) tb1 w1) as [tb2 w2]. cbn in P. exists tb2, w2. split; [reflexivity|exact P].
Qed.
