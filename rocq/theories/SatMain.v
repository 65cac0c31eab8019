(** [propagate]: correctness and termination. *)
From Verif Require Import Base Sat SatSpec SatInv SatPop SatImp SatRec SatAn SatProp SatLoop.

Section Main.
Context {T : Type} {ops : theory_ops T} (C : contract ops).
Notation st := (st T).
Notation record := (Sat.record ops).
Notation recorded := (SatRec.recorded (ops := ops)).
Notation rec_lits := (SatRec.rec_lits (ops := ops)).

(** ** A measure for the main loop. *)
Definition wt (D : nat) (s : st) : nat := list_sum (map (fun q => nv s ^ (D - level s (lvar q))) (trail s)).
Definition wmax (D : nat) (s : st) : nat := nv s * nv s ^ D.
Definition mu (D : nat) (s : st) : nat := 2 * (wmax D s - wt D s) + length (prop_q s).

Lemma pow_pos b n : 0 < b -> 1 <= b ^ n.
Proof. intros H. induction n; cbn; [lia|]. nia. Qed.
Lemma trail_len (s : st) : InvT s -> length (trail s) <= nv s - 1.
Proof.
  intros H. rewrite <- (map_length lvar). rewrite <- (seq_length (nv s - 1) 1).
  apply NoDup_incl_length; [apply (t_nodup s H)|]. intros v Hv. apply in_map_iff in Hv as (p & <- & Hp).
  apply in_seq. pose proof (t_no0 s H p Hp). pose proof (trail_range s H p). rewrite (t_true s H p Hp) in H1.
  specialize (H1 ltac:(discriminate)). lia.
Qed.
Lemma sum_le {A} (f : A -> nat) b l : (forall x, In x l -> f x <= b) -> list_sum (map f l) <= length l * b.
Proof.
  induction l as [|x l IH]; intros H; [cbn; lia|]. pose proof (H x (or_introl eq_refl)).
  specialize (IH ltac:(intros; apply H; right; assumption)). cbn [map length]. change (list_sum (f x :: map f l)) with (f x + list_sum (map f l)). lia.
Qed.
Lemma sum_ge {A} (f : A -> nat) l : (forall x, In x l -> 1 <= f x) -> length l <= list_sum (map f l).
Proof.
  induction l as [|x l IH]; intros H; [cbn; lia|]. pose proof (H x (or_introl eq_refl)).
  specialize (IH ltac:(intros; apply H; right; assumption)). cbn [map length]. change (list_sum (f x :: map f l)) with (f x + list_sum (map f l)). lia.
Qed.
Lemma wt_bound D (s : st) : InvT s -> wt D s <= wmax D s.
Proof.
  intros H. unfold wt, wmax. etransitivity; [apply sum_le with (b := nv s ^ D)|].
  - intros x _. apply Nat.pow_le_mono_r; [pose proof (t_nv s H); lia|lia].
  - pose proof (trail_len s H). apply Nat.mul_le_mono_r. lia.
Qed.
Lemma wt_grow D (s s' : st) : InvT s -> grow s s' -> pushes s s' ->
  exists k, wt D s + k <= wt D s' /\ length (prop_q s') = length (prop_q s) + k /\ wmax D s' = wmax D s.
Proof.
  intros HT Hg (ext & Htr & _ & Hq). destruct (gr_trail _ _ Hg) as (ext' & Htr' & Hk & Hu).
  rewrite Htr' in Htr. apply app_inv_tail in Htr. subst ext'.
  exists (length ext). split; [|split; [exact Hq|unfold wmax; rewrite (gr_nv _ _ Hg); reflexivity]].
  unfold wt. rewrite Htr', map_app, list_sum_app, (gr_nv _ _ Hg).
  assert (E : map (fun q => nv s ^ (D - level s' (lvar q))) (trail s) = map (fun q => nv s ^ (D - level s (lvar q))) (trail s)).
  { apply map_ext_in. intros q Hin. destruct (Hk (lvar q)) as (_ & -> & _); [|reflexivity].
    intros Hi. apply Hu in Hi. apply value_undef in Hi. rewrite (t_true s HT q Hin) in Hi. discriminate. }
  rewrite E. pose proof (sum_ge (fun q => nv s ^ (D - level s' (lvar q))) ext) as Hge.
  specialize (Hge ltac:(intros; apply pow_pos, (t_nv s HT))). lia.
Qed.

(** What a call to [propagate] guarantees. *)
Definition kept (s s' : st) : Prop := forall q, value s q = LTrue -> level s (lvar q) <= dlevel s' ->
  value s' q = LTrue /\ level s' (lvar q) = level s (lvar q).
(** A definite inconsistency: at root level, no models; the theories are still at the right level, so
    that their levels can be popped. *)
Record doomed (s : st) : Prop := {
  de_dl : dlevel s = 0;
  de_unsat : unsat C s;
  de_th : forall i t, nth_error (theories s) i = Some t -> exists vs, th_inv C t vs /\ length vs = S (dlevel s) }.
Lemma InvX_doomed (s : st) : InvX C s -> dlevel s = 0 -> unsat C s -> doomed s.
Proof. intros HX H1 H2. constructor; auto. intros i t E. destruct (h_views _ _ _ _ (x_h _ _ HX) i t E) as (vs & A & B & _). eauto. Qed.
Lemma Inv_doomed (s : st) : Inv C s -> dlevel s = 0 -> unsat C s -> doomed s.
Proof. intros HX H1 H2. constructor; auto. intros i t E. destruct (h_views _ _ _ _ (i_h _ _ HX) i t E) as (vs & A & B & _). eauto. Qed.
Record prop_post (s s' : st) (b : bool) : Prop := {
  pp_models : forall M, smodels C s' M <-> smodels C s M;
  pp_nv : nv s' = nv s;
  pp_exprs : exprs s' = exprs s;
  pp_ths : length (theories s') = length (theories s);
  pp_dl : dlevel s' <= dlevel s;
  pp_lim : trail_lim s' = skipn (dlevel s - dlevel s') (trail_lim s);
  pp_dec : decisions s' = skipn (dlevel s - dlevel s') (decisions s);
  pp_kept : kept s s';
  pp_grow : dlevel s' = dlevel s -> grow s s';
  pp_back : dlevel s' < dlevel s -> forall M, smodels C s M -> exists d, In d (decisions s) /\ mlit M d = false;
  pp_true : b = true -> Inv C s' /\ prop_q s' = [] /\ settled C s';
  pp_false : b = false -> doomed s' }.

(** The same without the final outcome: it composes. *)
Record step_post (s s' : st) : Prop := {
  sp_models : forall M, smodels C s' M <-> smodels C s M;
  sp_nv : nv s' = nv s;
  sp_exprs : exprs s' = exprs s;
  sp_ths : length (theories s') = length (theories s);
  sp_dl : dlevel s' <= dlevel s;
  sp_lim : trail_lim s' = skipn (dlevel s - dlevel s') (trail_lim s);
  sp_dec : decisions s' = skipn (dlevel s - dlevel s') (decisions s);
  sp_kept : kept s s';
  sp_grow : dlevel s' = dlevel s -> grow s s';
  sp_back : dlevel s' < dlevel s -> forall M, smodels C s M -> exists d, In d (decisions s) /\ mlit M d = false }.

Lemma skipn_skipn {A} a b (l : list A) : skipn a (skipn b l) = skipn (b + a) l.
Proof. revert l; induction b as [|b IH]; intros [|x l]; cbn; auto. destruct a; reflexivity. Qed.

Lemma step_trans s1 s2 s3 : step_post s1 s2 -> step_post s2 s3 -> step_post s1 s3.
Proof.
  intros [A1 B1 D1 E1 F1 G1 H1 K1 J1 Z1] [A2 B2 D2 E2 F2 G2 H2 K2 J2 Z2].
  constructor; try congruence.
  - intros M. rewrite A2. apply A1.
  - lia.
  - rewrite G2, G1, skipn_skipn. f_equal. lia.
  - rewrite H2, H1, skipn_skipn. f_equal. lia.
  - intros q Hv Hl. destruct (K1 q Hv) as [Hv1 Hl1]; [lia|]. destruct (K2 q Hv1) as [Hv2 Hl2]; [lia|]. split; [exact Hv2|lia].
  - intros Hd. eapply grow_trans; [apply J1; lia|apply J2; lia].
  - intros Hd M HM. destruct (Nat.lt_ge_cases (dlevel s2) (dlevel s1)) as [Hl|Hl]; [apply Z1; assumption|].
    rewrite <- (gr_dec _ _ (J1 ltac:(lia))). apply Z2; [lia|]. apply A1, HM.
Qed.
Lemma step_grow s s' : grow s s' -> (forall M, smodels C s' M <-> smodels C s M) -> step_post s s'.
Proof.
  intros Hg HM. pose proof (grow_dlevel _ _ Hg) as Hd. constructor; try apply Hg; auto; try lia.
  - rewrite Hd, Nat.sub_diag. apply Hg.
  - rewrite Hd, Nat.sub_diag. apply Hg.
  - intros q Hv _. destruct (grow_value _ _ q Hg) as [H1 H2]; [congruence|]. rewrite H1, H2. auto.
Qed.
Lemma step_prop s s' s'' b : step_post s s' -> prop_post s' s'' b -> prop_post s s'' b.
Proof.
  intros H1 H2. assert (H3 : step_post s s'').
  { eapply step_trans; [exact H1|]. destruct H2. constructor; assumption. }
  destruct H3. constructor; try assumption; apply H2.
Qed.
Lemma grow_q (s : st) q : grow s (set_prop_q q s).
Proof. constructor; try reflexivity. exists []. cbn. split; [reflexivity|]. split; [auto|tauto]. Qed.
Lemma grow_b (s : st) q : grow s (set_bounds q s).
Proof. constructor; try reflexivity. exists []. cbn. split; [reflexivity|]. split; [auto|tauto]. Qed.
Lemma grow_w (s : st) q : grow s (set_watches q s).
Proof. constructor; try reflexivity. exists []. cbn. split; [reflexivity|]. split; [auto|tauto]. Qed.

Lemma recorded_grow (s : st) l0 tl : value s l0 = LUndef -> grow s (recorded s l0 tl).
Proof.
  intros Hu. unfold SatRec.recorded. destruct tl as [|x tl]; [apply grow_enq, Hu|].
  set (ls := rec_lits s l0 (x :: tl)).
  assert (Hg : grow s (addc s ls)).
  { destruct ls as [|a [|b r]]; cbn; try apply grow_refl. constructor; try reflexivity. exists []. cbn. split; [reflexivity|]. split; [auto|tauto]. }
  eapply grow_trans; [exact Hg|]. apply grow_enq. destruct ls as [|a [|b r]]; exact Hu.
Qed.
Lemma recorded_level (s : st) l0 tl : level (recorded s l0 tl) (lvar l0) = dlevel s.
Proof.
  unfold SatRec.recorded, SatRec.rec_lits. destruct tl as [|x tl]; [cbn; apply upd_eq|].
  destruct (srt (sorter := th_sort ops) (fun l => level s (lvar l)) (x :: tl)); cbn; apply upd_eq.
Qed.

(** A resolved conflict. *)
Lemma resolve_step (s : st) lits D : InvX C s -> dlevel s <> 0 -> dlevel s <= D ->
  (forall q, In q lits -> value s q = LFalse) ->
  (exists q, In q lits /\ level s (lvar q) = dlevel s) ->
  (forall M, smodels C s M -> mcl M lits) ->
  exists s', resolve ops s lits = Ok s' /\ Inv C s' /\ step_post s s' /\ dlevel s' < dlevel s /\
     length (prop_q s') = 1 /\ wt D s < wt D s' /\ wmax D s' = wmax D s.
Proof.
  intros HX Hd HD Hf Hex Hent.
  destruct (resolve_ok C s lits HX Hd Hf Hex Hent)
    as (s' & s2 & p & learnt & rem & E & HI & Es' & HR & HI2 & Hq2 & HU & Hdl & Hin & Hlp & Hrem & Hlv & El & Ed & Hth & Hln & Hmc & HM).
  pose proof (x_t _ _ HX) as HT. pose proof (i_t _ _ HI2) as HT2.
  destruct (recorded_same (ops := ops) s2 (negl p) learnt) as (_ & _ & Rtr & Rq). rewrite <- Es' in Rtr, Rq.
  assert (Hg : grow s2 s') by (rewrite Es'; apply recorded_grow, HR).
  assert (Hl0 : level s' (lvar p) = dlevel s2) by (rewrite Es'; apply (recorded_level s2 (negl p) learnt)).
  assert (Hdl' : dlevel s' = dlevel s2) by apply (grow_dlevel _ _ Hg).
  assert (Hnv : nv s' = nv s) by (rewrite (gr_nv _ _ Hg); apply (u_nv _ _ _ HU)).
  exists s'. split; [exact E|]. split; [exact HI|]. split.
  { constructor; try assumption.
    - rewrite (gr_exprs _ _ Hg). apply (u_exprs _ _ _ HU).
    - rewrite (gr_ths _ _ Hg). exact Hth.
    - lia.
    - rewrite Hdl', (gr_lim _ _ Hg). exact El.
    - rewrite Hdl', (gr_dec _ _ Hg). exact Ed.
    - intros q Hv Hl. assert (Hq : ~ In (lvar q) (map lvar rem)).
      { intros Hi. apply in_map_iff in Hi as (x & Ex & Hx). apply Hrem in Hx. rewrite Ex in Hx. lia. }
      pose proof (undo_value _ _ _ _ HU Hq) as V. destruct (u_keep _ _ _ HU _ Hq) as (_ & L & _).
      destruct (grow_value _ _ q Hg) as [V2 L2]; [congruence|]. split; congruence.
    - lia.
    - intros _. apply (conflict_decs C s lits HT (x_r _ _ HX) Hf Hent). }
  split; [lia|]. split; [rewrite Rq, Hq2; reflexivity|].
  split; [|unfold wmax; rewrite Hnv; reflexivity].
  unfold wt. rewrite Rtr, (u_trail _ _ _ HU), map_app, list_sum_app. cbn [map list_sum fold_right]. rewrite Hnv, lvar_negl, Hl0.
  assert (E2 : map (fun q => nv s ^ (D - level s' (lvar q))) (trail s2) = map (fun q => nv s ^ (D - level s (lvar q))) (trail s2)).
  { apply map_ext_in. intros q Hin'. pose proof (t_true s2 HT2 q Hin') as V.
    destruct (undo_value_true _ _ _ q HU) as (_ & _ & L); [congruence|].
    destruct (grow_value _ _ q Hg) as [_ L2]; [congruence|]. rewrite L2, L. reflexivity. }
  change (fold_right Nat.add 0) with list_sum. rewrite E2.
  assert (Hlt : list_sum (map (fun q => nv s ^ (D - level s (lvar q))) rem) < nv s ^ (D - dlevel s2)).
  { assert (Hlen : length rem <= nv s - 1).
    { pose proof (trail_len s HT) as H. rewrite (u_trail _ _ _ HU), app_length in H. lia. }
    pose proof (t_nv s HT) as Hn0.
    assert (Hs : list_sum (map (fun q => nv s ^ (D - level s (lvar q))) rem) <= length rem * nv s ^ (D - dlevel s2 - 1)).
    { apply sum_le. intros x Hx. apply Hrem in Hx. pose proof (level_le s HT (lvar x)). apply Nat.pow_le_mono_r; lia. }
    replace (D - dlevel s2) with (S (D - dlevel s2 - 1)) by lia. cbn [Nat.pow].
    replace (S (D - dlevel s2 - 1) - 1) with (D - dlevel s2 - 1) by lia.
    pose proof (pow_pos (nv s) (D - dlevel s2 - 1) Hn0). nia. }
  lia.
Qed.

Lemma theory_resolve_eq (s : st) c : InvT s -> 2 <= length c -> (forall q, In q c -> value s q = LFalse) ->
  theory_resolve ops s c = resolve ops s c.
Proof.
  intros HT Hl Hf. unfold theory_resolve. apply Nat.leb_le in Hl. rewrite Hl. cbn [guard].
  assert (E : in_range s c = true).
  { apply forallb_forall. intros q Hq. apply Nat.ltb_lt, trail_range; [exact HT|]. rewrite (Hf q Hq). discriminate. }
  rewrite E. reflexivity.
Qed.

Lemma post_stop (s s' : st) b : step_post s s' -> (b = true -> Inv C s' /\ prop_q s' = [] /\ settled C s') ->
  (b = false -> doomed s') -> prop_post s s' b.
Proof. intros [] H1 H2. constructor; assumption. Qed.

(** A propagated literal is forgotten by the theories at root level. *)
Lemma unbind_inv (s s2 s3 : st) p q : Inv C s -> prop_q s = p :: q -> In p (trail s) -> value s p = LTrue ->
  pushes (set_watches (updl (watches s) p []) (set_prop_q q s)) s2 -> pushes s2 s3 -> grow s2 s3 -> value s2 p = LTrue -> Inv C s3 ->
  Inv C (if root_level s3 then set_bounds (upd (bounds s3) (lvar p) []) s3 else s3).
Proof.
  intros HI Eq Hpt Hp Hps2 Hps3 Hg3 Hp2 Hcf. pose proof HI as [HT HC HR HW HQ HH].
  set (s1 := set_watches (updl (watches s) p []) (set_prop_q q s)) in *.
  set (s4 := if root_level s3 then set_bounds (upd (bounds s3) (lvar p) []) s3 else s3).
        assert (Hpq3 : forall l, lvar l = lvar p -> ~ In l (prop_q s3)).
        { intros l El Hl. pose proof (pushes_trans _ _ _ Hps2 Hps3) as (ext & P1 & P2 & _).
          apply P2 in Hl. change (prop_q s1) with q in Hl. change (trail s1) with (trail s) in P1.
          pose proof (i_t _ _ Hcf) as HT3. destruct Hl as [Hl|Hl].
          - assert (Hlt : In l (trail s)) by (apply (q_on s HQ); rewrite Eq; right; exact Hl).
            assert (l = p) by (apply (value_same_var s); [exact El|apply (t_true s HT l Hlt)|exact Hp]). subst l.
            pose proof (q_nodup s HQ) as Hn. rewrite Eq in Hn. inversion Hn; contradiction.
          - pose proof (t_nodup s3 HT3) as Hn. rewrite P1, map_app in Hn.
            apply (in_map lvar) in Hl, Hpt. rewrite El in Hl.
            clear - Hn Hl Hpt. induction (map lvar ext) as [|x e IHe]; cbn in *; [contradiction|].
            inversion Hn; subst. destruct Hl as [->|Hl]; [|auto]. apply H1, in_or_app; auto. }
  unfold s4. destruct (root_level s3) eqn:Er; [|exact Hcf]. apply root_dlevel in Er.
          destruct Hcf as [BT BC BR BW BQ BH]. constructor.
          - eapply InvT_ext; [..|exact BT]; reflexivity.
          - destruct BC; constructor; assumption.
          - destruct BR; constructor; assumption.
          - exact BW.
          - eapply InvQ_ext; [..|exact BQ]; reflexivity.
          - constructor; cbn [set_bounds theories nv assigns level bounds prop_q].
            + apply (h_views _ _ _ _ BH).
            + apply (h_range _ _ _ _ BH).
            + intros i t v Eth Ha Hv. unfold upd. destruct (Nat.eqb_spec v (lvar p)) as [->|Hne].
              * exfalso. destruct Hv as [Hv|[Hv|(l & El & Hl)]].
                -- apply value_undef in Hv. rewrite (proj1 (grow_value _ _ p Hg3 ltac:(congruence))) in Hv. congruence.
                -- pose proof (level_le s3 BT (lvar p)). lia.
                -- apply (Hpq3 l El Hl).
              * apply (h_bound _ _ _ _ BH i t v Eth Ha Hv).
            + intros i v. unfold upd. destruct (v =? lvar p); [intros []|apply (h_owned _ _ _ _ BH)].
            + intros v. unfold upd. destruct (v =? lvar p); [constructor|apply (h_nodup _ _ _ _ BH)].
            + apply (h_fixed _ _ _ _ BH).
Qed.

Theorem propagate_ok_mu D : forall fuel (s : st), Inv C s -> dlevel s <= D ->
  match propagate ops fuel s with
  | UB => False
  | OOF => th_total C -> fuel <= mu D s
  | Ok (s', b) => prop_post s s' b /\ (b = true -> mu D s' <= mu D s)
  end.
Proof.
  induction fuel as [|fuel IH]; intros s HI HD; cbn [propagate].
  { intros _. lia. }
  pose proof HI as [HT HC HR HW HQ HH].
  (* continuing from a later state *)
  assert (Hcont : forall s', Inv C s' -> step_post s s' -> mu D s' < mu D s ->
     match propagate ops fuel s' with UB => False | OOF => th_total C -> S fuel <= mu D s | Ok (s'', b) => prop_post s s'' b /\ (b = true -> mu D s'' <= mu D s) end).
  { intros s' HI' HS Hmu. pose proof (sp_dl _ _ HS) as Hd. specialize (IH s' HI' ltac:(lia)).
    destruct (propagate ops fuel s') as [[s'' b]| |]; [destruct IH as [IH1 IH2]; split; [eapply step_prop; eassumption|intros Hb; specialize (IH2 Hb); lia]|exact IH|].
    intros Ht. specialize (IH Ht). lia. }
  destruct (prop_q s) as [|p q] eqn:Eq.
  - (* final checks *)
    pose proof (th_check_all_ok C (length (theories s)) s 0 HI Eq ltac:(lia) ltac:(intros; lia)) as HK.
    destruct (th_check_all ops s (length (theories s)) 0) as [[s1 cf]| |] eqn:Ek; cbn [rbind]; [|contradiction|intros Ht; contradiction].
    destruct HK as (HM & Hg & HI1 & Hq1 & Htr1 & Hcf).
    assert (HS1 : step_post s s1) by (apply step_grow; assumption).
    destruct cf as [c|].
    + destruct (root_level s1) eqn:Er.
      * split; [|discriminate]. apply post_stop; [exact HS1|discriminate|]. intros _. apply root_dlevel in Er. apply (Inv_doomed s1 HI1 Er).
        apply (root_conflict C s1 c (i_t _ _ HI1) Er); apply Hcf.
      * apply root_dlevel_false in Er.
        rewrite theory_resolve_eq; [|apply (i_t _ _ HI1)|apply (tc_len _ _ _ Hcf); exact Er|apply Hcf].
        pose proof (grow_dlevel _ _ Hg) as Hd1.
        destruct (resolve_step s1 c D (Inv_InvX C s1 HI1 Hq1) Er ltac:(lia) (tc_false _ _ _ Hcf) (tc_lvl _ _ _ Hcf Er) (tc_ent _ _ _ Hcf))
          as (s2 & E2 & HI2 & HS2 & Hd2 & Hl2 & Hw2 & Hm2).
        rewrite E2. cbn [rbind]. apply Hcont; [exact HI2|eapply step_trans; eassumption|].
        destruct (wt_grow D s s1 HT Hg) as (k & K1 & K2 & K3).
        { exists []. rewrite Htr1, Hq1, Eq. cbn. split; [reflexivity|]. split; [tauto|reflexivity]. }
        pose proof (wt_bound D s2 (i_t _ _ HI2)). unfold mu. rewrite Eq. cbn [length]. lia.
    + split; [apply post_stop; [exact HS1| |discriminate]; auto|]. intros _.
      destruct (wt_grow D s s1 HT Hg) as (k & K1 & K2 & K3).
      { exists []. rewrite Htr1, Hq1, Eq. cbn. split; [reflexivity|]. split; [tauto|reflexivity]. }
      unfold mu. rewrite Hq1, Eq. cbn [length]. lia.
  - (* one literal *)
    set (s1 := set_watches (updl (watches s) p []) (set_prop_q q s)).
    assert (Hpt : In p (trail s) /\ level s (lvar p) = dlevel s) by (apply (q_on s HQ); rewrite Eq; left; reflexivity).
    destruct Hpt as [Hpt Hlp]. pose proof (t_true s HT p Hpt) as Hp.
    assert (Hg01 : grow s s1) by (eapply grow_trans; [apply grow_q|apply grow_w]).
    assert (HM01 : forall M, smodels C s1 M <-> smodels C s M) by (intros M; split; intros [S1 S2 S3 S4]; constructor; assumption).
    pose proof (start_ok C s p q HI Eq) as HG1. fold s1 in HG1.
    destruct (prop_clauses_ok C (fun i l => l = p /\ In i (bounds s (lvar p))) p (watches s p) s1 HG1 Hp Hlp)
      as (s2 & o & E2 & HM2 & Hg2 & Et2 & Eb2 & Hps2 & Ho).
    rewrite E2. cbn [rbind].
    assert (HT1 : InvT s1) by (eapply InvT_ext; [..|exact HT]; reflexivity).
    assert (Hp2 : value s2 p = LTrue /\ level s2 (lvar p) = dlevel s2).
    { rewrite (proj1 (grow_value _ _ p Hg2 ltac:(change (value s p <> LUndef); congruence))),
        (proj2 (grow_value _ _ p Hg2 ltac:(change (value s p <> LUndef); congruence))), (grow_dlevel _ _ Hg2). auto. }
    destruct Hp2 as [Hp2 Hlp2].
    assert (HS2 : step_post s s2).
    { apply step_grow; [eapply grow_trans; eassumption|]. intros M. rewrite HM2. apply HM01. }
    destruct (wt_grow D s1 s2 HT1 Hg2 Hps2) as (k2 & W1 & W2 & W3).
    change (wt D s1) with (wt D s) in W1. change (wmax D s1) with (wmax D s) in W3. change (prop_q s1) with q in W2.
    destruct o as [c|].
    + destruct Ho as (HG2 & Hc & Hfal & Hnp). pose proof HG2 as [AT AC AR AW AQ AH].
      set (s3 := set_prop_q [] s2).
      assert (HX3 : InvX C s3).
      { eapply InvG_conflict; [exact HG2| |].
        - intros k l [H| ->]; [apply (q_on s2 AQ l H)|exact Hlp2].
        - intros k l [[-> _]|H]; [exact Hlp2|apply (q_on s2 AQ l H)]. }
      assert (HM3 : forall M, smodels C s3 M <-> smodels C s2 M) by (intros M; apply smodels_q).
      assert (HS3 : step_post s s3) by (eapply step_trans; [exact HS2|apply step_grow; [apply grow_q|exact HM3]]).
      assert (Hent : forall M, smodels C s3 M -> mcl M (cls s3 c)) by (intros M HM; apply (sm_cls _ _ _ HM), Hc).
      destruct (root_level s3) eqn:Er.
      * split; [|discriminate]. apply post_stop; [exact HS3|discriminate|]. intros _. apply root_dlevel in Er. apply (InvX_doomed s3 HX3 Er).
        apply (root_conflict C s3 (cls s3 c) (x_t _ _ HX3) Er); assumption.
      * apply root_dlevel_false in Er. pose proof (sp_dl _ _ HS3) as Hd3.
        destruct (resolve_step s3 (cls s3 c) D HX3 Er ltac:(lia) Hfal) as (s4 & E4 & HI4 & HS4 & Hd4 & Hl4 & Hw4 & Hm4).
        { exists (negl p). split; [exact Hnp|]. rewrite lvar_negl. exact Hlp2. }
        { exact Hent. }
        rewrite E4. cbn [rbind]. apply Hcont; [exact HI4|eapply step_trans; eassumption|].
        pose proof (wt_bound D s4 (i_t _ _ HI4)).
        change (wt D s3) with (wt D s2) in Hw4. change (wmax D s3) with (wmax D s2) in Hm4.
        unfold mu. rewrite Eq. cbn [length]. lia.
    + assert (Eb2' : bounds s2 = bounds s) by exact Eb2.
      assert (HG2 : InvG C (fun _ l => In l (prop_q s2)) (fun j l => (l = p /\ In j (bounds s2 (lvar p))) \/ In l (prop_q s2)) s2).
      { rewrite Eb2'. exact Ho. }
      pose proof HG2 as [AT AC AR AW AQ AH].
      set (vis := visit (sorter := th_sort ops) (bounds s2 (lvar p))).
      assert (Hvis : Permutation (bounds s2 (lvar p)) vis) by apply visit_perm.
      assert (HG2' : InvG C (fun _ l => In l (prop_q s2)) (fun j l => (l = p /\ In j vis) \/ In l (prop_q s2)) s2).
      { eapply InvG_mono; [| |exact HG2]; cbn; [auto|]. intros k l [[El Hk]|Hk]; [left; split; [exact El|apply (Permutation_in _ Hvis Hk)]|right; exact Hk]. }
      pose proof (th_prop_all_ok C p vis s2 HG2' (Permutation_NoDup Hvis (h_nodup _ _ _ _ AH (lvar p))) (fun i Hi => Permutation_in _ (Permutation_sym Hvis) Hi) Hp2 Hlp2) as HK.
      destruct (th_prop_all ops s2 vis p) as [[s3 tcf]| |]; cbn [rbind]; [|contradiction|intros Ht; contradiction].
      destruct HK as (HM3 & Hg3 & Eb3 & Hps3 & Hcf).
      assert (HS3 : step_post s s3) by (eapply step_trans; [exact HS2|apply step_grow; assumption]).
      destruct (wt_grow D s2 s3 AT Hg3 Hps3) as (k3 & X1 & X2 & X3).
      destruct tcf as [c|].
      * destruct Hcf as [HX4 Htc]. set (s4 := set_prop_q [] s3) in *.
        assert (HM4 : forall M, smodels C s4 M <-> smodels C s3 M) by (intros M; apply smodels_q).
        assert (HS4 : step_post s s4) by (eapply step_trans; [exact HS3|apply step_grow; [apply grow_q|exact HM4]]).
        destruct (root_level s4) eqn:Er.
        -- split; [|discriminate]. apply post_stop; [exact HS4|discriminate|]. intros _. apply root_dlevel in Er. apply (InvX_doomed s4 HX4 Er).
           apply (root_conflict C s4 c (x_t _ _ HX4) Er); [apply Htc|]. intros M HM. apply Htc, HM4, HM.
        -- apply root_dlevel_false in Er. pose proof (sp_dl _ _ HS4) as Hd4.
           rewrite theory_resolve_eq; [|apply (x_t _ _ HX4)|apply (tc_len _ _ _ Htc); exact Er|apply Htc].
           destruct (resolve_step s4 c D HX4 Er ltac:(lia) (tc_false _ _ _ Htc) (tc_lvl _ _ _ Htc Er)) as (s5 & E5 & HI5 & HS5 & Hd5 & Hl5 & Hw5 & Hm5).
           { intros M HM. apply (tc_ent _ _ _ Htc), HM4, HM. }
           rewrite E5. cbn [rbind]. apply Hcont; [exact HI5|eapply step_trans; eassumption|].
           pose proof (wt_bound D s5 (i_t _ _ HI5)).
           change (wt D s4) with (wt D s3) in Hw5. change (wmax D s4) with (wmax D s3) in Hm5.
           unfold mu. rewrite Eq. cbn [length]. lia.
      * set (s4 := if root_level s3 then set_bounds (upd (bounds s3) (lvar p) []) s3 else s3).
        assert (HI4 : Inv C s4) by (apply (unbind_inv s s2 s3 p q); assumption).
        assert (HS4 : step_post s s4).
        { eapply step_trans; [exact HS3|]. unfold s4. destruct (root_level s3); [|apply step_grow; [apply grow_refl|reflexivity]].
          apply step_grow; [apply grow_b|]. intros M; split; intros [S1 S2 S3 S4]; constructor; assumption. }
        apply Hcont; [exact HI4|exact HS4|].
        assert (F : wt D s4 = wt D s3 /\ wmax D s4 = wmax D s3 /\ prop_q s4 = prop_q s3).
        { unfold s4. destruct (root_level s3); auto. }
        destruct F as (F1 & F2 & F3). unfold mu. rewrite F1, F2, F3, Eq. cbn [length].
        pose proof (wt_bound D s3 (i_t _ _ Hcf)). lia.
Qed.

Theorem propagate_ok D fuel (s : st) : Inv C s -> dlevel s <= D ->
  match propagate ops fuel s with
  | UB => False
  | OOF => th_total C -> fuel <= mu D s
  | Ok (s', b) => prop_post s s' b
  end.
Proof. intros HI HD. pose proof (propagate_ok_mu D fuel s HI HD) as H. destruct (propagate ops fuel s) as [[s' b]| |]; [apply H|exact H|exact H]. Qed.

(** Enough fuel. *)
Definition enough (s : st) : nat := S (2 * (nv s * nv s ^ dlevel s) + nv s).
Lemma mu_enough (s : st) : Inv C s -> mu (dlevel s) s < enough s.
Proof.
  intros HI. unfold mu, enough, wmax. pose proof (i_q _ _ HI) as HQ. pose proof (i_t _ _ HI) as HT.
  assert (Hl : length (prop_q s) <= length (trail s)).
  { apply NoDup_incl_length; [apply (q_nodup s HQ)|]. intros l Hl. apply (q_on s HQ l Hl). }
  pose proof (trail_len s HT). lia.
Qed.
Theorem propagate_total (s : st) fuel : Inv C s -> th_total C -> enough s <= fuel ->
  exists s' b, propagate ops fuel s = Ok (s', b) /\ prop_post s s' b.
Proof.
  intros HI Ht Hf. pose proof (propagate_ok (dlevel s) fuel s HI (le_n _)) as H.
  destruct (propagate ops fuel s) as [[s' b]| |]; [eauto|contradiction|].
  specialize (H Ht). pose proof (mu_enough s HI). lia.
Qed.
End Main.
