(** Backtracking: [pop_one], [pop], [backjump]. *)
From Verif Require Import Base Sat SatSpec SatInv.

Section Pop.
Context {T : Type} {ops : theory_ops T} (C : contract ops).
Notation st := (st T).

(** [s'] is [s] without the most recent assignments [rem]. *)
Record undo (s s' : st) (rem : list lit) : Prop := {
  u_trail : trail s = rem ++ trail s';
  u_keep : forall v, ~ In v (map lvar rem) ->
     assigns s' v = assigns s v /\ level s' v = level s v /\ reason s' v = reason s v;
  u_gone : forall v, In v (map lvar rem) -> assigns s' v = LUndef /\ level s' v = 0 /\ reason s' v = None;
  u_nv : nv s' = nv s;
  u_cls : cls s' = cls s;
  u_ncid : ncid s' = ncid s;
  u_constrs : constrs s' = constrs s;
  u_watches : watches s' = watches s;
  u_exprs : exprs s' = exprs s;
  u_bounds : bounds s' = bounds s;
  u_listening : listening s' = listening s;
  u_q : prop_q s' = prop_q s }.

Lemma undo_refl s : undo s s [].
Proof. constructor; try reflexivity; cbn; try tauto. Qed.
Lemma undo_trans s1 s2 s3 r1 r2 : undo s1 s2 r1 -> undo s2 s3 r2 -> undo s1 s3 (r1 ++ r2).
Proof.
  intros H1 H2. constructor; try (etransitivity; [apply H2|apply H1]).
  - rewrite (u_trail _ _ _ H1), (u_trail _ _ _ H2), app_assoc; reflexivity.
  - intros v Hv. rewrite map_app in Hv. 
    destruct (u_keep _ _ _ H1 v) as (A & B & D); [intros Hi; apply Hv, in_or_app; auto|].
    destruct (u_keep _ _ _ H2 v) as (A' & B' & D'); [intros Hi; apply Hv, in_or_app; auto|].
    repeat split; congruence.
  - intros v Hv. rewrite map_app in Hv.
    destruct (in_dec Nat.eq_dec v (map lvar r2)) as [Hi|Hi]; [apply (u_gone _ _ _ H2 v Hi)|].
    apply in_app_or in Hv as [Hv|Hv]; [|contradiction].
    destruct (u_keep _ _ _ H2 v Hi) as (-> & -> & ->). apply (u_gone _ _ _ H1 v Hv).
Qed.
Lemma undo_value s s' rem p : undo s s' rem -> ~ In (lvar p) (map lvar rem) -> value s' p = value s p.
Proof. intros H Hp. unfold value, vlit. destruct (u_keep _ _ _ H _ Hp) as (-> & _ & _). reflexivity. Qed.
Lemma undo_value_gone s s' rem p : undo s s' rem -> In (lvar p) (map lvar rem) -> value s' p = LUndef.
Proof. intros H Hp. apply value_undef. apply (u_gone _ _ _ H _ Hp). Qed.
Lemma undo_value_true s s' rem p : undo s s' rem -> value s' p <> LUndef ->
  ~ In (lvar p) (map lvar rem) /\ value s p = value s' p /\ level s' (lvar p) = level s (lvar p).
Proof.
  intros H Hp. destruct (in_dec Nat.eq_dec (lvar p) (map lvar rem)) as [Hi|Hi].
  - exfalso; apply Hp. apply (undo_value_gone s s' rem p H Hi).
  - split; [exact Hi|]. split; [symmetry; apply (undo_value s s' rem p H Hi)|].
    apply (u_keep _ _ _ H _ Hi).
Qed.
Lemma undo_pop1 s p tr : NoDup (map lvar (trail s)) -> trail s = p :: tr -> undo s (pop1 s p tr) [p].
Proof.
  intros Hn E. constructor; cbn; try reflexivity.
  - exact E.
  - intros v Hv. rewrite !upd_neq by (intros Ev; apply Hv; left; congruence). auto.
  - intros v [<-|[]]. rewrite !upd_eq; auto.
Qed.

Lemma smodels_ext (s s' : st) M : constrs s' = constrs s -> (forall c, In c (constrs s) -> cls s' c = cls s c) ->
  (forall p, value s p = LTrue /\ level s (lvar p) = 0 <-> value s' p = LTrue /\ level s' (lvar p) = 0) ->
  (forall t', In t' (theories s') -> exists t, In t (theories s) /\ forall M, th_model C t M -> th_model C t' M) ->
  smodels C s M -> smodels C s' M.
Proof.
  intros E1 E2 E3 E4 H. constructor.
  - apply (sm_false _ _ _ H).
  - intros c Hc. rewrite E1 in Hc. rewrite E2 by exact Hc. apply (sm_cls _ _ _ H c Hc).
  - intros p H1 H2. apply (sm_facts _ _ _ H); apply E3; auto.
  - intros t Ht. destruct (E4 t Ht) as (t0 & Ht0 & Hm). apply Hm, (sm_th _ _ _ H t0 Ht0).
Qed.
Lemma undo_smodels (s s' : st) rem : undo s s' rem -> (forall p, In p rem -> level s (lvar p) <> 0) ->
  theories s' = theories s -> forall M, smodels C s M <-> smodels C s' M.
Proof.
  intros H Hr Et M.
  assert (HF : forall p, value s p = LTrue /\ level s (lvar p) = 0 <-> value s' p = LTrue /\ level s' (lvar p) = 0).
  { intros p; split; intros [H1 H2].
    - assert (Hp : ~ In (lvar p) (map lvar rem)).
      { intros Hi. apply in_map_iff in Hi as (q & Eq & Hq). apply Hr in Hq. congruence. }
      rewrite (undo_value _ _ _ _ H Hp). destruct (u_keep _ _ _ H _ Hp) as (_ & -> & _); auto.
    - destruct (undo_value_true _ _ _ p H) as (A & B & D); [congruence|]. split; congruence. }
  split; apply smodels_ext; rewrite ?(u_constrs _ _ _ H), ?(u_cls _ _ _ H), ?Et; auto.
  - intros t Ht. exists t; auto.
  - intros p. symmetry. apply HF.
  - intros t Ht. exists t; auto.
Qed.

Lemma Inv_InvX (s : st) : Inv C s -> prop_q s = [] -> InvX C s.
Proof.
  intros [HT HC HR HW HQ HH] Hq. rewrite Hq in *. constructor; try assumption.
  - intros c Hc a b r E. destruct (HW c Hc a b r E) as [H1 H2].
    split; intros Hv; [destruct (H1 Hv) as [[]|]|destruct (H2 Hv) as [[]|]]; auto.
  - constructor.
    + intros i t Et. destruct (h_views _ _ _ s HH i t Et) as (vs & H1 & H2 & H3 & H4). exists vs.
      split; [exact H1|]. split; [exact H2|]. split.
      * intros j v l Ej _ Hl. apply (H3 j v l Ej); auto.
      * intros l Ha Hl. destruct (H4 l Ha Hl) as [[]|H5]; auto.
    + apply (h_range _ _ _ s HH).
    + intros i t v Et Ha Hv. apply (h_bound _ _ _ s HH i t v Et Ha). rewrite Hq. rewrite Hq in Hv. exact Hv.
    + apply (h_owned _ _ _ s HH).
    + apply (h_nodup _ _ _ s HH).
    + intros i t n v Et Hf _. apply (h_fixed _ _ _ s HH i t n v Et Hf). auto.
Qed.

(** Literals above the last separator have the current level. *)
Lemma sorted_hd_le n l : StronglySorted desc (n :: l) -> forall m, In m (n :: l) -> m <= n.
Proof.
  intros H m [->|Hm]; [lia|]. inversion H as [|? ? _ Hf]; subst.
  rewrite Forall_forall in Hf. exact (Hf m Hm).
Qed.
Lemma above_lim (s : st) n lims : InvT s -> trail_lim s = n :: lims -> n < length (trail s) -> above s.
Proof.
  intros H E Hn m Hm. rewrite E in Hm. pose proof (t_lim s H) as Hs. rewrite E in Hs.
  pose proof (sorted_hd_le n lims Hs m Hm). lia.
Qed.

Lemma pop_until_ok : forall f (s : st) n lims, InvX C s -> trail_lim s = n :: lims -> length (trail s) <= f + n ->
  exists s' rem, pop_until f s n = Ok s' /\ InvX C s' /\ length (trail s') = n /\
    undo s s' rem /\ (forall p, In p rem -> level s (lvar p) = dlevel s) /\
    trail_lim s' = trail_lim s /\ decisions s' = decisions s /\ theories s' = theories s.
Proof.
  induction f as [|f IH]; intros s n lims HX E Hf.
  - exists s, []. cbn [pop_until]. assert (length (trail s) = n).
    { pose proof (t_lim_le s (x_t _ _ HX) n). rewrite E in H. specialize (H (or_introl eq_refl)). cbn in Hf. lia. }
    split; [reflexivity|]. split; [exact HX|]. split; [assumption|]. split; [apply undo_refl|].
    split; [intros p []|auto].
  - cbn [pop_until]. destruct (Nat.ltb_spec n (length (trail s))) as [Hlt|Hge].
    + destruct (trail s) as [|p tr] eqn:Etr; [cbn in Hlt; lia|].
      rewrite (pop_one_ok s p tr Etr). cbn [rbind].
      assert (Hab : above s). { eapply above_lim; [apply HX|exact E|rewrite Etr; exact Hlt]. }
      assert (Hd : dlevel s <> 0) by (unfold dlevel; rewrite E; cbn; lia).
      destruct (IH (pop1 s p tr) n lims) as (s' & rem & E1 & H1 & H2 & H3 & H4 & H5 & H6 & H7).
      * apply InvX_pop1; assumption.
      * exact E.
      * cbn in Hf |- *. lia.
      * exists s', (p :: rem). split; [exact E1|]. split; [exact H1|]. split; [exact H2|].
        split. { change (p :: rem) with ([p] ++ rem). eapply undo_trans; [|exact H3].
                 apply undo_pop1; [apply (t_nodup s (x_t _ _ HX))|exact Etr]. }
        split.
        { intros q [<-|Hq]; [apply (above_level s p tr (x_t _ _ HX) Etr Hab)|].
          pose proof (t_nodup s (x_t _ _ HX)) as Hn. rewrite Etr in Hn; cbn in Hn.
          inversion Hn as [|? ? Hnp _]; subst.
          rewrite <- (level_pop1_neq s p tr).
          - apply (H4 q Hq).
          - intros Eq. apply Hnp. rewrite <- Eq. apply in_map.
            pose proof (u_trail _ _ _ H3) as Et. cbn in Et. rewrite Et. apply in_or_app; auto. }
        split; [rewrite H5; reflexivity|]. split; [rewrite H6; reflexivity|rewrite H7; reflexivity].
    + assert (length (trail s) = n).
      { pose proof (t_lim_le s (x_t _ _ HX) n). rewrite E in H. specialize (H (or_introl eq_refl)). lia. }
      exists s, [].
      split; [reflexivity|]. split; [exact HX|]. split; [assumption|]. split; [apply undo_refl|].
      split; [intros p []|auto].
Qed.

(** One step of backtracking. *)
Lemma pop_ok (s : st) : InvX C s -> dlevel s <> 0 ->
  exists s' rem, pop ops s = Ok s' /\ Inv C s' /\ prop_q s' = [] /\ settled C s' /\
    undo s s' rem /\ (forall p, In p rem -> level s (lvar p) = dlevel s) /\
    trail_lim s' = tl (trail_lim s) /\ decisions s' = tl (decisions s) /\
    length (trail s') = hd 0 (trail_lim s) /\ length (theories s') = length (theories s) /\
    (forall v, level s' v < dlevel s) /\
    (forall M, smodels C s M <-> smodels C s' M).
Proof.
  intros HX Hd. unfold dlevel in Hd. destruct (trail_lim s) as [|n lims] eqn:El; [cbn in Hd; lia|].
  destruct (pop_until_ok (length (trail s)) s n lims HX El) as (s1 & rem & E1 & HX1 & Hlen & HU & Hr & EL & ED & ET).
  { lia. }
  unfold pop. rewrite El, E1. cbn [rbind].
  destruct (decisions s1) as [|d ds] eqn:Ed.
  { exfalso. pose proof (t_dec s1 (x_t _ _ HX1)) as Hdec. rewrite Ed, EL, ?El in Hdec. discriminate. }
  pose proof (x_t _ _ HX1) as HT1. rewrite ?El in EL.
  set (s' := mk_st (nv s1) (cls s1) (ncid s1) (constrs s1) (watches s1) (assigns s1) (level s1)
           (reason s1) (prop_q s1) (trail s1) lims ds (exprs s1) (map (th_pop ops) (theories s1))
           (bounds s1) (listening s1) (log s1)).
  assert (Hlim : forall m, In m (trail_lim s1) -> m <= n).
  { intros m Hm. rewrite EL in Hm. apply (sorted_hd_le n lims); [|exact Hm].
    pose proof (t_lim s1 HT1) as Hs. rewrite EL in Hs. exact Hs. }
  assert (Hdl1 : dlevel s1 = S (length lims)) by (unfold dlevel; rewrite EL; reflexivity).
  assert (Hlv : forall v, level s1 v <= length lims).
  { intros v. destruct (Nat.eq_dec (level s1 v) 0) as [E0|E0]; [lia|].
    apply (t_on s1 HT1) in E0. apply in_map_iff in E0 as (q & <- & Hq).
    apply in_split in Hq as (pre & post & Eq). rewrite (t_level s1 HT1 _ _ _ Eq), EL.
    unfold lvl_at. cbn [filter]. assert (Hlt : length post < n).
    { rewrite <- Hlen, Eq, app_length; cbn; lia. }
    destruct (Nat.leb_spec n (length post)); [lia|]. apply filter_len_le. }
  assert (HT' : InvT s').
  { constructor; cbn [s' nv assigns level reason trail trail_lim decisions]; try apply HT1.
    - intros pre p post Eq. rewrite (t_level s1 HT1 _ _ _ Eq), EL. unfold lvl_at; cbn [filter].
      assert (Hlt : length post < n) by (rewrite <- Hlen, Eq, app_length; cbn; lia).
      destruct (Nat.leb_spec n (length post)); [lia|reflexivity].
    - pose proof (t_lim s1 HT1) as Hs. rewrite EL in Hs. inversion Hs; assumption.
    - intros m Hm. apply (t_lim_le s1 HT1). rewrite EL; right; exact Hm.
    - pose proof (t_dec s1 HT1) as Hdec. rewrite Ed, EL in Hdec. cbn in Hdec. lia.
    - intros p Hp. apply (t_drange s1 HT1). rewrite Ed; right; exact Hp.
    - intros pre p post Eq Hn Hl. destruct (t_rnone s1 HT1 _ _ _ Eq Hn Hl) as (k & Hk1 & Hk2).
      rewrite EL in Hk2. rewrite Ed in Hk1. destruct k as [|k].
      + cbn in Hk2. inversion Hk2. assert (length post < n) by (rewrite <- Hlen, Eq, app_length; cbn; lia). lia.
      + exists k; auto. }
  assert (HI : Inv C s').
  { constructor.
    - exact HT'.
    - apply (dead_ext s1); try reflexivity; [|apply HX1]. intros p; rewrite !dead_iff; auto.
    - destruct (x_r _ _ HX1) as [R1 R2 R3]. constructor; [exact R1|exact R2|exact R3].
    - cbn [prop_q s']. intros c Hc a b r Er. destruct (x_w _ _ HX1 c Hc a b r Er) as [H1 H2].
      split; intros Hv; right.
      + destruct (H1 Hv) as [H3|H3]; [|exact H3]. rewrite Hdl1 in H3. specialize (Hlv (lvar (negl a))). lia.
      + destruct (H2 Hv) as [H3|H3]; [|exact H3]. rewrite Hdl1 in H3. specialize (Hlv (lvar (negl b))). lia.
    - constructor; cbn [s' prop_q]; rewrite (x_q _ _ HX1); [intros p []|constructor].
    - pose proof (x_h _ _ HX1) as HH. constructor; cbn [s' theories nv assigns level bounds prop_q].
      + intros i t' Et. rewrite nth_error_map in Et. destruct (nth_error (theories s1) i) as [t|] eqn:Eti; [|discriminate].
        cbn in Et. inversion Et; subst t'.
        destruct (h_views _ _ _ s1 HH i t Eti) as (vs & H1 & H2 & H3 & H4). rewrite Hdl1 in H2, H3, H4.
        destruct vs as [|v [|w vs]]; [cbn in H2; lia|cbn in H2; lia|].
        destruct (c_pop ops C t v w vs H1) as (P1 & P2 & P3 & P4). exists (w :: vs).
        split; [exact P1|]. split; [cbn in H2 |- *; unfold dlevel; cbn [s' trail_lim]; lia|].
        unfold dlevel; cbn [s' trail_lim level]. split.
        * intros j x l Ej _ Hl. destruct (H3 (S j) x l Ej (or_intror (Nat.lt_0_succ j)) Hl) as [H5 H6].
          split; [exact H5|]. rewrite H6. lia.
        * intros l Ha Hl. apply P4 in Ha. destruct (H4 l Ha Hl) as [H5|(j & x & Ej & Hx & Elv)].
          -- specialize (Hlv (lvar l)). lia.
          -- right. destruct j as [|j]; [specialize (Hlv (lvar l)); lia|]. exists j, x.
             split; [exact Ej|]. split; [exact Hx|]. rewrite Elv. lia.
      + intros i t' v Et Ha. rewrite nth_error_map in Et. destruct (nth_error (theories s1) i) as [t|] eqn:Eti; [|discriminate].
        cbn in Et. inversion Et; subst t'. destruct (h_views _ _ _ s1 HH i t Eti) as (vs & H1 & H2 & _).
        rewrite Hdl1 in H2. destruct vs as [|x [|w vs]]; [cbn in H2; lia|cbn in H2; lia|].
        destruct (c_pop ops C t x w vs H1) as (_ & _ & _ & P4). apply (h_range _ _ _ s1 HH i t v Eti), P4, Ha.
      + intros i t' v Et Ha. rewrite nth_error_map in Et. destruct (nth_error (theories s1) i) as [t|] eqn:Eti; [|discriminate].
        cbn in Et. inversion Et; subst t'. destruct (h_views _ _ _ s1 HH i t Eti) as (vs & H1 & H2 & _).
        rewrite Hdl1 in H2. destruct vs as [|x [|w vs]]; [cbn in H2; lia|cbn in H2; lia|].
        destruct (c_pop ops C t x w vs H1) as (_ & _ & _ & P4). apply (h_bound _ _ _ s1 HH i t v Eti), P4, Ha.
      + intros i v Hi. destruct (h_owned _ _ _ s1 HH i v Hi) as (t & Et & Ha). exists (th_pop ops t).
        rewrite nth_error_map, Et. split; [reflexivity|].
        destruct (h_views _ _ _ s1 HH i t Et) as (vs & H1 & H2 & _).
        rewrite Hdl1 in H2. destruct vs as [|x [|w vs]]; [cbn in H2; lia|cbn in H2; lia|].
        destruct (c_pop ops C t x w vs H1) as (_ & _ & _ & P4). apply P4, Ha.
      + apply (h_nodup _ _ _ s1 HH).
      + intros i t' m v Et Hf _. rewrite nth_error_map in Et. destruct (nth_error (theories s1) i) as [t|] eqn:Eti; [|discriminate].
        cbn in Et. inversion Et; subst t'. destruct (h_views _ _ _ s1 HH i t Eti) as (vs & H1 & H2 & _).
        rewrite Hdl1 in H2. destruct vs as [|x [|w vs]]; [cbn in H2; lia|cbn in H2; lia|].
        apply (fx_pop _ _ _ _ (c_fixed ops C) t x w vs m v H1) in Hf.
        destruct (h_fixed _ _ _ s1 HH i t (S m) v Eti Hf (or_intror (Nat.lt_0_succ m))) as [H3 H4]. split; [exact H3|].
        rewrite Hdl1 in H4. unfold dlevel. cbn [s' trail_lim]. lia. }
  exists s', rem. split; [reflexivity|]. split; [exact HI|]. split; [exact (x_q _ _ HX1)|].
  split.
  { intros t' Ht'. cbn [s' theories] in Ht'. apply in_map_iff in Ht' as (t & <- & Ht).
    apply In_nth_error in Ht as (i & Et). destruct (h_views _ _ _ s1 (x_h _ _ HX1) i t Et) as (vs & H1 & H2 & _).
    rewrite Hdl1 in H2. destruct vs as [|x [|w vs]]; [cbn in H2; lia|cbn in H2; lia|].
    apply (c_pop ops C t x w vs H1). }
  split. { destruct HU; constructor; assumption. }
  split. { intros p Hp. apply Hr, Hp. }
  split; [reflexivity|]. split; [rewrite <- ED; reflexivity|]. split; [exact Hlen|].
  split. { cbn [s' theories]. rewrite map_length, ET; reflexivity. }
  split. { intros v. cbn [s' level]. specialize (Hlv v). unfold dlevel; rewrite El; cbn. lia. }
  intros M. rewrite (undo_smodels s s1 rem HU).
  - assert (HP : forall t, In t (theories s1) -> forall M, th_model C (th_pop ops t) M <-> th_model C t M).
    { intros t Ht. apply In_nth_error in Ht as (i & Et).
      destruct (h_views _ _ _ s1 (x_h _ _ HX1) i t Et) as (vs & H1 & H2 & _).
      rewrite Hdl1 in H2. destruct vs as [|x [|w vs]]; [cbn in H2; lia|cbn in H2; lia|].
      apply (c_pop ops C t x w vs H1). }
    split; apply smodels_ext; try reflexivity.
    + intros t' Ht'. cbn [s' theories] in Ht'. apply in_map_iff in Ht' as (t & <- & Ht).
      exists t. split; [exact Ht|]. intros M'. apply (HP t Ht).
    + intros t Ht. exists (th_pop ops t). split; [apply in_map, Ht|]. intros M'. apply (HP t Ht).
  - intros p Hp. rewrite (Hr p Hp). unfold dlevel; rewrite El; cbn; lia.
  - exact ET.
Qed.

Lemma pop_to_ok : forall n (s : st) lvl, InvX C s -> lvl < dlevel s -> dlevel s <= n + lvl ->
  exists s' rem, pop_to ops n s lvl = Ok s' /\ Inv C s' /\ prop_q s' = [] /\ settled C s' /\
    undo s s' rem /\ (forall p, In p rem -> lvl < level s (lvar p)) /\
    (forall v, level s' v <= lvl) /\
    dlevel s' = lvl /\
    trail_lim s' = skipn (dlevel s - lvl) (trail_lim s) /\
    decisions s' = skipn (dlevel s - lvl) (decisions s) /\
    length (theories s') = length (theories s) /\
    (forall M, smodels C s M <-> smodels C s' M).
Proof.
  induction n as [|n IH]; intros s lvl HX Hl Hn; [lia|].
  cbn [pop_to]. destruct (Nat.ltb_spec lvl (dlevel s)) as [_|]; [|lia].
  destruct (pop_ok s HX) as (s1 & r1 & E1 & HI1 & Hq1 & Hs1 & HU1 & Hr1 & EL1 & ED1 & Hlen1 & HT1 & Hv1 & HM1); [lia|].
  rewrite E1. cbn [rbind].
  assert (Hd1 : dlevel s1 = dlevel s - 1).
  { unfold dlevel. rewrite EL1. destruct (trail_lim s); cbn; lia. }
  assert (Hsk : forall A (l : list A) k, skipn k (tl l) = skipn (S k) l).
  { intros A l k. destruct l; [|reflexivity]. rewrite !skipn_nil; reflexivity. }
  destruct (Nat.eq_dec (dlevel s) (S lvl)) as [Ed|Ed].
  - exists s1, r1. destruct n as [|n].
    + cbn [pop_to]. destruct (Nat.ltb_spec lvl (dlevel s1)); [lia|].
      split; [reflexivity|]. split; [exact HI1|]. split; [exact Hq1|]. split; [exact Hs1|]. split; [exact HU1|].
      split; [intros p Hp; rewrite (Hr1 p Hp); lia|]. split; [intros v; specialize (Hv1 v); lia|].
      split; [lia|]. rewrite EL1, ED1. replace (dlevel s - lvl) with 1 by lia. 
      split; [destruct (trail_lim s); reflexivity|]. split; [destruct (decisions s); reflexivity|]. auto.
    + cbn [pop_to]. destruct (Nat.ltb_spec lvl (dlevel s1)); [lia|].
      split; [reflexivity|]. split; [exact HI1|]. split; [exact Hq1|]. split; [exact Hs1|]. split; [exact HU1|].
      split; [intros p Hp; rewrite (Hr1 p Hp); lia|]. split; [intros v; specialize (Hv1 v); lia|].
      split; [lia|]. rewrite EL1, ED1. replace (dlevel s - lvl) with 1 by lia. 
      split; [destruct (trail_lim s); reflexivity|]. split; [destruct (decisions s); reflexivity|]. auto.
  - destruct (IH s1 lvl) as (s2 & r2 & E2 & HI2 & Hq2 & Hs2 & HU2 & Hr2 & Hv2 & Hd2 & EL2 & ED2 & HT2 & HM2).
    + apply Inv_InvX; assumption.
    + lia.
    + lia.
    + exists s2, (r1 ++ r2). split; [exact E2|]. split; [exact HI2|]. split; [exact Hq2|]. split; [exact Hs2|].
      split; [eapply undo_trans; eassumption|].
      split.
      { intros p Hp. apply in_app_or in Hp as [Hp|Hp]; [rewrite (Hr1 p Hp); lia|].
        specialize (Hr2 p Hp). destruct (in_dec Nat.eq_dec (lvar p) (map lvar r1)) as [Hi|Hi].
        - destruct (u_gone _ _ _ HU1 _ Hi) as (_ & E0 & _). lia.
        - destruct (u_keep _ _ _ HU1 _ Hi) as (_ & E0 & _). lia. }
      split; [exact Hv2|]. split; [exact Hd2|].
      rewrite EL2, ED2, EL1, ED1, !Hsk, Hd1. replace (S (dlevel s - 1 - lvl)) with (dlevel s - lvl) by lia.
      split; [reflexivity|]. split; [reflexivity|]. split; [congruence|].
      intros M. rewrite HM1. apply HM2.
Qed.
Lemma backjump_ok (s : st) lvl : InvX C s -> lvl < dlevel s ->
  exists s' rem, backjump ops s lvl = Ok s' /\ Inv C s' /\ prop_q s' = [] /\ settled C s' /\
    undo s s' rem /\ (forall p, In p rem -> lvl < level s (lvar p)) /\
    (forall v, level s' v <= lvl) /\
    dlevel s' = lvl /\
    trail_lim s' = skipn (dlevel s - lvl) (trail_lim s) /\
    decisions s' = skipn (dlevel s - lvl) (decisions s) /\
    length (theories s') = length (theories s) /\
    (forall M, smodels C s M <-> smodels C s' M).
Proof. intros HX Hl. apply pop_to_ok; [exact HX|exact Hl|lia]. Qed.
Lemma backjump_none (s : st) lvl : dlevel s <= lvl -> backjump ops s lvl = Ok s.
Proof.
  intros H. unfold backjump. generalize (dlevel s) at 1; intros n.
  destruct n; cbn [pop_to]; destruct (Nat.ltb_spec lvl (dlevel s)); try lia; reflexivity.
Qed.
End Pop.
