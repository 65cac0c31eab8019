(** assume, pop, check, next. *)
From Verif Require Import Base Sat SatSpec SatInv SatPop SatImp SatRec SatAn SatProp SatLoop SatMain SatApi.

Section Api2.
Context {T : Type} {ops : theory_ops T} (C : contract ops).
Notation st := (st T).
Notation push_st := (@push_st T ops).
Notation assumed := (@assumed T ops).

(** [up s s']: [s'] is [s] with some more levels on top. *)
Record up (s s' : st) : Prop := {
  up_trail : exists ext, trail s' = ext ++ trail s /\
     (forall v, ~ In v (map lvar ext) ->
        assigns s' v = assigns s v /\ level s' v = level s v /\ reason s' v = reason s v) /\
     (forall v, In v (map lvar ext) -> assigns s v = LUndef /\ dlevel s < level s' v);
  up_lim : exists l, trail_lim s' = l ++ trail_lim s /\ (forall n, In n l -> length (trail s) <= n) ;
  up_dec : exists l, decisions s' = l ++ decisions s;
  up_nv : nv s' = nv s;
  up_exprs : exprs s' = exprs s;
  up_ths : length (theories s') = length (theories s);
  up_models : forall M, smodels C s' M <-> smodels C s M }.

Lemma up_refl s : up s s.
Proof.
  constructor; try reflexivity.
  - exists []. cbn. split; [reflexivity|]. split; [auto|tauto].
  - exists []. cbn. split; [reflexivity|]. intros n [].
  - exists []. reflexivity.
Qed.
Lemma up_dlevel s s' : up s s' -> dlevel s <= dlevel s'.
Proof. intros H. destruct (up_lim _ _ H) as (l & E & _). unfold dlevel. rewrite E, app_length. lia. Qed.
Lemma up_value s s' q : up s s' -> value s q <> LUndef ->
  value s' q = value s q /\ level s' (lvar q) = level s (lvar q).
Proof.
  intros H Hq. destruct (up_trail _ _ H) as (ext & _ & A & B).
  destruct (in_dec Nat.eq_dec (lvar q) (map lvar ext)) as [Hi|Hi].
  - exfalso. apply Hq, value_undef, B, Hi.
  - destruct (A _ Hi) as (E1 & E2 & _). unfold value, vlit. rewrite E1. auto.
Qed.
Lemma up_trans s1 s2 s3 : up s1 s2 -> up s2 s3 -> up s1 s3.
Proof.
  intros H1 H2. pose proof (up_dlevel _ _ H1) as Hd.
  destruct (up_trail _ _ H1) as (e1 & A1 & B1 & D1), (up_trail _ _ H2) as (e2 & A2 & B2 & D2).
  constructor.
  - exists (e2 ++ e1). split; [rewrite A2, A1, app_assoc; reflexivity|]. rewrite map_app. split.
    + intros v Hv. destruct (B1 v) as (P1 & P2 & P3); [intros Hi; apply Hv, in_or_app; auto|].
      destruct (B2 v) as (Q1 & Q2 & Q3); [intros Hi; apply Hv, in_or_app; auto|]. repeat split; congruence.
    + intros v Hv. destruct (in_dec Nat.eq_dec v (map lvar e2)) as [Hi|Hi].
      * destruct (D2 v Hi) as [E1 E2]. split; [|lia].
        destruct (in_dec Nat.eq_dec v (map lvar e1)) as [Hj|Hj]; [apply (D1 v Hj)|].
        destruct (B1 v Hj) as (<- & _). exact E1.
      * apply in_app_or in Hv as [Hv|Hv]; [contradiction|]. destruct (D1 v Hv) as [E1 E2].
        destruct (B2 v Hi) as (_ & -> & _). auto.
  - destruct (up_lim _ _ H1) as (l1 & E1 & F1), (up_lim _ _ H2) as (l2 & E2 & F2). exists (l2 ++ l1).
    split; [rewrite E2, E1, app_assoc; reflexivity|]. intros n Hn. apply in_app_or in Hn as [Hn|Hn].
    + apply F2 in Hn. rewrite A1, app_length in Hn. lia.
    + apply F1, Hn.
  - destruct (up_dec _ _ H1) as (l1 & E1), (up_dec _ _ H2) as (l2 & E2). exists (l2 ++ l1). rewrite E2, E1, app_assoc. reflexivity.
  - rewrite (up_nv _ _ H2). apply H1.
  - rewrite (up_exprs _ _ H2). apply H1.
  - rewrite (up_ths _ _ H2). apply H1.
  - intros M. rewrite (up_models _ _ H2). apply H1.
Qed.

(** One more level, and something propagated on it. *)
Lemma push_grow_up (s s' : st) p : quiet C s -> lvar p < nv s -> InvT s' ->
  grow (push_st s p) s' -> (forall M, smodels C s' M <-> smodels C s M) -> up s s'.
Proof.
  intros Hs Hp HT' Hg HM. destruct (gr_trail _ _ Hg) as (ext & A & B & D). cbn [push_st trail assigns level reason] in A, B, D.
  constructor.
  - exists ext. split; [exact A|]. split; [exact B|]. intros v Hv. split; [apply D, Hv|].
    apply in_map_iff in Hv as (q & <- & Hq). apply in_split in Hq as (l1 & l2 & Eq).
    assert (E : trail s' = l1 ++ q :: (l2 ++ trail s)) by (rewrite A, Eq, <- app_assoc; reflexivity).
    rewrite (t_level s' HT' _ _ _ E). rewrite (gr_lim _ _ Hg). cbn [push_st trail_lim].
    assert (El : lvl_at (length (trail s) :: trail_lim s) (length (l2 ++ trail s)) = S (dlevel s)); [|lia].
    apply (filter_len_all (fun n => n <=? length (l2 ++ trail s)) (length (trail s) :: trail_lim s)).
    intros n Hn. apply Nat.leb_le. rewrite app_length. destruct Hn as [<-|Hn]; [lia|].
    apply (t_lim_le s (i_t _ _ (qu_inv _ _ Hs))) in Hn. lia.
  - exists [length (trail s)]. split; [apply (gr_lim _ _ Hg)|]. intros n [<-|[]]. lia.
  - exists [p]. apply (gr_dec _ _ Hg).
  - apply (gr_nv _ _ Hg).
  - apply (gr_exprs _ _ Hg).
  - rewrite (gr_ths _ _ Hg). cbn. apply map_length.
  - exact HM.
Qed.

Lemma app_split_unique {A} (P : A -> Prop) : forall (l1 l3 l2 l4 : list A), l1 ++ l2 = l3 ++ l4 ->
  (forall x, In x l1 -> P x) -> (forall x, In x l3 -> P x) -> (forall x, In x l2 -> ~ P x) -> (forall x, In x l4 -> ~ P x) ->
  l1 = l3 /\ l2 = l4.
Proof.
  induction l1 as [|x l1 IH]; intros [|y l3] l2 l4 E H1 H3 H2 H4; cbn in *.
  - auto.
  - exfalso. subst l2. apply (H2 y); [left; reflexivity|]. apply H3; left; reflexivity.
  - exfalso. subst l4. apply (H4 x); [left; reflexivity|]. apply H1; left; reflexivity.
  - inversion E; subst. destruct (IH l3 l2 l4) as [-> ->]; auto.
Qed.

(** Going back to the level of [s]. *)
Record same_state (s s' : st) : Prop := {
  ss_assigns : forall v, assigns s' v = assigns s v;
  ss_level : forall v, level s' v = level s v;
  ss_reason : forall v, reason s' v = reason s v;
  ss_trail : trail s' = trail s;
  ss_lim : trail_lim s' = trail_lim s;
  ss_dec : decisions s' = decisions s;
  ss_nv : nv s' = nv s;
  ss_exprs : exprs s' = exprs s }.

Lemma up_undo (s s' s'' : st) rem : InvT s -> InvT s' -> up s s' -> undo s' s'' rem ->
  (forall p, In p rem -> dlevel s < level s' (lvar p)) -> (forall v, level s'' v <= dlevel s) ->
  length (decisions s'') = length (decisions s) ->
  trail_lim s'' = trail_lim s -> decisions s'' = decisions s -> same_state s s''.
Proof.
  intros HT HT' Hup HU Hrem Hlv Hld El Ed. destruct (up_trail _ _ Hup) as (ext & A & B & D).
  assert (Hvr : forall v, In v (map lvar rem) -> In v (map lvar ext)).
  { intros v Hv. destruct (in_dec Nat.eq_dec v (map lvar ext)) as [|Hn]; [assumption|exfalso].
    destruct (B v Hn) as (_ & E & _). apply in_map_iff in Hv as (p & <- & Hp). apply Hrem in Hp.
    pose proof (level_le s HT (lvar p)). lia. }
  assert (Hve : forall v, In v (map lvar ext) -> In v (map lvar rem)).
  { intros v Hv. destruct (in_dec Nat.eq_dec v (map lvar rem)) as [|Hn]; [assumption|exfalso].
    destruct (u_keep _ _ _ HU v Hn) as (_ & E & _). destruct (D v Hv) as [_ H]. specialize (Hlv v). lia. }
  assert (Hall : forall v, assigns s'' v = assigns s v /\ level s'' v = level s v /\ reason s'' v = reason s v).
  { intros v. destruct (in_dec Nat.eq_dec v (map lvar ext)) as [Hi|Hn].
    - destruct (D v Hi) as [E _]. destruct (t_undef s HT v E) as [E1 E2].
      destruct (u_gone _ _ _ HU v (Hve v Hi)) as (F1 & F2 & F3). rewrite F1, F2, F3. auto.
    - assert (Hr : ~ In v (map lvar rem)) by (intros H; apply Hn, Hvr, H).
      destruct (u_keep _ _ _ HU v Hr) as (F1 & F2 & F3). destruct (B v Hn) as (G1 & G2 & G3). rewrite F1, F2, F3. auto. }
  constructor; try (intros v; apply Hall); try assumption.
  - assert (E : rem ++ trail s'' = ext ++ trail s) by (rewrite <- (u_trail _ _ _ HU); exact A).
    apply (app_split_unique (fun q => dlevel s < level s' (lvar q))) in E; [apply E|exact Hrem| | |].
    + intros x Hx. apply D, in_map, Hx.
    + intros x Hx Hl. assert (Hn : ~ In (lvar x) (map lvar rem)).
      { intros Hi. pose proof (t_nodup s' HT') as Hnd. rewrite (u_trail _ _ _ HU), map_app in Hnd.
        apply (in_map lvar) in Hx. clear - Hnd Hi Hx. induction (map lvar rem) as [|y l IH]; cbn in *; [contradiction|].
        inversion Hnd; subst. destruct Hi as [->|Hi]; [|auto]. apply H1, in_or_app; auto. }
      destruct (u_keep _ _ _ HU _ Hn) as (_ & E2 & _). specialize (Hlv (lvar x)). lia.
    + intros x Hx Hl. assert (Hn : ~ In (lvar x) (map lvar ext)).
      { intros Hi. destruct (D _ Hi) as [E2 _]. apply value_undef in E2. rewrite (t_true s HT x Hx) in E2. discriminate. }
      destruct (B _ Hn) as (_ & E2 & _). pose proof (level_le s HT (lvar x)). lia.
  - rewrite (u_nv _ _ _ HU). apply Hup.
  - rewrite (u_exprs _ _ _ HU). apply Hup.
Qed.

(** [pop] after a conflict-free [assume]. *)
Theorem assume_pop (s s' : st) p fuel : quiet C s -> lvar p < nv s ->
  assume ops fuel s p = Ok (s', true) -> dlevel s' = S (dlevel s) ->
  exists s'', pop ops s' = Ok s'' /\ quiet C s'' /\ same_state s s'' /\ (forall M, smodels C s'' M <-> smodels C s M).
Proof.
  intros Hs Hp Ha Hd. pose proof (qu_inv _ _ Hs) as HI. pose proof (i_t _ _ HI) as HT.
  rewrite (assume_eq C) in Ha by assumption.
  destruct (assumed_ok C s p Hs Hp) as (HIa & HMa & Hga).
  assert (HP : prop_post C (assumed s p) s' true).
  { pose proof (propagate_ok C (dlevel (assumed s p)) fuel (assumed s p) HIa (le_n _)) as H.
    destruct (value s p); [discriminate| |]; rewrite Ha in H; exact H. }
  assert (Hda : dlevel (assumed s p) = S (dlevel s)) by (apply (grow_dlevel _ _ Hga)).
  assert (Hg : grow (push_st s p) s') by (eapply grow_trans; [exact Hga|apply (pp_grow _ _ _ _ HP); lia]).
  destruct (pp_true _ _ _ _ HP eq_refl) as (HI' & Hq' & Hs').
  assert (HM' : forall M, smodels C s' M <-> smodels C s M) by (intros M; rewrite (pp_models _ _ _ _ HP); apply HMa).
  assert (Hup : up s s') by (apply (push_grow_up s s' p); auto; apply HI').
  destruct (pop_ok C s' (Inv_InvX C s' HI' Hq') ltac:(lia)) as (s2 & rem & E & HI2 & Hq2 & Hs2 & HU & Hr & El & Ed & Hlen & Hth & Hlv & HM).
  exists s2. split; [exact E|]. split; [constructor; assumption|].
  assert (El2 : trail_lim s2 = trail_lim s) by (rewrite El, (gr_lim _ _ Hg); reflexivity).
  assert (Ed2 : decisions s2 = decisions s) by (rewrite Ed, (gr_dec _ _ Hg); reflexivity).
  split; [|intros M; rewrite <- HM; apply HM'].
  apply (up_undo s s' s2 rem HT (i_t _ _ HI') Hup HU); auto.
  - intros q Hq. rewrite (Hr q Hq). lia.
  - intros v. specialize (Hlv v). lia.
  - rewrite Ed2; reflexivity.
Qed.

(** ** [check] *)
Record check_false (s s' : st) (ls : list lit) : Prop := {
  cf_models : forall M, smodels C s' M <-> smodels C s M;
  cf_nv : nv s' = nv s;
  cf_exprs : exprs s' = exprs s;
  cf_no : forall M, smodels C s M -> exists d, In d (decisions s ++ ls) /\ mlit M d = false;
  cf_dec : skipn (dlevel s' - dlevel s) (decisions s') = skipn (dlevel s - dlevel s') (decisions s);
  cf_kept : kept s s';
  cf_state : quiet C s' \/ (doomed C s') }.

Lemma up_kept (s s' : st) : up s s' -> kept s s'.
Proof.
  intros H q Hq _. destruct (up_trail _ _ H) as (ext & _ & B & D).
  destruct (in_dec Nat.eq_dec (lvar q) (map lvar ext)) as [Hi|Hn].
  - destruct (D _ Hi) as [E _]. apply value_undef in E. congruence.
  - destruct (B _ Hn) as (E1 & E2 & _). split; [|exact E2]. unfold value, vlit in *. rewrite E1. exact Hq.
Qed.
Lemma undo_kept (s s' : st) rem : undo s s' rem -> (forall p, In p rem -> dlevel s' < level s (lvar p)) -> kept s s'.
Proof.
  intros H Hr q Hq Hl. destruct (in_dec Nat.eq_dec (lvar q) (map lvar rem)) as [Hi|Hn].
  - apply in_map_iff in Hi as (p & E & Hp). apply Hr in Hp. rewrite E in Hp. lia.
  - destruct (u_keep _ _ _ H _ Hn) as (E1 & E2 & _). split; [|exact E2]. unfold value, vlit in *. rewrite E1. exact Hq.
Qed.
Lemma grow_kept (s s' : st) : grow s s' -> forall q, value s q = LTrue -> value s' q = LTrue /\ level s' (lvar q) = level s (lvar q).
Proof.
  intros H q Hq. destruct (gr_trail _ _ H) as (ext & _ & B & D).
  destruct (in_dec Nat.eq_dec (lvar q) (map lvar ext)) as [Hi|Hn].
  - pose proof (D _ Hi) as E. apply value_undef in E. congruence.
  - destruct (B _ Hn) as (E1 & E2 & _). split; [|exact E2]. unfold value, vlit in *. rewrite E1. exact Hq.
Qed.
Lemma push_st_kept (s : st) p : kept s (push_st s p).
Proof. intros q Hq _. split; [exact Hq|reflexivity]. Qed.

Lemma propagate_quiet_grow fuel (s s' : st) b : quiet C s -> propagate ops fuel s = Ok (s', b) -> dlevel s' = dlevel s ->
  prop_post C s s' b.
Proof.
  intros Hs E Hd. pose proof (propagate_ok C (dlevel s) fuel s (qu_inv _ _ Hs) (le_n _)) as H. rewrite E in H. exact H.
Qed.

Lemma check_loop_ok fuel rl : forall ls (s : st), quiet C s -> (forall p, In p ls -> lvar p < nv s) ->
  match check_loop ops fuel s rl ls with
  | UB => False
  | OOF => th_total C -> fuel <= S (2 * (nv s * nv s ^ (dlevel s + length ls)) + nv s)
  | Ok (s', true) => quiet C s' /\ up s s' /\ dlevel s' = dlevel s + length ls /\ decisions s' = rev ls ++ decisions s
  | Ok (s', false) => check_false s s' ls
  end.
Proof.
  induction ls as [|p ls IH]; intros s Hs Hr; cbn [check_loop].
  { split; [exact Hs|]. split; [apply up_refl|]. split; [cbn; lia|reflexivity]. }
  assert (Hp : lvar p < nv s) by (apply Hr; left; reflexivity).
  pose proof (qu_inv _ _ Hs) as HI.
  rewrite (assume_eq C) by assumption. destruct (assumed_ok C s p Hs Hp) as (HIa & HMa & Hga).
  destruct (push_quiet C s p Hs Hp) as [Hqp HMp].
  assert (Hda : dlevel (assumed s p) = S (dlevel s)) by (apply (grow_dlevel _ _ Hga)).
  assert (Hnva : nv (assumed s p) = nv s) by (apply (gr_nv _ _ Hga)).
  assert (Hdeca : decisions (assumed s p) = p :: decisions s) by (apply (gr_dec _ _ Hga)).
  assert (Hfuel : forall n, fuel <= mu (dlevel (assumed s p)) (assumed s p) -> fuel <= S (2 * (nv s * nv s ^ (dlevel s + S n)) + nv s)).
  { intros n Hf. pose proof (mu_enough C _ HIa) as He. unfold enough in He. rewrite Hda in Hf. rewrite Hda, Hnva in He.
    assert (Hpw : nv s ^ S (dlevel s) <= nv s ^ (dlevel s + S n)) by (apply Nat.pow_le_mono_r; [pose proof (t_nv s (i_t _ _ HI)); lia|lia]).
    pose proof (Nat.mul_le_mono_l _ _ (nv s) Hpw). lia. }
  destruct (lbool_eqb_spec (value s p) LFalse) as [Ef|Ef].
  { rewrite Ef. cbn [rbind negb orb]. constructor; try reflexivity.
    - exact HMp.
    - intros M HM. destruct (mlit M p) eqn:Em; [|exists p; split; [apply in_or_app; right; left; reflexivity|exact Em]].
      destruct (conflict_decs1 C s [p] M) as (d & Hd & Ed); try apply HI; auto.
      + intros q [<-|[]]. exact Ef.
      + exists p. split; [left; reflexivity|exact Em].
      + exists d. split; [apply in_or_app; auto|exact Ed].
    - change (dlevel (push_st s p)) with (S (dlevel s)). rewrite Nat.sub_succ_l, Nat.sub_diag by lia. replace (dlevel s - S (dlevel s)) with 0 by lia. reflexivity.
    - apply push_st_kept.
    - left. exact Hqp. }
  assert (Eas : match value s p with LFalse => Ok (push_st s p, false) | _ => propagate ops fuel (assumed s p) end = propagate ops fuel (assumed s p)).
  { destruct (value s p); congruence. }
  rewrite Eas.
  pose proof (propagate_ok C (dlevel (assumed s p)) fuel (assumed s p) HIa (le_n _)) as HP.
  destruct (propagate ops fuel (assumed s p)) as [[s1 b1]| |] eqn:Ep; cbn [rbind]; [|exact HP|intros Ht; apply Hfuel, HP, Ht].
  (* what is known when the call stops below the new level *)
  assert (Hback : forall s2 b2, step_post C (assumed s p) s2 -> (b2 = true -> quiet C s2) -> (b2 = false -> doomed C s2) ->
     b2 = false \/ dlevel s2 <= dlevel s -> check_false s s2 (p :: ls)).
  { intros s2 b2 HS Ht Hf Hor. constructor.
    - intros M. rewrite (sp_models _ _ _ HS). apply HMa.
    - rewrite (sp_nv _ _ _ HS). exact Hnva.
    - rewrite (sp_exprs _ _ _ HS). apply (gr_exprs _ _ Hga).
    - intros M HM. apply HMa in HM. destruct b2.
      + destruct Hor as [?|Hor]; [discriminate|]. destruct (sp_back _ _ _ HS ltac:(lia) M HM) as (d & Hd & Ed).
        exists d. split; [|exact Ed]. rewrite Hdeca in Hd. apply in_or_app. destruct Hd as [<-|Hd]; [right; left; reflexivity|left; exact Hd].
      + exfalso. destruct (Hf eq_refl) as [_ Hu]. apply (Hu M). apply (sp_models _ _ _ HS), HM.
    - assert (Hl2 : dlevel s2 <= dlevel s) by (destruct b2; [destruct Hor; [discriminate|assumption]|destruct (Hf eq_refl); lia]).
      rewrite (sp_dec _ _ _ HS), Hdeca, Hda. replace (dlevel s2 - dlevel s) with 0 by lia. rewrite Nat.sub_succ_l by lia. reflexivity.
    - assert (Hl2 : dlevel s2 <= dlevel s) by (destruct b2; [destruct Hor; [discriminate|assumption]|destruct (Hf eq_refl); lia]).
      intros q Hq Hlq. destruct (grow_kept _ _ Hga q Hq) as [A1 A2]. destruct (sp_kept _ _ _ HS q A1) as [B1 B2]; [rewrite A2; exact Hlq|]. split; [exact B1|]. rewrite B2. exact A2.
    - destruct b2; [left; apply Ht; reflexivity|right; apply Hf; reflexivity]. }
  assert (Hpost : forall sa sb b, prop_post C sa sb b -> step_post C sa sb) by (intros sa sb b []; constructor; assumption).
  destruct b1.
  2:{ cbn [rbind negb orb]. apply (Hback s1 false); [eapply Hpost; exact HP|discriminate|apply HP|auto]. }
  assert (Hq1 : quiet C s1) by (destruct (pp_true _ _ _ _ HP eq_refl) as (A & B & D); constructor; assumption).
  pose proof (propagate_ok C (dlevel s1) fuel s1 (qu_inv _ _ Hq1) (le_n _)) as HP2.
  pose proof (pp_dl _ _ _ _ HP) as Hd1. pose proof (pp_nv _ _ _ _ HP) as Hn1.
  destruct (propagate ops fuel s1) as [[s2 b2]| |] eqn:Ep2; cbn [rbind]; [|exact HP2|].
  2:{ intros Ht. specialize (HP2 Ht). pose proof (mu_enough C s1 (qu_inv _ _ Hq1)) as He. unfold enough in He.
      rewrite Hn1, Hnva in He. cbn [length].
      assert (Hpw : nv s ^ dlevel s1 <= nv s ^ (dlevel s + S (length ls))) by (apply Nat.pow_le_mono_r; [pose proof (t_nv s (i_t _ _ HI)); lia|lia]).
      pose proof (Nat.mul_le_mono_l _ _ (nv s) Hpw). lia. }
  assert (HS2 : step_post C (assumed s p) s2) by (eapply step_trans; eapply Hpost; eassumption).
  destruct b2; cbn [negb orb].
  2:{ apply (Hback s2 false); [exact HS2|discriminate|apply HP2|auto]. }
  assert (Hq2 : quiet C s2) by (destruct (pp_true _ _ _ _ HP2 eq_refl) as (A & B & D); constructor; assumption).
  destruct (Nat.leb_spec (dlevel s2) (dlevel s)) as [Hle|Hlt].
  { apply (Hback s2 true); auto. discriminate. }
  pose proof (sp_dl _ _ _ HS2) as Hd2.
  assert (Hg2 : grow (push_st s p) s2) by (eapply grow_trans; [exact Hga|apply (sp_grow _ _ _ HS2); lia]).
  assert (HM2 : forall M, smodels C s2 M <-> smodels C s M) by (intros M; rewrite (sp_models _ _ _ HS2); apply HMa).
  assert (Hup : up s s2) by (apply (push_grow_up s s2 p); auto; apply Hq2).
  specialize (IH s2 Hq2). rewrite (up_nv _ _ Hup) in IH. specialize (IH ltac:(intros q Hq; apply Hr; right; exact Hq)).
  assert (Ed2 : dlevel s2 = S (dlevel s)) by lia.
  destruct (check_loop ops fuel s2 rl ls) as [[s3 [|]]| |]; [| |exact IH|].
  - destruct IH as (Hq3 & Hup3 & Hd3 & Hdec3). split; [exact Hq3|]. split; [eapply up_trans; eassumption|].
    split; [cbn; lia|]. rewrite Hdec3, (gr_dec _ _ Hg2). cbn. rewrite <- app_assoc. reflexivity.
  - destruct IH as [A B D E Fd Fk F]. constructor.
    + intros M. rewrite A. apply HM2.
    + rewrite B. apply (up_nv _ _ Hup).
    + rewrite D. apply (up_exprs _ _ Hup).
    + intros M HM. destruct (E M) as (d & Hd & Em); [apply HM2, HM|]. exists d. split; [|exact Em].
      rewrite (gr_dec _ _ Hg2) in Hd. cbn in Hd. rewrite in_app_iff in Hd |- *. cbn. tauto.
    + rewrite Ed2, (gr_dec _ _ Hg2) in Fd. destruct (Nat.le_gt_cases (dlevel s3) (dlevel s)) as [Hc|Hc].
      * replace (dlevel s3 - dlevel s) with 0 by lia. replace (dlevel s3 - S (dlevel s)) with 0 in Fd by lia. rewrite Nat.sub_succ_l in Fd by lia. exact Fd.
      * replace (dlevel s3 - dlevel s) with (dlevel s3 - S (dlevel s) + 1) by lia. rewrite <- skipn_skipn, Fd.
        replace (S (dlevel s) - dlevel s3) with 0 by lia. replace (dlevel s - dlevel s3) with 0 by lia. reflexivity.
    + intros q Hq Hl. destruct (up_kept _ _ Hup q Hq) as [A1 A2].
      { destruct (up_trail _ _ Hup) as (ext & _ & HB & HD). pose proof (level_le s (i_t _ _ HI) (lvar q)). lia. }
      destruct (Fk q A1) as [B1 B2]; [rewrite A2; exact Hl|]. split; [exact B1|]. rewrite B2; exact A2.
    + exact F.
  - intros Ht. specialize (IH Ht). rewrite Ed2 in IH. cbn [length]. replace (dlevel s + S (length ls)) with (S (dlevel s) + length ls) by lia. exact IH.
Qed.

Theorem check_ok fuel (s : st) ls : quiet C s -> (forall p, In p ls -> lvar p < nv s) ->
  match check ops fuel s ls with
  | UB => False
  | OOF => th_total C -> fuel <= S (2 * (nv s * nv s ^ (dlevel s + length ls)) + nv s)
  | Ok (s', b) => (forall M, smodels C s' M <-> smodels C s M) /\ dlevel s' <= dlevel s /\ nv s' = nv s /\ exprs s' = exprs s /\
     (quiet C s' \/ (doomed C s')) /\
     if b then quiet C s' /\ same_state s s'
     else (forall M, smodels C s M -> exists d, In d (decisions s ++ ls) /\ mlit M d = false) /\
       decisions s' = skipn (dlevel s - dlevel s') (decisions s) /\ kept s s'
  end.
Proof.
  intros Hs Hr. unfold check. pose proof (check_loop_ok fuel (dlevel s) ls s Hs Hr) as H.
  destruct (check_loop ops fuel s (dlevel s) ls) as [[s1 [|]]| |]; cbn [rbind]; [| |exact H|exact H].
  - destruct H as (Hq1 & Hup & Hd & Hdec). rewrite Hd, Nat.eqb_refl. cbn [guard].
    pose proof (qu_inv _ _ Hs) as HI. pose proof (qu_inv _ _ Hq1) as HI1.
    destruct (Nat.eq_dec (length ls) 0) as [E0|E0].
    + rewrite (backjump_none s1 (dlevel s)) by lia. cbn [rbind].
      destruct ls; [|discriminate]. cbn in Hdec, Hd.
      split; [apply (up_models _ _ Hup)|]. split; [lia|]. split; [apply (up_nv _ _ Hup)|]. split; [apply (up_exprs _ _ Hup)|]. split; [auto|]. split; [exact Hq1|].
      destruct (up_lim _ _ Hup) as (l & El & _). assert (l = []).
      { apply length_zero_iff_nil. unfold dlevel in Hd. rewrite El, app_length in Hd. lia. } subst l. cbn in El.
      apply (up_undo s s1 s1 []); try apply HI; try apply HI1; auto; try apply undo_refl.
      * intros q [].
      * intros v. pose proof (level_le s1 (i_t _ _ HI1) v). lia.
      * rewrite Hdec. reflexivity.
    + destruct (backjump_ok C s1 (dlevel s) (Inv_InvX C s1 HI1 (qu_q _ _ Hq1)) ltac:(lia))
        as (s2 & rem & E & HI2 & Hq2 & Hs2 & HU & Hrem & Hlv & Hd2 & El & Ed & Hth & HM).
      rewrite E. cbn [rbind].
      assert (Hq2' : quiet C s2) by (constructor; assumption).
      split; [intros M; rewrite <- HM; apply (up_models _ _ Hup)|]. split; [lia|].
      split; [rewrite (u_nv _ _ _ HU); apply (up_nv _ _ Hup)|]. split; [rewrite (u_exprs _ _ _ HU); apply (up_exprs _ _ Hup)|]. split; [auto|]. split; [exact Hq2'|].
      assert (Ed2 : decisions s2 = decisions s).
      { rewrite Ed, Hdec, Hd. replace (dlevel s + length ls - dlevel s) with (length (rev ls)) by (rewrite rev_length; lia).
        rewrite skipn_app, skipn_all, Nat.sub_diag. reflexivity. }
      assert (El2 : trail_lim s2 = trail_lim s).
      { destruct (up_lim _ _ Hup) as (l & E1 & _). rewrite El, E1, Hd.
        assert (length l = length ls) by (unfold dlevel in Hd; rewrite E1, app_length in Hd; lia).
        replace (dlevel s + length ls - dlevel s) with (length l) by lia.
        rewrite skipn_app, skipn_all, Nat.sub_diag. reflexivity. }
      apply (up_undo s s1 s2 rem); try apply HI; try apply HI1; auto. rewrite Ed2; reflexivity.
  - destruct H as [A B D E Fd Fk F].
    destruct (Nat.lt_ge_cases (dlevel s) (dlevel s1)) as [Hlt|Hge].
    + destruct F as [[HI1 Hq1 _]|[Hz _]]; [|lia].
      destruct (backjump_ok C s1 (dlevel s) (Inv_InvX C s1 HI1 Hq1) Hlt)
        as (s2 & rem & E2 & HI2 & Hq2 & Hs2 & HU & Hrem & Hlv & Hd2 & El & Ed & Hth & HM).
      rewrite E2. cbn [rbind]. split; [intros M; rewrite <- HM; apply A|]. split; [lia|].
      split; [rewrite (u_nv _ _ _ HU); exact B|]. split; [rewrite (u_exprs _ _ _ HU); exact D|]. split; [left; constructor; assumption|].
      split; [exact E|]. split; [rewrite Ed, Fd, Hd2; replace (dlevel s - dlevel s1) with 0 by lia; rewrite Nat.sub_diag; reflexivity|].
      intros q Hq Hl. destruct (Fk q Hq) as [B1 B2]; [lia|]. destruct (undo_kept _ _ _ HU) with (q := q) as [D1 D2]; auto.
      * intros p Hp. rewrite Hd2. apply Hrem, Hp.
      * rewrite B2. exact Hl.
      * split; [exact D1|]. rewrite D2; exact B2.
    + rewrite (backjump_none s1 (dlevel s)) by lia. cbn [rbind].
      split; [exact A|]. split; [lia|]. split; [exact B|]. split; [exact D|]. split; [exact F|]. split; [exact E|].
      split; [|exact Fk]. replace (dlevel s1 - dlevel s) with 0 in Fd by lia. exact Fd.
Qed.
End Api2.
