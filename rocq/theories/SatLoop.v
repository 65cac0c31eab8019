(** The propagation loop: watch lists, theories, conflicts, termination. *)
From Verif Require Import Base Sat SatSpec SatInv SatPop SatRec SatAn SatProp.

Section Loop.
Context {T : Type} {ops : theory_ops T} (C : contract ops).
Notation st := (st T).
Notation record := (Sat.record ops).
Notation recorded := (SatRec.recorded (ops := ops)).
Notation rec_lits := (SatRec.rec_lits (ops := ops)).

(** What is enqueued between two states of the same iteration. *)
Definition pushed (s s' : st) : Prop :=
  exists ext, trail s' = ext ++ trail s /\ prop_q s' = prop_q s ++ ext.
Lemma pushed_refl s : pushed s s.
Proof. exists []. rewrite app_nil_r. auto. Qed.
Lemma pushed_trans s1 s2 s3 : pushed s1 s2 -> pushed s2 s3 -> exists ext, trail s3 = ext ++ trail s1 /\ (forall l, In l (prop_q s3) <-> In l (prop_q s1) \/ In l ext) /\ length (prop_q s3) = length (prop_q s1) + length ext.
Proof.
  intros (e1 & A1 & B1) (e2 & A2 & B2). exists (e2 ++ e1). split; [rewrite A2, A1, app_assoc; reflexivity|].
  split.
  - intros l. rewrite B2, B1, !in_app_iff. tauto.
  - rewrite B2, B1, !app_length. lia.
Qed.
(** The same, forgetting the order. *)
Definition pushes (s s' : st) : Prop :=
  exists ext, trail s' = ext ++ trail s /\ (forall l, In l (prop_q s') <-> In l (prop_q s) \/ In l ext) /\
    length (prop_q s') = length (prop_q s) + length ext.
Lemma pushes_refl s : pushes s s.
Proof. exists []. cbn. split; [reflexivity|]. split; [tauto|lia]. Qed.
Lemma pushed_pushes s s' : pushed s s' -> pushes s s'.
Proof. intros H. apply (pushed_trans s s s' (pushed_refl s) H). Qed.
Lemma pushes_trans s1 s2 s3 : pushes s1 s2 -> pushes s2 s3 -> pushes s1 s3.
Proof.
  intros (e1 & A1 & B1 & D1) (e2 & A2 & B2 & D2). exists (e2 ++ e1). split; [rewrite A2, A1, app_assoc; reflexivity|].
  split; [|rewrite app_length; lia]. intros l. rewrite B2, B1, in_app_iff. tauto.
Qed.

Lemma InvG_mono (wp wp' tp tp' : nat -> lit -> Prop) (s : st) :
  (forall k l, wp k l -> wp' k l) -> (forall k l, tp k l -> tp' k l) -> InvG C wp tp s -> InvG C wp' tp' s.
Proof.
  intros Hw Ht [A B D E F G]. constructor; try assumption.
  - intros c Hc a b r Ec. destruct (E c Hc a b r Ec) as [H1 H2].
    split; intros Hv; [destruct (H1 Hv)|destruct (H2 Hv)]; auto.
  - eapply InvTh_mono; [exact Ht|exact G].
Qed.
Lemma InvC_watch_ext (s : st) w : (forall p, w p = watches s p) -> InvC s -> InvC (set_watches w s).
Proof.
  intros E H. constructor; try apply H; cbn [set_watches watches cls constrs].
  - intros c Hc p. rewrite E. apply (c_watch s H c Hc).
  - intros c p. rewrite E. apply (c_owned s H).
Qed.
Lemma InvG_watch_ext wp tp (s : st) w : (forall p, w p = watches s p) -> InvG C wp tp s -> InvG C wp tp (set_watches w s).
Proof.
  intros Ew [A B D E F G]. constructor; try assumption.
  - eapply InvT_ext; [..|exact A]; reflexivity.
  - apply InvC_watch_ext; assumption.
  - destruct D; constructor; assumption.
  - eapply InvQ_ext; [..|exact F]; reflexivity.
  - eapply InvTh_ext; [..|exact G]; reflexivity.
Qed.
Lemma updl_nil (w : lit -> list nat) p q : updl w p (w p ++ []) q = w q.
Proof. unfold updl. destruct (lit_eqb_spec q p) as [->|]; [apply app_nil_r|reflexivity]. Qed.

(** The start of an iteration. *)
Lemma start_ok (s : st) p q : Inv C s -> prop_q s = p :: q ->
  let s1 := set_watches (updl (watches s) p []) (set_prop_q q s) in
  InvG C (wpend s1 p (watches s p)) (fun i l => (l = p /\ In i (bounds s (lvar p))) \/ In l q) (vst s1 p (watches s p)).
Proof.
  intros [HT HC HR HW HQ HH] Eq s1.
  assert (Ew : forall x, watches (vst s1 p (watches s p)) x = watches s x).
  { intros x. cbn. unfold updl at 1. destruct (lit_eqb_spec x p) as [->|Hx].
    - rewrite updl_eq. reflexivity.
    - unfold updl. destruct (lit_eqb_spec x p); [contradiction|reflexivity]. }
  constructor.
  - eapply InvT_ext; [..|exact HT]; reflexivity.
  - assert (H0 : InvC (set_watches (watches (vst s1 p (watches s p))) s)) by (apply InvC_watch_ext; assumption).
    destruct H0; constructor; assumption.
  - destruct HR; constructor; assumption.
  - intros c Hc a b r E. change (constrs _) with (constrs s) in Hc. change (cls _ c) with (cls s c) in E.
    destruct (HW c Hc a b r E) as [H1 H2].
    assert (Hp : forall x, x = a \/ x = b -> In (negl x) (p :: q) -> wpend s1 p (watches s p) c (negl x)).
    { intros x Hx [H|H]; [|left; exact H]. right. split; [auto|].
      apply (count_occ_In Nat.eq_dec). rewrite (c_watch s HC c Hc), E. cbn [wcount].
      destruct Hx as [<-|<-]; rewrite <- H, lit_eqb_refl; cbn [b2n]; lia. }
    rewrite Eq in H1, H2.
    split; intros Hv; [destruct (H1 Hv) as [H|H]|destruct (H2 Hv) as [H|H]]; auto.
  - constructor.
    + intros x Hx. apply (q_on s HQ). rewrite Eq. right; exact Hx.
    + pose proof (q_nodup s HQ) as Hn. rewrite Eq in Hn. inversion Hn; assumption.
  - constructor.
    + intros i t Et. destruct (h_views _ _ _ _ HH i t Et) as (vs & H1 & H2 & H3 & H4). exists vs.
      split; [exact H1|]. split; [exact H2|]. split; [exact H3|].
      intros l Ha Hl. destruct (H4 l Ha Hl) as [H5|H5]; [left|right; exact H5].
      rewrite Eq in H5. destruct H5 as [->|H5]; [left|right; exact H5]. split; [reflexivity|].
      apply (h_bound _ _ _ _ HH i t (lvar l) Et Ha). right; right. exists l. rewrite Eq. split; [reflexivity|left; reflexivity].
    + apply (h_range _ _ _ _ HH).
    + intros i t v Et Ha [H|[H|(l & El & Hl)]]; apply (h_bound _ _ _ _ HH i t v Et Ha); auto.
      right; right. exists l. rewrite Eq. split; [exact El|right; exact Hl].
    + apply (h_owned _ _ _ _ HH).
    + apply (h_nodup _ _ _ _ HH).
    + apply (h_fixed _ _ _ _ HH).
Qed.

Lemma prop_clauses_ok (tp : nat -> lit -> Prop) p : forall r (s : st),
  InvG C (wpend s p r) (fun i l => tp i l \/ In l (prop_q s)) (vst s p r) ->
  value s p = LTrue -> level s (lvar p) = dlevel s ->
  exists s' o, prop_clauses s p r = Ok (s', o) /\
    (forall M, smodels C s' M <-> smodels C s M) /\ grow s s' /\ theories s' = theories s /\ bounds s' = bounds s /\
    pushes s s' /\
    match o with
    | None => InvG C (fun _ l => In l (prop_q s')) (fun i l => tp i l \/ In l (prop_q s')) s'
    | Some c => InvG C (fun _ l => In l (prop_q s') \/ l = p) (fun i l => tp i l \/ In l (prop_q s')) s' /\
         In c (constrs s') /\ (forall q, In q (cls s' c) -> value s' q = LFalse) /\ In (negl p) (cls s' c)
    end.
Proof.
  induction r as [|c r IH]; intros s HG Hp Hl.
  - exists s, None. split; [reflexivity|]. split; [reflexivity|]. split; [apply grow_refl|].
    split; [reflexivity|]. split; [reflexivity|]. split; [apply pushes_refl|].
    apply (InvG_watch_ext _ _ _ (watches s)) in HG; [|intros x; symmetry; apply updl_nil].
    assert (E : set_watches (watches s) (vst s p []) = s) by (destruct s; reflexivity). rewrite E in HG.
    eapply InvG_mono; [| |exact HG]; cbn; auto. intros k l [H|[_ []]]; exact H.
  - destruct (clause_propagate_ok C _ s c p r HG Hp Hl) as (s1 & b & E & HM & Hg & Et & Eb & Hps & Hb).
    cbn [prop_clauses]. rewrite E. cbn [rbind]. destruct b.
    + assert (Hin : forall l, In l (prop_q s) -> In l (prop_q s1)).
      { destruct Hps as (ext & _ & ->). intros l H. apply in_or_app; auto. }
      destruct (IH s1) as (s' & o & E2 & HM2 & Hg2 & Et2 & Eb2 & Hps2 & Ho).
      * eapply InvG_mono; [| |exact Hb]; cbn; auto. intros k l [[H|H]|H]; auto.
      * rewrite (proj1 (grow_value _ _ p Hg ltac:(congruence))). exact Hp.
      * rewrite (proj2 (grow_value _ _ p Hg ltac:(congruence))), (grow_dlevel _ _ Hg). exact Hl.
      * exists s', o. split; [exact E2|]. split; [intros M; rewrite HM2; apply HM|].
        split; [eapply grow_trans; eassumption|]. split; [congruence|]. split; [congruence|].
        split; [eapply pushes_trans; [apply pushed_pushes, Hps|exact Hps2]|exact Ho].
    + destruct Hb as (HG1 & Hc & Hfal & Hnp & Etr). exists (vst s1 p r), (Some c).
      split; [reflexivity|].
      split; [intros M; rewrite <- HM; split; intros [S1 S2 S3 S4]; constructor; assumption|].
      split; [eapply grow_trans; [exact Hg|]; constructor; try reflexivity; exists []; cbn; split; [reflexivity|]; split; [auto|tauto]|].
      split; [exact Et|]. split; [exact Eb|]. split; [exact (pushed_pushes s (vst s1 p r) Hps)|].
      split; [|split; [exact Hc|split; assumption]].
      assert (Epq : prop_q s1 = prop_q s).
      { destruct Hps as (ext & E1 & E2). rewrite Etr in E1. destruct ext; [rewrite app_nil_r in E2; exact E2|].
        apply (f_equal (@length _)) in E1. cbn in E1. rewrite app_length in E1. lia. }
      eapply InvG_mono; [| |exact HG1]; cbn.
      * intros k l [H|[H _]]; auto.
      * rewrite Epq. auto.
Qed.

(** Entering the conflict phase. *)
Lemma InvG_conflict (wp tp : nat -> lit -> Prop) (s : st) :
  InvG C wp tp s -> (forall k l, wp k l -> level s (lvar l) = dlevel s) ->
  (forall k l, tp k l -> level s (lvar l) = dlevel s) -> InvX C (set_prop_q [] s).
Proof.
  intros [HT HC HR HW HQ HH] Hw Ht. constructor.
  - eapply InvT_ext; [..|exact HT]; reflexivity.
  - destruct HC; constructor; assumption.
  - destruct HR; constructor; assumption.
  - intros c Hc a b r E. destruct (HW c Hc a b r E) as [H1 H2].
    split; intros Hv; [destruct (H1 Hv) as [H|H]|destruct (H2 Hv) as [H|H]]; auto; left; eapply Hw; exact H.
  - reflexivity.
  - constructor.
    + intros i t Et. destruct (h_views _ _ _ _ HH i t Et) as (vs & H1 & H2 & H3 & H4). exists vs.
      split; [exact H1|]. split; [exact H2|]. split; [intros j v l Ej _; apply (H3 j v l Ej); auto|].
      intros l Ha Hl. destruct (H4 l Ha Hl) as [H5|H5]; [left; eapply Ht; exact H5|right; exact H5].
    + apply (h_range _ _ _ _ HH).
    + intros i t v Et Ha [H|[H|(l & _ & [])]]; apply (h_bound _ _ _ _ HH i t v Et Ha); auto.
    + apply (h_owned _ _ _ _ HH).
    + apply (h_nodup _ _ _ _ HH).
    + intros i t n v Et Hf _. apply (h_fixed _ _ _ _ HH i t n v Et Hf). auto.
Qed.
Lemma smodels_q (s : st) q M : smodels C (set_prop_q q s) M <-> smodels C s M.
Proof. split; intros [S1 S2 S3 S4]; constructor; assumption. Qed.

(** A clause whose literals are all false at root level: no model. *)
Lemma root_conflict (s : st) c : InvT s -> dlevel s = 0 -> (forall q, In q c -> value s q = LFalse) ->
  (forall M, smodels C s M -> mcl M c) -> unsat C s.
Proof.
  intros HT Hd Hf He M HM. destruct (He M HM) as (q & Hq & E). apply Hf in Hq. apply value_false_true in Hq.
  apply (sm_facts _ _ _ HM) in Hq; [rewrite mlit_negl, E in Hq; discriminate|].
  pose proof (level_le s HT (lvar (negl q))). lia.
Qed.

(** ** Theories. *)
Lemma lemmas_ext up tm atom p val ls val' : lemmas_at up tm atom p val ls val' ->
  forall val2, (forall q, val q = val2 q) -> exists val2', lemmas_at up tm atom p val2 ls val2' /\ forall q, val' q = val2' q.
Proof.
  induction 1 as [val|val l0 tl r val' Hu Ha Hf Hn Hd Hv _ IH]; intros val2 E.
  - exists val2. split; [constructor|exact E].
  - destruct (IH (ov val2 l0)) as (val2' & H1 & H2).
    { intros q. unfold ov. rewrite E. reflexivity. }
    exists val2'. split; [|exact H2]. constructor; try assumption.
    + rewrite <- E; exact Hu.
    + eapply Forall_impl; [|exact Hf]. cbn. intros q Hq. rewrite <- E; exact Hq.
Qed.

Lemma lemmas_keep up tm atom p val ls val' : lemmas_at up tm atom p val ls val' -> forall q, val q <> LUndef -> val' q <> LUndef.
Proof.
  induction 1 as [val|val l0 tl r val' A B D E F G _ IH]; intros q Hq; [exact Hq|]. apply IH. unfold ov.
  destruct (lit_eqb q l0); [discriminate|]. destruct (lit_eqb q (negl l0)); [discriminate|exact Hq].
Qed.
Lemma lemmas_heads up tm atom p val ls val' : lemmas_at up tm atom p val ls val' -> forall l0 tl, In (l0 :: tl) ls -> val' l0 <> LUndef.
Proof.
  induction 1 as [val|val l0 tl r val' A B D E F G HL IH]; intros l1 tl1 Hi; [destruct Hi|]. destruct Hi as [Hi|Hi]; [|apply (IH _ _ Hi)].
  injection Hi as <- <-. apply (lemmas_keep _ _ _ _ _ _ _ HL). unfold ov. rewrite lit_eqb_refl. discriminate.
Qed.
Lemma recorded_theories (s : st) X l0 tl : recorded (set_theories X s) l0 tl = set_theories X (recorded s l0 tl).
Proof. unfold SatRec.recorded, SatRec.rec_lits. destruct tl as [|x tl]; [reflexivity|]. cbn [set_theories level].
  destruct (srt (sorter := th_sort ops) (fun l => level s (lvar l)) (x :: tl)); reflexivity. Qed.
Lemma recorded_same (s : st) l0 tl : theories (recorded s l0 tl) = theories s /\ bounds (recorded s l0 tl) = bounds s /\
  trail (recorded s l0 tl) = l0 :: trail s /\ prop_q (recorded s l0 tl) = prop_q s ++ [l0].
Proof. unfold SatRec.recorded, SatRec.rec_lits. destruct tl as [|x tl]; [repeat split|].
  destruct (srt (sorter := th_sort ops) (fun l => level s (lvar l)) (x :: tl)); repeat split. Qed.
Lemma recorded_value (s : st) l0 tl q : value (recorded s l0 tl) q = ov (value s) l0 q.
Proof. unfold SatRec.recorded, SatRec.rec_lits. destruct tl as [|x tl]; [apply value_enq|]. rewrite value_enq.
  destruct (srt (sorter := th_sort ops) (fun l => level s (lvar l)) (x :: tl)); reflexivity. Qed.

Lemma root_level0 (s : st) q : InvT s -> dlevel s = 0 -> level s (lvar q) = dlevel s.
Proof. intros HT Hd. pose proof (level_le s HT (lvar q)). lia. Qed.
Lemma lemmas_record (up : Prop) tm atom (tp : nat -> lit -> Prop) p : forall ls val val' (s : st),
  lemmas_at up tm atom p val ls val' -> (dlevel s <> 0 -> up) -> (forall q, val q = value s q) ->
  (forall v, atom v -> v < nv s) -> (forall M, smodels C s M -> tm M) ->
  InvG C (fun _ l => In l (prop_q s)) (fun i l => tp i l \/ In l (prop_q s)) s ->
  value s p = LTrue -> level s (lvar p) = dlevel s ->
  exists s', (forall X, rfold record ls (set_theories X s) = Ok (set_theories X s')) /\
    InvG C (fun _ l => In l (prop_q s')) (fun i l => tp i l \/ In l (prop_q s')) s' /\
    grow s s' /\ (forall M, smodels C s' M <-> smodels C s M) /\ theories s' = theories s /\ bounds s' = bounds s /\
    pushes s s' /\ (forall q, val' q = value s' q).
Proof.
  induction ls as [|c ls IH]; intros val val' s HL Hup Hval Hat Htm HG Hp Hlp.
  - inversion HL; subst. exists s. split; [reflexivity|]. split; [exact HG|]. split; [apply grow_refl|].
    split; [reflexivity|]. split; [reflexivity|]. split; [reflexivity|]. split; [apply pushes_refl|exact Hval].
  - inversion HL as [|? l0 tl r ? Hu Ha Hf Hn Hd Hv HL']; subst.
    rewrite Forall_forall in Hf.
    assert (Hf' : forall q, In q tl -> value s q = LFalse) by (intros q Hq; rewrite <- Hval; apply Hf, Hq).
    pose proof (g_t _ _ _ _ HG) as HT.
    assert (HR : rec_pre s l0 tl).
    { constructor.
      - apply Hat, Ha.
      - rewrite <- Hval. exact Hu.
      - exact Hf'.
      - eapply NoDup_filter_weaken; [|exact Hd]. intros x Hx. rewrite !negb_true_iff. intros Hdd.
        apply Nat.eqb_neq. intros E0. assert (Hdx : dead s x = true); [|congruence]. apply dead_iff.
        split; [apply Hf', Hx|]. rewrite E0. apply (t_l0 s HT).
      - intros ->. destruct (Nat.eq_dec (dlevel s) 0) as [E0|E0]; [exact E0|]. destruct (Hn (Hup E0)).
      - intros Hne. destruct (Nat.eq_dec (dlevel s) 0) as [E0|E0].
        + destruct tl as [|q tl]; [congruence|]. exists q. split; [left; reflexivity|apply root_level0; assumption].
        + exists (negl p). split; [exact (Hn (Hup E0))|]. rewrite lvar_negl. exact Hlp. }
    assert (Hent : forall M, smodels C s M -> mcl M (l0 :: tl)).
    { intros M HM. apply Hv; [apply (sm_false _ _ _ HM)|apply Htm, HM]. }
    destruct (recorded_same s l0 tl) as (Rt & Rb & Rtr & Rq).
    destruct (recorded_ok C (fun _ l => In l (prop_q s)) (fun i l => tp i l \/ In l (prop_q s))
       (fun _ l => In l (prop_q (recorded s l0 tl))) (fun i l => tp i l \/ In l (prop_q (recorded s l0 tl))) s l0 tl HG HR)
       as (HG1 & Hg1 & HM1); rewrite ?Rq; auto.
    { intros k l H. apply in_or_app; auto. }
    { intros k. apply in_or_app; right; left; reflexivity. }
    { intros k l [H|H]; [auto|right; apply in_or_app; auto]. }
    { intros k. right. apply in_or_app; right; left; reflexivity. }
    rewrite ?Rq in HG1.
    destruct (IH (ov val l0) val' (recorded s l0 tl) HL') as (s' & E & HG2 & Hg2 & HM2 & Et2 & Eb2 & Hps2 & Hv2).
    { rewrite (grow_dlevel _ _ Hg1). exact Hup. }
    { intros q. rewrite recorded_value. unfold ov. rewrite Hval. reflexivity. }
    { intros v H. rewrite (gr_nv _ _ Hg1). apply Hat, H. }
    { intros M HM. apply Htm, HM1, HM. }
    { rewrite Rq. exact HG1. }
    { rewrite (proj1 (grow_value _ _ p Hg1 ltac:(congruence))). exact Hp. }
    { rewrite (proj2 (grow_value _ _ p Hg1 ltac:(congruence))), (grow_dlevel _ _ Hg1). exact Hlp. }
    exists s'. split.
    { intros X. cbn [rfold]. rewrite record_eq.
      - cbn [rbind]. rewrite recorded_theories. apply E.
      - eapply InvT_ext; [..|exact HT]; reflexivity.
      - destruct HR; constructor; assumption. }
    split; [exact HG2|]. split; [eapply grow_trans; eassumption|].
    split; [intros M; rewrite HM2; apply HM1|]. split; [congruence|]. split; [congruence|].
    split; [|exact Hv2]. eapply pushes_trans; [|exact Hps2]. apply pushed_pushes. exists [l0]. auto.
Qed.

Lemma nth_set_nth {A} (l : list A) i a j : i < length l ->
  nth_error (set_nth l i a) j = if j =? i then Some a else nth_error l j.
Proof.
  revert i j; induction l as [|x l IH]; intros i j Hi; cbn in Hi; [lia|].
  unfold set_nth in *. destruct i as [|i]; cbn [firstn skipn app].
  - destruct j; reflexivity.
  - destruct j; [reflexivity|]. cbn [nth_error]. rewrite IH by lia. reflexivity.
Qed.
Lemma length_set_nth {A} (l : list A) i a : length (set_nth l i a) = length l.
Proof.
  unfold set_nth. rewrite app_length, firstn_length.
  destruct (skipn i l) eqn:E; pose proof (skipn_length i l) as H; rewrite E in H; cbn in *; lia.
Qed.

(** Replacing a theory by an equivalent one. *)
Lemma set_th_smodels (s : st) i t t' : nth_error (theories s) i = Some t ->
  (forall M, th_model C t' M <-> th_model C t M) ->
  forall M, smodels C (set_theories (set_nth (theories s) i t') s) M <-> smodels C s M.
Proof.
  intros Et Hm M.
  assert (Hi : i < length (theories s)) by (apply nth_error_Some; congruence).
  split; intros [S1 S2 S3 S4]; constructor; try assumption.
  - intros u Hu. apply In_nth_error in Hu as (j & Ej). destruct (Nat.eq_dec j i) as [->|Hj].
    + rewrite Et in Ej. inversion Ej; subst u. apply Hm. apply S4. cbn.
      apply (nth_error_In _ i). rewrite nth_set_nth by exact Hi. rewrite Nat.eqb_refl. reflexivity.
    + apply S4. cbn. apply (nth_error_In _ j). rewrite nth_set_nth by exact Hi.
      destruct (Nat.eqb_spec j i); [contradiction|exact Ej].
  - intros u Hu. cbn in Hu. apply In_nth_error in Hu as (j & Ej). rewrite nth_set_nth in Ej by exact Hi.
    revert Ej. destruct (Nat.eqb_spec j i) as [->|Hj]; intros Ej.
    + inversion Ej; subst u. apply Hm, S4, (nth_error_In _ i), Et.
    + apply S4, (nth_error_In _ j), Ej.
Qed.
Lemma InvTh_set strict (tp tp' : nat -> lit -> Prop) (s : st) i t t' :
  InvTh C True tp s -> nth_error (theories s) i = Some t ->
  (forall x, th_atom C t' x <-> th_atom C t x) ->
  (exists vs, th_views C strict (tp' i) s t' vs) ->
  (forall j l, j <> i -> tp j l -> tp' j l) ->
  (forall n x, th_fixed C t' n x -> strict \/ 0 < n -> assigns s x <> LUndef /\ level s x + n <= dlevel s) ->
  InvTh C strict tp' (set_theories (set_nth (theories s) i t') s).
Proof.
  intros HH Et Ha Hvs Hm Hfix.
  assert (Hi : i < length (theories s)) by (apply nth_error_Some; congruence).
  assert (Hat : forall j u v, nth_error (set_nth (theories s) i t') j = Some u -> th_atom C u v ->
            exists u', nth_error (theories s) j = Some u' /\ th_atom C u' v).
  { intros j u v Ej Hu. rewrite nth_set_nth in Ej by exact Hi. revert Ej; destruct (Nat.eqb_spec j i) as [->|Hj]; intros Ej.
    - inversion Ej; subst u. exists t. split; [exact Et|apply Ha, Hu].
    - exists u. auto. }
  constructor; cbn [set_theories theories nv assigns level bounds prop_q].
  - intros j u Ej. rewrite nth_set_nth in Ej by exact Hi. revert Ej; destruct (Nat.eqb_spec j i) as [->|Hj]; intros Ej.
    + inversion Ej; subst u. exact Hvs.
    + destruct (h_views _ _ _ _ HH j u Ej) as (vs & H1 & H2 & H3 & H4). exists vs.
      split; [exact H1|]. split; [exact H2|]. split; [intros k v l Ek _; apply (H3 k v l Ek); auto|].
      intros l Hl Hv. destruct (H4 l Hl Hv) as [H5|H5]; [left; apply Hm; assumption|right; exact H5].
  - intros j u v Ej Hu. destruct (Hat j u v Ej Hu) as (u' & Ej' & Hu'). apply (h_range _ _ _ _ HH j u' v Ej' Hu').
  - intros j u v Ej Hu. destruct (Hat j u v Ej Hu) as (u' & Ej' & Hu'). apply (h_bound _ _ _ _ HH j u' v Ej' Hu').
  - intros j v Hj. destruct (h_owned _ _ _ _ HH j v Hj) as (u & Eu & Hu).
    rewrite nth_set_nth by exact Hi. destruct (Nat.eqb_spec j i) as [->|Hne].
    + exists t'. split; [reflexivity|]. apply Ha. congruence.
    + exists u. auto.
  - apply (h_nodup _ _ _ _ HH).
  - intros j u n x Ej Hu Hn. rewrite nth_set_nth in Ej by exact Hi. revert Ej; destruct (Nat.eqb_spec j i) as [->|Hj]; intros Ej.
    + inversion Ej; subst u. exact (Hfix n x Hu Hn).
    + apply (h_fixed _ _ _ _ HH j u n x Ej Hu). left; exact I.
Qed.

Lemma grow_theories (s : st) X : length X = length (theories s) -> grow s (set_theories X s).
Proof. intros H. constructor; try reflexivity; [|exact H]. exists []. cbn. split; [reflexivity|]. split; [auto|tauto]. Qed.

(** A conflict clause found by a theory. *)
Record tconf (s : st) (c : list lit) : Prop := {
  tc_len : dlevel s <> 0 -> 2 <= length c;
  tc_false : forall q, In q c -> value s q = LFalse;
  tc_ent : forall M, smodels C s M -> mcl M c;
  tc_lvl : dlevel s <> 0 -> exists q, In q c /\ level s (lvar q) = dlevel s }.

(** No theory function runs out of fuel in a legal state. *)
Definition th_total : Prop :=
  (forall t vs val p, th_inv C t vs -> th_atom C t (lvar p) -> (forall q, val (negl q) = lneg (val q)) -> val TRUE_lit = LTrue ->
    (forall q, In q (concat vs) -> val q = LTrue) -> val p = LTrue ->
    (forall m y, th_fixed C t m y -> val (mk_lit y true) <> LUndef) -> (forall m, th_fixed C t m (lvar p) -> m = 0) -> th_prop ops t val p <> OOF) /\
  (forall t vs val, th_inv C t vs -> (forall q, val (negl q) = lneg (val q)) -> val TRUE_lit = LTrue -> (forall q, In q (concat vs) -> val q = LTrue) -> th_check ops t val <> OOF).

Lemma th_prop_at_ok (r : list nat) (s : st) i p :
  InvG C (fun _ l => In l (prop_q s)) (fun j l => (l = p /\ In j (i :: r)) \/ In l (prop_q s)) s ->
  ~ In i r -> In i (bounds s (lvar p)) ->
  value s p = LTrue -> level s (lvar p) = dlevel s ->
  match th_prop_at ops s i p with
  | UB => False
  | OOF => ~ th_total
  | Ok (s', cf) =>
    (forall M, smodels C s' M <-> smodels C s M) /\ grow s s' /\ bounds s' = bounds s /\ pushes s s' /\
    match cf with
    | None => InvG C (fun _ l => In l (prop_q s')) (fun j l => (l = p /\ In j r) \/ In l (prop_q s')) s'
    | Some c => InvX C (set_prop_q [] s') /\ tconf s' c
    end
  end.
Proof.
  intros HG Hir Hib Hp Hlp. pose proof HG as [HT HC HR HW HQ HH].
  destruct (h_owned _ _ _ _ HH i (lvar p) Hib) as (t & Et & Hat).
  destruct (h_views _ _ _ _ HH i t Et) as (vs & V1 & V2 & V3 & V4).
  destruct vs as [|v vs]; [cbn in V2; lia|].
  unfold th_prop_at. rewrite Et.
  pose proof (c_prop ops C t v vs (value s) p V1 Hat (value_negl s) (true_lit_true s HT)) as HP.
  assert (HV : forall q, In q (concat (v :: vs)) -> value s q = LTrue) by (intros q Hq; apply in_concat in Hq as (w & Hw & Hq); apply In_nth_error in Hw as (j & Ej);
    apply (V3 j w q Ej (or_introl I) Hq)).
  assert (HF1 : forall m y, th_fixed C t m y -> value s (mk_lit y true) <> LUndef).
  { intros m y Hf Hu. apply value_undef in Hu. destruct (h_fixed _ _ _ _ HH i t m y Et Hf (or_introl I)) as [K _]. contradiction. }
  assert (HF2 : forall m, th_fixed C t m (lvar p) -> m = 0).
  { intros m Hf. destruct (h_fixed _ _ _ _ HH i t m (lvar p) Et Hf (or_introl I)) as [_ K]. lia. }
  specialize (HP HV Hp HF1 HF2).
  destruct (th_prop ops t (value s) p) as [[[t1 ls] cf]| |] eqn:Eth; cbn in HP; [|contradiction|].
  2:{ cbn. intros [H _]. apply (H t (v :: vs) (value s) p V1 Hat (value_negl s) (true_lit_true s HT) HV Hp HF1 HF2 Eth). }
  destruct HP as ((v' & I1 & I2) & Hm & Ha & val' & HL & Hcf). cbn [rbind].
  assert (Hi : i < length (theories s)) by (apply nth_error_Some; congruence).
  assert (Hup : dlevel s <> 0 -> vs <> []) by (intros Hd ->; cbn in V2; lia).
  assert (Hroot : forall M, smodels C s M -> rooted (th_model C t) ((p :: v) :: vs) M).
  { intros M HM. split; [apply (sm_th _ _ _ HM), (nth_error_In _ i), Et|]. intros q Hq. apply (sm_facts _ _ _ HM); destruct vs as [|w vs].
    - destruct Hq as [<-|Hq]; [exact Hp|apply (V3 0 v q eq_refl (or_introl I) Hq)].
    - cbn [last] in Hq. change (In q (last (w :: vs) [])) in Hq. destruct (exists_last (l := w :: vs) ltac:(discriminate)) as (f & z & Ef).
      rewrite Ef, last_last in Hq. apply (V3 (S (length f)) z q); [cbn [nth_error]; rewrite Ef, nth_error_app2, Nat.sub_diag by lia; reflexivity|left; exact I|exact Hq].
    - destruct Hq as [<-|Hq]; [cbn in V2; lia|]. destruct (V3 0 v q eq_refl (or_introl I) Hq) as [_ K]. cbn in V2. lia.
    - cbn [last] in Hq. change (In q (last (w :: vs) [])) in Hq. destruct (exists_last (l := w :: vs) ltac:(discriminate)) as (f & z & Ef).
      rewrite Ef, last_last in Hq. destruct (V3 (S (length f)) z q) as [_ K]; [cbn [nth_error]; rewrite Ef, nth_error_app2, Nat.sub_diag by lia; reflexivity|left; exact I|exact Hq|].
      cbn [length] in V2. assert (K2 : length (w :: vs) = S (length f)) by (rewrite Ef, app_length; cbn; lia). cbn [length] in K2. lia. }
  destruct (lemmas_record (vs <> []) (rooted (th_model C t) ((p :: v) :: vs)) (th_atom C t) (fun j l => l = p /\ In j (i :: r)) p ls (value s) val' s HL Hup)
    as (s1 & E & HG1 & Hg1 & HM1 & Et1 & Eb1 & Hps1 & Hv1); try assumption.
  { reflexivity. }
  { intros x Hx. apply (h_range _ _ _ _ HH i t x Et Hx). }
  rewrite E. cbn [rbind].
  assert (Hp1 : value s1 p = LTrue /\ level s1 (lvar p) = dlevel s1).
  { rewrite (proj1 (grow_value _ _ p Hg1 ltac:(congruence))), (proj2 (grow_value _ _ p Hg1 ltac:(congruence))), (grow_dlevel _ _ Hg1). auto. }
  destruct Hp1 as [Hp1 Hlp1].
  assert (Et1' : nth_error (theories s1) i = Some t) by (rewrite Et1; exact Et).
  assert (HM2 : forall M, smodels C (set_theories (set_nth (theories s) i t1) s1) M <-> smodels C s M).
  { intros M. rewrite <- HM1. rewrite <- Et1. apply (set_th_smodels s1 i t t1 Et1' Hm). }
  split; [exact HM2|].
  split; [eapply grow_trans; [exact Hg1|]; apply grow_theories; rewrite length_set_nth, Et1; reflexivity|].
  split; [exact Eb1|]. split; [exact Hps1|].
  pose proof HG1 as [AT AC AR AW AQ AH].
  destruct (h_views _ _ _ _ AH i t Et1') as (vs1 & U1 & U2 & U3 & U4). clear U1 U2 U3 U4 vs1.
  (* the views of t in s1 are those in s *)
  assert (W2 : length (v :: vs) = S (dlevel s1)) by (rewrite (grow_dlevel _ _ Hg1); exact V2).
  assert (W3 : forall j w l, nth_error (v :: vs) j = Some w -> In l w -> value s1 l = LTrue /\ level s1 (lvar l) = dlevel s1 - j).
  { intros j w l Ej Hl. destruct (V3 j w l Ej (or_introl I) Hl) as [H1 H2].
    rewrite (proj1 (grow_value _ _ l Hg1 ltac:(congruence))), (proj2 (grow_value _ _ l Hg1 ltac:(congruence))), (grow_dlevel _ _ Hg1). auto. }
  assert (W4 : forall l, th_atom C t (lvar l) -> value s1 l = LTrue -> ((l = p /\ In i (i :: r)) \/ In l (prop_q s1)) \/
       exists j w, nth_error (v :: vs) j = Some w /\ In l w /\ level s1 (lvar l) = dlevel s1 - j).
  { intros l Hl Hv. destruct (value s l) eqn:Ev.
    - exfalso. rewrite (proj1 (grow_value _ _ l Hg1 ltac:(congruence))) in Hv. congruence.
    - destruct (V4 l Hl Ev) as [[H1|H1]|(j & w & H1 & H2 & H3)].
      + left; left; exact H1.
      + left; right. destruct Hps1 as (ext & _ & Hq & _). apply Hq; auto.
      + right. exists j, w. split; [exact H1|]. split; [exact H2|]. apply (W3 j w l H1 H2).
    - left; right. destruct Hps1 as (ext & Htr & Hq & _). apply Hq. right.
      destruct (gr_trail _ _ Hg1) as (ext' & Htr' & Hk & _). rewrite Htr' in Htr.
      apply app_inv_tail in Htr. subst ext'.
      destruct (in_dec Nat.eq_dec (lvar l) (map lvar ext)) as [Hi'|Hi'].
      + apply in_map_iff in Hi' as (x & Ex & Hx). assert (x = l); [|congruence].
        apply (value_same_var s1); [exact Ex| |exact Hv]. apply (t_true s1 AT). rewrite Htr'. apply in_or_app; auto.
      + exfalso. destruct (Hk _ Hi') as (Hk1 & _). apply value_undef in Ev. rewrite <- Hk1 in Ev. apply value_undef in Ev. congruence. }
  assert (W5 : forall n x, th_fixed C t1 n x -> assigns s1 x <> LUndef /\ level s1 x + n <= dlevel s1).
  { intros n x Hf. destruct (fx_prop _ _ _ _ (c_fixed ops C) t v vs (value s) p t1 ls cf n x V1 Hat (value_negl s) (true_lit_true s HT) HV Hp HF1 HF2 Eth Hf) as [K|(-> & K)].
    - apply (h_fixed _ _ _ _ AH i t n x Et1' K). left; exact I.
    - split; [|pose proof (level_le s1 AT x); lia]. destruct K as [K|(l0 & tl & K1 & K2)].
      + intros Hx. assert (Hx2 : value s1 (mk_lit x true) = LUndef) by (apply value_undef; exact Hx).
        rewrite (proj1 (grow_value _ _ (mk_lit x true) Hg1 K)) in Hx2. contradiction.
      + rewrite <- K2. pose proof (lemmas_heads _ _ _ _ _ _ _ HL l0 tl K1) as K3. rewrite Hv1 in K3. intros Hx. apply value_undef in Hx. contradiction. }
  destruct cf as [c|].
  - (* conflict *)
    destruct (Hcf c eq_refl) as (C1 & C2 & C3 & C4). rewrite Forall_forall in C2.
    assert (HX1 : InvX C (set_prop_q [] s1)).
    { eapply InvG_conflict; [exact HG1| |].
      - intros k l H. apply (q_on s1 AQ l H).
      - intros k l [[-> _]|H]; [exact Hlp1|apply (q_on s1 AQ l H)]. }
    split.
    + destruct HX1 as [XT XC XR XW XQ XH]. constructor; try assumption.
      * eapply InvT_ext; [..|exact XT]; reflexivity.
      * destruct XC; constructor; assumption.
      * destruct XR; constructor; assumption.
      * rewrite <- Et1.
        change (set_prop_q [] (set_theories (set_nth (theories s1) i t1) s1))
          with (set_theories (set_nth (theories (set_prop_q [] s1)) i t1) (set_prop_q [] s1)).
        eapply InvTh_set with (t := t) (tp := fun j l => ((l = p /\ In j (i :: r)) \/ In l (prop_q s1))).
        -- destruct AH as [Y1 Y2 Y3 Y4 Y5 Y6]. constructor; try assumption.
           intros j u w Ej Hu [H|[H|(l & _ & [])]]; apply (Y3 j u w Ej Hu); auto.
        -- exact Et1'.
        -- exact Ha.
        -- exists (v' :: vs). split; [exact I1|]. split; [exact W2|]. split.
           ++ intros j w l Ej [[]|Hj] Hl. destruct j as [|j]; [lia|]. apply (W3 (S j) w l Ej Hl).
           ++ intros l Hl Hv. apply Ha in Hl. destruct (W4 l Hl Hv) as [[[-> _]|H]|(j & w & H1 & H2 & H3)].
              ** left. exact Hlp1.
              ** left. apply (q_on s1 AQ l H).
              ** destruct j as [|j]; [left; change (level s1 (lvar l) = dlevel s1); lia|].
                 right. exists (S j), w. auto.
        -- intros j l Hj [[-> _]|H]; [exact Hlp1|apply (q_on s1 AQ l H)].
        -- intros n x Hf _. apply (W5 n x Hf).
    + constructor.
      * intros Hd. apply C1, Hup. change (dlevel s1 <> 0) in Hd. rewrite (grow_dlevel _ _ Hg1) in Hd. exact Hd.
      * intros q Hq. change (value s1 q = LFalse). rewrite <- Hv1. apply C2, Hq.
      * intros M HM. apply HM2 in HM. apply C4; [apply (sm_false _ _ _ HM)|]. apply Hroot, HM.
      * intros Hd. exists (negl p). split; [apply C3, Hup|]. { change (dlevel s1 <> 0) in Hd. rewrite (grow_dlevel _ _ Hg1) in Hd. exact Hd. } rewrite lvar_negl. exact Hlp1.
  - (* no conflict *)
    rewrite (I2 eq_refl) in I1. rewrite <- Et1. constructor; try assumption.
    + eapply InvT_ext; [..|exact AT]; reflexivity.
    + destruct AC; constructor; assumption.
    + destruct AR; constructor; assumption.
    + eapply InvQ_ext; [..|exact AQ]; reflexivity.
    + eapply InvTh_set with (t := t); [exact AH|exact Et1'|exact Ha| | |intros n x Hf _; exact (W5 n x Hf)].
      * exists ((p :: v) :: vs). split; [exact I1|]. split; [exact W2|]. split.
        -- intros j w l Ej _ Hl. destruct j as [|j].
           ++ cbn in Ej. inversion Ej; subst w. destruct Hl as [<-|Hl]; [split; [exact Hp1|lia]|].
              apply (W3 0 v l eq_refl Hl).
           ++ apply (W3 (S j) w l Ej Hl).
        -- intros l Hl Hv. apply Ha in Hl. destruct (W4 l Hl Hv) as [[[-> _]|H]|(j & w & H1 & H2 & H3)].
           ++ right. exists 0, (p :: v). split; [reflexivity|]. split; [left; reflexivity|]. lia.
           ++ left; right; exact H.
           ++ right. destruct j as [|j].
              ** exists 0, (p :: v). cbn in H1. inversion H1; subst w. split; [reflexivity|]. split; [right; exact H2|exact H3].
              ** exists (S j), w. auto.
      * intros j l Hj [[-> [H|H]]|H]; [congruence|left; auto|right; exact H].
Qed.

Lemma th_prop_all_ok p : forall r (s : st),
  InvG C (fun _ l => In l (prop_q s)) (fun j l => (l = p /\ In j r) \/ In l (prop_q s)) s ->
  NoDup r -> (forall i, In i r -> In i (bounds s (lvar p))) ->
  value s p = LTrue -> level s (lvar p) = dlevel s ->
  match th_prop_all ops s r p with
  | UB => False
  | OOF => ~ th_total
  | Ok (s', cf) =>
    (forall M, smodels C s' M <-> smodels C s M) /\ grow s s' /\ bounds s' = bounds s /\ pushes s s' /\
    match cf with
    | None => Inv C s'
    | Some c => InvX C (set_prop_q [] s') /\ tconf s' c
    end
  end.
Proof.
  induction r as [|i r IH]; intros s HG Hn Hb Hp Hl; cbn [th_prop_all].
  - split; [reflexivity|]. split; [apply grow_refl|]. split; [reflexivity|]. split; [apply pushes_refl|].
    apply Inv_G. eapply InvG_mono; [| |exact HG]; cbn; auto. intros k l [[_ []]|H]; exact H.
  - inversion Hn as [|? ? Hir Hn']; subst.
    pose proof (th_prop_at_ok r s i p HG Hir (Hb i (or_introl eq_refl)) Hp Hl) as H1.
    destruct (th_prop_at ops s i p) as [[s1 cf]| |]; cbn [rbind]; [|contradiction|exact H1].
    destruct H1 as (HM1 & Hg1 & Eb1 & Hps1 & Hcf). destruct cf as [c|].
    + split; [exact HM1|]. split; [exact Hg1|]. split; [exact Eb1|]. split; [exact Hps1|exact Hcf].
    + specialize (IH s1 Hcf Hn'). rewrite Eb1 in IH. specialize (IH ltac:(intros j Hj; apply Hb; right; exact Hj)).
      rewrite (proj1 (grow_value _ _ p Hg1 ltac:(congruence))), (proj2 (grow_value _ _ p Hg1 ltac:(congruence))), (grow_dlevel _ _ Hg1) in IH.
      specialize (IH Hp Hl). destruct (th_prop_all ops s1 r p) as [[s2 cf]| |]; [|exact IH|exact IH].
      destruct IH as (HM2 & Hg2 & Eb2 & Hps2 & Hcf2). split; [intros M; rewrite HM2; apply HM1|].
      split; [eapply grow_trans; eassumption|]. split; [congruence|]. split; [eapply pushes_trans; eassumption|exact Hcf2].
Qed.

Lemma th_check_all_ok : forall n (s : st) i, Inv C s -> prop_q s = [] -> length (theories s) <= n + i ->
  (forall j t, j < i -> nth_error (theories s) j = Some t -> th_feas C t) ->
  match th_check_all ops s n i with
  | UB => False
  | OOF => ~ th_total
  | Ok (s', cf) =>
    (forall M, smodels C s' M <-> smodels C s M) /\ grow s s' /\ Inv C s' /\ prop_q s' = [] /\
    trail s' = trail s /\
    match cf with None => settled C s' | Some c => tconf s' c end
  end.
Proof.
  induction n as [|n IH]; intros s i HI Hq Hlen Hfe; cbn [th_check_all].
  - split; [reflexivity|]. split; [apply grow_refl|]. split; [exact HI|]. split; [exact Hq|]. split; [reflexivity|].
    intros t Ht. apply In_nth_error in Ht as (j & Ej). apply (Hfe j t); [|exact Ej].
    assert (j < length (theories s)) by (apply nth_error_Some; congruence). lia.
  - destruct (nth_error (theories s) i) as [t|] eqn:Et.
    2:{ split; [reflexivity|]. split; [apply grow_refl|]. split; [exact HI|]. split; [exact Hq|]. split; [reflexivity|].
        intros t Ht. apply In_nth_error in Ht as (j & Ej). apply (Hfe j t); [|exact Ej].
        assert (j < length (theories s)) by (apply nth_error_Some; congruence). apply nth_error_None in Et. lia. }
    pose proof HI as [HT HC HR HW HQ HH].
    destruct (h_views _ _ _ _ HH i t Et) as (vs & V1 & V2 & V3 & V4).
    destruct vs as [|v vs]; [cbn in V2; lia|].
    pose proof (c_check ops C t v vs (value s) V1 (value_negl s) (true_lit_true s HT)) as HP.
    assert (HV : forall q, In q (concat (v :: vs)) -> value s q = LTrue) by (intros q Hq'; apply in_concat in Hq' as (w & Hw & Hq'); apply In_nth_error in Hw as (j & Ej);
      apply (V3 j w q Ej (or_introl I) Hq')).
    specialize (HP HV).
    destruct (th_check ops t (value s)) as [[t1 cf]| |] eqn:Eth; cbn in HP; [|contradiction|].
    2:{ cbn. intros [_ H]. apply (H t (v :: vs) (value s) V1 (value_negl s) (true_lit_true s HT) HV Eth). }
    destruct HP as (I1 & If & Hm & Ha & Hcf). cbn [rbind].
    assert (Hi : i < length (theories s)) by (apply nth_error_Some; congruence).
    set (s1 := set_theories (set_nth (theories s) i t1) s).
    assert (HM1 : forall M, smodels C s1 M <-> smodels C s M) by (apply (set_th_smodels s i t t1 Et Hm)).
    assert (Hg1 : grow s s1) by (apply grow_theories, length_set_nth).
    assert (HI1 : Inv C s1).
    { constructor; try assumption.
      - eapply InvT_ext; [..|exact HT]; reflexivity.
      - destruct HC; constructor; assumption.
      - destruct HR; constructor; assumption.
      - eapply InvQ_ext; [..|exact HQ]; reflexivity.
      - eapply InvTh_set with (t := t); [exact HH|exact Et|exact Ha| |auto|intros m x Hf _; apply (h_fixed _ _ _ _ HH i t m x Et); [apply (fx_check _ _ _ _ (c_fixed ops C) t (v :: vs) (value s) t1 cf m x V1 (value_negl s) (true_lit_true s HT) HV Eth Hf)|left; exact I]].
        exists (v :: vs). split; [exact I1|]. split; [exact V2|]. split; [exact V3|].
        intros l Hl. apply V4. apply Ha, Hl. }
    destruct cf as [c|].
    + split; [exact HM1|]. split; [exact Hg1|]. split; [exact HI1|]. split; [exact Hq|]. split; [reflexivity|].
      destruct (Hcf c eq_refl) as (C1 & C2 & C3 & C4). rewrite Forall_forall in C2. constructor.
      * intros _. exact C1.
      * exact C2.
      * intros M HM. apply HM1 in HM. apply C3; [apply (sm_false _ _ _ HM)|]. apply (sm_th _ _ _ HM), (nth_error_In _ i), Et.
      * intros Hd. assert (Hvs : vs <> []) by (intros ->; cbn in V2; change (dlevel s1) with (dlevel s) in Hd; lia).
        destruct (C4 Hvs) as (q & Hq1 & Hq2). exists (negl q). split; [exact Hq2|]. rewrite lvar_negl.
        destruct (V3 0 v q eq_refl (or_introl I) Hq1) as [_ H]. change (level s (lvar q) = dlevel s). lia.
    + specialize (IH s1 (S i) HI1 Hq).
      assert (L1 : length (theories s1) <= n + S i) by (cbn; rewrite length_set_nth; lia). specialize (IH L1).
      assert (F1 : forall j u, j < S i -> nth_error (theories s1) j = Some u -> th_feas C u).
      { intros j u Hj Eu. cbn in Eu. rewrite nth_set_nth in Eu by exact Hi. revert Eu; destruct (Nat.eqb_spec j i) as [->|Hne]; intros Eu.
        - inversion Eu; subst u. apply If; reflexivity.
        - apply (Hfe j u); [lia|exact Eu]. }
      specialize (IH F1). destruct (th_check_all ops s1 n (S i)) as [[s2 cf]| |]; [|exact IH|exact IH].
      destruct IH as (HM2 & Hg2 & HI2 & Hq2 & Htr2 & Hcf2). split; [intros M; rewrite HM2; apply HM1|].
      split; [eapply grow_trans; eassumption|]. split; [exact HI2|]. split; [exact Hq2|]. split; [exact Htr2|exact Hcf2].
Qed.
End Loop.
