(** Difference logic theories: consequences of the invariant. *)
From Verif Require Import Base Sat Lin Qe Dw Dl DlClo DlTight DlEdge DlTh.
From Coq Require Import Lqa.
Open Scope nat_scope.
Local Arguments Nat.ltb : simpl never.
Local Arguments Nat.eqb : simpl never.

Section Facts.
Context {D : Type} {W : wops D} (L : wlaws W).
Notation "a +' b" := (wadd W a b) (at level 50, left associativity).
Notation "-' a" := (wneg W a) (at level 35).
Notation dl := (dl D).
Notation dcon := (dcon D).

(** [y] is a solution of the literals [ps]. *)
Definition solves (t : dl) (ps : list lit) (y : nat -> Q) : Prop := vals_ok L y /\ lits_hold L t ps y.

Lemma reach_core t vs : DReach L t vs -> DCore L t (concat vs).
Proof. intros H. apply DInv_core, reach_inv, H. Qed.

(** ** The distances. *)
Theorem dist_sound t ps y i j a : DCore L t ps -> solves t ps y -> dists t i j = Some a -> wsat L a (y j - y i)%Q.
Proof. intros HC [Hy H] E. apply (dc_sols L _ _ HC y Hy) in H. apply H, E. Qed.
Theorem dist_triangle t ps i j k a b : DCore L t ps -> dists t i j = Some a -> dists t j k = Some b -> exists c, dists t i k = Some c /\ wle L c (a +' b).
Proof. intros HC. apply (cl_tri L _ (dc_closed L _ _ HC)). Qed.
Theorem dist_attained t ps i j a : DCore L t ps -> i < nvars t -> j < nvars t -> dists t i j = Some a -> evt (fun e => exists y, solves t ps y /\ (y j - y i == ev L a e)%Q).
Proof.
  intros HC Hi Hj E. pose proof (attained_val L _ _ i j a (dc_closed L _ _ HC) (dc_in L _ _ HC) Hi Hj E) as H. apply (evt_mp _ _ H), evt_all. intros e _ (y & Hy & HR & Ey).
  exists y. split; [|exact Ey]. split; [exact Hy|]. apply (dc_sols L _ _ HC y Hy), HR.
Qed.
Theorem dist_unbounded t ps i j w : DCore L t ps -> i < nvars t -> j < nvars t -> dists t i j = None -> wcon L w -> exists y, solves t ps y /\ ~ wsat L w (y j - y i)%Q.
Proof.
  intros HC Hi Hj E Hw. destruct (unbounded_val L _ _ i j w (dc_closed L _ _ HC) (dc_in L _ _ HC) Hi Hj E Hw) as (y & Hy & HR & H). exists y. split; [|exact H]. split; [exact Hy|]. apply (dc_sols L _ _ HC y Hy), HR.
Qed.
Theorem solution_exists t ps : DCore L t ps -> exists y, solves t ps y.
Proof.
  intros HC. destruct (solvable L _ _ (dc_closed L _ _ HC) (dc_in L _ _ HC)) as (y & Hy & HR). exists y. split; [exact Hy|]. apply (dc_sols L _ _ HC y Hy), HR.
Qed.
Theorem dist_entails t ps i j w : DCore L t ps -> i < nvars t -> j < nvars t -> wcon L w ->
  (dist_le W (dists t i j) (Some w) = true <-> forall y, solves t ps y -> wsat L w (y j - y i)%Q).
Proof.
  intros HC Hi Hj Hw. rewrite (dist_le_some L), (entails_iff L _ _ i j w (dc_closed L _ _ HC) (dc_in L _ _ HC) Hi Hj Hw).
  split; intros H y; [intros [Hy K]; apply H; [exact Hy|apply (dc_sols L _ _ HC y Hy), K]|intros Hy K; apply H; split; [exact Hy|apply (dc_sols L _ _ HC y Hy), K]].
Qed.
Theorem dist_refutes t ps i j w : DCore L t ps -> i < nvars t -> j < nvars t -> wcon L w ->
  (dist_lt W (dists t j i) (Some (-' w)) = true <-> forall y, solves t ps y -> ~ wsat L w (y j - y i)%Q).
Proof.
  intros HC Hi Hj Hw. rewrite (dist_lt_some L), (refutes_iff L _ _ i j w (dc_closed L _ _ HC) (dc_in L _ _ HC) Hi Hj Hw).
  split; intros H y; [intros [Hy K] K'; apply (H y Hy); [apply (dc_sols L _ _ HC y Hy), K|exact K']|intros Hy K K'; apply (H y); [split; [exact Hy|apply (dc_sols L _ _ HC y Hy), K]|exact K']].
Qed.

(** ** Propagation. *)
Theorem prop_conflict_iff t ps val p : DCore L t ps -> atom t (lvar p) -> reads val (p :: ps) ->
  exists t' ls cf, dl_prop W t val p = Ok (t', ls, cf) /\ (cf <> None <-> forall y, ~ solves t (p :: ps) y) /\ (cf <> None -> t' = t /\ ls = []).
Proof.
  intros HC (c & Hc & Ev) HR. destruct (prop_core L t ps p c val HC Hc Ev HR) as [(e & E & _ & _ & HN)|[(E & HC')|(t' & us & val' & ls & E & HC' & HF & _)]].
  - exists t, [], (Some (e ++ [negl p])). split; [exact E|]. split; [|auto]. split; [|discriminate]. intros _ y [Hy K]. apply (HN y Hy K).
  - exists t, [], None. split; [exact E|]. split; [|congruence]. split; [congruence|]. intros H. exfalso. destruct (solution_exists _ _ HC') as (y & Hy). apply (H y Hy).
  - exists t', ls, None. split; [exact E|]. split; [|congruence]. split; [congruence|]. intros H. exfalso. destruct (solution_exists _ _ HC') as (y & Hy & K). apply (H y). split; [exact Hy|].
    unfold lits_hold in *. rewrite (fo_cons _ _ HF) in K. exact K.
Qed.
(** The assertion of [check] never fails. *)
Theorem check_ok t ps val : DCore L t ps -> reads val ps -> dl_check W t val = Ok (t, None).
Proof.
  intros HC [Hn Hr]. unfold dl_check. replace (forallb (fun e => con_respected W t val (snd e)) (dist_constr t)) with true; [reflexivity|]. symmetry.
  apply forallb_forall. intros [k c] Hk. cbn. destruct (dc_enf L _ _ HC k c Hk) as [Hc H]. pose proof (dc_cons L _ _ HC c Hc) as Hg. destruct Hg as (Hw & H1 & H2 & _ & Hs). unfold con_respected.
  destruct H as [[Hp _]|[Hp _]].
  - rewrite (Hr _ Hp). apply (dist_entails t ps); auto. intros y [Hy K]. specialize (K (c_b c) c Hp Hc eq_refl). rewrite Hs in K. exact K.
  - pose proof (Hr _ Hp) as E. rewrite Hn in E. destruct (val (c_b c)); try discriminate. apply (dist_refutes t ps); auto. intros y [Hy K]. specialize (K (negl (c_b c)) c Hp Hc eq_refl). cbn in K. rewrite Hs in K. exact K.
Qed.

(** ** The clauses that are produced. *)
Lemma edge_false t ps val u v q : DCore L t ps -> reads val ps -> In q (edge_lits t val u v) -> val q = LFalse /\ atom t (lvar q).
Proof.
  intros HC [Hn Hr]. unfold edge_lits. destruct (kfind (u, v) (dist_constr t)) as [c|] eqn:E; [|intros []]. apply kfind_In in E. destruct (dc_enf L _ _ HC _ _ E) as [Hc _].
  destruct (val (c_b c)) eqn:Ev; [intros [<-|[]]|intros [<-|[]]|intros []]; (split; [|exists c; auto]); [exact Ev|rewrite Hn, Ev; reflexivity].
Qed.
Lemma walk_false t ps val r : DCore L t ps -> reads val ps -> forall fuel v e, walk fuel t val r v = Ok e -> forall q, In q e -> val q = LFalse /\ atom t (lvar q).
Proof.
  intros HC HR. induction fuel as [|f IH]; intros v e; cbn; (destruct (Nat.eqb v r); [intros E; injection E as <-; intros q []|]); [discriminate|].
  destruct (preds t r v) as [u|]; [|discriminate]. destruct (walk f t val r u) as [e'| |] eqn:Ew; cbn; try discriminate. intros E. injection E as <-. intros q Hq. apply in_app_or in Hq as [Hq|Hq]; [apply (edge_false t ps val u v q HC HR Hq)|apply (IH u e' Ew q Hq)].
Qed.
Lemma assume_reads val ps l : reads val ps -> val l = LUndef -> reads (assume_val l val) ps.
Proof.
  intros [Hn Hr] Hl. split.
  - intros q. unfold assume_val. destruct (lit_eqb_spec (negl q) l) as [E|E].
    + subst l. destruct (lit_eqb_spec q (negl q)) as [E|_]; [destruct q as [x s]; unfold negl in E; cbn in E; injection E; destruct s; discriminate|].
      rewrite negl_invol. destruct (lit_eqb_spec q q); [reflexivity|congruence].
    + destruct (lit_eqb_spec (negl q) (negl l)) as [E'|E'].
      * apply negl_inj in E'. subst q. destruct (lit_eqb_spec l l); [reflexivity|congruence].
      * destruct (lit_eqb_spec q l) as [->|_]; [congruence|]. destruct (lit_eqb_spec q (negl l)) as [->|_]; [rewrite negl_invol in E; congruence|]. apply Hn.
  - intros q Hq. unfold assume_val. destruct (lit_eqb_spec q l); [reflexivity|]. destruct (lit_eqb_spec q (negl l)) as [->|_]; [|apply Hr, Hq]. pose proof (Hr _ Hq) as K. rewrite Hn, Hl in K. discriminate.
Qed.
Lemma assume_undef val l q : (forall q, val (negl q) = lneg (val q)) -> assume_val l val q = LUndef -> val q = LUndef /\ q <> l /\ q <> negl l.
Proof. intros Hn. unfold assume_val. destruct (lit_eqb_spec q l); [discriminate|]. destruct (lit_eqb_spec q (negl l)); [discriminate|]. auto. Qed.

(** What is true of every clause recorded by the second part of the propagation. *)
Lemma tell_all t ps (Q : list lit -> Prop) : DCore L t ps ->
  (forall val c e, reads val ps -> In c (dcons t) -> val (c_b c) = LUndef -> dist_lt W (dists t (c_to c) (c_from c)) (Some (-' c_w c)) = true -> explain t val (c_to c) (c_from c) = Ok e -> Q (negl (c_b c) :: e)) ->
  (forall val c e, reads val ps -> In c (dcons t) -> val (c_b c) = LUndef -> dist_le W (dists t (c_from c) (c_to c)) (Some (c_w c)) = true -> explain t val (c_from c) (c_to c) = Ok e -> Q (c_b c :: e)) ->
  forall l val ls val' ls', reads val ps -> (forall c, In c l -> In c (dcons t)) -> (forall k, In k ls -> Q k) -> rfold (tell_step W t) l (val, ls) = Ok (val', ls') -> forall k, In k ls' -> Q k.
Proof.
  intros HC H1 H2. induction l as [|c l IH]; intros val ls val' ls' HR Hl HQ; cbn [rfold]; [intros E; injection E as <- <-; exact HQ|].
  assert (Hn := proj1 HR). unfold tell_step at 1.
  destruct (val (c_b c)) eqn:Ev; try (cbn [rbind]; apply IH; auto; intros; apply Hl; right; assumption).
  destruct (dist_lt W (dists t (c_to c) (c_from c)) (Some (-' c_w c))) eqn:E1; [|destruct (dist_le W (dists t (c_from c) (c_to c)) (Some (c_w c))) eqn:E2].
  - destruct (explain t val (c_to c) (c_from c)) as [e| |] eqn:Ee; cbn [rbind]; try discriminate. apply IH; [apply assume_reads; [exact HR|rewrite Hn, Ev; reflexivity]|intros; apply Hl; right; assumption|].
    intros k Hk. apply in_app_or in Hk as [Hk|[<-|[]]]; [auto|]. apply (H1 val); auto. apply Hl. left. reflexivity.
  - destruct (explain t val (c_from c) (c_to c)) as [e| |] eqn:Ee; cbn [rbind]; try discriminate. apply IH; [apply assume_reads; auto|intros; apply Hl; right; assumption|].
    intros k Hk. apply in_app_or in Hk as [Hk|[<-|[]]]; [auto|]. apply (H2 val); auto. apply Hl. left. reflexivity.
  - cbn [rbind]. apply IH; auto. intros; apply Hl; right; assumption.
Qed.
(** The values only grow. *)
Lemma tell_grow t ps l : DCore L t ps -> forall val ls val' ls', reads val ps -> rfold (tell_step W t) l (val, ls) = Ok (val', ls') ->
  reads val' ps /\ (forall q, val q <> LUndef -> val' q = val q) /\ (exists ex, ls' = ls ++ ex) /\
  (forall k, In k ls' -> In k ls \/ exists h e, k = h :: e /\ val h = LUndef /\ val' h = LTrue) /\
  (forall c, In c l -> val' (c_b c) = LUndef -> dist_lt W (dists t (c_to c) (c_from c)) (Some (-' c_w c)) = false /\ dist_le W (dists t (c_from c) (c_to c)) (Some (c_w c)) = false).
Proof.
  intros HC. induction l as [|c l IH]; intros val ls val' ls' HR; cbn [rfold].
  { intros E. injection E as <- <-. split; [exact HR|]. split; [auto|]. split; [exists []; rewrite app_nil_r; reflexivity|]. split; [auto|intros c []]. }
  assert (Hn := proj1 HR). unfold tell_step at 1.
  assert (Hstep : forall val1 ls1 h e, reads val1 ps -> val1 = assume_val h val -> val h = LUndef -> ls1 = ls ++ [h :: e] -> lvar h = lvar (c_b c) -> rfold (tell_step W t) l (val1, ls1) = Ok (val', ls') ->
    reads val' ps /\ (forall q, val q <> LUndef -> val' q = val q) /\ (exists ex, ls' = ls ++ ex) /\
    (forall k, In k ls' -> In k ls \/ exists h e, k = h :: e /\ val h = LUndef /\ val' h = LTrue) /\
    (forall c', In c' (c :: l) -> val' (c_b c') = LUndef -> dist_lt W (dists t (c_to c') (c_from c')) (Some (-' c_w c')) = false /\ dist_le W (dists t (c_from c') (c_to c')) (Some (c_w c')) = false)).
  { intros val1 ls1 h e HR1 E1 Hh El Ev' E. destruct (IH val1 ls1 val' ls' HR1 E) as (A & B & (ex & Eex) & G & F).
    assert (Hh1 : val1 h = LTrue) by (subst val1; unfold assume_val; destruct (lit_eqb_spec h h); congruence).
    assert (Hmono : forall q, val q <> LUndef -> val1 q = val q).
    { intros q Hq. subst val1. unfold assume_val. destruct (lit_eqb_spec q h) as [->|]; [congruence|]. destruct (lit_eqb_spec q (negl h)) as [->|]; [|reflexivity]. rewrite Hn, Hh in Hq. cbn in Hq. congruence. }
    split; [exact A|]. split; [intros q Hq; rewrite (B q), (Hmono q Hq); [reflexivity|rewrite (Hmono q Hq); exact Hq]|]. split; [exists ([h :: e] ++ ex); rewrite Eex, El, app_assoc; reflexivity|]. split.
    - intros k Hk. destruct (G k Hk) as [K|(h' & e' & Ek & U & T)].
      + subst ls1. apply in_app_or in K as [K|[<-|[]]]; [auto|]. right. exists h, e. split; [reflexivity|]. split; [exact Hh|]. rewrite B; [exact Hh1|congruence].
      + right. exists h', e'. split; [exact Ek|]. split; [|exact T]. destruct (val h') eqn:Eh; try reflexivity; exfalso; rewrite (Hmono h') in U by congruence; congruence.
    - intros c' [<-|Hc'] U; [exfalso|apply F; auto]. assert (Hval1 : val1 (c_b c) <> LUndef).
      { subst val1. unfold assume_val. destruct (lit_eqb_spec (c_b c) h); [discriminate|]. destruct (lit_eqb_spec (c_b c) (negl h)) as [|K]; [discriminate|]. exfalso.
        destruct h as [hv hs], (c_b c) as [cv cs]. cbn in Ev'. subst hv. unfold negl in K. cbn in K. destruct hs, cs; cbn in *; congruence. }
      rewrite (B _ Hval1) in U. contradiction. }
  destruct (val (c_b c)) eqn:Ev.
  1, 2: cbn [rbind]; intros E; destruct (IH val ls val' ls' HR E) as (A & B & G & H & F); (split; [exact A|]); (split; [exact B|]); (split; [exact G|]); (split; [exact H|]); intros c' [<-|Hc'] U; [rewrite B in U; congruence|apply F; auto].
  destruct (dist_lt W (dists t (c_to c) (c_from c)) (Some (-' c_w c))) eqn:E1; [|destruct (dist_le W (dists t (c_from c) (c_to c)) (Some (c_w c))) eqn:E2].
  - destruct (explain t val (c_to c) (c_from c)) as [e| |] eqn:Ee; cbn [rbind]; try discriminate. intros E. apply (Hstep _ _ (negl (c_b c)) e) in E; auto; [apply assume_reads; [exact HR|]|]; rewrite Hn, Ev; reflexivity.
  - destruct (explain t val (c_from c) (c_to c)) as [e| |] eqn:Ee; cbn [rbind]; try discriminate. intros E. apply (Hstep _ _ (c_b c) e) in E; auto. apply assume_reads; auto.
  - cbn [rbind]. intros E. destruct (IH val ls val' ls' HR E) as (A & B & G & H & F). split; [exact A|]. split; [exact B|]. split; [exact G|]. split; [exact H|]. intros c' [<-|Hc'] U; [auto|apply F; auto].
Qed.
Lemma cons_at_In (t : dl) us c : In c (flat_map (cons_at t) us) -> In c (dcons t).
Proof. intros H. apply in_flat_map in H as (k & _ & H). apply filter_In in H as [H _]. exact H. Qed.
Lemma explain_defd t ps val1 val r v e : DCore L t ps -> reads val ps -> reads val1 ps -> explain t val1 r v = Ok e -> forall q, In q e -> val q = LFalse /\ atom t (lvar q).
Proof.
  intros HC HR HR1. unfold explain. generalize (S (cap t)). intros fuel. revert v e. induction fuel as [|f IH]; intros v e; cbn; (destruct (Nat.eqb v r); [intros E; injection E as <-; intros q []|]); [discriminate|].
  destruct (preds t r v) as [u|]; [|discriminate]. destruct (walk f t val1 r u) as [e'| |] eqn:Ew; cbn; try discriminate. intros E. injection E as <-. intros q Hq. apply in_app_or in Hq as [Hq|Hq]; [|apply (IH u e' Ew q Hq)].
  unfold edge_lits in Hq. destruct (kfind (u, v) (dist_constr t)) as [c|] eqn:E; [|contradiction]. apply kfind_In in E. destruct (dc_enf L _ _ HC _ _ E) as [Hc H].
  assert (Es : val1 (c_b c) = val (c_b c) /\ val (c_b c) <> LUndef).
  { destruct H as [[Hp _]|[Hp _]].
    - rewrite (proj2 HR1 _ Hp), (proj2 HR _ Hp). split; [reflexivity|discriminate].
    - pose proof (proj2 HR1 _ Hp) as K1. pose proof (proj2 HR _ Hp) as K. rewrite (proj1 HR1) in K1. rewrite (proj1 HR) in K. destruct (val1 (c_b c)), (val (c_b c)); try discriminate. split; [reflexivity|discriminate]. }
  destruct Es as [Es _]. rewrite Es in Hq. destruct (val (c_b c)) eqn:Ev; [destruct Hq as [<-|[]]|destruct Hq as [<-|[]]|contradiction]; (split; [|exists c; auto]); [exact Ev|rewrite (proj1 HR), Ev; reflexivity].
Qed.
(** Shape of the clauses, whatever the history. *)
Theorem prop_shape t ps val p : DCore L t ps -> atom t (lvar p) -> reads val (p :: ps) -> exists t' ls cf, dl_prop W t val p = Ok (t', ls, cf) /\
  (forall k, In k ls -> exists h e, k = h :: e /\ val h = LUndef /\ atom t (lvar h) /\ forall q, In q e -> val q = LFalse /\ atom t (lvar q)) /\
  (forall k, cf = Some k -> In (negl p) k /\ forall q, In q k -> val q = LFalse /\ atom t (lvar q)).
Proof.
  intros HC (c & Hc & Ev) HR. assert (HR0 : reads val ps) by (destruct HR as [A B]; split; [exact A|intros q Hq; apply B; right; exact Hq]).
  destruct (prop_core L t ps p c val HC Hc Ev HR) as [(e & E & Ee & _ & _)|[(E & HC')|(t' & us & val' & ls & E & HC' & HF & _ & Etl & _)]].
  - eexists _, _, _. split; [exact E|]. split; [intros k []|]. intros k Ek. injection Ek as <-. split; [apply in_or_app; right; left; reflexivity|].
    intros q Hq. apply in_app_or in Hq as [Hq|[<-|[]]]; [apply (explain_defd t ps val val _ _ e HC HR0 HR0 Ee q Hq)|]. split; [rewrite (proj1 HR), (proj2 HR p (or_introl eq_refl)); reflexivity|exists c; auto].
  - eexists _, _, _. split; [exact E|]. split; [intros k []|discriminate].
  - eexists _, _, _. split; [exact E|]. split; [|discriminate].
    assert (Ha : forall v, atom t' v -> atom t v) by (unfold atom; rewrite (fo_cons _ _ HF); auto).
    assert (Hsh : forall k, In k ls -> exists h e, k = h :: e /\ atom t (lvar h) /\ forall q, In q e -> val q = LFalse /\ atom t (lvar q)).
    { refine (tell_all t' (p :: ps) (fun k => exists h e, k = h :: e /\ atom t (lvar h) /\ forall q, In q e -> val q = LFalse /\ atom t (lvar q)) HC' _ _ _ val [] val' ls HR (cons_at_In t' us) _ Etl).
      - intros val1 c1 e HR1 Hc1 _ _ Ee. exists (negl (c_b c1)), e. split; [reflexivity|]. split; [apply Ha; exists c1; auto|]. intros q Hq. destruct (explain_defd t' (p :: ps) val1 val _ _ e HC' HR HR1 Ee q Hq). auto.
      - intros val1 c1 e HR1 Hc1 _ _ Ee. exists (c_b c1), e. split; [reflexivity|]. split; [apply Ha; exists c1; auto|]. intros q Hq. destruct (explain_defd t' (p :: ps) val1 val _ _ e HC' HR HR1 Ee q Hq). auto.
      - intros k []. }
    intros k Hk. destruct (tell_grow t' (p :: ps) _ HC' val [] val' ls HR Etl) as (_ & _ & _ & G & _). destruct (G k Hk) as [[]|(h & e & Ek & U & _)].
    destruct (Hsh k Hk) as (h' & e' & Ek' & A & B). rewrite Ek in Ek'. injection Ek' as <- <-. exists h, e. auto.
Qed.

(** ** Every change of distance is reported to the constraints it may decide. *)
Definition covered (t t' : dl) (us : list key) : Prop := forall i j, dists t' i j = dists t i j \/ (In (i, j) us /\ In (j, i) us).
Lemma set_both_cov (t : dl) i j a q t' : set_both W t i j a q = Ok t' -> forall us, In (i, j) us -> In (j, i) us -> covered t t' us.
Proof.
  unfold set_both, set_dist, guard. destruct (dist_lt W (Some a) (dists t i j)); [|discriminate]. cbn. intros E. injection E as <-. intros us H1 H2 x y. cbn. rewrite upd2_spec.
  destruct (key_eqb_spec (i, j) (x, y)) as [K|K]; [|auto]. injection K as <- <-. auto.
Qed.
Lemma cov_trans t1 t2 t3 us us' : covered t1 t2 us -> covered t2 t3 us' -> incl us us' -> covered t1 t3 us'.
Proof. intros H1 H2 HI i j. destruct (H2 i j) as [->|K]; [|auto]. destruct (H1 i j) as [E|[K1 K2]]; auto. Qed.
Lemma cov_refl t us : covered t t us.
Proof. intros i j. auto. Qed.
Lemma close_cov (t : dl) f g w t' us : close W t f g w = Ok (t', us) -> covered t t' us.
Proof.
  unfold close. destruct (set_both W t f g w (Some f)) as [t1| |] eqn:E1; cbn [rbind]; try discriminate.
  assert (H0 : covered t t1 [(f, g); (g, f)]) by (apply (set_both_cov t f g w (Some f) t1 E1); cbn; auto).
  assert (Hscan : forall l s, covered t (sc_t s) (sc_u s) -> forall s', rfold (scan_step W f g w) l s = Ok s' -> covered t (sc_t s') (sc_u s')).
  { induction l as [|u l IH]; intros s Hs s'; cbn [rfold]; [intros E; injection E as <-; exact Hs|]. unfold scan_step at 1.
    destruct (scan_i W f g w s u) as [s1| |] eqn:Ei; cbn [rbind]; try discriminate.
    assert (Hs1 : covered t (sc_t s1) (sc_u s1)).
    { unfold scan_i in Ei. destruct (dists (sc_t s) u f) as [a|]; [|injection Ei as <-; exact Hs]. destruct (closer W (Some a) (dists (sc_t s) u g) w); [|injection Ei as <-; exact Hs].
      destruct (set_both W (sc_t s) u g (a +' w) (Some f)) as [t2| |] eqn:E2; cbn [rbind] in Ei; try discriminate. injection Ei as <-. cbn. apply (cov_trans _ (sc_t s) _ (sc_u s)); [exact Hs| |intros x Hx; apply in_or_app; auto].
      apply (set_both_cov _ _ _ _ _ _ E2); apply in_or_app; right; cbn; auto. }
    destruct (scan_j W f g w s1 u) as [s2| |] eqn:Ej; cbn [rbind]; try discriminate. apply IH. clear IH.
    unfold scan_j in Ej. destruct (dists (sc_t s1) g u) as [a|]; [|injection Ej as <-; exact Hs1]. destruct (closer W (Some a) (dists (sc_t s1) f u) w); [|injection Ej as <-; exact Hs1].
    destruct (set_both W (sc_t s1) f u (a +' w) (preds (sc_t s1) g u)) as [t2| |] eqn:E2; cbn [rbind] in Ej; try discriminate. injection Ej as <-. cbn. apply (cov_trans _ (sc_t s1) _ (sc_u s1)); [exact Hs1| |intros x Hx; apply in_or_app; auto].
    apply (set_both_cov _ _ _ _ _ _ E2); apply in_or_app; right; cbn; auto. }
  destruct (rfold (scan_step W f g w) (seq 0 (nvars t1)) (mk_scan t1 [] [] [(f, g); (g, f)])) as [s| |] eqn:Es; cbn [rbind]; try discriminate.
  apply Hscan in Es; [|exact H0]. clear Hscan H0 E1. remember (sc_t s) as ts eqn:Ets. remember (sc_u s) as u0 eqn:Eu. clear Ets Eu. revert ts u0 Es.
  generalize (list_prod (sc_i s) (sc_j s)) as l. induction l as [|[i j] l IH]; intros ts u0 Hs; cbn [rfold]; [intros E; injection E as <- <-; exact Hs|]. unfold cross_step at 1.
  destruct (negb (Nat.eqb i j) && dist_lt W (dist_add W (dists ts i g) (dists ts g j)) (dists ts i j)); [|cbn [rbind]; apply IH, Hs].
  destruct (dist_add W (dists ts i g) (dists ts g j)) as [d|]; [|discriminate]. destruct (set_both W ts i j d (preds ts g j)) as [t2| |] eqn:E2; cbn [rbind]; try discriminate. apply IH.
  apply (cov_trans _ ts _ u0); [exact Hs| |intros x Hx; apply in_or_app; auto]. apply (set_both_cov _ _ _ _ _ _ E2); apply in_or_app; right; cbn; auto.
Qed.
Definition decided (t : dl) (c : dcon) : Prop := dist_lt W (dists t (c_to c) (c_from c)) (Some (-' c_w c)) = true \/ dist_le W (dists t (c_from c) (c_to c)) (Some (c_w c)) = true.
(** After a successful propagation every undefined literal that has become decided is the head of a clause. *)
Theorem prop_complete t ps val p t' ls : DCore L t ps -> atom t (lvar p) -> reads val (p :: ps) -> dl_prop W t val p = Ok (t', ls, None) ->
  forall c, In c (dcons t) -> val (c_b c) = LUndef -> ~ decided t c -> decided t' c -> exists h e, In (h :: e) ls /\ lvar h = lvar (c_b c).
Proof.
  intros HC (c0 & Hc0 & Ev0) HR E c Hc Ev Hn Hd.
  destruct (prop_core L t ps p c0 val HC Hc0 Ev0 HR) as [(e & E' & _)|[(E' & _)|(t1 & us & val' & ls' & E' & HC' & HF & _ & Etl & _ & _ & _ & Ecl)]]; rewrite E' in E; [discriminate| |].
  - injection E as <- <-. contradiction.
  - injection E as <- <-. pose proof (close_cov _ _ _ _ _ _ Ecl) as Hcov. change (covered t t1 us) in Hcov.
    assert (Hin : In c (flat_map (cons_at t1) us)).
    { apply in_flat_map. exists (c_from c, c_to c). split; [|apply filter_In; split; [rewrite (fo_cons _ _ HF); exact Hc|apply key_eqb_refl]].
      destruct (Hcov (c_from c) (c_to c)) as [E1|[K _]]; [|exact K]. destruct (Hcov (c_to c) (c_from c)) as [E2|[_ K]]; [|exact K]. exfalso. apply Hn. unfold decided in *. rewrite E1, E2 in Hd. exact Hd. }
    destruct (tell_grow t1 (p :: ps) _ HC' val [] val' ls' HR Etl) as (HR' & _ & _ & _ & F).
    assert (Hdef : val' (c_b c) <> LUndef) by (intros U; destruct (F c Hin U) as [F1 F2]; destruct Hd; congruence).
    revert HR Ev Hdef Etl. clear - Hin. 
    assert (G : forall l val ls0 val' ls', (forall q, val (negl q) = lneg (val q)) -> rfold (tell_step W t1) l (val, ls0) = Ok (val', ls') -> val (c_b c) = LUndef -> val' (c_b c) <> LUndef -> exists h e, In (h :: e) ls' /\ lvar h = lvar (c_b c)).
    { clear. induction l as [|k l IH]; intros val ls0 val' ls' Hn; cbn [rfold]; [intros E; injection E as <- <-; congruence|]. unfold tell_step at 1.
      assert (Hk : forall h e, val h = LUndef -> rfold (tell_step W t1) l (assume_val h val, ls0 ++ [h :: e]) = Ok (val', ls') -> val (c_b c) = LUndef -> val' (c_b c) <> LUndef -> exists h e, In (h :: e) ls' /\ lvar h = lvar (c_b c)).
      { intros h e Hh E Hu Hd. destruct (Nat.eq_dec (lvar h) (lvar (c_b c))) as [Eq|Ne].
        - exists h, e. split; [|exact Eq]. revert E. generalize (assume_val h val). assert (Hi : In (h :: e) (ls0 ++ [h :: e])) by (apply in_or_app; right; left; reflexivity). revert Hi. generalize (ls0 ++ [h :: e]). clear.
          induction l as [|k l IH]; intros ls Hi v; cbn [rfold]; [intros E; injection E as <- <-; exact Hi|]. unfold tell_step at 1. destruct (v (c_b k)); cbn [rbind]; try (apply IH; exact Hi).
          destruct (dist_lt W (dists t1 (c_to k) (c_from k)) (Some (-' c_w k))); [destruct (explain t1 v (c_to k) (c_from k)); cbn [rbind]; try discriminate; apply IH, in_or_app; auto|].
          destruct (dist_le W (dists t1 (c_from k) (c_to k)) (Some (c_w k))); [destruct (explain t1 v (c_from k) (c_to k)); cbn [rbind]; try discriminate; apply IH, in_or_app; auto|]. cbn [rbind]. apply IH, Hi.
        - apply (IH _ _ val' ls') in E; auto.
          + assert (K : reads val []) by (split; [exact Hn|intros q []]). apply (assume_reads val [] h K Hh).
          + unfold assume_val. destruct (lit_eqb_spec (c_b c) h) as [<-|_]; [contradiction|]. destruct (lit_eqb_spec (c_b c) (negl h)) as [K|_]; [rewrite K in Ne; contradiction|exact Hu]. }
      destruct (val (c_b k)) eqn:Ek; cbn [rbind]; try (apply IH; exact Hn).
      destruct (dist_lt W (dists t1 (c_to k) (c_from k)) (Some (-' c_w k))); [destruct (explain t1 val (c_to k) (c_from k)) as [e| |]; cbn [rbind]; try discriminate; apply Hk; rewrite Hn, Ek; reflexivity|].
      destruct (dist_le W (dists t1 (c_from k) (c_to k)) (Some (c_w k))); [destruct (explain t1 val (c_from k) (c_to k)) as [e| |]; cbn [rbind]; try discriminate; apply Hk; exact Ek|]. cbn [rbind]. apply IH, Hn. }
    intros [HN _] Ev Hd Etl. apply (G _ _ _ _ _ HN Etl Ev Hd).
Qed.
End Facts.
