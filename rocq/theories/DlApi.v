(** Difference logic theories: the literals returned by the functions that create constraints. *)
From Verif Require Import Base Keys Sat SatSpec SatInv Reify Run Erase Lin Qe Dw Dl DlClo DlTight DlEdge DlTh DlFacts.
From Coq Require Import Lqa.
Open Scope nat_scope.
Local Arguments Nat.ltb : simpl never.
Local Arguments Nat.eqb : simpl never.
Section Srt.
Context {sr : sorter}.

(** How known terms are read. *)
Record wreads {D} {W : wops D} (L : wlaws W) : Prop := mk_wreads {
  rq_con : forall q k, wofq W q = Some k -> wcon L k /\ wcon L (wneg W k) /\ wcon L (wadd W k (wneg W (wunit W))) /\ wcon L (wadd W (wneg W k) (wneg W (wunit W)));
  rq_le : forall q k v, wofq W q = Some k -> isv L v -> (wsat L k v <-> (v <= q)%Q);
  rq_ge : forall q k v, wofq W q = Some k -> isv L v -> (wsat L (wneg W k) v <-> (v <= - q)%Q);
  rq_lt : forall q k v, wofq W q = Some k -> isv L v -> (wsat L (wadd W k (wneg W (wunit W))) v <-> (v < q)%Q);
  rq_gt : forall q k v, wofq W q = Some k -> isv L v -> (wsat L (wadd W (wneg W k) (wneg W (wunit W))) v <-> (v < - q)%Q) }.
Lemma z_of_q_ok q k : z_of_q q = Some k -> (q == inject_Z k)%Q.
Proof.
  unfold z_of_q. destruct (Z.eqb_spec (Qnum q mod Z.pos (Qden q)) 0) as [E|]; [|discriminate]. intros H. injection H as <-.
  apply Z.div_exact in E; [|discriminate]. unfold Qeq, inject_Z. cbn. rewrite E at 1. ring.
Qed.
Lemma ZR : wreads ZL.
Proof.
  split; intros q k.
  - intros _. cbn. auto.
  - intros v E [z Hz]. apply z_of_q_ok in E. unfold wsat. cbn. rewrite evt_const, E. reflexivity.
  - intros v E [z Hz]. apply z_of_q_ok in E. unfold wsat. cbn. rewrite evt_const, E, inject_Z_opp. reflexivity.
  - intros v E [z Hz]. apply z_of_q_ok in E. unfold wsat. cbn. rewrite evt_const, E, Hz, <- Zle_Qle, <- Zlt_Qlt. lia.
  - intros v E [z Hz]. apply z_of_q_ok in E. unfold wsat. cbn. rewrite evt_const, E, Hz, <- inject_Z_opp, <- Zle_Qle, <- Zlt_Qlt. lia.
Qed.
Lemma QR : wreads QL.
Proof.
  split; intros q k.
  - cbn. intros E. injection E as <-. cbn. repeat split; lra.
  - cbn. intros v E _. injection E as <-. unfold wsat. cbn. rewrite wsat_qe. cbn. lra.
  - cbn. intros v E _. injection E as <-. unfold wsat. cbn. rewrite wsat_qe. cbn. lra.
  - cbn. intros v E _. injection E as <-. unfold wsat. cbn. rewrite wsat_qe. cbn. lra.
  - cbn. intros v E _. injection E as <-. unfold wsat. cbn. rewrite wsat_qe. cbn. lra.
Qed.

Section Api.
Context {D : Type} {W : wops D} (L : wlaws W) (WR : wreads L).
Notation "a +' b" := (wadd W a b) (at level 50, left associativity).
Notation "-' a" := (wneg W a) (at level 35).
Notation dl := (dl D).
Notation dcon := (dcon D).

(** [s] is a network whose theory number [i] has been driven to [t]. *)
Record host (s : st dl) (i : nat) (t : dl) (vs : list (list lit)) : Prop := {
  ho_nth : nth_error (theories s) i = Some t;
  ho_reach : DReach L t vs;
  ho_atoms : forall v, atom t v -> v < nv s;
  ho_good : good pureC (er s) }.
(** An assignment to the variables of the core and one to the variables of the theory that fit together. *)
Record fit (t : dl) (vs : list (list lit)) (M : nat -> bool) (y : nat -> Q) : Prop := {
  jo_false : M 0 = false;
  jo_vals : vals_ok L y;
  jo_zero : (y O == 0)%Q;
  jo_told : forall p, In p (concat vs) -> mlit M p = true;
  jo_cons : forall c, In c (dcons t) -> (mlit M (c_b c) = true <-> con_sat L c y) }.
(** The effect of a function that returns the literal [l] for the condition [P]. *)
Record gives (s : st dl) (i : nat) (t : dl) (vs : list (list lit)) (P : (nat -> Q) -> Prop) (s' : st dl) (t' : dl) (l : lit) : Prop := {
  gi_host : host s' i t' vs;
  gi_grow : exists ex, dcons t' = dcons t ++ ex;
  gi_nvars : nvars t' = nvars t;
  gi_nv : nv s <= nv s' /\ lvar l < nv s';
  gi_lev : dlevel s' = dlevel s;
  gi_mod : forall M, smodels pureC (er s') M -> smodels pureC (er s) M;
  gi_means : forall M y, smodels pureC (er s') M -> fit t' vs M y -> (mlit M l = true <-> P y);
  gi_cons : forall M y, smodels pureC (er s) M -> fit t vs M y -> exists M', agree (nv s) M M' /\ smodels pureC (er s') M' /\ fit t' vs M' y }.

Lemma fit_solves t vs M y ps : DCore L t ps -> (forall p, In p ps -> mlit M p = true) -> fit t vs M y -> solves L t ps y.
Proof.
  intros HC Hps [J1 J2 J3 J4 J5]. split; [exact J2|]. intros p c Hp Hc Ev. pose proof (Hps p Hp) as Hm. destruct (dc_cons L _ _ HC c Hc) as (_ & _ & _ & _ & Hs). specialize (J5 c Hc).
  destruct (c_b c) as [cv cs], p as [pv s]. cbn in *. subst. destruct s; [apply J5; exact Hm|]. intros K. apply J5 in K. unfold mlit in *. cbn in *. destruct (M pv); discriminate.
Qed.
Lemma host_core s i t vs : host s i t vs -> DCore L t (concat vs).
Proof. intros H. apply reach_core, (ho_reach _ _ _ _ H). Qed.
Lemma host_nv s i t vs : host s i t vs -> 0 < nv s.
Proof. intros H. pose proof (i_t _ _ (g_inv _ _ (ho_good _ _ _ _ H))) as K. apply (t_nv _ K). Qed.
Lemma gives_same s i t vs (P : (nat -> Q) -> Prop) l : host s i t vs -> lvar l < nv s -> (forall M y, fit t vs M y -> (mlit M l = true <-> P y)) -> gives s i t vs P s t l.
Proof.
  intros H Hl HP. constructor; auto.
  - exists []. rewrite app_nil_r. reflexivity.
  - intros M y HM J. exists M. split; [intros v _; reflexivity|]. auto.
Qed.
Lemma gives_iff s i t vs (P P' : (nat -> Q) -> Prop) s' t' l : (forall y, vals_ok L y -> (y O == 0)%Q -> (P y <-> P' y)) -> gives s i t vs P s' t' l -> gives s i t vs P' s' t' l.
Proof. intros H [A B B' C C' E F G]. constructor; auto. intros M y HM J. rewrite <- (H y (jo_vals _ _ _ _ J) (jo_zero _ _ _ _ J)). apply F; assumption. Qed.

Lemma set_nth_other {A} (l : list A) i a j : i <> j -> nth_error (set_nth l i a) j = nth_error l j.
Proof. revert i j. induction l as [|x l IH]; intros [|i] [|j] H; cbn; try reflexivity; try congruence. apply IH. congruence. Qed.
Lemma set_nth_at {A} (l : list A) i a x : nth_error l i = Some x -> nth_error (set_nth l i a) i = Some a.
Proof. revert i. induction l as [|y l IH]; intros [|i]; cbn; intros H; try discriminate; [reflexivity|]. apply IH, H. Qed.

Theorem new_distance_gives s i t vs from to w : host s i t vs -> from < nvars t -> to < nvars t -> wcon L w ->
  exists s' t' l, new_distance W s i from to w = Ok (s', l) /\ gives s i t vs (fun y => wsat L w (y to - y from)%Q) s' t' l /\
    (l = FALSE_lit <-> forall y, solves L t (concat vs) y -> ~ wsat L w (y to - y from)%Q) /\ (l = TRUE_lit <-> forall y, solves L t (concat vs) y -> wsat L w (y to - y from)%Q) /\
    (l <> FALSE_lit -> l <> TRUE_lit -> l = mk_lit (nv s) true /\ t' = add_con t (mk_dcon l from to w) /\ In i (bounds s' (nv s))) /\ (l = FALSE_lit \/ l = TRUE_lit -> s' = s /\ t' = t).
Proof.
  intros HH Hf Ht Hw. pose proof (host_core _ _ _ _ HH) as HC. pose proof (host_nv _ _ _ _ HH) as H0. pose proof (dc_n L _ _ HC) as Hcap.
  pose proof (dist_refutes L t _ from to w HC Hf Ht Hw) as HR. pose proof (dist_entails L t _ from to w HC Hf Ht Hw) as HE.
  destruct (solution_exists L _ _ HC) as (y0 & Hy0).
  unfold new_distance, dl_th. rewrite (ho_nth _ _ _ _ HH). unfold guard. destruct (Nat.ltb_spec from (cap t)); [|lia]. destruct (Nat.ltb_spec to (cap t)); [|lia]. cbn [andb].
  destruct (dist_lt W (dists t to from) (Some (-' w))) eqn:E1; [|destruct (dist_le W (dists t from to) (Some w)) eqn:E2].
  - pose proof (proj1 HR eq_refl) as HN. exists s, t, FALSE_lit. split; [reflexivity|]. split; [|split; [tauto|split; [|split; [congruence|auto]]]].
    + apply gives_same; [exact HH|exact H0|]. intros M y J. split; [intros K; unfold mlit in K; cbn in K; rewrite (jo_false _ _ _ _ J) in K; discriminate|]. intros K. exfalso. apply (HN y); [|exact K]. apply (fit_solves t vs M y _ HC); [apply J|exact J].
    + split; [discriminate|]. intros H'. exfalso. apply (HN y0 Hy0), H', Hy0.
  - pose proof (proj1 HE eq_refl) as HN. exists s, t, TRUE_lit. split; [reflexivity|]. split; [|split; [|split; [tauto|split; [congruence|auto]]]].
    + apply gives_same; [exact HH|exact H0|]. intros M y J. split; [intros _; apply HN, (fit_solves t vs M y _ HC); [apply J|exact J]|]. intros _. unfold mlit. cbn. rewrite (jo_false _ _ _ _ J). reflexivity.
    + split; [discriminate|]. intros H'. exfalso. apply (H' y0 Hy0), HN, Hy0.
  - cbn [new_var]. cbv beta iota zeta. set (v := nv s). set (c := mk_dcon (mk_lit v true) from to w).
    assert (Hne : from <> to).
    { intros <-. rewrite (cl_diag L _ (dc_closed L _ _ HC)) in E1, E2. unfold dist_le in E2. cbn in E1, E2. apply negb_false_iff in E1. rewrite negb_involutive in E2. destruct (wle_or L (w0 W) w) as [K|K]; [pose proof (proj2 (wle_iff L _ _) K); congruence|].
      pose proof (proj1 (wle_iff L _ _) E1) as E3. clear E1. rename E3 into E1. unfold wlt, wle in *. destruct (evt_ex _ (evt_and _ _ K E1)) as (e & _ & A & B). rewrite (ev_neg _ L) in B. rewrite (ev_0 _ L) in *. lra. }
    assert (Hfresh : ~ atom t v) by (intros K; pose proof (ho_atoms _ _ _ _ HH v K); unfold v in *; lia).
    assert (Hg : good_con L (nvars t) c) by (split; [exact Hw|]; cbn; auto).
    destruct (new_var_erased s (ho_good _ _ _ _ HH)) as [G1 G2].
    eexists _, (add_con t c), (mk_lit v true). split; [reflexivity|]. split; [|split; [|split; [|split; [|]]]].
    + constructor; cbn.
      * constructor.
        -- cbn. unfold bind. destruct (memn i _); cbn; (eapply set_nth_at; apply (ho_nth _ _ _ _ HH)).
        -- apply (DR_step L t vs); [apply (ho_reach _ _ _ _ HH)|]. constructor; assumption.
        -- intros x (c' & Hc' & Ex). cbn in Hc'. apply in_app_or in Hc' as [Hc'|[<-|[]]].
           ++ assert (K : x < nv s) by (apply (ho_atoms _ _ _ _ HH); exists c'; auto). unfold bind. destruct (memn i _); cbn; lia.
           ++ cbn in Ex. subst x. unfold bind, v. destruct (memn i _); cbn; lia.
        -- unfold bind. destruct (memn i _); exact G1.
      * exists [c]. reflexivity.
      * reflexivity.
      * unfold bind. destruct (memn i _); cbn; lia.
      * unfold bind. destruct (memn i _); reflexivity.
      * intros M HM. apply G2. unfold bind in HM. destruct (memn i _) in HM; exact HM.
      * intros M y HM J. apply (jo_cons _ _ _ _ J c). cbn. apply in_or_app. right. left. reflexivity.
      * intros M y HM J. assert (HJ : forall b, (b = true <-> wsat L w (y to - y from)%Q) -> exists M', agree (nv s) M M' /\ smodels pureC (er (dl_put (bind (fst (new_var s)) v i) i (add_con t c))) M' /\ fit (add_con t c) vs M' y).
        { intros b Hb. exists (upd M v b). split; [intros x Hx; rewrite upd_neq; [reflexivity|unfold v; lia]|]. split.
          - assert (HM' : smodels pureC (er s) (upd M v b)) by (apply (smodels_agree pureC (er s) M); [apply (g_inv _ _ (ho_good _ _ _ _ HH))|intros x Hx; cbn in Hx; rewrite upd_neq; [reflexivity|unfold v; lia]|exact HM]).
            apply G2 in HM'. unfold bind. destruct (memn i _); exact HM'.
          - destruct J as [J1 J2 J3 J4 J5]. assert (Hold : forall q, lvar q <> v -> mlit (upd M v b) q = mlit M q) by (intros q Hq; apply mlit_upd_neq, Hq).
            constructor; auto.
            + rewrite upd_neq; [exact J1|unfold v; lia].
            + intros p Hp. rewrite Hold; [apply J4, Hp|]. intros K. apply Hfresh. rewrite <- K. apply (dc_atoms L _ _ HC p Hp).
            + intros c' Hc'. cbn in Hc'. apply in_app_or in Hc' as [Hc'|[<-|[]]].
              * rewrite Hold; [apply J5, Hc'|]. intros K. apply Hfresh. exists c'. auto.
              * cbn. rewrite mlit_upd_eq. exact Hb. }
        destruct (sat_dec _ L w (y to - y from)%Q) as [K|K]; [apply (HJ true)|apply (HJ false)]; unfold wsat; intuition congruence.
    + split; [intros E; unfold FALSE_lit, v in E; injection E as E; lia|]. intros K. apply HR in K. congruence.
    + split; [intros E; discriminate|]. intros K. apply HE in K. congruence.
    + intros _ _. split; [reflexivity|]. split; [reflexivity|]. 
      assert (Hb : forall s0 : st dl, In i (bounds (bind s0 v i) v)) by (intros s0; unfold bind; destruct (memn i (bounds s0 v)) eqn:Em; [apply memn_In in Em; exact Em|cbn; rewrite upd_eq; apply in_or_app; right; left; reflexivity]). apply Hb.
    + intros [E|E]; [unfold FALSE_lit, v in E; injection E as E; lia|discriminate].
Qed.
Lemma fit_agree s i t vs M M' y : host s i t vs -> agree (nv s) M M' -> fit t vs M y -> fit t vs M' y.
Proof.
  intros HH Ha [J1 J2 J3 J4 J5]. pose proof (host_nv _ _ _ _ HH). pose proof (host_core _ _ _ _ HH) as HC. constructor; auto.
  - rewrite <- (Ha 0); assumption.
  - intros p Hp. rewrite <- (mlit_agree M M' p (nv s) Ha); [apply J4, Hp|]. apply (ho_atoms _ _ _ _ HH), (dc_atoms L _ _ HC p Hp).
  - intros c Hc. rewrite <- (mlit_agree M M' (c_b c) (nv s) Ha); [apply J5, Hc|]. apply (ho_atoms _ _ _ _ HH). exists c. auto.
Qed.
Lemma fit_shrink t t' vs M y : (exists ex, dcons t' = dcons t ++ ex) -> fit t' vs M y -> fit t vs M y.
Proof. intros [ex E] [J1 J2 J3 J4 J5]. constructor; auto. intros c Hc. apply J5. rewrite E. apply in_or_app. auto. Qed.

(** Two literals in sequence, then their conjunction. *)
Theorem both_give s i t vs P Q s1 t1 p s2 t2 q : dlevel s = 0 -> gives s i t vs P s1 t1 p -> gives s1 i t1 vs Q s2 t2 q ->
  exists s3 l, new_conj s2 [p; q] = Ok (s3, l) /\ gives s i t vs (fun y => P y /\ Q y) s3 t2 l.
Proof.
  intros Hd [A1 A2 A2' A3 A4 A5 A6 A7] [B1 B2 B2' B3 B4 B5 B6 B7]. destruct (conj_erased s2 [p; q]) as (s3 & l & E & HG & E1 & E2 & Hnv & Hl & Hd3 & HM & HX).
  - apply (ho_good _ _ _ _ B1).
  - congruence.
  - intros x [<-|[<-|[]]]; lia.
  - exists s3, l. split; [exact E|]. constructor.
    + destruct B1 as [N1 N2 N3 N4]. constructor; [rewrite E1; exact N1|exact N2|intros v Hv; specialize (N3 v Hv); lia|exact HG].
    + destruct A2 as [x1 A2], B2 as [x2 B2]. exists (x1 ++ x2). rewrite B2, A2, app_assoc. reflexivity.
    + congruence.
    + lia.
    + congruence.
    + intros M H. apply HM in H as [H _]. apply A5, B5, H.
    + intros M y H J. apply HM in H as [H Hp]. pose proof (B5 _ H) as H1. pose proof (fit_shrink _ _ _ _ _ B2 J) as J1. rewrite Hp, <- (A6 M y H1 J1), <- (B6 M y H J). split.
      * intros K. split; apply K; cbn; auto.
      * intros [K1 K2] x [<-|[<-|[]]]; assumption.
    + intros M y H J. destruct (A7 M y H J) as (M1 & Ha1 & H1 & J1). destruct (B7 M1 y H1 J1) as (M2 & Ha2 & H2 & J2). destruct (HX M2 H2) as (M3 & Ha3 & H3).
      exists M3. split; [|split; [exact H3|apply (fit_agree s2 i t2 vs M2 M3 y B1 Ha3 J2)]]. intros v Hv. rewrite (Ha1 v Hv), (Ha2 v), (Ha3 v); [reflexivity|lia|lia].
Qed.
Theorem new_distance2_gives s i t vs from to mn mx : host s i t vs -> dlevel s = 0 -> from < nvars t -> to < nvars t -> wcon L (-' mn) -> wcon L mx ->
  exists s' t' l, new_distance2 W s i from to mn mx = Ok (s', l) /\ gives s i t vs (fun y => wsat L (-' mn) (y from - y to)%Q /\ wsat L mx (y to - y from)%Q) s' t' l.
Proof.
  intros HH Hd Hf Ht H1 H2. destruct (new_distance_gives s i t vs to from (-' mn) HH Ht Hf H1) as (s1 & t1 & p & E1 & G1 & _).
  destruct (new_distance_gives s1 i t1 vs from to mx) as (s2 & t2 & q & E2 & G2 & _); [apply (gi_host _ _ _ _ _ _ _ _ G1)|rewrite (gi_nvars _ _ _ _ _ _ _ _ G1); assumption|rewrite (gi_nvars _ _ _ _ _ _ _ _ G1); assumption|assumption|].
  destruct (both_give s i t vs _ _ s1 t1 p s2 t2 q Hd G1 G2) as (s3 & l & E3 & G3). exists s3, t2, l. split; [|exact G3]. unfold new_distance2. rewrite E1. cbn [rbind]. rewrite E2. cbn [rbind]. exact E3.
Qed.

(** ** Comparisons. *)
(** [e] is a constant, [c * (v + q)] or [c * (v - v1 + q)], where [q] can be read. *)
Definition diff_form (e : lin) : Prop :=
  match lvars e with
  | [] => True
  | [(v, c)] => exists k, wofq W (lkt e / c) = Some k
  | [(v, c); (v1, c1)] => (c1 / c == -1 # 1)%Q /\ exists k, wofq W (lkt e / c) = Some k
  | _ => False
  end.
Lemma form_none e : dl_form W e = None <-> ~ diff_form e.
Proof.
  unfold dl_form, diff_form. destruct (lvars e) as [|[v c] [|[v1 c1] [|]]].
  - split; [discriminate|tauto].
  - destruct (wofq W (lkt e / c)) as [k|]; split; try discriminate; [intros H; exfalso; apply H; eauto|intros _ (k & E); discriminate|reflexivity].
  - destruct (Qeq_bool (c1 / c) (-1 # 1)) eqn:E; cbn [negb].
    + apply Qeq_bool_iff in E. destruct (wofq W (lkt e / c)) as [k|]; split; try discriminate; [intros H; exfalso; apply H; eauto|intros _ (_ & k & E'); discriminate|reflexivity].
    + apply Qeq_bool_neq in E. split; [intros _ (K & _); contradiction|reflexivity].
  - split; [tauto|reflexivity].
Qed.
(** The two non-constant shapes are one: variable 0 is the origin. *)
Definition as_two (f : dform) : option (bool * nat * nat * D) := match f with DConst _ => None | DOne n v k => Some (n, v, 0, k) | DTwo n v v1 k => Some (n, v, v1, k) end.
Lemma form_two e f n v v1 k : lin_clean e -> dl_form W e = Some f -> as_two f = Some (n, v, v1, k) ->
  (v1 = 0 \/ In v1 (map fst (lvars e))) /\ In v (map fst (lvars e)) /\ exists c q, wofq W q = Some k /\ (if n then c < 0 else 0 < c)%Q /\ forall y, (y O == 0)%Q -> (lval y e == c * (y v - y v1 + q))%Q.
Proof.
  intros [_ Hnz] Hf Ha. unfold dl_form in Hf. unfold lval. destruct (lvars e) as [|[x c] [|[x1 c1] [|]]]; try discriminate.
  - injection Hf as <-. discriminate.
  - destruct (wofq W (lkt e / c)) as [k'|] eqn:Ek; [|discriminate]. injection Hf as <-. injection Ha as <- <- <- <-. split; [auto|]. split; [left; reflexivity|]. exists c, (lkt e / c)%Q. split; [exact Ek|].
    assert (Hc : ~ (c == 0)%Q) by (apply (Hnz x c); left; reflexivity). split.
    + unfold neg_coef. destruct (Qle_bool 0 c) eqn:E; cbn [negb]; [apply Qle_bool_iff in E; lra|]. destruct (Qlt_le_dec c 0) as [K|K]; [exact K|]. apply Qle_bool_iff in K. congruence.
    + intros y Hy. cbn [msum]. rewrite Hy. field. exact Hc.
  - destruct (Qeq_bool (c1 / c) (-1 # 1)) eqn:E1; cbn [negb] in Hf; [|discriminate]. apply Qeq_bool_iff in E1. destruct (wofq W (lkt e / c)) as [k'|] eqn:Ek; [|discriminate]. injection Hf as <-. injection Ha as <- <- <- <-.
    split; [right; right; left; reflexivity|]. split; [left; reflexivity|]. exists c, (lkt e / c)%Q. split; [exact Ek|].
    assert (Hc : ~ (c == 0)%Q) by (apply (Hnz x c); left; reflexivity). split.
    + unfold neg_coef. destruct (Qle_bool 0 c) eqn:E; cbn [negb]; [apply Qle_bool_iff in E; lra|]. destruct (Qlt_le_dec c 0) as [K|K]; [exact K|]. apply Qle_bool_iff in K. congruence.
    + intros y Hy. cbn [msum]. assert (Ec : (c1 == - c)%Q) by (rewrite <- (Qmult_div_r c1 c Hc), E1; ring). rewrite Ec. field. exact Hc.
Qed.
Definition returns (s : st dl) (i : nat) (t : dl) (vs : list (list lit)) (r : res (option (st dl * lit))) (P : (nat -> Q) -> Prop) : Prop :=
  exists s' t' l, r = Ok (Some (s', l)) /\ gives s i t vs P s' t' l.
Lemma may_returns s i t vs from to w (P : (nat -> Q) -> Prop) : host s i t vs -> from < nvars t -> to < nvars t -> wcon L w ->
  (forall y, vals_ok L y -> (y O == 0)%Q -> (wsat L w (y to - y from)%Q <-> P y)) -> returns s i t vs (may (new_distance W s i from to w)) P.
Proof.
  intros HH Hf Ht Hw HP. destruct (new_distance_gives s i t vs from to w HH Hf Ht Hw) as (s' & t' & l & E & G & _). exists s', t', l. split; [unfold may; rewrite E; reflexivity|]. apply (gives_iff _ _ _ _ _ _ _ _ _ HP G).
Qed.
Lemma const_returns s i t vs b (P : (nat -> Q) -> Prop) : host s i t vs -> (forall y, (b = true <-> P y)) -> returns s i t vs (Ok (Some (s, tf b))) P.
Proof.
  intros HH HP. exists s, t, (tf b). split; [reflexivity|]. pose proof (host_nv _ _ _ _ HH). apply gives_same; [exact HH|destruct b; exact H|]. intros M y J. rewrite <- HP.
  unfold mlit. destruct b; cbn; rewrite (jo_false _ _ _ _ J); cbn; intuition congruence.
Qed.
Lemma sign_neg c x : (c < 0)%Q -> ((c * x < 0 <-> 0 < x) /\ (c * x <= 0 <-> 0 <= x) /\ (0 < c * x <-> x < 0) /\ (0 <= c * x <-> x <= 0) /\ (c * x == 0 <-> x == 0))%Q.
Proof. intros H. repeat split; intros; nra. Qed.
Lemma sign_pos c x : (0 < c)%Q -> ((c * x < 0 <-> x < 0) /\ (c * x <= 0 <-> x <= 0) /\ (0 < c * x <-> 0 < x) /\ (0 <= c * x <-> 0 <= x) /\ (c * x == 0 <-> x == 0))%Q.
Proof. intros H. repeat split; intros; nra. Qed.
Lemma sub_keys m r x : asc m -> In x (map fst (fold_left sub_term r m)) -> In x (map fst m) \/ In x (map fst r).
Proof.
  revert m. induction r as [|[v c] r IH]; intros m Hm; cbn [fold_left map fst]; [auto|]. intros H. apply IH in H; [|apply sub_term_asc, Hm]. destruct H as [H|H]; [|cbn; auto].
  apply in_map_iff in H as ([k d] & <- & H). unfold sub_term in H. cbn in H |- *. destruct (mfind v m) as [e|].
  - destruct (qzero (e - c)).
    + apply (mdel_in v m k d Hm) in H as [_ H]. left. apply in_map_iff. exists (k, d). auto.
    + apply (mput_in v _ m k d Hm) in H as [[-> _]|[_ H]]; [auto|]. left. apply in_map_iff. exists (k, d). auto.
  - apply (mput_in v _ m k d Hm) in H as [[-> _]|[_ H]]; [auto|]. left. apply in_map_iff. exists (k, d). auto.
Qed.
Definition vars_in (t : dl) (l : lin) : Prop := forall x, In x (map fst (lvars l)) -> x < nvars t.

(** The cases common to all comparisons. *)
Lemma cmp_cases (t : dl) left right : 0 < nvars t -> lin_clean left -> lin_clean right -> vars_in t left -> vars_in t right -> diff_form (lin_sub left right) ->
  (exists k, dl_form W (lin_sub left right) = Some (DConst k) /\ forall y, (lval y left - lval y right == k)%Q) \/
  (exists f n v v1 k c q, dl_form W (lin_sub left right) = Some f /\ as_two f = Some (n, v, v1, k) /\ v < nvars t /\ v1 < nvars t /\ wofq W q = Some k /\ (if n then c < 0 else 0 < c)%Q /\
     forall y, (y O == 0)%Q -> (lval y left - lval y right == c * (y v - y v1 + q))%Q).
Proof.
  intros H0 Hl Hr Vl Vr Hd. destruct (lin_add_clean left right Hl Hr) as (_ & _ & Hc). pose proof (fun y => lin_sub_ok y left right (proj1 Hl)) as Hs.
  assert (Vs : forall x, In x (map fst (lvars (lin_sub left right))) -> x < nvars t) by (intros x Hx; apply sub_keys in Hx as [Hx|Hx]; [apply Vl, Hx|apply Vr, Hx|apply Hl]).
  destruct (dl_form W (lin_sub left right)) as [f|] eqn:Ef; [|apply form_none in Ef; contradiction].
  destruct f as [k|n v k|n v v1 k]; [left; exists k; split; [reflexivity|]|right; exists (DOne n v k), n, v, 0, k|right; exists (DTwo n v v1 k), n, v, v1, k].
  - intros y. rewrite <- Hs. unfold dl_form in Ef. unfold lval. destruct (lvars (lin_sub left right)) as [|[x c] [|[x1 c1] [|]]]; try discriminate.
    + injection Ef as <-. cbn [msum]. apply Qplus_0_l.
    + destruct (wofq W _); discriminate.
    + destruct (negb _); [discriminate|]. destruct (wofq W _); discriminate.
  - destruct (form_two _ _ n v 0 k Hc Ef eq_refl) as (_ & Hv & c & q & Hq & Hn & Hy). exists c, q. split; [reflexivity|]. split; [reflexivity|]. split; [apply Vs, Hv|]. split; [lia|]. split; [exact Hq|]. split; [exact Hn|].
    intros y Hy0. rewrite <- Hs. apply Hy, Hy0.
  - destruct (form_two _ _ n v v1 k Hc Ef eq_refl) as (Hv1 & Hv & c & q & Hq & Hn & Hy). exists c, q. split; [reflexivity|]. split; [reflexivity|]. split; [apply Vs, Hv|]. split; [destruct Hv1 as [->|Hv1]; [lia|apply Vs, Hv1]|]. split; [exact Hq|]. split; [exact Hn|].
    intros y Hy0. rewrite <- Hs. apply Hy, Hy0.
Qed.
Lemma Qlt_bool_iff a b : Qlt_bool a b = true <-> (a < b)%Q.
Proof. unfold Qlt_bool. rewrite negb_true_iff. split; [intros H; destruct (Qlt_le_dec a b) as [K|K]; [exact K|apply Qle_bool_iff in K; congruence]|]. intros H. destruct (Qle_bool b a) eqn:E; [apply Qle_bool_iff in E; lra|reflexivity]. Qed.

Lemma isv_diff y a b : vals_ok L y -> isv L (y a - y b)%Q.
Proof. intros Hy. apply isv_sub; apply Hy. Qed.
(** The condition on the difference that each shape of distance expresses. *)
Lemma edge_lt y q k v v1 : vals_ok L y -> wofq W q = Some k -> (wsat L (k +' -' wunit W) (y v1 - y v)%Q <-> (0 < y v - y v1 + q)%Q).
Proof. intros Hy Hq. rewrite (rq_lt L WR q k _ Hq (isv_diff y _ _ Hy)). lra. Qed.
Lemma edge_le y q k v v1 : vals_ok L y -> wofq W q = Some k -> (wsat L k (y v1 - y v)%Q <-> (0 <= y v - y v1 + q)%Q).
Proof. intros Hy Hq. rewrite (rq_le L WR q k _ Hq (isv_diff y _ _ Hy)). lra. Qed.
Lemma edge_gt y q k v v1 : vals_ok L y -> wofq W q = Some k -> (wsat L (-' k +' -' wunit W) (y v - y v1)%Q <-> (y v - y v1 + q < 0)%Q).
Proof. intros Hy Hq. rewrite (rq_gt L WR q k _ Hq (isv_diff y _ _ Hy)). lra. Qed.
Lemma edge_ge y q k v v1 : vals_ok L y -> wofq W q = Some k -> (wsat L (-' k) (y v - y v1)%Q <-> (y v - y v1 + q <= 0)%Q).
Proof. intros Hy Hq. rewrite (rq_ge L WR q k _ Hq (isv_diff y _ _ Hy)). lra. Qed.

Section Cmp.
Context (s : st dl) (i : nat) (t : dl) (vs : list (list lit)) (left right : lin).
Hypothesis HH : host s i t vs.
Hypothesis Hl : lin_clean left.
Hypothesis Hr : lin_clean right.
Hypothesis Vl : vars_in t left.
Hypothesis Vr : vars_in t right.
Hypothesis Hd : diff_form (lin_sub left right).

Ltac cases := destruct (cmp_cases t left right (proj1 (dc_n L _ _ (host_core _ _ _ _ HH))) Hl Hr Vl Vr Hd) as [(k & Ef & Hk)|(f & n & v & v1 & k & c & q & Ef & Ea & Hv & Hv1 & Hq & Hn & Hk)]; rewrite Ef;
  [|destruct (rq_con L WR q k Hq) as (C1 & C2 & C3 & C4)].
Theorem lt_returns : returns s i t vs (dl_new_lt W s i left right) (fun y => (lval y left < lval y right)%Q).
Proof.
  unfold dl_new_lt. cases.
  - apply const_returns; [exact HH|]. intros y. rewrite Qlt_bool_iff. specialize (Hk y). lra.
  - destruct f as [|[] x k'|[] x x1 k']; try discriminate; injection Ea as <- <- <- <-; (apply may_returns; [exact HH|assumption|assumption|assumption|]); intros y Hy Hy0; specialize (Hk y Hy0); rewrite ?(edge_lt y q), ?(edge_gt y q) by assumption;
      [destruct (sign_neg c (y x - y O + q)%Q Hn) as (S1 & S2 & S3 & S4 & S5)|destruct (sign_pos c (y x - y O + q)%Q Hn) as (S1 & S2 & S3 & S4 & S5)|destruct (sign_neg c (y x - y x1 + q)%Q Hn) as (S1 & S2 & S3 & S4 & S5)|destruct (sign_pos c (y x - y x1 + q)%Q Hn) as (S1 & S2 & S3 & S4 & S5)];
      rewrite <- S1; lra.
Qed.
Theorem leq_returns : returns s i t vs (dl_new_leq W s i left right) (fun y => (lval y left <= lval y right)%Q).
Proof.
  unfold dl_new_leq. cases.
  - apply const_returns; [exact HH|]. intros y. rewrite Qle_bool_iff. specialize (Hk y). lra.
  - destruct f as [|[] x k'|[] x x1 k']; try discriminate; injection Ea as <- <- <- <-; (apply may_returns; [exact HH|assumption|assumption|assumption|]); intros y Hy Hy0; specialize (Hk y Hy0); rewrite ?(edge_le y q), ?(edge_ge y q) by assumption;
      [destruct (sign_neg c (y x - y O + q)%Q Hn) as (S1 & S2 & S3 & S4 & S5)|destruct (sign_pos c (y x - y O + q)%Q Hn) as (S1 & S2 & S3 & S4 & S5)|destruct (sign_neg c (y x - y x1 + q)%Q Hn) as (S1 & S2 & S3 & S4 & S5)|destruct (sign_pos c (y x - y x1 + q)%Q Hn) as (S1 & S2 & S3 & S4 & S5)];
      rewrite <- S2; lra.
Qed.
Theorem geq_returns : returns s i t vs (dl_new_geq W s i left right) (fun y => (lval y right <= lval y left)%Q).
Proof.
  unfold dl_new_geq. cases.
  - apply const_returns; [exact HH|]. intros y. rewrite Qle_bool_iff. specialize (Hk y). lra.
  - destruct f as [|[] x k'|[] x x1 k']; try discriminate; injection Ea as <- <- <- <-; (apply may_returns; [exact HH|assumption|assumption|assumption|]); intros y Hy Hy0; specialize (Hk y Hy0); rewrite ?(edge_le y q), ?(edge_ge y q) by assumption;
      [destruct (sign_neg c (y x - y O + q)%Q Hn) as (S1 & S2 & S3 & S4 & S5)|destruct (sign_pos c (y x - y O + q)%Q Hn) as (S1 & S2 & S3 & S4 & S5)|destruct (sign_neg c (y x - y x1 + q)%Q Hn) as (S1 & S2 & S3 & S4 & S5)|destruct (sign_pos c (y x - y x1 + q)%Q Hn) as (S1 & S2 & S3 & S4 & S5)];
      rewrite <- S4; lra.
Qed.
(** Every shape but [v - v1 + k] with a positive coefficient, which the two theories treat differently. *)
Theorem gt_returns last : (forall v v1 k c q, dl_form W (lin_sub left right) = Some (DTwo false v v1 k) -> v < nvars t -> v1 < nvars t -> wofq W q = Some k -> (0 < c)%Q -> (forall y, (y O == 0)%Q -> (lval y left - lval y right == c * (y v - y v1 + q))%Q) ->
    returns s i t vs (may (last s i v v1 k)) (fun y => (lval y right < lval y left)%Q)) ->
  returns s i t vs (new_gt_with W last s i left right) (fun y => (lval y right < lval y left)%Q).
Proof.
  intros Hlast. unfold new_gt_with. cases.
  - apply const_returns; [exact HH|]. intros y. rewrite Qlt_bool_iff. specialize (Hk y). lra.
  - destruct f as [|[] x k'|[] x x1 k']; try discriminate; injection Ea as <- <- <- <-; try (apply (Hlast x x1 k' c q); assumption); (apply may_returns; [exact HH|assumption|assumption|assumption|]); intros y Hy Hy0; specialize (Hk y Hy0); rewrite ?(edge_lt y q), ?(edge_gt y q) by assumption;
      [destruct (sign_neg c (y x - y O + q)%Q Hn) as (S1 & S2 & S3 & S4 & S5)|destruct (sign_pos c (y x - y O + q)%Q Hn) as (S1 & S2 & S3 & S4 & S5)|destruct (sign_neg c (y x - y x1 + q)%Q Hn) as (S1 & S2 & S3 & S4 & S5)];
      rewrite <- S3; lra.
Qed.
Theorem gt_last_returns v v1 k c q : v < nvars t -> v1 < nvars t -> wofq W q = Some k -> (0 < c)%Q -> (forall y, (y O == 0)%Q -> (lval y left - lval y right == c * (y v - y v1 + q))%Q) ->
  returns s i t vs (may (new_distance W s i v v1 (k +' -' wunit W))) (fun y => (lval y right < lval y left)%Q).
Proof.
  intros Hv Hv1 Hq Hn Hk. destruct (rq_con L WR q k Hq) as (C1 & C2 & C3 & C4). apply may_returns; auto. intros y Hy Hy0. specialize (Hk y Hy0). rewrite (edge_lt y q) by assumption.
  destruct (sign_pos c (y v - y v1 + q)%Q Hn) as (S1 & S2 & S3 & S4 & S5). rewrite <- S3. lra.
Qed.
Theorem eq_returns : dlevel s = 0 -> returns s i t vs (dl_new_eq W s i left right) (fun y => (lval y left == lval y right)%Q).
Proof.
  intros Hlev. unfold dl_new_eq. cases.
  - apply const_returns; [exact HH|]. intros y. rewrite Qeq_bool_iff. specialize (Hk y). lra.
  - assert (HE : returns s i t vs (eq_at W s i v v1 k) (fun y => (lval y left == lval y right)%Q)); [|destruct f as [|n' x k'|n' x x1 k']; try discriminate; injection Ea as <- <- <- <-; exact HE].
    pose proof (host_core _ _ _ _ HH) as HC. pose proof (dc_n L _ _ HC) as Hcap.
    assert (Heq : forall y, vals_ok L y -> (y O == 0)%Q -> (wsat L k (y v1 - y v)%Q /\ wsat L (-' k) (y v - y v1)%Q <-> (lval y left == lval y right)%Q)).
    { intros y Hy Hy0. specialize (Hk y Hy0). rewrite (edge_le y q), (edge_ge y q) by assumption. assert (S5 : (c * (y v - y v1 + q) == 0 <-> y v - y v1 + q == 0)%Q) by (destruct n; [apply (sign_neg c _ Hn)|apply (sign_pos c _ Hn)]).
      split; [intros [A B]; assert (K : (y v - y v1 + q == 0)%Q) by lra; apply S5 in K; lra|]. intros K. assert (K' : (y v - y v1 + q == 0)%Q) by (apply S5; lra). lra. }
    unfold eq_at, dl_th. rewrite (ho_nth _ _ _ _ HH). unfold guard. destruct (Nat.ltb_spec v (cap t)); [|lia]. destruct (Nat.ltb_spec v1 (cap t)); [|lia]. cbn [andb].
    destruct (within W (distance W t v v1) k) eqn:Ew.
    + destruct (new_distance_gives s i t vs v v1 k HH Hv Hv1 C1) as (s1 & t1 & p & E1 & G1 & _).
      destruct (new_distance_gives s1 i t1 vs v1 v (-' k)) as (s2 & t2 & p2 & E2 & G2 & _); [apply (gi_host _ _ _ _ _ _ _ _ G1)|rewrite (gi_nvars _ _ _ _ _ _ _ _ G1); assumption|rewrite (gi_nvars _ _ _ _ _ _ _ _ G1); assumption|assumption|].
      destruct (both_give s i t vs _ _ s1 t1 p s2 t2 p2 Hlev G1 G2) as (s3 & l & E3 & G3). exists s3, t2, l. split; [unfold may; rewrite E1; cbn [rbind]; rewrite E2; cbn [rbind]; rewrite E3; reflexivity|]. apply (gives_iff _ _ _ _ _ _ _ _ _ Heq G3).
    + exists s, t, FALSE_lit. split; [reflexivity|]. apply gives_same; [exact HH|apply (host_nv _ _ _ _ HH)|]. intros M y J.
      split; [intros K; unfold mlit in K; cbn in K; rewrite (jo_false _ _ _ _ J) in K; discriminate|]. intros K. exfalso. apply (Heq y (jo_vals _ _ _ _ J) (jo_zero _ _ _ _ J)) in K as [K1 K2].
      pose proof (fit_solves t vs M y _ HC (jo_told _ _ _ _ J) J) as HS. unfold within, distance in Ew. cbn in Ew. apply andb_false_iff in Ew as [Ew|Ew].
      * destruct (dists t v1 v) as [x|] eqn:Ex; cbn in Ew; [|discriminate]. pose proof (proj1 (wlt_iff L _ _) Ew) as Hx. pose proof (dist_sound L t _ y v1 v x HC HS Ex) as Hs.
        unfold wlt, wsat in *. destruct (evt_ex _ (evt_and _ _ Hx (evt_and _ _ K1 Hs))) as (e & _ & A & B & C). rewrite (ev_neg _ L) in A. lra.
      * destruct (dists t v v1) as [x|] eqn:Ex; cbn in Ew; [|discriminate]. pose proof (proj1 (wlt_iff L _ _) Ew) as Hx. pose proof (dist_sound L t _ y v v1 x HC HS Ex) as Hs.
        unfold wlt, wsat in *. destruct (evt_ex _ (evt_and _ _ Hx (evt_and _ _ K2 Hs))) as (e & _ & A & B & C). rewrite (ev_neg _ L) in B. lra.
Qed.
End Cmp.
(** The functions throw exactly when the difference of the expressions is not of difference form. *)
Theorem throws_iff s i left right : ~ diff_form (lin_sub left right) ->
  dl_new_lt W s i left right = Ok None /\ dl_new_leq W s i left right = Ok None /\ dl_new_eq W s i left right = Ok None /\ dl_new_geq W s i left right = Ok None /\ forall last, new_gt_with W last s i left right = Ok None.
Proof. intros H. apply form_none in H. unfold dl_new_lt, dl_new_leq, dl_new_eq, dl_new_geq, new_gt_with. rewrite H. auto. Qed.
End Api.
End Srt.
