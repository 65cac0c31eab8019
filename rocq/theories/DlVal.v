(** Difference logic theories: the explanations are valid as long as nothing has been backtracked and two
    variables are related by at most one constraint. *)
From Verif Require Import Base Sat Lin Qe Dw Dl DlClo DlTight DlEdge DlTh DlFacts.
From Coq Require Import Lqa.
Open Scope nat_scope.
Local Arguments Nat.ltb : simpl never.
Local Arguments Nat.eqb : simpl never.

Section Val.
Context {D : Type} {W : wops D} (L : wlaws W).
Notation "a +' b" := (wadd W a b) (at level 50, left associativity).
Notation "-' a" := (wneg W a) (at level 35).
Notation dl := (dl D).
Notation dcon := (dcon D).

(** The literal [q] is true under [y]. *)
Definition lit_true (t : dl) (y : nat -> Q) (q : lit) : Prop := exists c, In c (dcons t) /\ lvar (c_b c) = lvar q /\ if lsgn q then con_sat L c y else ~ con_sat L c y.
(** The clause holds under every assignment of numbers to the variables. *)
Definition dl_valid (t : dl) (k : list lit) : Prop := forall y, vals_ok L y -> exists q, In q k /\ lit_true t y q.

(** The same two variables. *)
Definition same_pair (c c' : dcon) : Prop := (c_from c = c_from c' /\ c_to c = c_to c') \/ (c_from c = c_to c' /\ c_to c = c_from c').
(** Histories without pop, with at most one constraint between two variables. *)
Inductive fstep : dl -> list (list lit) -> dl -> list (list lit) -> Prop :=
| fs_var t vs : fstep t vs (fst (t_dl_var W t)) vs
| fs_con t vs c : good_con L (nvars t) c -> ~ atom t (lvar (c_b c)) -> (forall c', In c' (dcons t) -> ~ same_pair c c') -> fstep t vs (add_con t c) vs
| fs_prop t v vs p val t' ls : atom t (lvar p) -> reads val (p :: concat (v :: vs)) -> dl_prop W t val p = Ok (t', ls, None) -> fstep t (v :: vs) t' ((p :: v) :: vs)
| fs_push t vs : fstep t vs (dl_push t) ([] :: vs).
Inductive FReach : dl -> list (list lit) -> Prop :=
| FR_init size : 0 < size -> FReach (dl_init W size) [[]]
| FR_step t vs t' vs' : FReach t vs -> fstep t vs t' vs' -> FReach t' vs'.
Lemma fstep_dstep t vs t' vs' : fstep t vs t' vs' -> dstep L t vs t' vs'.
Proof. intros [| | |]; econstructor; eassumption. Qed.
Lemma FReach_DReach t vs : FReach t vs -> DReach L t vs.
Proof. induction 1 as [size Hs|t vs t' vs' _ IH HS]; [constructor; exact Hs|]. apply (DR_step L t vs); [exact IH|apply fstep_dstep, HS]. Qed.

(** The edges that are enforced. *)
Definition edge_of (c : dcon) (ps : list lit) (u v : nat) (x : D) : Prop :=
  (In (c_b c) ps /\ u = c_from c /\ v = c_to c /\ x = c_w c) \/ (In (negl (c_b c)) ps /\ u = c_to c /\ v = c_from c /\ x = nega W (c_w c)).
Definition enforced (t : dl) (ps : list lit) (u v : nat) (x : D) : Prop := exists c, kfind (u, v) (dist_constr t) = Some c /\ edge_of c ps u v x.
Record FInv (t : dl) (ps : list lit) : Prop := {
  fi_core : DCore L t ps;
  fi_paths : paths L (enforced t ps) (dists t) (preds t);
  fi_one : forall c c', In c (dcons t) -> In c' (dcons t) -> same_pair c c' -> c = c' }.

Lemma edge_told (t : dl) ps (c : dcon) p : In c (dcons t) -> lsgn (c_b c) = true -> lvar (c_b c) = lvar p -> edge_of c (p :: ps) (e_from c p) (e_to c p) (e_w (W := W) c p).
Proof.
  intros _ Hs Ev. unfold edge_of, e_from, e_to, e_w. destruct (c_b c) as [cv cs], p as [pv s]. cbn in *. subst. destruct s; [left|right]; cbn; auto 6.
Qed.
Lemma enforced_le t ps u v x : DCore L t ps -> enforced t ps u v x -> dle L (dists t u v) x.
Proof.
  intros HC (c & Ek & He). apply kfind_In in Ek. destruct (dc_enf L _ _ HC _ _ Ek) as [Hc _]. pose proof (dc_cons L _ _ HC c Hc) as Hg. pose proof Hg as (Hw & H1 & H2 & _ & Hs).
  apply (dist_le_some L). destruct He as [(Hp & -> & -> & ->)|(Hp & -> & -> & ->)].
  - apply (dist_entails L t ps); auto. intros y [Hy K]. specialize (K _ c Hp Hc eq_refl). rewrite Hs in K. exact K.
  - apply (dist_entails L t ps); auto; [apply con_neg, Hw|]. intros y [Hy K]. specialize (K _ c Hp Hc eq_refl).
    pose proof (e_sat L _ c (negl (c_b c)) y Hg Hy) as HS. apply HS in K. unfold e_w, e_to, e_from in K. cbn in K. rewrite Hs in K. exact K.
Qed.

Lemma paths_grow t t' ps (E E' : nat -> nat -> D -> Prop) : inside (dists t) (nvars t) -> (forall i j, dists t' i j = dists t i j) -> (forall i j, i < nvars t -> j < nvars t -> preds t' i j = preds t i j) ->
  (forall u v x, E u v x -> E' u v x) -> DCore L t ps -> paths L E (dists t) (preds t) -> paths L E' (dists t') (preds t').
Proof.
  intros HI Ed Ep HE _ HP r v Hv. rewrite Ed in Hv. specialize (HP r v Hv). clear Hv. induction HP as [|u v Hv E0 HP IH (a & b & c & Ea & Eb & Ec & H)]; [constructor|].
  destruct (HI r v c Ec (not_eq_sym Hv)) as [Hr Hv']. apply (p_step L E' _ _ r u v); [exact Hv|rewrite Ep; auto|exact IH|]. exists a, b, c. rewrite !Ed. auto.
Qed.

Theorem fstep_inv t vs t' vs' : FInv t (concat vs) -> fstep t vs t' vs' -> FInv t' (concat vs').
Proof.
  intros [HC HP H1] HS. destruct HS as [t vs|t vs c Hg Hn Hone|t v vs p val t' ls (c & Hc & Ev) HR E|t vs].
  - destruct (var_sim L t _ HC) as [HS En]. constructor.
    + apply (sim_core L t); assumption.
    + apply (paths_grow t _ (concat vs) (enforced t (concat vs))); auto.
      * apply HC.
      * apply HS.
      * intros i j Hi Hj. pose proof (dc_n L _ _ HC) as Hcap. unfold t_dl_var. cbn [fst cap]. destruct (Nat.eqb (cap t) (nvars t)); [|reflexivity]. cbn.
        destruct (Nat.ltb_spec i (cap t)), (Nat.ltb_spec j (cap t)); try lia. reflexivity.
      * intros u v x (c & Ek & He). exists c. rewrite (sm_con _ _ _ HS). auto.
    + unfold t_dl_var. cbn [fst cap]. destruct (Nat.eqb (cap t) (nvars t)); exact H1.
  - pose proof (con_sim L t _ c HC Hg Hn) as HS. constructor.
    + apply (sim_core L t); assumption.
    + exact HP.
    + intros c1 c2 Hc1 Hc2 Hs. cbn in Hc1, Hc2. apply in_app_or in Hc1 as [Hc1|[<-|[]]], Hc2 as [Hc2|[<-|[]]]; auto; exfalso; [apply (Hone c1 Hc1)|apply (Hone c2 Hc2)]; unfold same_pair in *; intuition congruence.
  - destruct (prop_core L t (concat (v :: vs)) p c val HC Hc Ev HR) as [(e & E' & _)|[(E' & HC')|(t1 & us & val' & ls' & E' & HC' & HF & _ & _ & HU & HRe & Edc & _)]]; rewrite E' in E; [discriminate| |].
    + injection E as <- <-. constructor; [exact HC'| |exact H1]. intros r x Hx. apply (path_ext L (enforced t (concat (v :: vs))) _ (dists t) (preds t)); auto.
      intros i j w (c0 & Ek & He). exists c0. split; [exact Ek|]. unfold edge_of in *. cbn [concat app In] in *. tauto.
    + injection E as <- <-. constructor; [exact HC'| |rewrite (fo_cons _ _ HF); exact H1].
      set (f := e_from c p) in *. set (g := e_to c p) in *. set (w := e_w c p) in *.
      pose proof (dc_cons L _ _ HC c Hc) as (Hw & Hc1 & Hc2 & Hne & Hs).
      assert (Hfg : f <> g) by (subst f g; unfold e_from, e_to; destruct (lsgn p); auto).
      apply (paths_edge L f g w (dists t) (preds t) (dc_closed L _ _ HC)) with (E := enforced t (concat (v :: vs))); auto.
      * intros x Ex. rewrite (prop_cases L t _ p c val HC Hc Ev HR) in E'. fold f g w in E'. destruct (dist_lt W (dists t g f) (Some (-' w))) eqn:E1; [destruct (explain t val g f); cbn in E'; discriminate|].
        rewrite Ex in E1. cbn in E1. apply negb_false_iff in E1. wlra L.
      * intros i j x He. apply enforced_le with (2 := He). exact HC.
      * intros i j x (c0 & Ek & He). exists c0. rewrite Edc, kfind_emplace, Ek. split; [reflexivity|]. unfold edge_of in *. cbn [concat app In] in *. tauto.
      * assert (He : edge_of c (concat ((p :: v) :: vs)) f g w) by (apply (edge_told t); auto).
        exists c. split; [|exact He]. rewrite Edc, kfind_emplace. destruct (kfind (f, g) (dist_constr t)) as [c0|] eqn:Ek; [|rewrite key_eqb_refl; reflexivity].
        f_equal. apply kfind_In in Ek. destruct (dc_enf L _ _ HC _ _ Ek) as [Hc0 Hk]. apply H1; auto. subst f g. unfold same_pair. unfold e_from, e_to in Hk. destruct (lsgn p); destruct Hk as [[_ K]|[_ K]]; injection K as K1 K2; rewrite K1, K2; auto.
  - constructor; [apply push_core, HC|exact HP|exact H1].
Qed.
Theorem FReach_inv t vs : FReach t vs -> FInv t (concat vs).
Proof.
  induction 1 as [size Hs|t vs t' vs' _ IH HS]; [|apply (fstep_inv t vs); assumption]. pose proof (init_core L size Hs) as HC. constructor; [exact HC| |intros c c' []].
  intros r x Hx. cbn in Hx. destruct (Nat.eqb_spec r x) as [E|]; [rewrite <- E; constructor|congruence].
Qed.

(** ** Validity. *)
Lemma walk_valid t ps val r y : FInv t ps -> reads val ps -> vals_ok L y -> forall v, path L (enforced t ps) (dists t) (preds t) r v -> forall fuel e, walk fuel t val r v = Ok e ->
  (exists q, In q e /\ lit_true t y q) \/ (exists a, dists t r v = Some a /\ wsat L a (y v - y r)%Q).
Proof.
  intros [HC _ _] [Hn Hr] Hy v HP. induction HP as [|u v Hv Eu HP IH (a & b & c & Ea & Eb & Ec & Hle)]; intros fuel e Ew.
  { right. exists (w0 W). split; [apply (cl_diag L _ (dc_closed L _ _ HC))|]. apply evt_all. intros d _. rewrite (ev_0 _ L). lra. }
  destruct fuel as [|f]; cbn in Ew; (destruct (Nat.eqb_spec v r); [contradiction|]); [discriminate|]. rewrite Eu in Ew. destruct (walk f t val r u) as [e'| |] eqn:Ew'; cbn in Ew; try discriminate. injection Ew as <-.
  destruct (IH f e' Ew') as [(q & Hq & Ht)|(a' & Ea' & Ha)]; [left; exists q; split; [apply in_or_app; auto|exact Ht]|]. rewrite Ea in Ea'. injection Ea' as <-.
  destruct Eb as (k & Ek & He). pose proof Ek as Ek'. apply kfind_In in Ek'. destruct (dc_enf L _ _ HC _ _ Ek') as [Hk _]. pose proof (dc_cons L _ _ HC k Hk) as Hg. pose proof Hg as (Hw & _ & _ & _ & Hs).
  assert (Hb : wsat L b (y v - y u)%Q -> exists a0, dists t r v = Some a0 /\ wsat L a0 (y v - y r)%Q).
  { intros Hb. exists c. split; [exact Ec|]. apply (wsat_le L (a +' b)); [exact Hle|]. apply (wsat_eq L _ ((y u - y r) + (y v - y u))%Q); [ring|]. apply wsat_add; assumption. }
  destruct (sat_dec _ L (c_w k) (y (c_to k) - y (c_from k))%Q) as [Hd|Hd].
  - destruct He as [(Hp & -> & -> & ->)|(Hp & -> & -> & ->)]; [right; apply Hb, Hd|]. left. exists (c_b k). split; [|exists k; rewrite Hs; auto].
    apply in_or_app. left. unfold edge_lits. rewrite Ek. pose proof (Hr _ Hp) as K. rewrite Hn in K. destruct (val (c_b k)); try discriminate. left. reflexivity.
  - destruct He as [(Hp & -> & -> & ->)|(Hp & -> & -> & ->)].
    + left. exists (negl (c_b k)). split; [|exists k; cbn; rewrite Hs; auto]. apply in_or_app. left. unfold edge_lits. rewrite Ek, (Hr _ Hp). left. reflexivity.
    + right. apply Hb. pose proof (e_sat L _ k (negl (c_b k)) y Hg Hy) as HS. unfold e_w, e_to, e_from in HS. cbn in HS. rewrite Hs in HS. apply HS, Hd.
Qed.
Lemma explain_valid t ps val r v e y x : FInv t ps -> reads val ps -> vals_ok L y -> dists t r v = Some x -> explain t val r v = Ok e -> (exists q, In q e /\ lit_true t y q) \/ wsat L x (y v - y r)%Q.
Proof.
  intros HF HR Hy Ex Ee. destruct (walk_valid t ps val r y HF HR Hy v (fi_paths _ _ HF r v ltac:(congruence)) _ _ Ee) as [H|(a & Ea & H)]; [auto|]. rewrite Ex in Ea. injection Ea as <-. auto.
Qed.
Theorem prop_valid t v vs val p : FReach t (v :: vs) -> atom t (lvar p) -> reads val (p :: concat (v :: vs)) -> exists t' ls cf, dl_prop W t val p = Ok (t', ls, cf) /\
  (forall k, In k ls -> dl_valid t k) /\ (forall k, cf = Some k -> dl_valid t k).
Proof.
  intros HFR Ha HR. pose proof (FReach_inv _ _ HFR) as HF. pose proof (fi_core _ _ HF) as HC. assert (HR0 : reads val (concat (v :: vs))) by (destruct HR as [A B]; split; [exact A|intros q Hq; apply B; right; exact Hq]).
  pose proof Ha as (c & Hc & Ev). pose proof (dc_cons L _ _ HC c Hc) as Hg.
  destruct (prop_core L t _ p c val HC Hc Ev HR) as [(e & E & Ee & (x & Ex & Hx) & _)|[(E & HC')|(t' & us & val' & ls & E & HC' & Hfo & _ & Etl & _)]].
  - eexists _, _, _. split; [exact E|]. split; [intros k []|]. intros k Ek. injection Ek as <-. intros y Hy.
    destruct (explain_valid t _ val _ _ e y x HF HR0 Hy Ex Ee) as [(q & Hq & Ht)|Hs]; [exists q; split; [apply in_or_app; auto|exact Ht]|].
    exists (negl p). split; [apply in_or_app; right; left; reflexivity|]. exists c. split; [exact Hc|]. split; [exact Ev|].
    pose proof (e_sat L _ c p y Hg Hy) as HS. assert (Hno : ~ wsat L (e_w (W := W) c p) (y (e_to c p) - y (e_from c p))%Q).
    { intros K. unfold wlt, wsat in *. destruct (evt_ex _ (evt_and _ _ Hx (evt_and _ _ K Hs))) as (e0 & _ & A & B & C). rewrite (ev_neg _ L) in A. lra. }
    cbn. destruct (lsgn p); cbn in *; [tauto|]. destruct (sat_dec _ L (c_w c) (y (c_to c) - y (c_from c))%Q) as [K|K]; [exact K|]. exfalso. apply Hno, HS, K.
  - eexists _, _, _. split; [exact E|]. split; [intros k []|discriminate].
  - eexists _, _, _. split; [exact E|]. split; [|discriminate].
    assert (HF' : FInv t' (p :: concat (v :: vs))) by (apply (fstep_inv t (v :: vs) t' ((p :: v) :: vs) HF); eapply fs_prop; eauto).
    assert (Hlt : forall y q, lit_true t' y q -> lit_true t y q) by (unfold lit_true; rewrite (fo_cons _ _ Hfo); auto).
    refine (tell_all L t' (p :: concat (v :: vs)) (dl_valid t) HC' _ _ _ val [] val' ls HR (cons_at_In t' us) _ Etl).
    + intros val1 k e HR1 Hk _ Hd Ee y Hy. apply (dist_lt_some L) in Hd as (x & Ex & Hx). destruct (explain_valid t' _ val1 _ _ e y x HF' HR1 Hy Ex Ee) as [(q & Hq & Ht)|Hs]; [exists q; split; [right; exact Hq|apply Hlt, Ht]|].
      exists (negl (c_b k)). split; [left; reflexivity|]. apply Hlt. exists k. split; [exact Hk|]. split; [reflexivity|]. destruct (dc_cons L _ _ HC' k Hk) as (_ & _ & _ & _ & Hsg). cbn. rewrite Hsg. cbn.
      intros K. unfold con_sat, wlt, wsat in *. destruct (evt_ex _ (evt_and _ _ Hx (evt_and _ _ K Hs))) as (e0 & _ & A & B & C). rewrite (ev_neg _ L) in A. lra.
    + intros val1 k e HR1 Hk _ Hd Ee y Hy. apply (dist_le_some L) in Hd as (x & Ex & Hx). destruct (explain_valid t' _ val1 _ _ e y x HF' HR1 Hy Ex Ee) as [(q & Hq & Ht)|Hs]; [exists q; split; [right; exact Hq|apply Hlt, Ht]|].
      exists (c_b k). split; [left; reflexivity|]. apply Hlt. exists k. split; [exact Hk|]. split; [reflexivity|]. destruct (dc_cons L _ _ HC' k Hk) as (_ & _ & _ & _ & Hsg). rewrite Hsg. apply (wsat_le L x); assumption.
    + intros k [].
Qed.
End Val.
