(** Propagation in the linear real arithmetic theory. *)
From Verif Require Import Base Sat SatSpec SatInv Lin Qe Lra LraTab LraVal LraInv LraChk.
From Coq Require Import Lqa.
Open Scope Q_scope.
Local Arguments Nat.ltb : simpl never.
Local Arguments Nat.eqb : simpl never.

(** ** Recorded clauses. *)
Lemma lemmas_app tm at_ p v1 l1 v2 l2 v3 : lemmas_ok tm at_ p v1 l1 v2 -> lemmas_ok tm at_ p v2 l2 v3 -> lemmas_ok tm at_ p v1 (l1 ++ l2) v3.
Proof. induction 1; intros HL; cbn; [exact HL|]. constructor; auto. Qed.
Lemma lemmas_iff (tm tm' : (nat -> bool) -> Prop) (at_ at' : nat -> Prop) p v1 ls v2 : (forall M, tm' M -> tm M) -> (forall v, at_ v -> at' v) -> lemmas_ok tm at_ p v1 ls v2 -> lemmas_ok tm' at' p v1 ls v2.
Proof. intros H1 H2. induction 1; constructor; auto. intros M HM Ht. auto. Qed.
Definition vmono (v1 v2 : lv) : Prop := forall q, v1 q <> LUndef -> v2 q = v1 q.
Definition vneg (v : lv) : Prop := forall q, v (negl q) = lneg (v q).
Lemma ov_vneg v p : vneg v -> vneg (ov v p).
Proof.
  intros H q. unfold ov. destruct (lit_eqb_spec (negl q) p) as [E|E].
  - subst p. destruct (lit_eqb_spec q (negl q)) as [F|F]; [symmetry in F; destruct (negl_neq q F)|]. rewrite negl_invol, lit_eqb_refl. reflexivity.
  - destruct (lit_eqb_spec (negl q) (negl p)) as [F|F].
    + apply negl_inj in F. subst. rewrite lit_eqb_refl. reflexivity.
    + destruct (lit_eqb_spec q p) as [G|G]; [subst; congruence|]. destruct (lit_eqb_spec q (negl p)) as [G'|G']; [subst; rewrite negl_invol in E; congruence|]. apply H.
Qed.
Lemma ov_vmono v p : vneg v -> v p = LUndef -> vmono v (ov v p).
Proof. intros Hn Hu q Hq. apply ov_mono; auto. rewrite Hn, Hu. reflexivity. Qed.
Lemma vmono_trans a b c : vmono a b -> vmono b c -> vmono a c.
Proof. intros H1 H2 q Hq. rewrite H2; rewrite H1; auto. Qed.
Lemma vmono_false a b l : vmono a b -> Forall (fun q => a q = LFalse) l -> Forall (fun q => b q = LFalse) l.
Proof. intros H. apply Forall_impl. intros q Hq. rewrite H; congruence. Qed.

(** What a phase of the propagation gives back. *)
Definition phase_ok (tm : (nat -> bool) -> Prop) (at_ : nat -> Prop) (p : lit) (val : lv) (r : lv * list (list lit) * option (list lit)) : Prop :=
  let '(v', ls, cf) := r in lemmas_ok tm at_ p val ls v' /\ vmono val v' /\ vneg v' /\
    forall c, cf = Some c -> (2 <= length c)%nat /\ Forall (fun q => v' q = LFalse) c /\ In (negl p) c /\ valid_in tm c.

Section One.
Context (t : lra) (vs : list (list lit)) (HI : TInv t vs) (y : nat -> Q) (p : lit).
Let tm (M : nat -> bool) := joint t M y.

Lemma aw_atom x a : In a (aw t x) -> lmean t (a_b a) = Some (a_op a, x, a_v a) /\ lmean t (negl (a_b a)) = Some (other (a_op a), x, neg_bound a) /\ atoms t (lvar (a_b a)).
Proof.
  intros H. apply (ti_aw _ _ HI) in H as [(v & Hv) Hx]. destruct (ti_atom _ _ HI _ _ Hv) as (Eb & _). unfold lmean, atoms. rewrite Eb. cbn [lvar lsgn negl].
  rewrite (proj1 (gfind_nodup _ (ti_nodup _ _ HI) v a) Hv). cbn [amean negb]. rewrite Hx. split; [reflexivity|]. split; [reflexivity|].
  change v with (fst (v, a)). apply in_map, Hv.
Qed.
(** lra_constraint.cpp: what a bound implies. *)
Lemma implied_ok s b x a l : In a (aw t x) -> implied s b a = Some l -> bsgn s b ->
  atoms t (lvar l) /\ forall M, joint t M y -> bhold s b (y x) -> mlit M l = true.
Proof.
  intros Ha Himp Hs. destruct (aw_atom x a Ha) as (L1 & L2 & At). destruct b as [b|]; [|discriminate]. unfold implied in Himp.
  destruct (side_eqb_spec (a_op a) s) as [Es|Es].
  - destruct (sle s (a_v a) b) eqn:E; inversion Himp; subst. split; [exact At|]. intros M HJ Hb. apply (lmean_joint t vs HI _ _ _ _ M y L1 HJ).
    apply (bhold_weak (a_op a) (Some (a_v a)) (Some b)); [exact E|exact Hb].
  - destruct (sle s b (a_v a)) eqn:E; cbn in Himp; inversion Himp; subst. split; [exact At|]. intros M HJ Hb. rewrite mlit_negl. apply negb_true_iff.
    destruct (mlit M (a_b a)) eqn:Em; [|reflexivity]. exfalso. apply (lmean_joint t vs HI _ _ _ _ M y L1 HJ) in Em. apply sle_false in E.
    assert (Eo : a_op a = other s) by (destruct s, (a_op a); cbn; congruence). rewrite Eo in Em.
    apply (bhold_conflict s b (a_v a) (y x)); auto. rewrite <- Eo. apply bok_sgn. apply (lmean_inv t vs HI) in L1 as (a' & _ & _ & _ & _ & _ & Hk). exact Hk.
Qed.

(** The reasons behind a bound. *)
Record why_ok (s : side) (x : nat) (b : bnd) (why : list lit) (val : lv) : Prop := {
  w_sgn : bsgn s b;
  w_false : Forall (fun q => val q = LFalse) why;
  w_p : In (negl p) why;
  w_nd : NoDup (filter (fun q => negb (lvar q =? 0)%nat) why);
  w_hold : forall M, M 0%nat = false -> joint t M y -> (forall q, In q why -> mlit M q = false) -> bhold s b (y x) }.
Lemma why_mono s x b why v1 v2 : why_ok s x b why v1 -> vmono v1 v2 -> why_ok s x b why v2.
Proof. intros [A B D E F] H. constructor; auto. eapply vmono_false; eassumption. Qed.
Lemma why_valid s x b why val a l : why_ok s x b why val -> In a (aw t x) -> implied s b a = Some l -> valid_in tm (l :: why).
Proof.
  intros HW Ha Himp M HM HJ. destruct (existsb (mlit M) why) eqn:E.
  - apply existsb_exists in E as (q & A & B). exists q. split; [right; exact A|exact B].
  - exists l. split; [left; reflexivity|]. apply (implied_ok s b x a l Ha Himp (w_sgn _ _ _ _ _ HW)); [exact HJ|]. apply (w_hold _ _ _ _ _ HW M HM HJ).
    intros q Hq. destruct (mlit M q) eqn:Eq; [|reflexivity]. rewrite <- E. symmetry. apply existsb_exists. eauto.
Qed.

Lemma tell_ok s x b why : forall al val, (forall a, In a al -> In a (aw t x)) -> vneg val -> why_ok s x b why val ->
  phase_ok tm (atoms t) p val (tell s b why al val).
Proof.
  induction al as [|a al IH]; intros val Hal Hn HW; cbn [tell].
  - split; [constructor|]. split; [intros q _; reflexivity|]. split; [exact Hn|]. discriminate.
  - assert (Hal' : forall a, In a al -> In a (aw t x)) by (intros; apply Hal; right; assumption). destruct (implied s b a) as [l|] eqn:E; [|apply IH; assumption].
    pose proof (why_valid s x b why val a l HW (Hal a (or_introl eq_refl)) E) as HV.
    destruct (val l) eqn:El; [|apply IH; assumption|].
    + split; [constructor|]. split; [intros q _; reflexivity|]. split; [exact Hn|]. intros c Ec. inversion Ec; subst.
      split; [pose proof (w_p _ _ _ _ _ HW); destruct why; [contradiction|cbn; lia]|]. split; [constructor; [exact El|apply HW]|]. split; [right; apply HW|exact HV].
    + fold (ov val l). assert (Hm : vmono val (ov val l)) by (apply ov_vmono; assumption).
      pose proof (IH (ov val l) Hal' (ov_vneg _ _ Hn) (why_mono _ _ _ _ _ _ HW Hm)) as H. destruct (tell s b why al (ov val l)) as [[v2 ls] cf]. destruct H as (A & B & D & F).
      split; [|split; [eapply vmono_trans; eassumption|auto]]. constructor; auto; try apply HW. apply (implied_ok s b x a l (Hal a (or_introl eq_refl)) E (w_sgn _ _ _ _ _ HW)).
Qed.
Lemma tell_none s why : forall al val, tell s None why al val = (val, [], None).
Proof. induction al as [|a al IH]; intros val; cbn; auto. Qed.

(** Rows. *)
Lemma row_sum_eq s tst : forall m acc why tot why', row_sum t s tst m acc why = Some (tot, why') ->
  tot = bsum (fun v c => bound t (tside s c) v) m acc /\ why' = why ++ map (fun e => negl (breason t (tside s (snd e)) (fst e))) m.
Proof.
  induction m as [|[v c] m IH]; intros acc why tot why' H; cbn in H.
  - inversion H; subst. rewrite app_nil_r. auto.
  - destruct (tst v c); [|discriminate]. apply IH in H as [-> ->]. split; [reflexivity|]. rewrite <- app_assoc. reflexivity.
Qed.
Lemma reasons_nodup s : forall m, asc m -> NoDup (filter (fun q => negb (lvar q =? 0)%nat) (map (fun e => negl (breason t (tside s (snd e)) (fst e))) m)).
Proof.
  intros m Hm. assert (ND : NoDup (map fst m)).
  { induction m as [|[v c] m IH]; cbn; [constructor|]. cbn in Hm. constructor; [|apply IH; eapply above_asc, Hm]. intros H. apply in_map_iff in H as ([v' c'] & E & H). cbn in E. subst. pose proof (above_in _ _ Hm _ _ H). lia. }
  clear Hm. induction m as [|[v c] m IH]; cbn [map filter]; [constructor|]. inversion ND as [|? ? Hn ND']; subst.
  destruct (negb _) eqn:E; [|apply IH, ND']. constructor; [|apply IH, ND']. intros Hin. apply filter_In in Hin as [Hin _].
  apply in_map_iff in Hin as ([v' c'] & E2 & Hin). apply negl_inj in E2. cbn [fst snd] in *. apply negb_true_iff, Nat.eqb_neq in E. rewrite lvar_negl in E.
  destruct (reason_inj t (cb t) vs (ti_b _ _ HI) (tside s c) v (tside s c') v' (eq_sym E2)) as [_ Ev].
  - intros F. apply E. unfold breason. rewrite F. reflexivity.
  - subst v'. apply Hn. apply in_map_iff. exists (v, c'). auto.
Qed.

Lemma row_prop_ok s x r val : In r (tw t x) -> breason t s x = p -> val TRUE_lit = LTrue -> vneg val -> (forall q, In q (concat vs) -> val q = LTrue) ->
  exists o, row_prop t s x r val = Ok o /\ phase_ok tm (atoms t) p val o.
Proof.
  intros Hr Hp HT Hn HV. destruct (tw_rows t (nx t) x (ti_wf _ _ HI) r Hr) as (l & Hl & Hd). unfold row_prop, row_of. rewrite Hl. cbn [rbind].
  unfold dom in Hd. destruct (mfind x (lvars l)) as [c0|] eqn:Ec; [|congruence]. set (ts := tside s c0).
  assert (NO : phase_ok tm (atoms t) p val (val, [], None)) by (split; [constructor|]; split; [intros q _; reflexivity|]; split; [exact Hn|discriminate]).
  match goal with |- context [row_sum t ts ?f _ _ _] => destruct (row_sum t ts f (lvars l) (Some (qe_of 0)) []) as [[tot why]|] eqn:Es end; [|eauto].
  destruct (bsle ts (bound t ts r) tot) eqn:Eb; [|eauto]. eexists. split; [reflexivity|].
  apply row_sum_eq in Es as [Et Ew]. cbn [app] in Ew. apply gfind_in in Hl. pose proof (ti_b _ _ HI) as HB. pose proof (ti_wf _ _ HI) as Hwf.
  destruct (Qeq_dec (lkt l) 0) as [Hkt|Hkt].
  2:{ destruct (ti_kt _ _ HI r l Hl Hkt) as [-> _]. exact NO. }
  apply (tell_ok ts r tot why (aw t r) val); [auto|exact Hn|]. subst why. constructor.
  - rewrite Et. apply bsum_sgn; [exact (nonzero_row t vs r l HI Hl)|intros v c _; apply (b_sgn _ _ _ HB)|destruct ts; cbn; lra].
  - apply Forall_forall. intros q Hq. apply in_map_iff in Hq as (e & <- & _). rewrite Hn. unfold breason. rewrite (reason_true t (cb t) vs val HB HT HV). reflexivity.
  - apply in_map_iff. exists (x, c0). cbn [fst snd]. unfold ts. rewrite tside_tside, Hp. split; [reflexivity|]. apply mfind_in, Ec.
  - apply reasons_nodup. apply (wt_clean _ _ _ Hwf _ _ Hl).
  - intros M HM HJ Hw. rewrite Et. destruct (bsum_hold ts (fun v c => bound t (tside ts c) v) y (lvars l) (Some (qe_of 0)) 0) as [_ A].
    + exact (nonzero_row t vs r l HI Hl).
    + intros v c Hc. split; [apply (b_sgn _ _ _ HB)|]. apply (bound_holds t vs HI (cb t) vs HB _ _ M y HM HJ).
      apply negb_false_iff. rewrite <- mlit_negl. apply Hw. apply in_map_iff. exists (v, c). auto.
    + destruct ts; cbn; lra.
    + destruct ts; cbn; lra.
    + eapply bhold_eq; [|exact A]. destruct HJ as [HS _]. rewrite (HS _ _ Hl). unfold lval. rewrite Hkt. ring.
Qed.

Lemma rows_prop_ok s x : breason t s x = p -> forall rs val, (forall r, In r rs -> In r (tw t x)) -> val TRUE_lit = LTrue -> vneg val -> (forall q, In q (concat vs) -> val q = LTrue) ->
  exists o, rows_prop t s x rs val = Ok o /\ phase_ok tm (atoms t) p val o.
Proof.
  intros Hp. induction rs as [|r rs IH]; intros val Hrs HT Hn HV; cbn [rows_prop].
  - eexists. split; [reflexivity|]. split; [constructor|]. split; [intros q _; reflexivity|]. split; [exact Hn|discriminate].
  - destruct (row_prop_ok s x r val (Hrs r (or_introl eq_refl)) Hp HT Hn HV) as ([[v1 l1] cf] & -> & A & B & D & F). cbn [rbind].
    destruct cf as [c|]; [eexists; split; [reflexivity|]; split; auto|].
    destruct (IH v1) as ([[v2 l2] cf2] & -> & A2 & B2 & D2 & F2).
    + intros r' Hr'. apply Hrs. right; exact Hr'.
    + rewrite B; congruence.
    + exact D.
    + intros q Hq. rewrite B; rewrite (HV q Hq); congruence.
    + cbn [rbind]. eexists. split; [reflexivity|]. split; [eapply lemmas_app; eassumption|]. split; [eapply vmono_trans; eassumption|]. auto.
Qed.
End One.

(** ** The new bound. *)
Lemma updc_eq f s x b : updc f s x b s x = b.
Proof. unfold updc. destruct (side_eqb_spec s s); [|congruence]. rewrite Nat.eqb_refl. reflexivity. Qed.
Lemma updc_neq f s x b s' x' : s' <> s \/ x' <> x -> updc f s x b s' x' = f s' x'.
Proof. intros H. unfold updc. destruct (side_eqb_spec s' s), (Nat.eqb_spec x' x); cbn; auto. destruct H; contradiction. Qed.
Lemma updc_dec (s : side) (x : nat) s' x' : (s' = s /\ x' = x) \/ (s' <> s \/ x' <> x).
Proof. destruct (side_eqb_spec s' s), (Nat.eqb_spec x' x); auto. Qed.

Definition save1 (f : bfun) (Ls : list layer) (s : side) (x : nat) : list layer :=
  match Ls with
  | [] => []
  | L :: r => if existsb (fun e => side_eqb (fst (fst e)) s && Nat.eqb (snd (fst e)) x) L then L :: r else (((s, x), f s x) :: L) :: r
  end.
Lemma undo_save (f : bfun) (L : layer) s x c : forall s' x',
  undo (if existsb (fun e => side_eqb (fst (fst e)) s && Nat.eqb (snd (fst e)) x) L then L else ((s, x), f s x) :: L) (updc f s x c) s' x' = undo L f s' x'.
Proof.
  intros s' x'. unfold undo, lookup_layer. destruct (existsb _ L) eqn:E.
  - destruct (find _ L) eqn:F; [reflexivity|]. apply updc_neq. destruct (updc_dec s x s' x') as [[-> ->]|H]; [|exact H].
    apply existsb_exists in E as (e & A & B). rewrite (find_none _ _ F e A) in B. discriminate.
  - cbn [find fst snd]. destruct (side_eqb_spec s s') as [->|Hs]; [destruct (Nat.eqb_spec x x') as [->|Hx]|]; cbn [andb].
    + assert (Fn : find (fun e : side * nat * cbound => side_eqb (fst (fst e)) s' && (snd (fst e) =? x')%nat) L = None).
      { destruct (find _ L) as [e|] eqn:F; [|reflexivity]. apply find_some in F as [F1 F2]. rewrite <- not_true_iff_false in E. destruct E. apply existsb_exists. eauto. }
      rewrite Fn. reflexivity.
    + destruct (find _ L); [reflexivity|]. apply updc_neq. right. congruence.
    + destruct (find _ L); [reflexivity|]. apply updc_neq. left. congruence.
Qed.
Lemma save_keys (f : bfun) (L : layer) s x : forall e, In e (if existsb (fun e => side_eqb (fst (fst e)) s && Nat.eqb (snd (fst e)) x) L then L else ((s, x), f s x) :: L) -> In e L \/ e = ((s, x), f s x).
Proof. intros e. destruct (existsb _ L); [auto|]. intros [<-|H]; auto. Qed.

Lemma LS_assert t f Ls v vs s x b p : LS t f Ls (v :: vs) -> (x < nx t)%nat -> bsle s (fst (f s x)) (Some b) = true ->
  LS t (updc f s x (Some b, p)) (save1 f Ls s x) ((p :: v) :: vs).
Proof.
  intros HL Hx Hb. destruct Ls as [|L Ls], vs as [|w vs]; cbn in HL; try contradiction; [exact I|]. cbn [save1].
  destruct HL as (H0 & H1 & H2 & H3 & H4 & H5). pose proof (undo_save f L s x (Some b, p)) as HU. pose proof (save_keys f L s x) as HK.
  assert (EL : (if existsb (fun e : side * nat * cbound => side_eqb (fst (fst e)) s && (snd (fst e) =? x)%nat) L then L :: Ls else ((s, x, f s x) :: L) :: Ls)
    = (if existsb (fun e : side * nat * cbound => side_eqb (fst (fst e)) s && (snd (fst e) =? x)%nat) L then L else (s, x, f s x) :: L) :: Ls) by (destruct (existsb _ L); reflexivity).
  rewrite EL. set (L' := if existsb _ L then L else _) in *. cbn [LS].
  split; [intros e He; destruct (HK e He) as [A| ->]; [apply H0, A|exact Hx]|].
  split; [apply (BInv_ext t t (undo L f)); [apply same_refl|exact HU|exact H1]|]. split; [apply (feas_ext t t (undo L f)); [apply same_refl|exact HU|exact H2]|].
  split; [|split; [|exact (LS_ext t t (same_refl t) Ls (w :: vs) (undo L f) _ HU H5)]].
  - intros s' x'. rewrite HU. destruct (updc_dec s x s' x') as [[-> ->]|H]; [rewrite updc_eq; eapply bsle_trans; [apply H3|exact Hb]|rewrite updc_neq by exact H; apply H3].
  - intros s' x'. rewrite HU. destruct (updc_dec s x s' x') as [[-> ->]|H]; [right; rewrite updc_eq; left; reflexivity|].
    rewrite updc_neq by exact H. destruct (H4 s' x') as [A|A]; [left; exact A|right; right; exact A].
Qed.
Lemma save_root t s x b : bsle s (bound t s x) (fst b) = true -> tighter (rootcb t) (unwind (save t s x) (updc (cb t) s x b)).
Proof.
  intros Hb. unfold rootcb, save. destruct (layers t) as [|L Ls].
  - cbn [unwind]. intros s' x'. destruct (updc_dec s x s' x') as [[-> ->]|H]; [rewrite updc_eq; exact Hb|rewrite updc_neq by exact H; apply bsle_refl].
  - apply tighter_eq. intros s' x'. pose proof (undo_save (cb t) L s x b) as HU. destruct (existsb _ L); cbn [unwind]; apply unwind_ext; exact HU.
Qed.
Lemma bsle_total s a b : bsle s a b = false -> bsle s b a = true.
Proof. destruct a as [a|], b as [b|]; cbn; auto; try discriminate. rewrite sle_iff, sle_false. apply sltP_le. Qed.

Lemma BInv_assert t f v vs s x b p : BInv t f (v :: vs) -> (x < nx t)%nat -> bsgn s (Some b) -> bsle s (fst (f s x)) (Some b) = true -> lmean t p = Some (s, x, b) ->
  (forall b', fst (f (other s) x) = Some b' -> sleP s b b') -> BInv t (updc f s x (Some b, p)) ((p :: v) :: vs).
Proof.
  intros [B1 B2 B3 B4 B5 B6] Hx Hs Hb Hm Ho. constructor.
  - intros s' x'. destruct (updc_dec s x s' x') as [[-> ->]|H]; [rewrite updc_eq; exact Hs|rewrite updc_neq by exact H; apply B1].
  - intros s' x' Hx'. rewrite updc_neq by (right; lia). apply B2, Hx'.
  - intros s' x' b'. destruct (updc_dec s x s' x') as [[-> ->]|H]; [rewrite updc_eq; cbn [fst snd]; intros E; inversion E; subst; right; split; [left; reflexivity|exact Hm]|].
    rewrite updc_neq by exact H. intros E. destruct (B3 s' x' b' E) as [A|[A A']]; [left; exact A|right; split; [right; exact A|exact A']].
  - intros s' x'. destruct (updc_dec s x s' x') as [[-> ->]|H]; [rewrite updc_eq; discriminate|rewrite updc_neq by exact H; apply B4].
  - intros q [<-|Hq]; [exists s, x, b; split; [exact Hm|]; rewrite updc_eq; apply bsle_refl|]. destruct (B5 q Hq) as (s' & x' & b' & A & A'). exists s', x', b'. split; [exact A|].
    destruct (updc_dec s x s' x') as [[-> ->]|H]; [rewrite updc_eq; eapply bsle_trans; eassumption|rewrite updc_neq by exact H; exact A'].
  - intros s' x' a b'. destruct (updc_dec s x s' x') as [[-> ->]|H].
    + rewrite updc_eq, (updc_neq _ s x _ (other s) x) by (left; apply other_neq). cbn [fst]. intros E1 E2. inversion E1; subst. apply Ho, E2.
    + rewrite (updc_neq _ s x _ s' x') by exact H. destruct (updc_dec s x (other s') x') as [[<- ->]|H'].
      * rewrite updc_eq. cbn [fst]. intros E1 E2. inversion E2; subst. apply (proj1 (sleP_other _ _ _)). apply Ho. rewrite other_other. exact E1.
      * rewrite updc_neq by exact H'. apply B6.
Qed.

Section Prop_.
Context (ord : nat -> list nat -> list nat) (Hord : forall k l, Permutation l (ord k l)).

Lemma last_cons {A} (p : A) (v : list A) vs x : In x (last (v :: vs) []) -> In x (last ((p :: v) :: vs) []).
Proof. destruct vs as [|w vs]; cbn [last]; [right; assumption|auto]. Qed.

(** A bound that is not stronger than the current one. *)
Lemma TInv_weak t v vs p s x b : TInv t (v :: vs) -> lmean t p = Some (s, x, b) -> bsle s (Some b) (bound t s x) = true -> TInv t ((p :: v) :: vs).
Proof.
  intros [I1 I2 I3 I4 I5 I6 I7 I8 Ik I9 I10 I11 I12] Hm Hb. constructor; auto.
  - intros q Hq. apply last_cons, I10, Hq.
  - destruct I11 as [B1 B2 B3 B4 B5 B6]. constructor; auto.
    + intros s' x' b' E. destruct (B3 s' x' b' E) as [A|[A A']]; [left; exact A|right; split; [right; exact A|exact A']].
    + intros q [<-|Hq]; [exists s, x, b; auto|apply B5, Hq].
  - destruct (layers t) as [|L Ls], vs as [|w vs]; cbn in *; auto. destruct I12 as (H0 & H1 & H2 & H3 & H4 & H5).
    split; [exact H0|]. split; [exact H1|]. split; [exact H2|]. split; [exact H3|]. split; [|exact H5]. intros s' x'. destruct (H4 s' x') as [A|A]; auto.
Qed.

(** lra_theory.cpp:318-384 *)
Lemma assert_ok t v vs (val : lv) p s x b y : TInv t (v :: vs) -> lmean t p = Some (s, x, b) -> vneg val -> val TRUE_lit = LTrue ->
  (forall q, In q (concat (v :: vs)) -> val q = LTrue) -> val p = LTrue ->
  exists t' ls cf, assert_bound ord t s x b p val = Ok (t', ls, cf) /\ same t t' /\
    (exists v', TInv t' (v' :: vs) /\ (cf = None -> v' = p :: v)) /\
    exists val', lemmas_ok (fun M => joint t M y) (atoms t) p val ls val' /\
      forall c, cf = Some c -> (2 <= length c)%nat /\ Forall (fun q => val' q = LFalse) c /\ In (negl p) c /\ valid_in (fun M => joint t M y) c.
Proof.
  intros HI Hm Hn HT HV Hp. unfold assert_bound. destruct (lmean_inv t _ HI p s x b Hm) as (a & Ha & Hsa & _ & Hp0 & Hx & Hk).
  destruct (bsle s (Some b) (bound t s x)) eqn:E1.
  { exists t, [], None. split; [reflexivity|]. split; [apply same_refl|]. split; [exists (p :: v); split; [eapply TInv_weak; eassumption|auto]|].
    exists val. split; [constructor|discriminate]. }
  apply bsle_total in E1. pose proof (ti_b _ _ HI) as HB.
  destruct (match bound t (other s) x with Some b0 => negb (sle s b b0) | None => false end) eqn:E2.
  { destruct (bound t (other s) x) as [b'|] eqn:Eb; [|discriminate]. apply negb_true_iff, sle_false in E2.
    eexists t, [], _. split; [reflexivity|]. split; [apply same_refl|]. split; [exists v; split; [exact HI|discriminate]|].
    exists val. split; [constructor|]. intros c Ec. inversion Ec; subst. split; [cbn; lia|]. split.
    { constructor; [rewrite Hn, Hp; reflexivity|]. constructor; [|constructor]. rewrite Hn. unfold breason. rewrite (reason_true t (cb t) _ val HB HT HV). reflexivity. }
    split; [left; reflexivity|]. intros M HM HJ. destruct (mlit M p) eqn:Ep; [|exists (negl p); split; [left; reflexivity|rewrite mlit_negl, Ep; reflexivity]].
    destruct (mlit M (breason t (other s) x)) eqn:Er; [|exists (negl (breason t (other s) x)); split; [right; left; reflexivity|rewrite mlit_negl, Er; reflexivity]].
    exfalso. apply (bhold_conflict s b b' (y x)); [apply bok_sgn, Hk| |exact E2|exact (proj1 (lmean_joint t _ HI _ _ _ _ M y Hm HJ) Ep)|].
    - rewrite <- Eb. apply (b_sgn _ _ _ HB).
    - rewrite <- Eb. apply (bound_holds t _ HI (cb t) _ HB _ _ M y HM HJ Er). }
  assert (Ho : forall b', fst (cb t (other s) x) = Some b' -> sleP s b b').
  { intros b' Eb. unfold bound in E2. rewrite Eb in E2. apply negb_false_iff, sle_iff in E2. exact E2. }
  cbv zeta. set (t1 := set_cb (updc (cb t) s x (Some b, p)) (set_layers (save t s x) t)).
  assert (Hu : exists vs', (if negb (sle s b (vals t1 x)) && negb (is_basic t1 x) then update t1 x b else Ok t1) = Ok (set_vals vs' t1) /\
    vsol (tab t) vs' /\ (forall z, gfind z (tab t) = None -> z <> x -> vs' z = vals t z) /\ (gfind x (tab t) = None -> vs' x = b \/ (vs' x = vals t x /\ sleP s b (vals t x)))).
  { destruct (negb (sle s b (vals t1 x)) && negb (is_basic t1 x)) eqn:E.
    - apply andb_true_iff in E as [_ E]. apply negb_true_iff in E. unfold is_basic in E. cbn [t1 tab set_cb set_layers] in E.
      destruct (gfind x (tab t)) eqn:Ex; [discriminate|]. destruct (update_ok t1 (nx t) x b (ti_wf _ _ HI) Ex (ti_val _ _ HI)) as (vs' & A & B & D & F).
      exists vs'. split; [exact A|]. split; [exact B|]. split; [exact F|]. intros _. left. exact D.
    - exists (vals t). split; [reflexivity|]. split; [apply (ti_val _ _ HI)|]. split; [reflexivity|]. intros Ex. right. split; [reflexivity|]. apply andb_false_iff in E as [E|E].
      + apply negb_false_iff, sle_iff in E. exact E.
      + apply negb_false_iff in E. unfold is_basic in E. cbn [t1 tab set_cb set_layers] in E. rewrite Ex in E. discriminate. }
  destruct Hu as (vs' & -> & Hsol & Hvo & Hvx). cbn [rbind]. set (t2 := set_tick (S (tick (set_vals vs' t1))) (set_vals vs' t1)).
  assert (S2 : same t t2) by (constructor; reflexivity || (intros; cbn; tauto)).
  assert (B2 : BInv t (updc (cb t) s x (Some b, p)) ((p :: v) :: vs)) by (apply BInv_assert; auto; apply bok_sgn, Hk).
  assert (I2 : TInv t2 ((p :: v) :: vs)).
  { destruct HI as [I1 I2 I3 I4 I5 I6 I7 I8 Ik I9 I10 I11 I12]. constructor; auto.
    - intros s' z Ez. cbn [t2 t1 vals set_tick set_vals]. unfold bound. cbn [t2 t1 cb set_tick set_vals set_cb]. cbn [tab t2 t1 set_tick set_vals set_cb set_layers] in Ez. fold (bound t s' z).
      destruct (Nat.eq_dec z x) as [->|Hzx].
      + destruct (side_eqb_spec s' s) as [->|Hs].
        * rewrite updc_eq. cbn. destruct (Hvx Ez) as [->|[-> H]]; [apply sleP_refl|exact H].
        * rewrite updc_neq by auto. assert (Eo : s' = other s) by (destruct s, s'; cbn; congruence). subst s'. destruct (Hvx Ez) as [->|[-> H]]; [|apply I4, Ez].
          destruct (fst (cb t (other s) x)) as [b'|] eqn:Eb; [|exact I]. cbn. apply sleP_other. apply Ho. reflexivity.
      + rewrite updc_neq by auto. rewrite Hvo by assumption. apply I4, Ez.
    - intros z l Hz Hkt. destruct (Ik z l Hz Hkt) as (A & l0 & B & D & F & G). split; [exact A|]. exists l0. split; [exact B|]. split; [exact D|]. split; [exact F|]. intros s'.
      assert (Hzx : z <> x).
      { intros ->. assert (Hin : In a (aw t x)); [|rewrite A in Hin; destruct Hin]. apply I7. split; [eauto|]. unfold amean in Hsa. destruct (lsgn p); congruence. }
      unfold bound. cbn [t2 t1 cb set_tick set_vals set_cb]. rewrite updc_neq by auto. eapply bsle_trans; [apply G|]. apply tighter_bsum; [exact D|].
      apply (save_root t s x (Some b, p)). exact E1.
    - intros q Hq. apply last_cons, I10, Hq.
    - apply (BInv_ext t t2 _ _ _ S2 (fun _ _ => eq_refl) B2).
    - apply (LS_ext t t2 S2 _ _ (updc (cb t) s x (Some b, p)) _ (fun _ _ => eq_refl)). exact (LS_assert t (cb t) (layers t) v vs s x b p I12 Hx E1). }
  assert (HV2 : forall q, In q (concat ((p :: v) :: vs)) -> val q = LTrue) by (intros q [<-|Hq]; [exact Hp|apply HV, Hq]).
  assert (Hr2 : breason t2 s x = p) by (unfold breason; cbn [t2 t1 cb set_tick set_vals set_cb]; rewrite updc_eq; reflexivity).
  assert (Hb2 : bound t2 s x = Some b) by (unfold bound; cbn [t2 t1 cb set_tick set_vals set_cb]; rewrite updc_eq; reflexivity).
  assert (TO : phase_ok (fun M => joint t2 M y) (atoms t2) p val (tell s (bound t2 s x) [negl (breason t2 s x)] (aw t2 x) val)).
  { apply (tell_ok t2 _ I2 y p s x); [auto|exact Hn|]. rewrite Hb2, Hr2. constructor.
    - apply bok_sgn, Hk.
    - constructor; [rewrite Hn, Hp; reflexivity|constructor].
    - left; reflexivity.
    - cbn [filter]. destruct (negb _); repeat constructor. auto.
    - intros M HM HJ Hq. apply (lmean_joint t2 _ I2 p s x b M y); [rewrite (same_lmean t t2 _ S2); exact Hm|exact HJ|].
      apply negb_false_iff. rewrite <- mlit_negl. apply Hq. left; reflexivity. }
  assert (BACK : forall val0 o, phase_ok (fun M => joint t2 M y) (atoms t2) p val0 o -> phase_ok (fun M => joint t M y) (atoms t) p val0 o).
  { intros val0 [[v' l'] cf'] (A & B & D & F). split; [apply (lemmas_iff (fun M => joint t2 M y) _ (atoms t2)); auto; intros M HM; apply (same_joint t t2); assumption|]. split; [exact B|]. split; [exact D|].
    intros c Ec. destruct (F c Ec) as (F1 & F2 & F3 & F4). split; [exact F1|]. split; [exact F2|]. split; [exact F3|]. intros M HM HJ. apply F4; [exact HM|]. apply (same_joint t t2); assumption. }
  destruct (tell s (bound t2 s x) [negl (breason t2 s x)] (aw t2 x) val) as [[v1 l1] c1]. destruct TO as (A & B & D & F).
  destruct c1 as [c1|].
  - eexists t2, l1, _. split; [reflexivity|]. split; [exact S2|]. split; [exists (p :: v); split; [exact I2|discriminate]|].
    destruct (BACK val (v1, l1, Some c1)) as (A' & _ & _ & F'); [split; auto|]. exists v1. auto.
  - destruct (rows_prop_ok t2 _ I2 y p s x Hr2 (ord (tick t2) (tw t2 x)) v1) as ([[v2 l2] c2] & -> & A2 & B2' & D2 & F2).
    + intros r Hr. eapply Permutation_in; [symmetry; apply Hord|exact Hr].
    + rewrite B; congruence.
    + exact D.
    + intros q Hq. rewrite B; rewrite (HV2 q Hq); congruence.
    + cbn [rbind]. exists t2, (l1 ++ l2), c2. split; [reflexivity|]. split; [exact S2|]. split; [exists (p :: v); split; [exact I2|reflexivity]|].
      destruct (BACK val (v2, l1 ++ l2, c2)) as (A' & _ & _ & F'); [split; [eapply lemmas_app; eassumption|split; [eapply vmono_trans; eassumption|auto]]|]. exists v2. auto.
Qed.

(** lra_theory.cpp:239-256 *)
Lemma lra_prop_ok t v vs (val : lv) p y : TInv t (v :: vs) -> atoms t (lvar p) -> vneg val -> val TRUE_lit = LTrue ->
  (forall q, In q (concat (v :: vs)) -> val q = LTrue) -> val p = LTrue ->
  exists t' ls cf, lra_prop ord t val p = Ok (t', ls, cf) /\ same t t' /\
    (exists v', TInv t' (v' :: vs) /\ (cf = None -> v' = p :: v)) /\
    exists val', lemmas_ok (fun M => joint t M y) (atoms t) p val ls val' /\
      forall c, cf = Some c -> (2 <= length c)%nat /\ Forall (fun q => val' q = LFalse) c /\ In (negl p) c /\ valid_in (fun M => joint t M y) c.
Proof.
  intros HI Ha Hn HT HV Hp. apply atoms_find in Ha. unfold lra_prop. destruct (gfind (lvar p) (v_asrts t)) as [a|] eqn:E; [|congruence]. clear Ha.
  destruct (ti_atom _ _ HI _ _ (gfind_in _ _ _ E)) as (Eb & _). rewrite Eb.
  assert (Ev : val (mk_lit (lvar p) true) = if lsgn p then LTrue else LFalse).
  { destruct p as [w []]; cbn in *; [exact Hp|]. specialize (Hn (mk_lit w true)). cbn in Hn. unfold negl in Hn; cbn in Hn. rewrite Hp in Hn. destruct (val {| lvar := w; lsgn := true |}); cbn in Hn; congruence. }
  rewrite Ev. destruct (lsgn p) eqn:Es; (apply assert_ok; auto; unfold lmean; rewrite E, Es; reflexivity).
Qed.
End Prop_.
