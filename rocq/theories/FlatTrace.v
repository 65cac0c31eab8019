(** Histories of a network with a difference logic theory, at most one constraint between two variables and at most one
    open decision, and what they have stated. *)
From Verif Require Import Base Keys Sat SatSpec SatInv SatPop SatImp SatRec SatLoop SatMain SatApi SatApi2 SatNext Reify Run SatFacts Lin Qe Dw Dl DlClo DlTight DlTh DlFacts DlApi MapTh DlRoot DlNet DlTrace DlFlat FlatNet.
From Coq Require Import Lqa.
Open Scope nat_scope.
Local Arguments Nat.ltb : simpl never.
Local Arguments Nat.eqb : simpl never.
Local Arguments Nat.mul : simpl never.
Section Srt.
Context {sr : sorter}.

Section Trace.
Context {D : Type} {W : wops D} (L : wlaws W) (WR : wreads L).
Context (last : Sat.st (dl D) -> nat -> nat -> nat -> D -> res (Sat.st (dl D) * lit)).
Notation dl := (dl D).
Notation st := (st dl).
Notation ops := (dl_ops W).
Notation fops := (@flat_ops D W).
Notation mu := (mp (fun t : dl => (t, 0))).
Notation RC := (rootC L).
Notation FC := (flatC L).

(** A call, the decisions in force when it was made, and its result. *)
Record fevent := mk_fev { fe_call : @dcall D; fe_decs : list lit; fe_ret : dret }.
Inductive FTrace (size : nat) : list fevent -> st -> Prop :=
| FT_init : FTrace size [] (dinit (W := W) size)
| FT_step fl tr s c s' r : FTrace size tr s -> flegal L last s c -> dcstep (W := W) last fl s c = Ok (s', r) -> dalive L s' r -> FTrace size (mk_fev c (decisions s) r :: tr) s'.
Definition fstated (tr : list fevent) (M : nat -> bool) (y : nat -> Q) : Prop :=
  M 0 = false /\ vals_ok L y /\ (y O == 0)%Q /\ forall e, In e tr -> fsaid L (fe_decs e) (fe_call e) (fe_ret e) M y.
Definition fsimple (tr : list fevent) : Prop := forall e, In e tr -> dexact (fe_call e).

Lemma finit_good size : 0 < size -> fgood L (dinit (W := W) size).
Proof.
  intros Hs. assert (Ei : mu (dinit (W := W) size) = init [(dl_init W size, 0)]) by reflexivity.
  constructor; [cbn; lia|exists (dl_init W size); reflexivity|]. rewrite Ei.
  destruct (init_good (FC anyy) [(dl_init W size, 0)]) as (_ & A & _); [|exact A]. intros t [<-|[]]. split; [|split; [exact Logic.I|]].
  - split; [intros c c' []|]. left. split; [reflexivity|]. exists []. split; [reflexivity|]. apply DR_init. exact Hs.
  - intros v (c & [] & _).
Qed.
Section Size.
Context (size : nat) (Hsize : 0 < size).
Lemma ftrace_good tr s : FTrace size tr s -> fgood L s.
Proof.
  induction 1 as [|fl tr s c s' r HT IH HL HE HA]; [apply finit_good, Hsize|]. pose proof (fcstep_ok L WR last fl s c IH HL) as K. rewrite HE in K. destruct K as ([K|[-> K]] & _); [exact K|]. destruct (HA eq_refl) as (M & y & HM). case (K M y HM).
Qed.
Theorem fsol_stated tr s : FTrace size tr s -> forall M y, dsol L s M y -> fstated tr M y.
Proof.
  induction 1 as [|fl tr s c s' r HT IH HL HE HA]; intros M y HM.
  - apply (dinit_good L size Hsize) in HM as (A & B & C). split; [exact A|]. split; [exact B|]. split; [exact C|]. intros e [].
  - pose proof (fcstep_ok L WR last fl s c (ftrace_good _ _ HT) HL) as K. rewrite HE in K. destruct K as (_ & _ & K & _). apply K in HM as [HM Hs]. destruct (IH M y HM) as (A & B & C & E). split; [exact A|]. split; [exact B|]. split; [exact C|]. intros e [<-|He]; [exact Hs|apply E, He].
Qed.
Theorem stated_fsol tr s : FTrace size tr s -> fsimple tr -> forall M y, fstated tr M y -> dsol L s M y.
Proof.
  induction 1 as [|fl tr s c s' r HT IH HL HE HA]; intros Hx M y (A & B & C & E).
  - apply (dinit_good L size Hsize). auto.
  - pose proof (fcstep_ok L WR last fl s c (ftrace_good _ _ HT) HL) as K. rewrite HE in K. destruct K as (_ & _ & _ & K). apply K; [apply (Hx _ (or_introl eq_refl))| |apply (E _ (or_introl eq_refl))].
    apply IH; [intros e He; apply Hx; right; exact He|]. split; [exact A|]. split; [exact B|]. split; [exact C|]. intros e He. apply E. right. exact He.
Qed.
(** Every call returns. *)
Theorem ftotal tr s c fl : FTrace size tr s -> flegal L last s c -> fbound s < fl -> exists s' r, dcstep (W := W) last fl s c = Ok (s', r).
Proof. intros HT HL Hf. pose proof (fcstep_ok L WR last fl s c (ftrace_good _ _ HT) HL) as K. destruct (dcstep (W := W) last fl s c) as [[s' r]| |]; [eauto|contradiction|lia]. Qed.
Theorem fnever_ub tr s c fl : FTrace size tr s -> flegal L last s c -> dcstep (W := W) last fl s c <> UB.
Proof. intros HT HL E. pose proof (fcstep_ok L WR last fl s c (ftrace_good _ _ HT) HL) as K. rewrite E in K. exact K. Qed.

(** ** Failures. *)
Lemma fdsol_model s M y : dsol L s M y -> smodels (FC anyy) (mu s) M.
Proof. intros H. apply (fmodel_any L (eq y)), flat_model, H. Qed.
Lemma fmu s c fl s' r : fgood L s -> fsat s c -> step (ops := ops) fl s c = Ok (s', r) -> step (ops := fops) fl (mu s) c = Ok (mu s', r).
Proof. intros G HL E. rewrite (fmu_step L fl s c G HL), E. reflexivity. Qed.
Theorem ffalse tr s fl s' : FTrace size tr s -> fsimple tr -> dcstep (W := W) last fl s (DSat CPropagate) = Ok (s', DR (RBool false)) -> forall M y, ~ fstated tr M y.
Proof.
  intros HT Hx E M y HM. pose proof (ftrace_good _ _ HT) as G. cbn [dcstep] in E. destruct (step fl s CPropagate) as [[s1 r]| |] eqn:E1; cbn [rbind] in E; try discriminate. injection E as <- ->.
  apply (fmu s CPropagate fl s1 _ G Logic.I) in E1. cbn [step] in E1. pose proof (propagate_ok (FC anyy) (dlevel (mu s)) fl (mu s) (g_inv _ _ (fg_good _ _ G)) (le_n _)) as H.
  destruct (propagate fops fl (mu s)) as [[s2 b]| |]; cbn [rbind] in E1; try discriminate. injection E1 as -> ->.
  destruct (pp_false _ _ _ _ H eq_refl) as [_ Hu _]. apply (Hu M), (pp_models _ _ _ _ H). apply (fdsol_model s M y), (stated_fsol tr s HT Hx M y HM).
Qed.
Theorem fclause_false tr s fl ls s' : FTrace size tr s -> fsimple tr -> fsat s (CClause ls) -> dcstep (W := W) last fl s (DSat (CClause ls)) = Ok (s', DR (RBool false)) -> forall M y, fstated tr M y -> ~ mcl M ls.
Proof.
  intros HT Hx HL E M y HM. pose proof (ftrace_good _ _ HT) as G. cbn [dcstep] in E. destruct (step fl s (CClause ls)) as [[s1 r]| |] eqn:E1; cbn [rbind] in E; try discriminate. injection E as <- ->.
  apply (fmu s (CClause ls) fl s1 _ G HL) in E1. cbn [step] in E1. destruct HL as [Hd Hs]. destruct (new_clause_ok (FC anyy) (mu s) ls (g_inv _ _ (fg_good _ _ G)) Hd Hs) as (s2 & b & E2 & H). rewrite E2 in E1. cbn [rbind] in E1. injection E1 as -> ->.
  apply (cp_false _ _ _ _ _ H eq_refl). apply (fdsol_model s M y), (stated_fsol tr s HT Hx M y HM).
Qed.
(** An assumption that fails, or after which no decision is left, is refuted by what has been stated. *)
Theorem fassume_false tr s fl p s' r : FTrace size tr s -> fsimple tr -> fsat s (CAssume p) -> dcstep (W := W) last fl s (DSat (CAssume p)) = Ok (s', DR r) ->
  r = RBool false \/ dlevel s' = 0 -> forall M y, fstated tr M y -> mlit M p = false.
Proof.
  intros HT Hx HL E Hr M y HM. pose proof (ftrace_good _ _ HT) as G. cbn [dcstep] in E. destruct (step fl s (CAssume p)) as [[s1 r1]| |] eqn:E1; cbn [rbind] in E; try discriminate. injection E as <- ->.
  apply (fmu s (CAssume p) fl s1 _ G HL) in E1. cbn [step] in E1. destruct HL as (Hd & Hq & Hs). pose proof (stated_fsol tr s HT Hx M y HM) as HS. apply fdsol_model in HS.
  pose proof (g_inv _ _ (fg_good _ _ G)) as HI. pose proof (good_quiet L anyy (mu s) (fg_good _ _ G) Hq) as Q. assert (Hp : lvar p < nv (mu s)) by (apply Hs; left; reflexivity).
  rewrite (assume_eq (FC anyy)) in E1 by assumption.
  destruct (lbool_eqb_spec (value (mu s) p) LFalse) as [Ef|Ef].
  { assert (Ev : value (mu s) (negl p) = LTrue) by (unfold value, vlit in *; cbn in *; destruct (assigns s (lvar p)), (lsgn p); cbn in *; congruence).
    assert (K : mlit M (negl p) = true) by (apply (sm_facts _ _ _ HS); [exact Ev|apply (root_level0 L s _ G Hd)]). rewrite mlit_negl in K. destruct (mlit M p); [discriminate|reflexivity]. }
  assert (Eas : match value (mu s) p with LFalse => Ok (@push_st _ fops (mu s) p, false) | _ => propagate fops fl (@assumed _ fops (mu s) p) end = propagate fops fl (@assumed _ fops (mu s) p)) by (destruct (value (mu s) p); congruence). rewrite Eas in E1.
  destruct (assumed_ok (FC anyy) (mu s) p Q Hp) as (HIa & HMa & Hga).
  pose proof (propagate_ok (FC anyy) (dlevel (@assumed _ fops (mu s) p)) fl (@assumed _ fops (mu s) p) HIa (le_n _)) as H. destruct (propagate fops fl _) as [[s2 bb]| |]; cbn [rbind] in E1; try discriminate. injection E1 as -> <-.
  assert (HSa : smodels (FC anyy) (@assumed _ fops (mu s) p) M) by (apply HMa, HS).
  destruct Hr as [Hr|Hr].
  - injection Hr as ->. destruct (pp_false _ _ _ _ H eq_refl) as [_ Hu _]. case (Hu M). apply (pp_models _ _ _ _ H), HSa.
  - pose proof (grow_dlevel _ _ Hga) as Ed. assert (Ed1 : dlevel (@assumed _ fops (mu s) p) = 1) by (rewrite Ed; change (S (dlevel s) = 1); rewrite Hd; reflexivity).
    assert (Hlt : dlevel (mu s1) < dlevel (@assumed _ fops (mu s) p)) by (change (dlevel (mu s1)) with (dlevel s1); rewrite Hr, Ed1; lia). destruct (pp_back _ _ _ _ H Hlt M HSa) as (d & Hin & Hm).
    assert (Edec : decisions (@assumed _ fops (mu s) p) = p :: decisions (mu s)) by (unfold assumed; destruct (value (mu s) p); reflexivity). rewrite Edec in Hin. assert (E0 : decisions (mu s) = []).
    { pose proof (t_dec _ (i_t _ _ HI)) as K. unfold dlevel in *. change (decisions (mu s)) with (decisions s). change (decisions (mu s)) with (decisions s) in K. change (trail_lim (mu s)) with (trail_lim s) in K. rewrite (lim_root s Hd) in K. destruct (decisions s); [reflexivity|discriminate]. }
    rewrite E0 in Hin. destruct Hin as [<-|[]]. exact Hm.
Qed.
Theorem fcheck_false tr s fl ls s' : FTrace size tr s -> fsimple tr -> fsat s (CCheck ls) -> dcstep (W := W) last fl s (DSat (CCheck ls)) = Ok (s', DR (RBool false)) ->
  forall M y, fstated tr M y -> exists d, In d ls /\ mlit M d = false.
Proof.
  intros HT Hx HL E M y HM. pose proof (ftrace_good _ _ HT) as G. cbn [dcstep] in E. destruct (step fl s (CCheck ls)) as [[s1 r]| |] eqn:E1; cbn [rbind] in E; try discriminate. injection E as <- ->.
  apply (fmu s (CCheck ls) fl s1 _ G HL) in E1. cbn [step] in E1. destruct HL as (Hd & Hq & Hs & Hl). pose proof (g_inv _ _ (fg_good _ _ G)) as HI.
  pose proof (SatApi2.check_ok (FC anyy) fl (mu s) ls (good_quiet L anyy (mu s) (fg_good _ _ G) Hq) Hs) as H. destruct (check fops fl (mu s) ls) as [[s2 b]| |]; cbn [rbind] in E1; try discriminate. injection E1 as -> ->.
  destruct H as (_ & _ & _ & _ & _ & H & _). destruct (H M) as (d & Hin & Hm); [apply (fdsol_model s M y), (stated_fsol tr s HT Hx M y HM)|]. exists d. split; [|exact Hm].
  assert (E0 : decisions (mu s) = []) by (pose proof (t_dec _ (i_t _ _ HI)) as K; change (decisions (mu s)) with (decisions s); change (decisions (mu s)) with (decisions s) in K; change (trail_lim (mu s)) with (trail_lim s) in K; rewrite (lim_root s Hd) in K; destruct (decisions s); [reflexivity|discriminate]).
  rewrite E0 in Hin. exact Hin.
Qed.
Theorem fnext_false tr s fl s' : FTrace size tr s -> fsimple tr -> fsat s CNext -> dlevel s <> 0 -> dcstep (W := W) last fl s (DSat CNext) = Ok (s', DR (RBool false)) ->
  forall M y, fstated tr M y -> forall d, In d (decisions s) -> mlit M d = true.
Proof.
  intros HT Hx HL Hd E M y HM. pose proof (ftrace_good _ _ HT) as G. cbn [dcstep] in E. destruct (step fl s CNext) as [[s1 r]| |] eqn:E1; cbn [rbind] in E; try discriminate. injection E as <- ->.
  apply (fmu s CNext fl s1 _ G HL) in E1. cbn [step] in E1. destruct (g_up _ _ (fg_good _ _ G) Hd) as [Hq _].
  pose proof (next_ok (FC anyy) fl (mu s) (good_quiet L anyy (mu s) (fg_good _ _ G) Hq) HL Hd) as H. destruct (next fops fl (mu s)) as [[s2 b]| |]; cbn [rbind] in E1; try discriminate. injection E1 as -> ->.
  destruct H as (H & _ & _ & _ & _ & _ & _ & _ & Hf). destruct (Hf eq_refl) as [_ Hu _]. intros d Hin. destruct (mlit M d) eqn:Em; [reflexivity|]. case (Hu M). apply H. split; [|eauto]. apply (fdsol_model s M y), (stated_fsol tr s HT Hx M y HM).
Qed.

(** ** What has a value, and distances. *)
Theorem fimplied tr s q : FTrace size tr s -> fsimple tr -> value s q = LTrue -> forall M y, fstated tr M y -> (level s (lvar q) <> 0 -> forall d, In d (decisions s) -> mlit M d = true) -> mlit M q = true.
Proof.
  intros HT Hx Hq M y HM Hd. pose proof (g_inv _ _ (fg_good _ _ (ftrace_good _ _ HT))) as HI. pose proof (fdsol_model s M y (stated_fsol tr s HT Hx M y HM)) as HS.
  destruct (Nat.eq_dec (level s (lvar q)) 0) as [E0|E0]; [apply (sm_facts _ _ _ HS); assumption|].
  apply (implied (FC anyy) (mu s) (i_t _ _ HI) (i_r _ _ HI) M HS q Hq). intros k d Hk _. apply Hd; [exact E0|]. apply (nth_error_In _ k), Hk.
Qed.
Theorem fdistance tr s t i j d : FTrace size tr s -> fsimple tr -> theories s = [t] -> dists t i j = Some d -> forall M y, fstated tr M y -> (forall x, In x (decisions s) -> mlit M x = true) -> wsat L d (y j - y i)%Q.
Proof.
  intros HT Hx Et Ed M y HM Hd. pose proof (ftrace_good _ _ HT) as G. destruct (flat_told L s t G Et) as (vs & _ & HR & _ & Hv & _). pose proof (reach_core L _ _ HR) as HC.
  apply (dist_sound L t (concat vs) y i j d HC); [|exact Ed]. destruct (sm_th _ _ _ (stated_fsol tr s HT Hx M y HM) (t, 0)) as (z & [Hz Ez] & H0 & K); [cbn; rewrite Et; left; reflexivity|]. cbn in Ez. subst z. split; [exact Hz|].
  apply (model_hold L t (concat vs) M y); [apply HC| |exact K]. intros p Hp. apply in_concat in Hp as (v & Hv' & Hp). apply In_nth_error in Hv' as (k & Hk). destruct (Hv k v p Hk Hp) as [V _]. apply (fimplied tr s p HT Hx V M y HM). auto.
Qed.

(** ** Successes. *)
Lemma fevent_means_all tr s : FTrace size tr s -> forall e, In e tr -> fevent_means L s (fe_call e) (fe_ret e).
Proof.
  induction 1 as [|fl tr s c s' r HT IH HL HE HA]; intros e He; [case He|]. pose proof (ftrace_good _ _ HT) as G. destruct (fg_one _ _ G) as [t Et].
  destruct (fcstep_later L WR last fl s c s' r G HL HE) as [Hl Hm]. destruct He as [<-|He]; [exact Hm|]. specialize (IH e He). unfold fevent_means in *. destruct (fe_call e), (fe_ret e); auto.
  - apply (flater_means L s s' t); assumption.
  - intros Hr. apply (flater_means L s s' t); auto.
Qed.
Definition fdev (e : fevent) : devent := mk_dev (fe_call e) (fe_ret e).
Lemma fresp_ex s : fgood L s -> prop_q s = [] -> exists y, vals_ok L y /\ (y O == 0)%Q /\ resp L s y.
Proof.
  intros G Hq. destruct (fg_one _ _ G) as [t Et]. destruct (flat_told L s t G Et) as (vs & _ & HR & _ & Hv & Hd). pose proof (reach_core L _ _ HR) as HC.
  destruct (solution_exists L t (concat vs) HC) as (y0 & Hy0 & Hl0). exists (fun k => (y0 k - y0 O)%Q). split; [intros k; apply isv_sub; apply Hy0|]. split; [cbn; lra|].
  assert (Hsh : forall c, con_sat L c (fun k => (y0 k - y0 O)%Q) <-> con_sat L c y0) by (intros c; unfold con_sat; split; apply wsat_eq; lra).
  intros t0 c Et0 Hc. rewrite Et in Et0. injection Et0 as <-. rewrite Hsh. destruct (dc_cons L _ _ HC c Hc) as (_ & _ & _ & _ & Hs). split; intros V.
  - destruct (Hd (c_b c)) as [K|K]; [exists c; auto|exact V|rewrite Hq in K; case K|]. specialize (Hl0 _ c K Hc eq_refl). rewrite Hs in Hl0. exact Hl0.
  - destruct (Hd (negl (c_b c))) as [K|K]; [exists c; auto|unfold value, vlit in *; cbn; destruct (assigns s (lvar (c_b c))), (lsgn (c_b c)); cbn in *; congruence|rewrite Hq in K; case K|].
    specialize (Hl0 _ c K Hc eq_refl). cbn in Hl0. rewrite Hs in Hl0. exact Hl0.
Qed.
(** Once everything has been propagated, numbers that respect every constraint whose literal has a value respect what has been stated. *)
Theorem fquiet_any tr s y : FTrace size tr s -> prop_q s = [] -> vals_ok L y -> (y O == 0)%Q -> resp L s y ->
  (forall e p P, In e tr -> econ L (fdev e) = Some (p, P) -> (value s p = LTrue -> P y) /\ (value s p = LFalse -> ~ P y)) /\ (total s -> fstated tr (values s) y).
Proof.
  intros HT Hq Hy Hy0 Hr. pose proof (ftrace_good _ _ HT) as G. destruct (fg_one _ _ G) as [t Et]. pose proof (g_inv _ _ (fg_good _ _ G)) as HI. split.
  - intros e p P He Hc.
    assert (Hm : means0 L s p P).
    { pose proof (fevent_means_all tr s HT e He) as Hm. unfold fevent_means, econ, fdev in *. cbn [de_call de_ret] in Hc. destruct (fe_call e) as [| | | |[] e1 e2], (fe_ret e); try discriminate; injection Hc as <- <-; first [exact Hm|apply Hm; discriminate]. }
    assert (V : value s TRUE_lit = LTrue /\ value s FALSE_lit = LFalse) by (pose proof (t_a0 _ (i_t _ _ HI)) as H; cbn in H; unfold value, vlit; cbn; rewrite H; auto). destruct V as [VT VF].
    destruct (Hm y Hy Hy0) as [[-> K]|[[-> K]|(t0 & c & Et0 & Hc0 & <- & K)]]; [intros t0 c Et0 Hc0 _; apply (Hr t0 c Et0 Hc0)| | |].
    + rewrite VT. split; [auto|discriminate].
    + rewrite VF. split; [discriminate|auto].
    + rewrite <- K. apply (Hr t0 c Et0 Hc0).
  - intros Ht. apply (fsol_stated tr s HT). change (values s) with (values (mu s)). constructor.
    + unfold values. rewrite (t_a0 _ (i_t _ _ HI)). reflexivity.
    + apply (total_cls (FC anyy) (mu s) HI Hq Ht).
    + intros p Hp _. apply (values_lit (mu s)); congruence.
    + intros u Hu. cbn in Hu. rewrite Et in Hu. destruct Hu as [<-|[]]. exists y. split; [auto|]. split; [exact Hy0|]. intros c Hc. cbn [fst] in Hc. destruct (Hr t c Et Hc) as [R1 R2].
      assert (Hu : value s (c_b c) <> LUndef).
      { destruct (h_range _ _ _ _ (i_h _ _ HI) 0 (t, 0) (lvar (c_b c))) as [_ K]; [cbn; rewrite Et; reflexivity|exists c; auto|]. pose proof (Ht (lvar (c_b c)) K) as K2. unfold value, vlit. destruct (assigns s (lvar (c_b c))), (lsgn (c_b c)); cbn; congruence. }
      change (mlit (values (mu s)) (c_b c)) with (mlit (values s) (c_b c)). rewrite (values_lit s _ Hu). destruct (value s (c_b c)) eqn:V; [|intuition congruence|congruence]. split; [congruence|]. intros K. case (R2 eq_refl K).
Qed.
(** There are such numbers. *)
Theorem fquiet tr s : FTrace size tr s -> prop_q s = [] ->
  exists y, vals_ok L y /\ (y O == 0)%Q /\ (forall e p P, In e tr -> econ L (fdev e) = Some (p, P) -> (value s p = LTrue -> P y) /\ (value s p = LFalse -> ~ P y)) /\ (total s -> fstated tr (values s) y).
Proof.
  intros HT Hq. destruct (fresp_ex s (ftrace_good _ _ HT) Hq) as (y & Hy & Hy0 & Hr). exists y. split; [exact Hy|]. split; [exact Hy0|]. exact (fquiet_any tr s y HT Hq Hy Hy0 Hr).
Qed.
(** The theory has been told exactly the literals of its constraints that have a value. *)
Theorem ftold tr s : FTrace size tr s -> prop_q s = [] -> exists t vs, theories s = [t] /\ DReach L t vs /\ forall l, atom t (lvar l) -> (In l (concat vs) <-> value s l = LTrue).
Proof.
  intros HT Hq. pose proof (ftrace_good _ _ HT) as G. destruct (fg_one _ _ G) as [t Et]. destruct (flat_told L s t G Et) as (vs & _ & HR & _ & Hv & Hd). exists t, vs. split; [exact Et|]. split; [exact HR|]. intros l Hl. split.
  - intros K. apply in_concat in K as (v & K1 & K2). apply In_nth_error in K1 as (k & Hk). apply (Hv k v l Hk K2).
  - intros K. destruct (Hd l Hl K) as [K'|K']; [rewrite Hq in K'; case K'|exact K'].
Qed.
(** When everything has been propagated: while a decision is open, and after a call of propagate(), assume() or check() that returned true. *)
Definition answered (tr : list fevent) (s : st) : Prop :=
  decisions s <> [] \/ exists c ds tr', tr = mk_fev (DSat c) ds (DR (RBool true)) :: tr' /\ match c with CPropagate | CAssume _ | CCheck _ => True | _ => False end.
Theorem answered_quiet tr s : FTrace size tr s -> answered tr s -> prop_q s = [].
Proof.
  intros HT HA. pose proof (ftrace_good _ _ HT) as G. pose proof (g_inv _ _ (fg_good _ _ G)) as HI. destruct HA as [Hd|(c & ds & tr' & -> & Hc)].
  { apply (proj1 (g_up _ _ (fg_good _ _ G) ltac:(intros K; apply Hd; pose proof (t_dec _ (i_t _ _ HI)) as K2; change (decisions (mu s)) with (decisions s) in K2; change (trail_lim (mu s)) with (trail_lim s) in K2; change (dlevel s = 0) in K; rewrite (lim_root s K) in K2; destruct (decisions s); [reflexivity|discriminate]))). }
  inversion HT as [|fl tr0 s0 c0 s' r HT0 HL HE HAl E1 E2]. subst. pose proof (ftrace_good _ _ HT0) as G0. pose proof (g_inv _ _ (fg_good _ _ G0)) as HI0.
  cbn [dcstep flegal] in *. destruct (step fl s0 c) as [[s1 r1]| |] eqn:E; cbn [rbind] in HE; try discriminate. injection HE as -> ->.
  apply (fmu s0 c fl s _ G0 HL) in E. destruct c; try case Hc; cbn [step fsat] in *.
  - pose proof (propagate_ok (FC anyy) (dlevel (mu s0)) fl (mu s0) HI0 (le_n _)) as H. destruct (propagate fops fl (mu s0)) as [[s2 b]| |]; cbn [rbind] in E; try discriminate. injection E as -> ->. exact (proj1 (proj2 (pp_true _ _ _ _ H eq_refl))).
  - destruct HL as (Hd & Hq & Hs). pose proof (good_quiet L anyy (mu s0) (fg_good _ _ G0) Hq) as Q. assert (Hp : lvar p < nv (mu s0)) by (apply Hs; left; reflexivity). rewrite (assume_eq (FC anyy)) in E by assumption.
    destruct (lbool_eqb_spec (value (mu s0) p) LFalse) as [Ef|Ef]; [rewrite Ef in E; discriminate|].
    assert (Eas : match value (mu s0) p with LFalse => Ok (@push_st _ fops (mu s0) p, false) | _ => propagate fops fl (@assumed _ fops (mu s0) p) end = propagate fops fl (@assumed _ fops (mu s0) p)) by (destruct (value (mu s0) p); congruence). rewrite Eas in E.
    destruct (assumed_ok (FC anyy) (mu s0) p Q Hp) as (HIa & HMa & Hga).
    pose proof (propagate_ok (FC anyy) (dlevel (@assumed _ fops (mu s0) p)) fl (@assumed _ fops (mu s0) p) HIa (le_n _)) as H. destruct (propagate fops fl _) as [[s2 b]| |]; cbn [rbind] in E; try discriminate. injection E as -> ->. exact (proj1 (proj2 (pp_true _ _ _ _ H eq_refl))).
  - destruct HL as (Hd & Hq & Hs & Hl). pose proof (SatApi2.check_ok (FC anyy) fl (mu s0) ls (good_quiet L anyy (mu s0) (fg_good _ _ G0) Hq) Hs) as H. destruct (check fops fl (mu s0) ls) as [[s2 b]| |]; cbn [rbind] in E; try discriminate. injection E as -> ->.
    destruct H as (_ & _ & _ & _ & _ & [_ H _] & _). exact H.
Qed.
End Size.
End Trace.
End Srt.
