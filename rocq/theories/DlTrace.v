(** Histories of a root-level network with a difference logic theory, and what they have stated. *)
From Verif Require Import Base Keys Sat SatSpec SatInv SatPop SatLoop SatMain SatApi SatApi2 Reify Run SatFacts Lin Qe Dw Dl DlClo DlTight DlTh DlFacts DlApi MapTh DlRoot DlNet.
From Coq Require Import Lqa.
Open Scope nat_scope.
Local Arguments Nat.ltb : simpl never.
Local Arguments Nat.eqb : simpl never.
Local Arguments Nat.mul : simpl never.
Section Srt.
Context {sr : sorter}.

Section Trace.
Context {D : Type} {W : wops D} (L : wlaws W) (WR : wreads L).
Context (last : Sat.st (dl D) -> nat -> nat -> nat -> D -> res (Sat.st (dl D) * lit)).
Notation dl := (dl D).
Notation st := (st dl).
Notation ops := (dl_ops (sr := sr) W).
Notation mu := (mp (fun t : dl => (t, 0))).
Notation RC := (rootC L).

(** A new core with a new theory: sat_core.cpp:10-19, idl_theory.cpp:8-16 *)
Definition dinit (size : nat) : st := init [dl_init W size].
Record devent := mk_dev { de_call : @dcall D; de_ret : dret }.
(** A client goes on unless it has been told that the network is inconsistent. *)
Definition dalive (s' : st) (r : dret) : Prop := r = DR (RBool false) -> exists M y, dsol L s' M y.
Inductive DTrace (size : nat) : list devent -> st -> Prop :=
| DT_init : DTrace size [] (dinit size)
| DT_step fl tr s c s' r : DTrace size tr s -> dlegal L last s c -> dcstep (W := W) last fl s c = Ok (s', r) -> dalive s' r -> DTrace size (mk_dev c r :: tr) s'.
(** What a history has stated, about an assignment to the propositional variables and one to the numeric variables (the first is the origin). *)
Definition dstated (tr : list devent) (M : nat -> bool) (y : nat -> Q) : Prop :=
  M 0 = false /\ vals_ok L y /\ (y O == 0)%Q /\ forall e, In e tr -> dsaid L (de_call e) (de_ret e) M y.
Definition dsimple (tr : list devent) : Prop := forall e, In e tr -> dexact (de_call e).

Lemma dinit_good size : 0 < size -> dgood L (dinit size) /\ forall M y, dsol L (dinit size) M y <-> M 0 = false /\ vals_ok L y /\ (y O == 0)%Q.
Proof.
  intros Hs. assert (Ei : mu (dinit size) = init [(dl_init W size, 0)]) by reflexivity.
  assert (HI : forall Y, good (RC Y) (init [(dl_init W size, 0)]) /\ (forall M, smodels (RC Y) (init [(dl_init W size, 0)]) M <-> M 0 = false /\ forall t, In t [(dl_init W size, 0)] -> dlmodel L Y (fst t) M)).
  { intros Y. destruct (init_good (RC Y) [(dl_init W size, 0)]) as (_ & A & B); [|split; [exact A|exact B]]. intros t [<-|[]]. split; [|split; [exact Logic.I|]].
    - exists [], []. split; [reflexivity|]. split; [reflexivity|]. apply DR_init. exact Hs.
    - intros v (c & [] & _). }
  split.
  - constructor; [reflexivity|exists (dl_init W size); reflexivity|]. rewrite Ei. apply HI.
  - intros M y. unfold dsol. rewrite Ei, (proj2 (HI (eq y)) M). split.
    + intros [A B]. destruct (B _ (or_introl eq_refl)) as (z & [Hz <-] & H0 & _). auto.
    + intros (A & B & C). split; [exact A|]. intros t [<-|[]]. exists y. split; [auto|]. split; [exact C|]. intros c [].
Qed.
Section Size.
Context (size : nat) (Hsize : 0 < size).
Lemma dtrace_good tr s : DTrace size tr s -> dgood L s.
Proof.
  induction 1 as [|fl tr s c s' r HT IH HL HE HA]; [apply dinit_good, Hsize|]. pose proof (dcstep_ok L WR last fl s c IH HL) as K. rewrite HE in K. destruct K as ([K|[-> K]] & _); [exact K|]. destruct (HA eq_refl) as (M & y & HM). case (K M y HM).
Qed.
Theorem dsol_stated tr s : DTrace size tr s -> forall M y, dsol L s M y -> dstated tr M y.
Proof.
  induction 1 as [|fl tr s c s' r HT IH HL HE HA]; intros M y HM.
  - apply (dinit_good size Hsize) in HM as (A & B & C). split; [exact A|]. split; [exact B|]. split; [exact C|]. intros e [].
  - pose proof (dcstep_ok L WR last fl s c (dtrace_good _ _ HT) HL) as K. rewrite HE in K. destruct K as (_ & _ & K & _). apply K in HM as [HM Hs]. destruct (IH M y HM) as (A & B & C & E). split; [exact A|]. split; [exact B|]. split; [exact C|]. intros e [<-|He]; [exact Hs|apply E, He].
Qed.
Theorem stated_dsol tr s : DTrace size tr s -> dsimple tr -> forall M y, dstated tr M y -> dsol L s M y.
Proof.
  induction 1 as [|fl tr s c s' r HT IH HL HE HA]; intros Hx M y (A & B & C & E).
  - apply (dinit_good size Hsize). auto.
  - pose proof (dcstep_ok L WR last fl s c (dtrace_good _ _ HT) HL) as K. rewrite HE in K. destruct K as (_ & _ & _ & K & _). apply K; [apply (Hx _ (or_introl eq_refl))| |apply (E _ (or_introl eq_refl))].
    apply IH; [intros e He; apply Hx; right; exact He|]. split; [exact A|]. split; [exact B|]. split; [exact C|]. intros e He. apply E. right. exact He.
Qed.
(** Every call returns. *)
Theorem dtotal tr s c fl : DTrace size tr s -> dlegal L last s c -> dbound s < fl -> exists s' r, dcstep (W := W) last fl s c = Ok (s', r).
Proof. intros HT HL Hf. pose proof (dcstep_ok L WR last fl s c (dtrace_good _ _ HT) HL) as K. destruct (dcstep (W := W) last fl s c) as [[s' r]| |]; [eauto|contradiction|lia]. Qed.
Theorem dnever_ub tr s c fl : DTrace size tr s -> dlegal L last s c -> dcstep (W := W) last fl s c <> UB.
Proof. intros HT HL E. pose proof (dcstep_ok L WR last fl s c (dtrace_good _ _ HT) HL) as K. rewrite E in K. exact K. Qed.
(** Propagation. *)
Lemma mu_propagate fl s s' b : dgood L s -> propagate ops fl s = Ok (s', b) -> forall Y, prop_post (RC Y) (mu s) (mu s') b.
Proof.
  intros G E Y. pose proof (mp_propagate (fun t : dl => (t, 0)) ops (mute_ops ops) eq_refl mute_prop mute_check fl s (or_intror (dg_root _ _ G))) as Em. rewrite E in Em. cbn in Em.
  pose proof (propagate_ok (RC Y) (dlevel (mu s)) fl (mu s) (g_inv _ _ (good_y L Y _ (dg_good _ _ G))) (le_n _)) as H. rewrite Em in H. exact H.
Qed.
Theorem dfalse tr s fl s' : DTrace size tr s -> dsimple tr -> dcstep (W := W) last fl s (DSat CPropagate) = Ok (s', DR (RBool false)) -> forall M y, ~ dstated tr M y.
Proof.
  intros HT Hx E M y HM. cbn [dcstep step] in E. destruct (propagate ops fl s) as [[s1 b]| |] eqn:E1; cbn [rbind] in E; try discriminate. injection E as <- ->.
  pose proof (mu_propagate fl s s1 false (dtrace_good _ _ HT) E1 (eq y)) as H. destruct (pp_false _ _ _ _ H eq_refl) as [_ Hu _]. apply (Hu M), (pp_models _ _ _ _ H). apply (stated_dsol tr s HT Hx M y HM).
Qed.
Theorem dclause_false tr s fl ls s' : DTrace size tr s -> dsimple tr -> in_scope s ls -> dcstep (W := W) last fl s (DSat (CClause ls)) = Ok (s', DR (RBool false)) -> forall M y, dstated tr M y -> ~ mcl M ls.
Proof.
  intros HT Hx Hs E M y HM. cbn [dcstep step] in E. destruct (new_clause s ls) as [[s1 b]| |] eqn:E1; cbn [rbind] in E; try discriminate. injection E as <- ->.
  pose proof (dtrace_good _ _ HT) as G. destruct (new_clause_ok (RC (eq y)) (mu s) ls) as (s2 & b & E2 & H); [apply (g_inv _ _ (good_y L _ _ (dg_good _ _ G)))|unfold dlevel; cbn; rewrite (dg_root _ _ G); reflexivity|exact Hs|].
  rewrite (mp_new_clause (fun t : dl => (t, 0)) s ls), E1 in E2. cbn in E2. injection E2 as <- <-. apply (cp_false _ _ _ _ _ H eq_refl). apply (stated_dsol tr s HT Hx M y HM).
Qed.
(** What has a value. *)
Lemma root_levels s v : dgood L s -> level s v = 0.
Proof.
  intros G. pose proof (i_t _ _ (g_inv _ _ (dg_good _ _ G))) as HT. destruct (Nat.eq_dec (level s v) 0) as [E0|E0]; [exact E0|]. pose proof (t_on _ HT v E0) as Ho. apply in_map_iff in Ho as (p & <- & Hp).
  apply in_split in Hp as (pre & post & Ep). pose proof (t_level _ HT pre p post Ep) as El. cbn in El. rewrite (dg_root _ _ G) in El. exact El.
Qed.
Theorem dimplied tr s q : DTrace size tr s -> dsimple tr -> value s q = LTrue -> forall M y, dstated tr M y -> mlit M q = true.
Proof. intros HT Hx Hq M y HM. apply (sm_facts _ _ _ (stated_dsol tr s HT Hx M y HM)); [exact Hq|apply root_levels, (dtrace_good _ _ HT)]. Qed.
(** Distances. *)
Theorem ddistance tr s t i j d : DTrace size tr s -> dsimple tr -> theories s = [t] -> dists t i j = Some d -> forall M y, dstated tr M y -> wsat L d (y j - y i)%Q.
Proof.
  intros HT Hx Et Ed M y HM. pose proof (dtrace_good _ _ HT) as G. destruct (root_told L s t G Et) as (v & HR & Hv & _). pose proof (reach_core L _ _ HR) as HC. cbn [concat] in HC. rewrite app_nil_r in HC.
  apply (dist_sound L t v y i j d HC); [|exact Ed]. apply (sol_told L s t v M y (stated_dsol tr s HT Hx M y HM) Et HR Hv).
Qed.
(** When propagation succeeds there are values for the numeric variables that respect every constraint whose literal has a value. *)
Lemma event_means_all tr s : DTrace size tr s -> forall e, In e tr -> event_means L s (de_call e) (de_ret e).
Proof.
  induction 1 as [|fl tr s c s' r HT IH HL HE HA]; intros e He; [case He|]. pose proof (dtrace_good _ _ HT) as G. destruct (dg_one _ _ G) as [t Et].
  destruct (dcstep_later L WR last fl s c s' r G HL HE) as [Hl Hm]. destruct He as [<-|He]; [exact Hm|]. specialize (IH e He). unfold event_means in *. destruct (de_call e), (de_ret e); auto.
  - apply (later_means L s s' t); assumption.
  - intros Hr. apply (later_means L s s' t); auto.
Qed.
(** The constraint stated by an event, if the event is one that states a constraint by means of its literal only. *)
Definition econ (e : devent) : option (lit * ((nat -> Q) -> Prop)) :=
  match de_call e, de_ret e with
  | DDist from to w, DP p => Some (p, fun y => wsat L w (y to - y from)%Q)
  | DCmp DEq _ _, DP _ => None
  | DCmp r e1 e2, DP p => Some (p, fun y => rel_holds r (lval y e1) (lval y e2))
  | _, _ => None
  end.
Lemma resp_ex s : dgood L s -> prop_q s = [] -> exists y, vals_ok L y /\ (y O == 0)%Q /\ resp L s y.
Proof.
  intros G Hq. destruct (dg_one _ _ G) as [t Et]. destruct (root_told L s t G Et) as (v & HR & Hv & Hd). pose proof (reach_core L _ _ HR) as HC. cbn [concat] in HC. rewrite app_nil_r in HC.
  destruct (solution_exists L t v HC) as (y0 & Hy0 & Hl0). exists (fun k => (y0 k - y0 O)%Q). split; [intros k; apply isv_sub; apply Hy0|]. split; [cbn; lra|].
  assert (Hsh : forall c, con_sat L c (fun k => (y0 k - y0 O)%Q) <-> con_sat L c y0) by (intros c; unfold con_sat; split; apply wsat_eq; lra).
  intros t0 c Et0 Hc. rewrite Et in Et0. injection Et0 as <-. rewrite Hsh. destruct (dc_cons L _ _ HC c Hc) as (_ & _ & _ & _ & Hs). split; intros V.
  - destruct (Hd (c_b c)) as [K|K]; [exists c; auto|exact V|rewrite Hq in K; case K|]. specialize (Hl0 _ c K Hc eq_refl). rewrite Hs in Hl0. exact Hl0.
  - destruct (Hd (negl (c_b c))) as [K|K]; [exists c; auto|unfold value, vlit in *; cbn; destruct (assigns s (lvar (c_b c))), (lsgn (c_b c)); cbn in *; congruence|rewrite Hq in K; case K|].
    specialize (Hl0 _ c K Hc eq_refl). cbn in Hl0. rewrite Hs in Hl0. exact Hl0.
Qed.
Lemma value_TRUE s : dgood L s -> value s TRUE_lit = LTrue /\ value s FALSE_lit = LFalse.
Proof. intros G. pose proof (t_a0 _ (i_t _ _ (g_inv _ _ (dg_good _ _ G)))) as H. cbn in H. unfold value, vlit. cbn. rewrite H. auto. Qed.
Lemma dprop_good fl s s' : dgood L s -> propagate ops fl s = Ok (s', true) -> dgood L s' /\ prop_q s' = [].
Proof.
  intros G E. pose proof (dcstep_ok L WR last fl s (DSat CPropagate) G Logic.I) as K. cbn [dcstep step] in K. rewrite E in K. cbn [rbind] in K. destruct K as ([K|[K _]] & _); [|discriminate]. split; [exact K|].
  pose proof (mu_propagate fl s s' true G E (anyy)) as H. destruct (pp_true _ _ _ _ H eq_refl) as (_ & Hq & _). exact Hq.
Qed.
Theorem dtrue tr s fl s' : DTrace size tr s -> dcstep (W := W) last fl s (DSat CPropagate) = Ok (s', DR (RBool true)) ->
  exists y, vals_ok L y /\ (y O == 0)%Q /\ (forall e p P, In e tr -> econ e = Some (p, P) -> (value s' p = LTrue -> P y) /\ (value s' p = LFalse -> ~ P y)) /\ (total s' -> dstated tr (values s') y).
Proof.
  intros HT E. cbn [dcstep step] in E. destruct (propagate ops fl s) as [[s1 b]| |] eqn:E1; cbn [rbind] in E; try discriminate. injection E as <- ->. pose proof (dtrace_good _ _ HT) as G.
  destruct (dprop_good fl s s1 G E1) as [G1 Hq1]. destruct (resp_ex s1 G1 Hq1) as (y & Hy & Hy0 & Hr). exists y. split; [exact Hy|]. split; [exact Hy0|].
  destruct (dg_one _ _ G) as [t Et]. destruct (dg_one _ _ G1) as [t1 Et1].
  destruct (dcstep_later L WR last fl s (DSat CPropagate) s1 (DR (RBool true)) G Logic.I) as [Hl _]; [cbn [dcstep step]; rewrite E1; reflexivity|]. split.
  - intros e p P He Hc.
    assert (Hm : means L s1 p P).
    { apply (later_means L s s1 t p P Et Hl). pose proof (event_means_all tr s HT e He) as Hm. unfold event_means, econ in *. destruct (de_call e) as [| | | |[] e1 e2], (de_ret e); try discriminate; injection Hc as <- <-; first [exact Hm|apply Hm; discriminate]. }
    destruct (value_TRUE s1 G1) as [VT VF]. destruct (Hm y Hy Hy0 Hr) as [[-> K]|[[-> K]|(t0 & c & Et0 & Hc0 & <- & K)]].
    + rewrite VT. split; [auto|discriminate].
    + rewrite VF. split; [discriminate|auto].
    + rewrite <- K. apply (Hr t0 c Et0 Hc0).
  - intros Ht. apply (dsol_stated tr s HT). pose proof (mu_propagate fl s s1 true G E1 (eq y)) as H. apply (pp_models _ _ _ _ H). destruct (pp_true _ _ _ _ H eq_refl) as (HI & Hq & _). change (values s1) with (values (mu s1)). constructor.
    + unfold values. rewrite (t_a0 _ (i_t _ _ HI)). reflexivity.
    + apply (total_cls (RC (eq y)) (mu s1) HI Hq Ht).
    + intros p Hp _. apply (values_lit (mu s1)); congruence.
    + intros u Hu. cbn in Hu. rewrite Et1 in Hu. destruct Hu as [<-|[]]. exists y. split; [auto|]. split; [exact Hy0|]. intros c Hc. cbn [fst] in Hc. destruct (Hr t1 c Et1 Hc) as [R1 R2].
      assert (Hu : value s1 (c_b c) <> LUndef).
      { destruct (h_range _ _ _ _ (i_h _ _ HI) 0 (t1, 0) (lvar (c_b c))) as [_ K]; [cbn; rewrite Et1; reflexivity|exists c; auto|]. pose proof (Ht (lvar (c_b c)) K) as K2. unfold value, vlit. destruct (assigns s1 (lvar (c_b c))), (lsgn (c_b c)); cbn; congruence. }
      change (mlit (values (mu s1)) (c_b c)) with (mlit (values s1) (c_b c)). rewrite (values_lit s1 _ Hu). destruct (value s1 (c_b c)) eqn:V; [|intuition congruence|congruence]. split; [congruence|]. intros K. case (R2 eq_refl K).
Qed.
(** Hulls: the theory has been told exactly the constraint literals that have a value. *)
Theorem dtold tr s fl s' : DTrace size tr s -> dcstep (W := W) last fl s (DSat CPropagate) = Ok (s', DR (RBool true)) ->
  exists t v, theories s' = [t] /\ DReach L t [v] /\ forall l, atom t (lvar l) -> (In l v <-> value s' l = LTrue).
Proof.
  intros HT E. cbn [dcstep step] in E. destruct (propagate ops fl s) as [[s1 b]| |] eqn:E1; cbn [rbind] in E; try discriminate. injection E as <- ->. pose proof (dtrace_good _ _ HT) as G.
  destruct (dprop_good fl s s1 G E1) as [G1 Hq1]. destruct (dg_one _ _ G1) as [t Et]. destruct (root_told L s1 t G1 Et) as (v & HR & Hv & Hd). exists t, v. split; [exact Et|]. split; [exact HR|]. intros l Hl. split; [intros K; apply Hv, K|]. intros K. destruct (Hd l Hl K) as [K'|K']; [rewrite Hq1 in K'; case K'|exact K'].
Qed.
End Size.
End Trace.
End Srt.
