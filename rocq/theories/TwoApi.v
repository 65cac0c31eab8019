(** The calls of a difference logic theory on a core that holds other theories as well (Two.v), at root level: the proofs are those of DlNet.v,
    for the sum of the contracts; [CB] is the contract of the other theories, arbitrary. *)
From Verif Require Import Base Keys Sat SatSpec SatInv SatPop SatLoop SatMain SatApi SatApi2 SatNext Reify Run ThRel ThGrow SatKept SatFacts Lin Qe Dw Dl DlClo DlTight DlEdge DlTh DlFacts DlApi MapTh DlRoot DlNet ThSum LraApi Two.
From Coq Require Import Lqa.
Open Scope nat_scope.
Local Arguments Nat.ltb : simpl never.
Local Arguments Nat.eqb : simpl never.
Local Arguments Nat.pow : simpl never.
Local Arguments Nat.mul : simpl never.
Section Srt.
Context {sr : sorter}.

Section Api.
Context {D : Type} {W : wops D} (L : wlaws W) (WR : wreads L).
Context {BT : Type} {ob : theory_ops BT}.
Context (last : Sat.st (dl D + BT) -> nat -> nat -> nat -> D -> res (Sat.st (dl D + BT) * lit)).
Notation "-' a" := (wneg W a) (at level 35).
Notation dl := (dl D).
Notation st := (st (dl + BT)).
Notation ops := (sum_ops (dl_ops (sr := sr) W) ob).
Notation mops := (sum_ops (mute_ops (dl_ops (sr := sr) W)) ob).
(** A state of the theories as the root-level contract sees it. *)
Definition emb (t : dl + BT) : (dl * nat) + BT := match t with inl t => inl (t, 0) | inr b => inr b end.
Notation mu := (mp emb).

Lemma emb_prop t val p : th_prop mops (emb t) val p = rmp (fun x => (emb (fst (fst x)), snd (fst x), snd x)) (th_prop ops t val p).
Proof.
  destruct t as [t|b]; cbn [th_prop sum_ops emb].
  - rewrite mute_prop. destruct (th_prop (dl_ops W) t val p) as [[[t' ls] cf]| |]; reflexivity.
  - destruct (th_prop ob b val p) as [[[t' ls] cf]| |]; reflexivity.
Qed.
Lemma emb_check t val : th_check mops (emb t) val = rmp (fun x => (emb (fst x), snd x)) (th_check ops t val).
Proof.
  destruct t as [t|b]; cbn [th_check sum_ops emb].
  - rewrite mute_check. destruct (th_check (dl_ops W) t val) as [[t' cf]| |]; reflexivity.
  - destruct (th_check ob b val) as [[t' cf]| |]; reflexivity.
Qed.
Lemma emb_step fl s c : trail_lim s = [] -> rooted_call c = true -> step (ops := mops) fl (mu s) c = rmp (m1 emb) (step (ops := ops) fl s c).
Proof. intros H1 H2. apply (mp_step emb ops mops eq_refl emb_prop emb_check). right. auto. Qed.
Lemma emb_nth s i t : nth_error (theories s) i = Some (inl t) -> nth_error (theories (mu s)) i = Some (inl (t, 0)).
Proof. intros E. cbn. rewrite nth_error_map, E. reflexivity. Qed.
Lemma emb_in s t : In (inl t) (theories s) -> In (inl (t, 0)) (theories (mu s)).
Proof. intros H. cbn. apply in_map_iff. exists (inl t). auto. Qed.

(** ** The machine, for the functions of the core and of the theory. *)
Definition tw_rel (r : drel) (s : st) (i : nat) (e1 e2 : lin) : res (option (st * lit)) :=
  match r with DLt => tw_lt W s i e1 e2 | DLeq => tw_leq W s i e1 e2 | DEq => tw_eq W s i e1 e2 | DGeq => tw_geq W s i e1 e2 | DGt => tw_gt W last s i e1 e2 end.
Definition tstep (fl : nat) (s : st) (i : nat) (c : @dcall D) : res (st * dret) :=
  match c with
  | DSat c => '(s1, r) <- step (ops := ops) fl s c ;; Ok (s1, DR r)
  | DVar => '(s1, x) <- tw_new_var W s i ;; Ok (s1, DX x)
  | DDist from to w => '(s1, p) <- tw_distance W s i from to w ;; Ok (s1, DP p)
  | DDist2 from to mn mx => '(s1, p) <- tw_distance2 W s i from to mn mx ;; Ok (s1, DP p)
  | DCmp r e1 e2 => o <- tw_rel r s i e1 e2 ;; Ok (match o with Some (s1, p) => (s1, DP p) | None => (s, DThrow) end)
  end.
(** Literals and variables exist; nothing is assumed or popped. *)
Definition tlegal_sat (s : st) (c : call) : Prop :=
  match c with
  | CAssume _ | CPop | CCheck _ => False
  | CClause ls | CConj ls | CDisj ls | CAmo ls | CExct ls => in_scope s ls
  | CEq l r => in_scope s [l; r]
  | CListen v _ => v < nv s
  | CVar | CPropagate | CNext | CSimplify => True
  end.
(** The last case of new_gt is as it should be, or the call does not get there. *)
Definition tgt_fine (e1 e2 : lin) : Prop :=
  (forall s i v v1 k, last s i v v1 k = tw_distance W s i v v1 (wadd W k (-' wunit W))) \/ forall v v1 k, dl_form W (lin_sub e1 e2) <> Some (DTwo false v v1 k).
Definition tlegal (s : st) (i : nat) (c : @dcall D) : Prop :=
  match c with
  | DSat c => tlegal_sat s c
  | DVar => True
  | DDist from to w => wcon L w /\ exists t, nth_error (theories s) i = Some (inl t) /\ from < nvars t /\ to < nvars t
  | DDist2 from to mn mx => wcon L (-' mn) /\ wcon L mx /\ exists t, nth_error (theories s) i = Some (inl t) /\ from < nvars t /\ to < nvars t
  | DCmp r e1 e2 => lin_clean e1 /\ lin_clean e2 /\ (exists t, nth_error (theories s) i = Some (inl t) /\ vars_in t e1 /\ vars_in t e2) /\ (r = DGt -> tgt_fine e1 e2)
  end.
(** The assignment [y] to the variables of the theory agrees with the literals of its constraints. *)
Definition djoint (t : dl) (M : nat -> bool) (y : nat -> Q) : Prop :=
  vals_ok L y /\ (y O == 0)%Q /\ forall c, In c (dcons t) -> (mlit M (c_b c) = true <-> con_sat L c y).
Definition tbound (s : st) : nat := S (2 * nv s + nv s).

Context (CB : contract ob).
Notation C := (sumC (mute_ops (dl_ops (sr := sr) W)) ob (rootC L anyy) CB).
(** An assignment to the variables of the core and one to the variables of the [i]-th theory, that satisfy the network. *)
Definition dsol2 (s : st) (i : nat) (M : nat -> bool) (y : nat -> Q) : Prop := smodels C (mu s) M /\ exists t, nth_error (theories s) i = Some (inl t) /\ djoint t M y.
Record tgood (s : st) (i : nat) : Prop := { tg_root : trail_lim s = []; tg_th : exists t, nth_error (theories s) i = Some (inl t); tg_good : good C (mu s) }.

Lemma joint_any t M y : djoint t M y -> dlmodel L anyy t M.
Proof. intros (A & B & J). exists y. split; [split; [exact A|exact Logic.I]|]. split; [exact B|exact J]. Qed.
Lemma any_joint t M : dlmodel L anyy t M -> exists y, djoint t M y.
Proof. intros (y & [A _] & B & J). exists y. split; [exact A|]. split; [exact B|exact J]. Qed.
Lemma tsol_ex s i t M : nth_error (theories s) i = Some (inl t) -> smodels C (mu s) M -> exists y, dsol2 s i M y.
Proof.
  intros Et HM. destruct (any_joint t M) as (y & Hy); [apply (sm_th _ _ _ HM (inl (t, 0)) (nth_error_In _ i (emb_nth s i t Et)))|]. exists y. split; [exact HM|]. exists t. auto.
Qed.
Lemma tlegal_ok s i c : tgood s i -> tlegal_sat s c -> rooted_call c = true /\ legal C (mu s) c.
Proof.
  intros G H. assert (Hd : dlevel (mu s) = 0) by (unfold dlevel; cbn; rewrite (tg_root _ _ G); reflexivity). destruct c; cbn [tlegal_sat legal rooted_call] in *; try contradiction; auto.
  split; [reflexivity|]. pose proof (t_dec _ (i_t _ _ (g_inv _ _ (tg_good _ _ G)))) as E. unfold dlevel in Hd. unfold decs_ok. intros k d Hk. rewrite Hd in E. destruct (decisions (mu s)); [destruct k; discriminate|discriminate].
Qed.
Lemma tdecs s i : tgood s i -> decisions s = [].
Proof.
  intros G. pose proof (t_dec _ (i_t _ _ (g_inv _ _ (tg_good _ _ G)))) as E. cbn [decisions mp trail_lim] in E. rewrite (tg_root _ _ G) in E. destruct (decisions s); [reflexivity|discriminate].
Qed.
Lemma sum_total : th_total CB -> th_total C.
Proof.
  intros [T1 T2]. destruct (root_total (W := W) L anyy) as [R1 R2]. split.
  - intros [t|b] vs val p HI Ha Hn HT HV HP HF HF'; cbn [th_prop sum_ops].
    + pose proof (R1 t vs val p HI Ha Hn HT HV HP HF HF') as K. destruct (th_prop (mute_ops (dl_ops W)) t val p) as [[[? ?] ?]| |]; cbn [rbind]; congruence.
    + pose proof (T1 b vs val p HI Ha Hn HT HV HP HF HF') as K. destruct (th_prop ob b val p) as [[[? ?] ?]| |]; cbn [rbind]; congruence.
  - intros [t|b] vs val HI Hn HT HV; cbn [th_check sum_ops].
    + pose proof (R2 t vs val HI Hn HT HV) as K. destruct (th_check (mute_ops (dl_ops W)) t val) as [[? ?]| |]; cbn [rbind]; congruence.
    + pose proof (T2 b vs val HI Hn HT HV) as K. destruct (th_check ob b val) as [[? ?]| |]; cbn [rbind]; congruence.
Qed.

(** What the theory has been told are the values of its literals. *)
Lemma ttold s i t : tgood s i -> nth_error (theories s) i = Some (inl t) -> exists v, DReach L t [v] /\ (forall l, In l v -> value s l = LTrue /\ level s (lvar l) = 0) /\
  (forall l, atom t (lvar l) -> value s l = LTrue -> In l (prop_q s) \/ In l v).
Proof.
  intros G Et. destruct (h_views _ _ _ _ (i_h _ _ (g_inv _ _ (tg_good _ _ G))) i (inl (t, 0)) (emb_nth s i t Et)) as (vs & V1 & V2 & V3 & V4).
  destruct V1 as (ups & v & -> & Hl & HR). destruct ups; [|discriminate]. cbn [fst app] in *. exists v. split; [exact HR|]. split.
  - intros l Hl'. destruct (V3 0 v l eq_refl (or_introl Logic.I) Hl') as [A B]. split; [exact A|]. cbn in B. rewrite (tg_root _ _ G) in B. exact B.
  - intros l Ha Hv. destruct (V4 l Ha Hv) as [H|H]; [left; exact H|right]. destruct H as (j & w & Ej & Hw & _). destruct j as [|[|]]; cbn in Ej; inversion Ej; subst. exact Hw.
Qed.
Lemma tsol_told s i t v M y : dsol2 s i M y -> nth_error (theories s) i = Some (inl t) -> DReach L t [v] -> (forall l, In l v -> value s l = LTrue /\ level s (lvar l) = 0) -> solves L t v y.
Proof.
  intros [HM (t0 & Et0 & Hz & H0 & K)] Et HR Hv. rewrite Et in Et0. injection Et0 as <-. pose proof (reach_core L _ _ HR) as HC. cbn [concat] in HC. rewrite app_nil_r in HC.
  split; [exact Hz|]. apply (model_hold L t v M y); [apply HC| |exact K]. intros p Hp. destruct (Hv p Hp). apply (sm_facts _ _ _ HM); assumption.
Qed.
Lemma tsol_vals s i M y : dsol2 s i M y -> vals_ok L y /\ (y O == 0)%Q.
Proof. intros [_ (t & _ & A & B & _)]. auto. Qed.

(** [y] respects the constraints of the [i]-th theory whose literal has a value. *)
Definition tresp (s : st) (i : nat) (y : nat -> Q) : Prop :=
  forall t c, nth_error (theories s) i = Some (inl t) -> In c (dcons t) -> (value s (c_b c) = LTrue -> con_sat L c y) /\ (value s (c_b c) = LFalse -> ~ con_sat L c y).
(** The literal [p] is that of a constraint that says [P], or a constant and [P] follows, or its negation, from the constraints whose literal has a value. *)
Definition tmeans (s : st) (i : nat) (p : lit) (P : (nat -> Q) -> Prop) : Prop :=
  forall y, vals_ok L y -> (y O == 0)%Q -> tresp s i y -> (p = TRUE_lit /\ P y) \/ (p = FALSE_lit /\ ~ P y) \/ exists t c, nth_error (theories s) i = Some (inl t) /\ In c (dcons t) /\ c_b c = p /\ (con_sat L c y <-> P y).
Lemma tmeans_iff s i p (P P' : (nat -> Q) -> Prop) : (forall y, vals_ok L y -> (y O == 0)%Q -> (P y <-> P' y)) -> tmeans s i p P -> tmeans s i p P'.
Proof.
  intros H K y H1 H2 H3. specialize (H y H1 H2). destruct (K y H1 H2 H3) as [[A B]|[[A B]|(t & c & A & B & E & F)]]; [left; tauto|right; left; tauto|right; right; exists t, c]. rewrite F. auto.
Qed.
Lemma tresp_told s i t v y : tgood s i -> nth_error (theories s) i = Some (inl t) -> DReach L t [v] -> (forall l, In l v -> value s l = LTrue /\ level s (lvar l) = 0) -> vals_ok L y -> tresp s i y -> solves L t v y.
Proof.
  intros G Et HR Hv Hy Hr. split; [exact Hy|]. intros p c Hp Hc Ev. pose proof (reach_core L _ _ HR) as HC. destruct (dc_cons L _ _ HC c Hc) as (_ & _ & _ & _ & Hs). destruct (Hr t c Et Hc) as [R1 R2]. destruct (Hv p Hp) as [V _].
  unfold value, vlit in *. rewrite Ev, Hs in R1, R2. destruct (lsgn p); [apply R1, V|]. apply R2. destruct (assigns s (lvar p)); cbn in *; congruence.
Qed.

(** The effect of a call that states [P]. *)
Record teff (s : st) (i : nat) (P : (nat -> bool) -> (nat -> Q) -> Prop) (s' : st) : Prop := {
  te_good : tgood s' i;
  te_nv : nv s <= nv s';
  te_only : forall M y, dsol2 s' i M y -> dsol2 s i M y /\ P M y;
  te_vars : forall t, nth_error (theories s) i = Some (inl t) -> exists t', theories s' = set_nth (theories s) i (inl t') /\ nvars t <= nvars t' /\ incl (dcons t) (dcons t');
  te_val : forall q, value s q <> LUndef -> value s' q = value s q }.
Definition teff_all (s : st) (i : nat) (P : (nat -> bool) -> (nat -> Q) -> Prop) (s' : st) : Prop := forall M y, dsol2 s i M y -> P M y -> dsol2 s' i M y.
Lemma teff_same s i (P : (nat -> bool) -> (nat -> Q) -> Prop) : tgood s i -> (forall M y, dsol2 s i M y -> P M y) -> teff s i P s /\ teff_all s i P s.
Proof.
  intros G H. split; [|intros M y HM _; exact HM]. constructor; auto.
  intros t Et. exists t. split; [symmetry; apply set_nth_same, Et|]. split; [lia|apply incl_refl].
Qed.
Lemma teff_iff s i (P P' : (nat -> bool) -> (nat -> Q) -> Prop) s' : (forall M y, dsol2 s i M y -> (P M y <-> P' M y)) -> teff s i P s' /\ teff_all s i P s' -> teff s i P' s' /\ teff_all s i P' s'.
Proof.
  intros H [[A B E F F'] K]. split; [constructor; auto|].
  - intros M y HM. destruct (E M y HM) as [C1 C2]. split; [exact C1|]. apply H; assumption.
  - intros M y HM HP. apply K; [exact HM|]. apply H; assumption.
Qed.
Lemma set_nth_at (s : st) i (t t' : dl) ts : nth_error (theories s) i = Some (inl t) -> ts = set_nth (theories s) i (inl t') -> nth_error ts i = Some (inl t').
Proof. intros E ->. rewrite nth_set_nth by (apply nth_error_Some; congruence). rewrite Nat.eqb_refl. reflexivity. Qed.

(** ** The functions of the core. *)
Definition tshape (t : dl + BT) : option (nat * list (dcon D)) := match t with inl t => Some (sh t) | inr _ => None end.
Lemma tsh_step fl (s s' : st) c r : step (ops := ops) fl s c = Ok (s', r) -> map tshape (theories s') = map tshape (theories s).
Proof.
  apply (K_step ops tshape).
  - intros [t|t] val p t' ls cf; cbn [th_prop sum_ops].
    + destruct (th_prop (dl_ops W) t val p) as [[[t1 l1] c1]| |] eqn:E; cbn [rbind]; try discriminate. intros K. injection K as <- _ _. cbn. f_equal. exact (sh_prop W t val p t1 l1 c1 E).
    + destruct (th_prop ob t val p) as [[[t1 l1] c1]| |] eqn:E; cbn [rbind]; try discriminate. intros K. injection K as <- _ _. reflexivity.
  - intros [t|t] val t' cf; cbn [th_check sum_ops].
    + cbn [th_check dl_ops]. unfold dl_check, guard. destruct (forallb _ _); [|discriminate]. cbn [rbind]. intros K. injection K as <- _. reflexivity.
    + destruct (th_check ob t val) as [[t1 c1]| |] eqn:E; cbn [rbind]; try discriminate. intros K. injection K as <- _. reflexivity.
  - intros [t|t]; reflexivity.
  - intros [t|t]; [|reflexivity]. cbn. unfold sh, dl_pop. destruct (dlayers t); reflexivity.
Qed.
Lemma tsh_nth fl (s s' : st) i t c r : step (ops := ops) fl s c = Ok (s', r) -> nth_error (theories s) i = Some (inl t) -> exists t', nth_error (theories s') i = Some (inl t') /\ nvars t' = nvars t /\ dcons t' = dcons t.
Proof.
  intros E Et. pose proof (tsh_step fl s s' c r E) as K. apply (f_equal (fun l => nth_error l i)) in K. rewrite !nth_error_map, Et in K. cbn in K. destruct (nth_error (theories s') i) as [[t'|b]|]; cbn in K; try discriminate. injection K as K1 K2. exists t'. auto.
Qed.
Theorem tsat_ok fl s i c : tgood s i -> tlegal_sat s c ->
  match step (ops := ops) fl s c with
  | UB => False
  | OOF => th_total CB -> fl <= tbound s
  | Ok (s', r) => (tgood s' i \/ (r = RBool false /\ forall M, ~ smodels C (mu s') M)) /\ nv s <= nv s' /\
      (forall M y, dsol2 s' i M y -> dsol2 s i M y /\ said c [] r M) /\ (exact c -> forall M y, dsol2 s i M y -> said c [] r M -> dsol2 s' i M y)
  end.
Proof.
  intros G HL. pose proof G as [G1 [t Et] G3].
  destruct (tlegal_ok s i c G HL) as [Hc Hl]. pose proof (step_ok C fl (mu s) c G3 Hl) as H.
  rewrite (emb_step fl s c G1 Hc) in H. destruct (step (ops := ops) fl s c) as [[s' r]| |] eqn:E; unfold m1 in H; cbn [rbind rmp fst snd] in *; [|exact H|].
  + cbn [decisions mp] in H. rewrite (tdecs s i G) in H. destruct H as (H1 & H2 & H3 & H4).
    destruct (tsh_nth fl s s' i t c r E Et) as (t' & Et' & En & Ec).
    assert (Hj : forall M y, djoint t' M y <-> djoint t M y) by (intros M y; unfold djoint; rewrite Ec; reflexivity).
    split; [|split; [exact H2|split]].
    * destruct H1 as [H1|[-> Hu]]; [left|right].
      -- constructor; [apply (tl_step fl s c s' r G1 Hc E)|eauto|exact H1].
      -- split; [reflexivity|]. intros M HM. apply (de_unsat _ _ Hu M), HM.
    * intros M y [HM (t0 & Et0 & Hy)]. rewrite Et' in Et0. injection Et0 as <-. apply H3 in HM as [HM Hs]. split; [|exact Hs]. split; [exact HM|]. exists t. split; [exact Et|apply Hj, Hy].
    * intros Hx M y [HM (t0 & Et0 & Hy)] Hs. rewrite Et in Et0. injection Et0 as <-. split; [apply H4; assumption|]. exists t'. split; [exact Et'|apply Hj, Hy].
  + intros Htot. specialize (H (sum_total Htot)). assert (Hd : dlevel (mu s) = 0) by (unfold dlevel; cbn; rewrite G1; reflexivity). unfold fuel_bound in H. unfold tbound.
    destruct c; try discriminate Hc; rewrite Hd, Nat.pow_0_r, Nat.mul_1_r in H; exact H.
Qed.

(** ** The functions of the theory. *)
Lemma put_grow s i t1 : grow_st (mu s) i (inl (t1, 0)) None = mu (tw_put s i t1).
Proof. unfold grow_st, tw_put. rewrite (mp_set_th emb s i (inl t1)). reflexivity. Qed.
Lemma bind_grow s i x t1 : grow_st (mu s) i (inl (t1, 0)) (Some x) = mu (tw_put (bind s x i) i t1).
Proof.
  unfold tw_put. rewrite (mp_set_th emb (bind s x i) i (inl t1)). unfold grow_st. f_equal; unfold bind; change (bounds (mu s)) with (bounds s); destruct (memn i (bounds s x)); reflexivity.
Qed.
Theorem tvar_ok s i : tgood s i -> exists s' x, tw_new_var W s i = Ok (s', x) /\ teff s i (fun _ _ => True) s' /\ teff_all s i (fun _ _ => True) s'.
Proof.
  intros G. pose proof G as [G1 [t Et] G3].
  unfold tw_new_var, tw_th. rewrite Et. destruct (t_dl_var W t) as [t1 x] eqn:E1. cbn [rbind].
  assert (Et1 : t1 = fst (t_dl_var W t)) by (rewrite E1; reflexivity).
  assert (Ec : dcons t1 = dcons t) by (rewrite Et1; unfold t_dl_var; cbn [fst]; destruct (Nat.eqb _ _); reflexivity).
  destruct (grow_ok C (mu s) i (inl (t, 0)) (inl (t1, 0)) None G3) as (A & _ & B).
  { apply emb_nth, Et. }
  { intros v. cbn. unfold atom. rewrite Ec. split; [auto|]. intros [H|H]; [exact H|discriminate]. }
  { discriminate. }
  { intros vs _ (ups & v & -> & Hl & HR) _. exists ups, v. split; [reflexivity|]. split; [exact Hl|]. cbn [fst] in *. rewrite Et1. apply (DR_step L t [v]); [exact HR|constructor]. }
  { auto. }
  { intros M _. cbn. unfold dlmodel. rewrite Ec. auto. }
  { intros m v Hx. exact Hx. }
  rewrite put_grow in A, B.
  assert (Hj : forall M y, djoint t1 M y <-> djoint t M y) by (intros M y; unfold djoint; rewrite Ec; reflexivity).
  assert (Et' : nth_error (theories (tw_put s i t1)) i = Some (inl t1)) by (apply (set_nth_at s i t t1 _ Et eq_refl)).
  assert (HG : forall M y, dsol2 (tw_put s i t1) i M y <-> dsol2 s i M y).
  { intros M y. split; intros [HM (t0 & Et0 & Hy)].
    - rewrite Et' in Et0. injection Et0 as <-. apply B in HM as [HM _]. split; [exact HM|]. exists t. split; [exact Et|apply Hj, Hy].
    - rewrite Et in Et0. injection Et0 as <-. apply Hj in Hy. split; [apply B; split; [exact HM|apply (joint_any t1 M y Hy)]|]. exists t1. auto. }
  eexists _, x. split; [reflexivity|]. split; [constructor|].
  + constructor; [exact G1|eauto|exact A].
  + cbn. lia.
  + intros M y HM. split; [apply HG, HM|exact Logic.I].
  + intros u Eu. rewrite Et in Eu. injection Eu as <-. exists t1. split; [reflexivity|]. split; [rewrite Et1; unfold t_dl_var; cbn [fst]; destruct (Nat.eqb _ _); cbn; lia|rewrite Ec; apply incl_refl].
  + auto.
  + intros M y HM _. apply HG, HM.
Qed.
Theorem tdist_ok s i t from to w : tgood s i -> nth_error (theories s) i = Some (inl t) -> from < nvars t -> to < nvars t -> wcon L w ->
  exists s' p, tw_distance W s i from to w = Ok (s', p) /\ teff s i (fun M y => mlit M p = true <-> wsat L w (y to - y from)%Q) s' /\
    teff_all s i (fun M y => mlit M p = true <-> wsat L w (y to - y from)%Q) s' /\ lvar p < nv s' /\ tmeans s' i p (fun y => wsat L w (y to - y from)%Q).
Proof.
  intros G Et Hf Ht Hw. pose proof G as [G1 _ G3].
  destruct (ttold s i t G Et) as (v & HR & Hv1 & Hv2).
  pose proof (reach_core L _ _ HR) as HC. cbn [concat] in HC. rewrite app_nil_r in HC. pose proof (dc_n L _ _ HC) as Hcap.
  pose proof (dist_refutes L t _ from to w HC Hf Ht Hw) as HRe. pose proof (dist_entails L t _ from to w HC Hf Ht Hw) as HE.
  pose proof (i_t _ _ (g_inv _ _ G3)) as HT.
  unfold tw_distance, tw_th. rewrite Et. unfold guard. destruct (Nat.ltb_spec from (cap t)); [|lia]. destruct (Nat.ltb_spec to (cap t)); [|lia]. cbn [andb].
  destruct (dist_lt W (dists t to from) (Some (-' w))) eqn:E1; [|destruct (dist_le W (dists t from to) (Some w)) eqn:E2]; cbn [rbind].
  + exists s, FALSE_lit. split; [reflexivity|]. apply and_assoc. split; [|split; [apply (t_nv _ HT)|intros y Hy Hy0 Hr; right; left; split; [reflexivity|]; apply HRe; [reflexivity|apply (tresp_told s i t v y G Et HR Hv1 Hy Hr)]]].
    apply teff_same; [exact G|]. intros M y HM. cbn. pose proof (tsol_told s i t v M y HM Et HR Hv1) as K. pose proof (proj1 HRe eq_refl y K) as K'.
    unfold mlit. cbn. rewrite (sm_false _ _ _ (proj1 HM)). split; [discriminate|contradiction].
  + exists s, TRUE_lit. split; [reflexivity|]. apply and_assoc. split; [|split; [apply (t_nv _ HT)|intros y Hy Hy0 Hr; left; split; [reflexivity|]; apply HE; [reflexivity|apply (tresp_told s i t v y G Et HR Hv1 Hy Hr)]]].
    apply teff_same; [exact G|]. intros M y HM. cbn. pose proof (tsol_told s i t v M y HM Et HR Hv1) as K. pose proof (proj1 HE eq_refl y K) as K'.
    unfold mlit. cbn. rewrite (sm_false _ _ _ (proj1 HM)). split; auto.
  + cbn [new_var]. cbv beta iota zeta. set (x := nv s). set (c := mk_dcon (mk_lit x true) from to w).
    assert (Hne : from <> to).
    { intros <-. rewrite (cl_diag L _ (dc_closed L _ _ HC)) in E1, E2. unfold dist_le in E2. cbn in E1, E2. apply negb_false_iff in E1. rewrite negb_involutive in E2. destruct (wle_or L (w0 W) w) as [K|K]; [pose proof (proj2 (wle_iff L _ _) K); congruence|].
      pose proof (proj1 (wle_iff L _ _) E1) as E3. clear E1. rename E3 into E1. unfold wlt, wle in *. destruct (evt_ex _ (evt_and _ _ K E1)) as (e & _ & A & B). rewrite (ev_neg _ L) in B. rewrite (ev_0 _ L) in *. lra. }
    assert (Hfresh : ~ atom t x).
    { intros K. destruct (h_range _ _ _ _ (i_h _ _ (g_inv _ _ G3)) i (inl (t, 0)) x (emb_nth s i t Et) K) as [_ K2]. unfold x in K2. cbn in K2. lia. }
    assert (Hg : good_con L (nvars t) c) by (split; [exact Hw|]; cbn; auto).
    set (sn := fst (new_var s)). assert (Esn : mu sn = fst (new_var (mu s))) by reflexivity.
    assert (HN : good C (mu sn) /\ forall M, smodels C (mu sn) M <-> smodels C (mu s) M).
    { pose proof (step_ok C 1 (mu s) CVar G3 Logic.I) as K. cbn [step] in K. pose proof (new_var_ok C (mu s) (g_inv _ _ G3)) as [_ V]. rewrite Esn.
      destruct (new_var (mu s)) as [s1 v1]. cbn [fst] in *. destruct K as ([K|[K _]] & _); [|discriminate]. split; [exact K|]. intros M. apply (vp_models _ _ _ V). }
    destruct HN as [N1 N2]. assert (Etn : nth_error (theories sn) i = Some (inl t)) by exact Et.
    destruct (grow_ok C (mu sn) i (inl (t, 0)) (inl (add_con t c, 0)) (Some x) N1) as (A & _ & B).
    { apply emb_nth, Etn. }
    { intros z. cbn. unfold atom. cbn [dcons add_con]. split.
      + intros (c' & Hc' & Ex). apply in_app_or in Hc' as [Hc'|[<-|[]]]; [left; eauto|right; cbn in Ex; congruence].
      + intros [(c' & Hc' & Ex)|Ex]; [exists c'; split; [apply in_or_app; auto|exact Ex]|]. injection Ex as <-. exists c. split; [apply in_or_app; right; left; reflexivity|reflexivity]. }
    { intros z Ez. injection Ez as <-. split; [|split; [|exact Hfresh]].
      + pose proof (t_nv _ HT). cbn in *. unfold x. lia.
      + cbn. unfold upd, x. rewrite Nat.eqb_refl. reflexivity. }
    { intros vs _ (ups & v' & -> & Hl & HR') _. exists ups, v'. split; [reflexivity|]. split; [exact Hl|]. cbn [fst] in *. apply (DR_step L t [v']); [exact HR'|constructor; assumption]. }
    { auto. }
    { intros M _. cbn. intros (y & Hy & Hy0 & K). exists y. split; [exact Hy|]. split; [exact Hy0|]. intros c' Hc'. apply K. cbn. apply in_or_app. auto. }
    { intros j u Hx. exact Hx. }
    rewrite bind_grow in A, B.
    match goal with |- context [tw_put (bind ?a x i) i _] => change a with sn end. set (s' := tw_put (bind sn x i) i (add_con t c)) in *.
    assert (Eth : theories s' = set_nth (theories s) i (inl (add_con t c))) by (unfold s', tw_put, bind; destruct (memn i (bounds sn x)); reflexivity).
    assert (Es' : nth_error (theories s') i = Some (inl (add_con t c))) by (apply (set_nth_at s i t (add_con t c) _ Et Eth)).
    assert (Etl : trail_lim s' = []) by (unfold s', tw_put, bind; destruct (memn i (bounds sn x)); cbn; exact G1).
    assert (Env : nv s' = S (nv s)) by (unfold s', tw_put, bind; destruct (memn i (bounds sn x)); reflexivity).
    assert (Hall : teff_all s i (fun M y => mlit M (mk_lit x true) = true <-> wsat L w (y to - y from)%Q) s').
    { intros M y [HM (t0 & Et0 & Hy)] Hs. rewrite Et in Et0. injection Et0 as <-.
      assert (Hy' : djoint (add_con t c) M y). { destruct Hy as (A1 & A2 & A3). split; [exact A1|]. split; [exact A2|]. intros c' Hc'. cbn in Hc'. apply in_app_or in Hc' as [Hc'|[<-|[]]]; [apply A3, Hc'|exact Hs]. }
      split; [apply B; split; [apply N2, HM|apply (joint_any _ M y Hy')]|]. exists (add_con t c). auto. }
    exists s', (mk_lit x true). split; [reflexivity|]. split; [constructor|split; [exact Hall|split; [rewrite Env; cbn; unfold x; lia|]]].
    6:{ intros y _ _ _. right. right. exists (add_con t c), c. split; [exact Es'|]. split; [cbn; apply in_or_app; right; left; reflexivity|]. split; reflexivity. }
    * constructor; [exact Etl|eauto|exact A].
    * lia.
    * intros M y [HM (t0 & Et0 & Hy1 & Hy2 & Hy3)]. rewrite Es' in Et0. injection Et0 as <-. apply B in HM as [HM _]. split.
      -- split; [apply N2, HM|]. exists t. split; [exact Et|]. split; [exact Hy1|]. split; [exact Hy2|]. intros c' Hc'. apply Hy3. cbn. apply in_or_app. auto.
      -- apply (Hy3 c). cbn. apply in_or_app. right. left. reflexivity.
    * intros u Eu. rewrite Et in Eu. injection Eu as <-. exists (add_con t c). split; [exact Eth|]. split; [cbn; lia|]. intros c' Hc'. cbn. apply in_or_app. auto.
    * intros z Hz. assert (Hz' : lvar z <> x) by (intros Ex; apply Hz; unfold value, vlit; pose proof (t_out _ HT x) as K; cbn in K; rewrite Ex, K; [reflexivity|unfold x; lia]).
      assert (Ea : assigns s' (lvar z) = assigns s (lvar z)) by (unfold s', tw_put, bind; destruct (memn i (bounds sn x)); cbn; apply upd_neq, Hz'). unfold value, vlit. rewrite Ea. reflexivity.
Qed.
(** Two literals in sequence, then their conjunction. *)
Lemma tboth_ok s i t from to w from' to' w' : tgood s i -> nth_error (theories s) i = Some (inl t) -> from < nvars t -> to < nvars t -> from' < nvars t -> to' < nvars t -> wcon L w -> wcon L w' ->
  exists s3 p, ('(s1, p) <- tw_distance W s i from to w ;; '(s2, q) <- tw_distance W s1 i from' to' w' ;; new_conj s2 [p; q]) = Ok (s3, p) /\
    teff s i (fun M y => mlit M p = true <-> (wsat L w (y to - y from)%Q /\ wsat L w' (y to' - y from')%Q)) s3 /\ lvar p < nv s3.
Proof.
  intros G Et H1 H2 H3 H4 Hw Hw'. destruct (tdist_ok s i t from to w G Et H1 H2 Hw) as (s1 & p & E1 & F1 & _ & P1 & _). rewrite E1. cbn [rbind].
  destruct (te_vars _ _ _ _ F1 t Et) as (t1 & Eth1 & N1 & I1). pose proof (set_nth_at s i t t1 _ Et Eth1) as Et1.
  destruct (tdist_ok s1 i t1 from' to' w' (te_good _ _ _ _ F1) Et1) as (s2 & q & E2 & F2 & _ & P2 & _); [lia|lia|exact Hw'|]. rewrite E2. cbn [rbind].
  destruct (te_vars _ _ _ _ F2 t1 Et1) as (t2 & Eth2 & N2 & I2). pose proof (te_good _ _ _ _ F2) as G2. pose proof (te_nv _ _ _ _ F1) as V1. pose proof (te_nv _ _ _ _ F2) as V2.
  assert (Hsc : in_scope s2 [p; q]) by (intros x [<-|[<-|[]]]; lia).
  pose proof (tg_good _ _ G2) as G2'. destruct (new_conj_ok C (mu s2) [p; q]) as (s3' & l' & E & X & _ & Hlt & _); [apply (g_inv _ _ G2')|apply (g_cache _ _ G2')|unfold dlevel; cbn; rewrite (tg_root _ _ G2); reflexivity|exact Hsc|].
  pose proof (mp_new_conj emb s2 [p; q]) as Em. rewrite E in Em. destruct (new_conj s2 [p; q]) as [[s3 l]| |] eqn:E3; cbn in Em; try discriminate. injection Em as -> ->.
  pose proof (tsat_ok 1 s2 i (CConj [p; q]) G2 Hsc) as K. cbn [step] in K. rewrite E3 in K. cbn [rbind] in K. destruct K as (K1 & K2 & K3 & _). destruct K1 as [K1|[K1 _]]; [|discriminate].
  pose proof (proj1 (Erase.new_conj_ths s2 [p; q] s3 l E3)) as Hth.
  exists s3, l. split; [reflexivity|]. split; [|exact Hlt]. constructor.
  - exact K1.
  - lia.
  - intros M y HM. apply K3 in HM as [HM Hl]. cbn [said] in Hl. apply (te_only _ _ _ _ F2) in HM as [HM Hq]. apply (te_only _ _ _ _ F1) in HM as [HM Hp]. split; [exact HM|]. cbn in Hl. rewrite Hl, <- Hp, <- Hq. destruct (mlit M p), (mlit M q); cbn; intuition congruence.
  - intros u Eu. rewrite Et in Eu. injection Eu as <-. exists t2. rewrite Hth. split; [rewrite Eth2, Eth1; apply set_nth_twice|]. split; [lia|]. apply (incl_tran I1 I2).
  - intros z Hz. pose proof (te_val _ _ _ _ F1 z Hz) as Z1. rewrite <- Z1 in Hz. pose proof (te_val _ _ _ _ F2 z Hz) as Z2. rewrite <- Z2 in Hz. rewrite <- Z1, <- Z2. apply (e_val _ _ _ X z Hz).
Qed.
(** What a comparison gives. *)
Definition trel_ok (s : st) (i : nat) (r : drel) (e1 e2 : lin) (o : res (option (st * lit))) : Prop :=
  exists s' p, o = Ok (Some (s', p)) /\ lvar p < nv s' /\ teff s i (fun M y => mlit M p = true <-> rel_holds r (lval y e1) (lval y e2)) s' /\
    (r <> DEq -> teff_all s i (fun M y => mlit M p = true <-> rel_holds r (lval y e1) (lval y e2)) s' /\ tmeans s' i p (fun y => rel_holds r (lval y e1) (lval y e2))).
Lemma trel_const s i r e1 e2 b : tgood s i -> (forall y, b = true <-> rel_holds r (lval y e1) (lval y e2)) -> trel_ok s i r e1 e2 (Ok (Some (s, tf b))).
Proof.
  intros G H. exists s, (tf b). split; [reflexivity|]. split; [pose proof (t_nv _ (i_t _ _ (g_inv _ _ (tg_good _ _ G)))) as K; cbn in K; destruct b; exact K|].
  assert (K : forall M y, dsol2 s i M y -> (mlit M (tf b) = true <-> rel_holds r (lval y e1) (lval y e2))) by (intros M y HM; rewrite <- (H y); unfold mlit, tf; destruct b; cbn; rewrite (sm_false _ _ _ (proj1 HM)); cbn; intuition congruence).
  destruct (teff_same s i _ G K) as [K1 K2]. split; [exact K1|]. intros _. split; [exact K2|]. intros y _ _ _. specialize (H y). unfold tf. destruct b; [left|right; left]; (split; [reflexivity|]); intuition congruence.
Qed.
Lemma trel_may s i t r e1 e2 from to w : tgood s i -> nth_error (theories s) i = Some (inl t) -> from < nvars t -> to < nvars t -> wcon L w ->
  (forall y, vals_ok L y -> (y O == 0)%Q -> (wsat L w (y to - y from)%Q <-> rel_holds r (lval y e1) (lval y e2))) -> trel_ok s i r e1 e2 (may (tw_distance W s i from to w)).
Proof.
  intros G Et Hf Ht Hw H. destruct (tdist_ok s i t from to w G Et Hf Ht Hw) as (s' & p & E & F1 & F2 & Hp & F3). exists s', p. split; [unfold may; rewrite E; reflexivity|]. split; [exact Hp|].
  apply (tmeans_iff s' i p _ _ H) in F3. destruct (teff_iff s i (fun M y => mlit M p = true <-> wsat L w (y to - y from)%Q) (fun M y => mlit M p = true <-> rel_holds r (lval y e1) (lval y e2)) s') as [K1 K2]; [|auto|auto].
  intros M y HM. destruct (tsol_vals s i M y HM) as [A B]. rewrite (H y A B). reflexivity.
Qed.
Theorem trel_all s i t r e1 e2 : tgood s i -> nth_error (theories s) i = Some (inl t) -> lin_clean e1 -> lin_clean e2 -> vars_in t e1 -> vars_in t e2 -> (r = DGt -> tgt_fine e1 e2) ->
  (diff_form (W := W) (lin_sub e1 e2) /\ trel_ok s i r e1 e2 (tw_rel r s i e1 e2)) \/ (~ diff_form (W := W) (lin_sub e1 e2) /\ tw_rel r s i e1 e2 = Ok None).
Proof.
  intros G Et Hl Hr Vl Vr Hg. destruct (ttold s i t G Et) as (v0 & HR & Hv1 & _). pose proof (reach_core L _ _ HR) as HC. pose proof (dc_n L _ _ HC) as Hcap. cbn [concat] in HC. rewrite app_nil_r in HC.
  destruct (dl_form W (lin_sub e1 e2)) as [f0|] eqn:Ef0; [|right; split; [apply form_none, Ef0|destruct r; cbn [tw_rel]; unfold tw_lt, tw_leq, tw_eq, tw_geq, tw_gt; rewrite Ef0; reflexivity]].
  left. split; [apply (form_some _ _ Ef0)|].
  destruct (cmp_cases (W := W) t e1 e2 (proj1 Hcap) Hl Hr Vl Vr (form_some _ _ Ef0)) as [(k & Ef & Hk)|(f & n & v & v1 & k & c & q & Ef & Ea & Hv & Hv1' & Hq & Hn & Hk)].
  - destruct r; cbn [tw_rel]; unfold tw_lt, tw_leq, tw_eq, tw_geq, tw_gt; rewrite Ef; apply trel_const; try exact G; intros y; cbn [rel_holds]; rewrite ?Qlt_bool_iff, ?Qle_bool_iff, ?Qeq_bool_iff; specialize (Hk y); lra.
  - destruct (rq_con L WR q k Hq) as (C1 & C2 & C3 & C4).
    assert (Hdi : r <> DEq -> trel_ok s i r e1 e2 (tw_rel r s i e1 e2)).
    { intros Hne. destruct r; try congruence; cbn [tw_rel]; unfold tw_lt, tw_leq, tw_geq, tw_gt; rewrite Ef; (destruct f as [|[] x k'|[] x x1 k']; try discriminate; injection Ea as <- <- <- <-);
      try (destruct (Hg eq_refl) as [Hg'|Hg']; [rewrite Hg'|case (Hg' _ _ _ Ef)]);
      (apply (trel_may s i t); [exact G|exact Et|assumption|assumption|assumption|]); intros y Hy Hy0; specialize (Hk y Hy0); rewrite ?(edge_lt L WR y q), ?(edge_gt L WR y q), ?(edge_le L WR y q), ?(edge_ge L WR y q) by assumption;
      match type of Hk with (_ == c * ?z)%Q => first [destruct (sign_neg c z Hn) as (S1 & S2 & S3 & S4 & S5)|destruct (sign_pos c z Hn) as (S1 & S2 & S3 & S4 & S5)] end; cbn [rel_holds]; first [rewrite <- S1; lra|rewrite <- S2; lra|rewrite <- S3; lra|rewrite <- S4; lra]. }
    destruct r; try (apply Hdi; discriminate). clear Hdi. cbn [tw_rel]. unfold tw_eq. rewrite Ef.
    assert (HE : trel_ok s i DEq e1 e2 (tw_eq_at W s i v v1 k)); [|destruct f as [|n' x k'|n' x x1 k']; try discriminate; injection Ea as <- <- <- <-; exact HE].
    assert (Heq : forall y, vals_ok L y -> (y O == 0)%Q -> (wsat L k (y v1 - y v)%Q /\ wsat L (-' k) (y v - y v1)%Q <-> (lval y e1 == lval y e2)%Q)).
    { intros y Hy Hy0. specialize (Hk y Hy0). rewrite (edge_le L WR y q), (edge_ge L WR y q) by assumption. assert (S5 : (c * (y v - y v1 + q) == 0 <-> y v - y v1 + q == 0)%Q) by (destruct n; [apply (sign_neg c _ Hn)|apply (sign_pos c _ Hn)]).
      split; [intros [A B]; assert (K : (y v - y v1 + q == 0)%Q) by lra; apply S5 in K; lra|]. intros K. assert (K' : (y v - y v1 + q == 0)%Q) by (apply S5; lra). lra. }
    unfold tw_eq_at, tw_th. rewrite Et. unfold guard. destruct (Nat.ltb_spec v (cap t)); [|lia]. destruct (Nat.ltb_spec v1 (cap t)); [|lia]. cbn [andb].
    destruct (within W (distance W t v v1) k) eqn:Ew.
    + destruct (tboth_ok s i t v v1 k v1 v (-' k) G Et Hv Hv1' Hv1' Hv C1 C2) as (s3 & p & E & F & Hp). exists s3, p. split; [unfold may; rewrite E; reflexivity|].
      split; [exact Hp|]. split; [|congruence].
      destruct F as [F1 F2 F3 F4 F5]. constructor; auto. intros M y HM. destruct (F3 M y HM) as [K1 K2]. split; [exact K1|]. destruct (tsol_vals s i M y K1) as [A B]. cbn [rel_holds]. rewrite <- (Heq y A B). exact K2.
    + change FALSE_lit with (tf false). exists s, (tf false). split; [reflexivity|]. split; [apply (t_nv _ (i_t _ _ (g_inv _ _ (tg_good _ _ G))))|]. split; [|congruence]. apply teff_same; [exact G|]. intros M y HM. cbn [rel_holds]. unfold mlit. cbn. rewrite (sm_false _ _ _ (proj1 HM)).
      split; [discriminate|]. intros K. exfalso. destruct (tsol_vals s i M y HM) as [A B]. apply (Heq y A B) in K as [K1 K2]. pose proof (tsol_told s i t v0 M y HM Et HR Hv1) as HS.
      unfold within, distance in Ew. cbn in Ew. apply andb_false_iff in Ew as [Ew|Ew].
      * destruct (dists t v1 v) as [x|] eqn:Ex; cbn in Ew; [|discriminate]. pose proof (proj1 (wlt_iff L _ _) Ew) as Hx. pose proof (dist_sound L t _ y v1 v x HC HS Ex) as Hs.
        unfold wlt, wsat in *. destruct (evt_ex _ (evt_and _ _ Hx (evt_and _ _ K1 Hs))) as (e & _ & A' & B' & C'). rewrite (ev_neg _ L) in A'. lra.
      * destruct (dists t v v1) as [x|] eqn:Ex; cbn in Ew; [|discriminate]. pose proof (proj1 (wlt_iff L _ _) Ew) as Hx. pose proof (dist_sound L t _ y v v1 x HC HS Ex) as Hs.
        unfold wlt, wsat in *. destruct (evt_ex _ (evt_and _ _ Hx (evt_and _ _ K2 Hs))) as (e & _ & A' & B' & C'). rewrite (ev_neg _ L) in B'. lra.
Qed.
(** ** All the calls. *)
(** What comes later: values are kept, constraints and variables are added. *)
Definition tlater (s s' : st) (i : nat) : Prop :=
  (forall q, value s q <> LUndef -> value s' q = value s q) /\
  exists t t', nth_error (theories s) i = Some (inl t) /\ nth_error (theories s') i = Some (inl t') /\ nvars t <= nvars t' /\ incl (dcons t) (dcons t').
Lemma tlater_means s s' i p P : tlater s s' i -> tmeans s i p P -> tmeans s' i p P.
Proof.
  intros [H1 (t & t' & Et & Et' & _ & Hi)] H y Hy Hy0 Hr.
  assert (Hr' : tresp s i y).
  { intros t0 c Et0 Hc. rewrite Et in Et0. injection Et0 as <-. destruct (Hr t' c Et' (Hi c Hc)) as [R1 R2].
    split; intros V; (assert (V' : value s (c_b c) <> LUndef) by congruence); pose proof (H1 _ V'); [apply R1|apply R2]; congruence. }
  destruct (H y Hy Hy0 Hr') as [K|[K|(t0 & c & K1 & K2 & K3)]]; [auto|auto|]. right. right. rewrite Et in K1. injection K1 as <-. exists t', c. split; [exact Et'|]. split; [apply Hi, K2|exact K3].
Qed.
Lemma teff_later s i P s' : tgood s i -> teff s i P s' -> tlater s s' i.
Proof.
  intros G F. destruct (tg_th _ _ G) as [t Et]. split; [apply F|]. destruct (te_vars _ _ _ _ F t Et) as (t' & E & Hn & Hi). exists t, t'. split; [exact Et|]. split; [apply (set_nth_at s i t t' _ Et E)|]. auto.
Qed.
Lemma tlevels s i v : tgood s i -> level s v = 0.
Proof.
  intros G. pose proof (i_t _ _ (g_inv _ _ (tg_good _ _ G))) as HT. destruct (Nat.eq_dec (level s v) 0) as [E0|E0]; [exact E0|]. pose proof (t_on _ HT v E0) as Ho. apply in_map_iff in Ho as (p & <- & Hp).
  apply in_split in Hp as (pre & post & Ep). pose proof (t_level _ HT pre p post Ep) as El. cbn in El. rewrite (tg_root _ _ G) in El. exact El.
Qed.
Lemma tsat_later fl s s' i c r : tgood s i -> tlegal_sat s c -> step (ops := ops) fl s c = Ok (s', r) -> tlater s s' i.
Proof.
  intros G HL E. destruct (tlegal_ok s i c G HL) as [Hc Hl]. split.
  - pose proof (emb_step fl s c (tg_root _ _ G) Hc) as Em. rewrite E in Em. cbn in Em. pose proof (kept_step C fl (mu s) (mu s') c r (tg_good _ _ G) Hl Em) as K.
    intros q Hq. assert (Hlv : forall v, level s v = 0) by (intros v; apply (tlevels s i v G)).
    destruct (value s q) eqn:Ev; [|exact (proj1 (K q Ev ltac:(cbn; rewrite Hlv; lia)))|congruence].
    assert (Ev' : value s (negl q) = LTrue) by (unfold value, vlit in *; cbn; destruct (assigns s (lvar q)), (lsgn q); cbn in *; congruence). destruct (K (negl q) Ev') as [K1 _]; [cbn; rewrite Hlv; lia|].
    unfold value, vlit in *. cbn in *. destruct (assigns s' (lvar q)), (lsgn q); cbn in *; congruence.
  - destruct (tg_th _ _ G) as [t Et]. destruct (tsh_nth fl s s' i t c r E Et) as (t' & Et' & E1 & E2). exists t, t'. split; [exact Et|]. split; [exact Et'|]. rewrite E1, E2. split; [lia|apply incl_refl].
Qed.
Definition tevent (s : st) (i : nat) (c : @dcall D) (r : dret) : Prop :=
  match c, r with
  | DDist from to w, DP p => tmeans s i p (fun y => wsat L w (y to - y from)%Q)
  | DCmp r e1 e2, DP p => r <> DEq -> tmeans s i p (fun y => rel_holds r (lval y e1) (lval y e2))
  | _, _ => True
  end.
Definition tmine (s s' : st) (i : nat) (c : @dcall D) (r : dret) : Prop :=
  match c with DSat _ => True | _ => (exists t', theories s' = set_nth (theories s) i (inl t')) /\ match r with DP p => lvar p < nv s' | _ => True end end.
Theorem tstep_ok fl s i c : tgood s i -> tlegal s i c ->
  match tstep fl s i c with
  | UB => False
  | OOF => th_total CB -> fl <= tbound s
  | Ok (s', r) => (tgood s' i \/ (r = DR (RBool false) /\ forall M, ~ smodels C (mu s') M)) /\ nv s <= nv s' /\
      (forall M y, dsol2 s' i M y -> dsol2 s i M y /\ dsaid L c r M y) /\ (dexact c -> forall M y, dsol2 s i M y -> dsaid L c r M y -> dsol2 s' i M y) /\
      tlater s s' i /\ tevent s' i c r /\ tmine s s' i c r
  end.
Proof.
  intros G HL. destruct (tg_th _ _ G) as [t0 Et0]. assert (Hset : forall P s', teff s i P s' -> exists t', theories s' = set_nth (theories s) i (inl t')) by (intros P s' F; destruct (te_vars _ _ _ _ F t0 Et0) as (t' & E & _); eauto).
  destruct c as [c| |from to w|from to mn mx|r e1 e2]; cbn [tstep tlegal] in *.
  - pose proof (tsat_ok fl s i c G HL) as K. pose proof (fun s' r => tsat_later fl s s' i c r G HL) as KL. destruct (step fl s c) as [[s' r]| |]; cbn [rbind]; [|exact K|exact K]. destruct K as (K1 & K2 & K3 & K4).
    split; [destruct K1 as [K1|[-> K1]]; auto|]. split; [exact K2|]. split; [exact K3|]. split; [exact K4|]. split; [apply (KL s' r eq_refl)|]. split; exact Logic.I.
  - destruct (tvar_ok s i G) as (s' & x & E & F1 & F2). rewrite E. cbn [rbind]. split; [left; apply F1|]. split; [apply F1|]. split; [apply F1|]. split; [intros _; apply F2|]. split; [apply (teff_later _ _ _ _ G F1)|]. split; [exact Logic.I|]. split; [apply (Hset _ _ F1)|exact Logic.I].
  - destruct HL as (Hw & t & Et & Hf & Ht). destruct (tdist_ok s i t from to w G Et Hf Ht Hw) as (s' & p & E & F1 & F2 & Hp & F3). rewrite E. cbn [rbind]. split; [left; apply F1|]. split; [apply F1|]. split; [apply F1|]. split; [intros _; apply F2|].
    split; [apply (teff_later _ _ _ _ G F1)|]. split; [exact F3|]. split; [apply (Hset _ _ F1)|exact Hp].
  - destruct HL as (Hw & Hw' & t & Et & Hf & Ht). unfold tw_distance2. destruct (tboth_ok s i t to from (-' mn) from to mx G Et Ht Hf Hf Ht Hw Hw') as (s' & p & E & F1 & Hp). rewrite E. cbn [rbind]. split; [left; apply F1|]. split; [apply F1|]. split; [apply F1|]. split; [intros []|].
    split; [apply (teff_later _ _ _ _ G F1)|]. split; [exact Logic.I|]. split; [apply (Hset _ _ F1)|exact Hp].
  - destruct HL as (H1 & H2 & (t & Et & H3 & H4) & H5). destruct (trel_all s i t r e1 e2 G Et H1 H2 H3 H4 H5) as [(Hd & s' & p & E & Hp & F1 & F2)|[Hd E]]; rewrite E; cbn [rbind].
    + split; [left; apply F1|]. split; [apply F1|]. split; [apply F1|]. split; [intros Hx; apply F2; intros ->; exact Hx|]. split; [apply (teff_later _ _ _ _ G F1)|]. split; [intros Hx; apply F2, Hx|]. split; [apply (Hset _ _ F1)|exact Hp].
    + split; [left; exact G|]. split; [lia|]. split; [intros M y HM; split; [exact HM|exact Logic.I]|]. split; [intros _ M y HM _; exact HM|].
      split; [split; [auto|exists t, t; split; [exact Et|split; [exact Et|split; [lia|apply incl_refl]]]]|]. split; [exact Logic.I|]. split; [|exact Logic.I]. exists t. symmetry. apply set_nth_same, Et.
Qed.
End Api.
End Srt.
