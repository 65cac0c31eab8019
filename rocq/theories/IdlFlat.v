(** Decisions one at a time (C73) with machine integers: the answers are right, and the solutions fit. *)
From Verif Require Import Base Keys Sat SatSpec SatInv SatMain SatApi SatApi2 SatNext Run SatFacts ThRel Lin Qe Dw Dl DlClo DlTight DlEdge DlTh DlFacts DlVal DlApi DlSpec DlQ DlNet DlTrace DlRSpec DlFlat FlatNet FlatTrace FlatSpec FlatHist Para NvMono Idl IdlBd IdlSim IdlRun IdlNet IdlHist IdlEx.
From Coq Require Import Lqa QArith.Qabs.
Open Scope nat_scope.
Local Arguments Nat.ltb : simpl never.
Local Arguments Nat.eqb : simpl never.
Local Arguments Z.mul : simpl never.
Local Arguments Z.leb : simpl never.

(** ** Compressing a solution. *)
Definition zsum (f : nat -> Z) (l : list nat) : Z := fold_right (fun v a => (f v + a)%Z) 0%Z l.
Lemma zsum_le f g l : (forall v, In v l -> (g v <= f v)%Z) -> (zsum g l <= zsum f l)%Z.
Proof. induction l as [|a l IH]; intros H; cbn [zsum fold_right]; [lia|]. pose proof (H a (or_introl eq_refl)). assert (zsum g l <= zsum f l)%Z by (apply IH; intros v Hv; apply H; right; exact Hv). unfold zsum in *. lia. Qed.
Lemma zsum_lt f g l : (forall v, In v l -> (g v <= f v)%Z) -> (exists v, In v l /\ (g v < f v)%Z) -> (zsum g l < zsum f l)%Z.
Proof.
  induction l as [|a l IH]; intros H (v & Hv & Hl); [destruct Hv|]. cbn [zsum fold_right]. destruct Hv as [->|Hv].
  - pose proof (zsum_le f g l (fun w Hw => H w (or_intror Hw))) as K. unfold zsum in K. lia.
  - pose proof (H a (or_introl eq_refl)). assert (K : (zsum g l < zsum f l)%Z) by (apply IH; [intros w Hw; apply H; right; exact Hw|eauto]). unfold zsum in K. lia.
Qed.
Lemma zsum_nn f l : (forall v, In v l -> (0 <= f v)%Z) -> (0 <= zsum f l)%Z.
Proof. induction l as [|a l IH]; intros H; cbn [zsum fold_right]; [lia|]. pose proof (H a (or_introl eq_refl)). assert (0 <= zsum f l)%Z by (apply IH; intros v Hv; apply H; right; exact Hv). unfold zsum in *. lia. Qed.
Section Srt.
Context {sr : sorter}.
Section Squeeze.
Variables (t : dl Z) (ps : list lit) (M : Z).
Hypothesis HM : (0 <= M)%Z.
Hypothesis Hs : small_cons M t.
Hypothesis Hn : 0 < nvars t.
Hypothesis Hc : forall c, In c (dcons t) -> c_from c < nvars t /\ c_to c < nvars t.
Notation n := (Z.of_nat (nvars t)).
Notation away y := (fun v => Z.abs (y v - y O)).
Lemma squeeze_step y v : z_sol t ps y -> v < nvars t -> (n * (M + 1) < Z.abs (y v - y O))%Z ->
  exists y', z_sol t ps y' /\ (zsum (away y') (seq 0 (nvars t)) < zsum (away y) (seq 0 (nvars t)))%Z.
Proof.
  intros Hy Hv Hf. destruct (Z_le_gt_dec 0 (y v - y O)) as [S|S].
  - destruct (gap y (nvars t) 0 (M + 1) Hn ltac:(lia)) as (k & Hk & Hg). set (a := (y O + k * (M + 1))%Z) in *.
    exists (fun w => if Z.leb (y w) a then y w else (y w + -1)%Z). split.
    + apply (move_up t ps y M a (M + 1) (-1) Hs ltac:(lia) Hc); [|lia|exact Hy]. intros w Hw. destruct (Hg w Hw) as [G|G]; [left; exact G|right; unfold a; lia].
    + assert (A0 : (y O <= a)%Z) by (unfold a; nia). destruct (Z.leb_spec (y O) a); [|lia]. apply zsum_lt.
      * intros w Hw. apply in_seq in Hw. destruct (Z.leb_spec (y w) a); lia.
      * exists v. split; [apply in_seq; lia|]. assert (a < y v)%Z by (unfold a; nia). destruct (Z.leb_spec (y v) a); lia.
  - destruct (gap (fun w => - y w)%Z (nvars t) 0 (M + 1) Hn ltac:(lia)) as (k & Hk & Hg). cbv beta in Hg. set (a := (y O - (k + 1) * (M + 1) - 1)%Z) in *.
    exists (fun w => if Z.leb (y w) a then y w else (y w + -1)%Z). split.
    + apply (move_up t ps y M a (M + 1) (-1) Hs ltac:(lia) Hc); [|lia|exact Hy]. intros w Hw. destruct (Hg w Hw) as [G|G]; [right|left]; unfold a; lia.
    + assert (A0 : (a < y O)%Z) by (unfold a; nia). destruct (Z.leb_spec (y O) a); [lia|]. apply zsum_lt.
      * intros w Hw. apply in_seq in Hw. destruct (Z.leb_spec (y w) a); lia.
      * exists v. split; [apply in_seq; lia|]. assert (y v <= a)%Z by (unfold a in *; destruct (Hg v Hv); nia). destruct (Z.leb_spec (y v) a); lia.
Qed.
Lemma squeeze y : z_sol t ps y -> exists y', z_sol t ps y' /\ y' O = 0%Z /\ forall v, (Z.abs (y' v) <= n * (M + 1))%Z.
Proof.
  intros Hy. assert (H : exists y', z_sol t ps y' /\ forall v, v < nvars t -> (Z.abs (y' v - y' O) <= n * (M + 1))%Z).
  { remember (Z.to_nat (zsum (away y) (seq 0 (nvars t)))) as m eqn:Em. revert y Hy Em. induction m as [m IH] using lt_wf_ind. intros y Hy Em.
    destruct (Exists_dec (fun v => (n * (M + 1) < Z.abs (y v - y O))%Z) (seq 0 (nvars t))) as [E|E]; [intros v; apply Z_lt_dec| |].
    - apply Exists_exists in E as (v & Hv & Hf). apply in_seq in Hv. destruct (squeeze_step y v Hy ltac:(lia) Hf) as (y' & Hy' & Hl).
      apply (IH (Z.to_nat (zsum (away y') (seq 0 (nvars t))))) with (y := y'); [|exact Hy'|reflexivity]. subst m. pose proof (zsum_nn (away y') (seq 0 (nvars t)) ltac:(intros; lia)). lia.
    - exists y. split; [exact Hy|]. intros v Hv. destruct (Z_lt_dec (n * (M + 1)) (Z.abs (y v - y O))) as [K|K]; [|lia]. exfalso. apply E, Exists_exists. exists v. split; [apply in_seq; lia|exact K]. }
  destruct H as (y1 & H1 & Hb). exists (fun v => if Nat.ltb v (nvars t) then (y1 v - y1 O)%Z else 0%Z). split; [|split].
  - intros p c Hp Hin Ev. specialize (H1 p c Hp Hin Ev). destruct (Hc c Hin) as [A B]. unfold z_con in *. rewrite (proj2 (Nat.ltb_lt _ _) A), (proj2 (Nat.ltb_lt _ _) B). destruct (lsgn p); lia.
  - cbv beta. rewrite (proj2 (Nat.ltb_lt _ _) Hn). lia.
  - intros v. cbv beta. destruct (Nat.ltb_spec v (nvars t)) as [A|A]; [apply Hb, A|]. change (Z.abs 0) with 0%Z. nia.
Qed.
End Squeeze.

(** ** Histories with decisions one at a time. *)
Definition same_told (h : list ev) (tr : list (@fevent Z)) : Prop := map ev_call h = map fe_call tr /\ map ev_ret h = map fe_ret tr.
Lemma flat_hist size tr s : ZFlat size tr s -> exists h, ZHist size h s /\ same_told h tr.
Proof.
  induction 1 as [|fl tr s c s' r HT IH HL HE HA]; [exists []; split; [constructor|split; reflexivity]|]. destruct IH as (h & HH & E1 & E2). exists (mk_ev fl c r :: h). split; [apply (H_step _ _ h s fl c s' r HH HE)|]. split; cbn [map ev_call ev_ret fe_call fe_ret]; congruence.
Qed.
Section Room.
Variables (mx M : Z) (N : nat).
Hypothesis HR : room mx M N.

(** Everything propagated: there are numbers that fit. *)
Theorem small_true size tr s : 0 < size -> ZFlat size tr s -> answered tr s -> small M N (map fe_call tr) ->
  exists y : nat -> Z, y 0 = 0%Z /\ (forall v, (Z.abs (y v) <= Z.of_nat N * (M + 1))%Z) /\
    (forall e p P, In e tr -> z_cond (fdev e) = Some (p, P) -> (value s p = LTrue -> P y) /\ (value s p = LFalse -> ~ P y)) /\ (total s -> zf_stated tr (values s) y).
Proof.
  intros Hs HT HA Hm. pose proof (answered_quiet ZL ZR zlast size Hs tr s HT HA) as Hq. destruct (flat_hist size tr s HT) as (h & HH & E1 & E2). rewrite <- E1 in Hm.
  destruct (hist_rel mx M N HR size h s Hs HH Hm) as (u & HU & K). destruct (mrel_one mx M N _ _ _ K) as (t & m & Et & Em & HI & Env & _). destruct HI as (_ & Hsc & Hn & _).
  destruct HR as [H1 H2 H3]. pose proof (ftrace_good ZL ZR zlast size Hs _ _ HT) as G. destruct (flat_told ZL s t G Et) as (vs & _ & HD & _ & Hv & Hd). pose proof (reach_core ZL _ _ HD) as HC.
  assert (Hpos : 0 < nvars t) by (rewrite Env; unfold vars_of; lia).
  destruct (solution_exists ZL t (concat vs) HC) as (y0 & Hy0). destruct (z_solved _ _ _ Hy0) as (z0 & Hz0 & _).
  destruct (squeeze t (concat vs) M ltac:(lia) Hsc Hpos (fun c Hc => match dc_cons ZL _ _ HC c Hc with conj _ (conj A (conj B _)) => conj A B end) z0 Hz0) as (y & Hy & Hy1 & Hb).
  assert (Hr : resp ZL s (zq y)).
  { apply z_solves in Hy. destruct Hy as [_ Hl0]. intros t0 c Et0 Hc. rewrite Et in Et0. injection Et0 as <-. destruct (dc_cons ZL _ _ HC c Hc) as (_ & _ & _ & _ & Hsg). split; intros V.
    - destruct (Hd (c_b c)) as [Q|Q]; [exists c; auto|exact V|rewrite Hq in Q; case Q|]. specialize (Hl0 _ c Q Hc eq_refl). rewrite Hsg in Hl0. exact Hl0.
    - destruct (Hd (negl (c_b c))) as [Q|Q]; [exists c; auto|unfold value, vlit in *; cbn; destruct (assigns s (lvar (c_b c))), (lsgn (c_b c)); cbn in *; congruence|rewrite Hq in Q; case Q|].
      specialize (Hl0 _ c Q Hc eq_refl). cbn in Hl0. rewrite Hsg in Hl0. exact Hl0. }
  destruct (fquiet_any ZL ZR zlast size Hs tr s (zq y) HT Hq (zq_ok y) ltac:(unfold zq; rewrite Hy1; reflexivity) Hr) as [Q1 Q2].
  exists y. split; [exact Hy1|]. split; [intros v; specialize (Hb v); nia|]. split.
  - intros e p P He Hce. destruct (z_cond_econ (fdev e) p P Hce) as (P' & Hc' & Hi). rewrite <- (Hi (zq y) y (fun v => Qeq_refl _)). exact (Q1 e p P' He Hc').
  - intros Ht. exact (fstated_z tr _ (zq y) y (flat_noD2 _ _ _ _ _ HT) (fun v => Qeq_refl _) (Q2 Ht)).
Qed.

(** The machine's network after such a history. *)
Theorem machine_flat size tr s : 0 < size -> ZFlat size tr s -> small M N (map fe_call tr) ->
  exists h u, ZHist size h s /\ IHist mx size h u /\ same_told h tr /\ (forall p, value u p = value s p) /\ (forall v, level u v = level s v) /\ decisions u = decisions s /\
    forall fl c, flegal ZL zlast s c -> fbound s < fl -> small M N (c :: map fe_call tr) ->
      exists u' s' r, icstep mx fl u c = Ok (u', r) /\ dcstep (W := Zw) zlast fl s c = Ok (s', r) /\ (forall p, value u' p = value s' p) /\ dlevel u' = dlevel s'.
Proof.
  intros Hs HT Hm. destruct (flat_hist size tr s HT) as (h & HH & E1 & E2). rewrite <- E1 in Hm. destruct (hist_rel mx M N HR size h s Hs HH Hm) as (u & HU & K). exists h, u.
  split; [exact HH|]. split; [exact HU|]. split; [split; assumption|]. pose proof K as [(ths & L & G & Eu & _) _]. split; [subst u; reflexivity|]. split; [subst u; reflexivity|]. split; [subst u; reflexivity|].
  intros fl c Hc Hfl [_ Hsm]. rewrite <- E1 in Hsm. destruct (ftotal ZL ZR zlast size Hs tr s c fl HT Hc Hfl) as (s' & r & E).
  pose proof (m_call mx M N HR _ s u c fl K Hsm) as Q. rewrite E in Q. cbn [rr] in Q. destruct (icstep mx fl u c) as [[u' r']| |]; try (destruct Q; fail). destruct Q as [[(ths' & L' & G' & Eu' & _) _] Q2]. cbn [fst snd] in *. subst r' u'.
  eexists. exists s', r. split; [reflexivity|]. split; [exact E|]. split; reflexivity.
Qed.
(** What a call [c] that returns false, made with the decisions [ds], denies. *)
Definition denied (ds : list lit) (c : @dcall Z) (Mo : nat -> bool) : Prop :=
  match c with
  | DSat CPropagate => False
  | DSat (CClause ls) => ~ mcl Mo ls
  | DSat (CAssume p) => mlit Mo p = false
  | DSat (CCheck ls) => exists d, In d ls /\ mlit Mo d = false
  | DSat CNext => ds <> [] -> forall d, In d ds -> mlit Mo d = true
  | _ => True
  end.
Theorem machine_decisions size tr s : 0 < size -> ZFlat size tr s -> fsimple tr -> small M N (map fe_call tr) ->
  exists h u m, IHist mx size h u /\ same_told h tr /\ (forall p, value u p = value s p) /\ decisions u = decisions s /\ theories u = [m] /\
    (forall q Mo y, value u q = LTrue -> zf_stated tr Mo y -> (level u (lvar q) <> 0 -> forall d, In d (decisions u) -> mlit Mo d = true) -> mlit Mo q = true) /\
    (forall i j, exists l d, i_distance mx m i j = Ok (l, d) /\ forall Mo y, zf_stated tr Mo y -> (forall x, In x (decisions u) -> mlit Mo x = true) ->
      (l = - inf mx \/ l <= y j - y i)%Z /\ (d = inf mx \/ y j - y i <= d)%Z) /\
    (forall fl c, flegal ZL zlast s c -> fbound s < fl -> small M N (c :: map fe_call tr) -> exists u' r, icstep mx fl u c = Ok (u', r) /\
      (r = DR (RBool false) -> forall Mo y, zf_stated tr Mo y -> denied (decisions u) c Mo)).
Proof.
  intros Hs HT Hx Hm. destruct (machine_flat size tr s Hs HT Hm) as (h & u & HZ & HU & Ht & Hv & Hl & Hd & Hc). pose proof Ht as [T1 T2].
  assert (Hm' : small M N (calls h)) by (unfold calls; rewrite T1; exact Hm).
  destruct (machine_history mx M N size h s HR Hs HZ Hm') as (u0 & HU0 & _ & _ & t & m & Et & Em & HD & _). pose proof (hist_det _ _ _ _ HU _ HU0) as ->. exists h, u, m.
  split; [exact HU|]. split; [exact Ht|]. split; [exact Hv|]. split; [exact Hd|]. split; [exact Em|].
  assert (St : forall Mo y, zf_stated tr Mo y -> fstated ZL tr Mo (zq y)) by (intros Mo y; apply (zf_stated_of tr Mo y (flat_noD2 _ _ _ _ _ HT))).
  split; [|split].
  - intros q Mo y Hq HM. rewrite Hv in Hq. rewrite Hl, Hd. exact (fimplied ZL ZR zlast size Hs tr s q HT Hx Hq Mo (zq y) (St _ _ HM)).
  - intros i j. rewrite HD. eexists _, _. split; [reflexivity|]. intros Mo y HM Hdec. rewrite Hd in Hdec. apply St in HM. unfold distance. cbn [fst snd]. split.
    + destruct (dists t j i) as [e|] eqn:Ee; cbn [option_map]; [right|left; reflexivity]. pose proof (fdistance ZL ZR zlast size Hs tr s t j i e HT Hx Et Ee Mo (zq y) HM Hdec) as K. apply z_wsat in K. change (wneg Zw e) with (- e)%Z. lia.
    + destruct (dists t i j) as [e|] eqn:Ee; [right|left; reflexivity]. apply z_wsat. exact (fdistance ZL ZR zlast size Hs tr s t i j e HT Hx Et Ee Mo (zq y) HM Hdec).
  - intros fl c Hlg Hfl Hsm. destruct (Hc fl c Hlg Hfl Hsm) as (u' & s' & r & EU & E & _). exists u', r. split; [exact EU|]. intros -> Mo y HM. apply St in HM. rewrite Hd. destruct c as [c| | | |]; try exact Logic.I. destruct c; try exact Logic.I; cbn [denied flegal] in *.
    + exact (fclause_false ZL ZR zlast size Hs tr s fl _ s' HT Hx Hlg E Mo (zq y) HM).
    + exact (ffalse ZL ZR zlast size Hs tr s fl s' HT Hx E Mo (zq y) HM).
    + exact (fassume_false ZL ZR zlast size Hs tr s fl _ s' _ HT Hx Hlg E (or_introl eq_refl) Mo (zq y) HM).
    + exact (fcheck_false ZL ZR zlast size Hs tr s fl _ s' HT Hx Hlg E Mo (zq y) HM).
    + intros Hne. apply (fnext_false ZL ZR zlast size Hs tr s fl s' HT Hx Hlg) with (y := zq y); [|exact E|exact HM].
      pose proof (ftrace_good ZL ZR zlast size Hs _ _ HT) as G. intros H0. apply Hne. pose proof (t_dec _ (i_t _ _ (g_inv _ _ (fg_good _ _ G)))) as Hl0. apply length_zero_iff_nil. exact (eq_trans Hl0 H0).
Qed.
End Room.
End Srt.
