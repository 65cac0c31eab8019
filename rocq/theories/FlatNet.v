(** A network with a difference logic theory, at most one constraint between two variables and at most one open decision:
    the calls of sat_core.h, new_var() and new_distance(from, to, dist) of idl_theory.h:35-37 / rdl_theory.h:34-36, and
    the comparisons other than the equality. *)
From Verif Require Import Base Keys Sat SatSpec SatInv SatPop SatImp SatRec SatAn SatProp SatLoop SatMain SatApi SatApi2 SatNext SatSimp Reify Amo Run ThRel ThGrow SatKept SatFacts Lin Qe Dw Dl DlClo DlTight DlEdge DlTh DlFacts DlVal DlApi MapTh DlRoot DlNet DlFlat.
From Coq Require Import Lqa.
Open Scope nat_scope.
Local Arguments Nat.ltb : simpl never.
Local Arguments Nat.eqb : simpl never.
Local Arguments Nat.pow : simpl never.
Local Arguments Nat.mul : simpl never.
Section Srt.
Context {sr : sorter}.

Section Net.
Context {D : Type} {W : wops D} (L : wlaws W) (WR : wreads L).
Context (last : Sat.st (dl D) -> nat -> nat -> nat -> D -> res (Sat.st (dl D) * lit)).
Notation "-' a" := (wneg W a) (at level 35).
Notation dl := (dl D).
Notation st := (st dl).
Notation ops := (dl_ops (sr := sr) W).
Notation fops := (@flat_ops D W).
Notation mu := (mp (fun t : dl => (t, 0))).
Notation RC := (rootC L).
Notation FC := (flatC L).

(** ** Legal calls. *)
(** No constraint between the two variables so far, in either direction. *)
Definition pair_free (t : dl) (u v : nat) : Prop := forall c, In c (dcons t) -> ~ (c_from c = u /\ c_to c = v) /\ ~ (c_from c = v /\ c_to c = u).
(** The two variables a call may constrain. *)
Definition pair_of (c : @dcall D) : option (nat * nat) :=
  match c with
  | DDist from to _ => Some (from, to)
  | DCmp _ e1 e2 => match dl_form W (lin_sub e1 e2) with Some (DOne _ x _) => Some (0, x) | Some (DTwo _ x x1 _) => Some (x, x1) | _ => None end
  | _ => None
  end.
(** The preconditions of the functions of the core; decisions at root level only, one at a time. *)
Definition fsat (s : st) (c : call) : Prop :=
  match c with
  | CVar | CPropagate => True
  | CClause ls | CConj ls | CDisj ls | CAmo ls | CExct ls => dlevel s = 0 /\ in_scope s ls
  | CEq l r => dlevel s = 0 /\ in_scope s [l; r]
  | CAssume p => dlevel s = 0 /\ prop_q s = [] /\ in_scope s [p]
  | CPop => dlevel s <> 0
  | CCheck ls => dlevel s = 0 /\ prop_q s = [] /\ in_scope s ls /\ length ls <= 1
  | CNext => decs_ok s
  | CSimplify => dlevel s = 0
  | CListen v _ => v < nv s
  end.
Definition flegal (s : st) (c : @dcall D) : Prop :=
  match c with
  | DSat c => fsat s c
  | DDist2 _ _ _ _ | DCmp DEq _ _ => False
  | c => dlevel s = 0 /\ dlegal L last s c /\ forall t u v, theories s = [t] -> pair_of c = Some (u, v) -> pair_free t u v
  end.
Definition fsaid (ds : list lit) (c : @dcall D) (r : dret) (M : nat -> bool) (y : nat -> Q) : Prop :=
  match c, r with DSat c, DR r => said c ds r M | c, r => dsaid L c r M y end.
Record fgood (s : st) : Prop := { fg_level : dlevel s <= 1; fg_one : exists t, theories s = [t]; fg_good : good (FC anyy) (mu s) }.

Lemma flat_model Y s M : smodels (FC Y) s M <-> smodels (RC Y) s M.
Proof. split; intros [A B C E]; constructor; auto. Qed.
Lemma fmodel_any Y s M : smodels (FC Y) s M -> smodels (FC anyy) s M.
Proof. intros H. apply flat_model, (model_any L Y), flat_model, H. Qed.
Lemma fgood_y Y s : good (FC anyy) s -> good (FC Y) s.
Proof.
  intros [[A B E F H K] K1 K2]. constructor.
  - constructor.
    + destruct A; constructor; assumption.
    + destruct B; constructor; assumption.
    + destruct E; constructor; assumption.
    + exact F.
    + destruct H; constructor; assumption.
    + destruct K as [J1 J2 J3 J4 J5 J6]. constructor; [exact J1|exact J2|exact J3|exact J4|exact J5|exact J6].
  - intros k p Hk. destruct (K1 k p Hk) as (o & O1 & O2 & O3 & O4). exists o. split; [exact O1|]. split; [exact O2|]. split; [exact O3|]. intros M HM. apply O4. apply (fmodel_any Y), HM.
  - exact K2.
Qed.
Lemma fsettled Y s : settled (FC Y) s.
Proof. intros t _. exact Logic.I. Qed.

(** What the theory has been told are the values of its literals. *)
Lemma flat_told s t : fgood s -> theories s = [t] -> exists vs, uniq t /\ DReach L t vs /\ length vs = S (dlevel s) /\ (forall j v l, nth_error vs j = Some v -> In l v -> value s l = LTrue /\ level s (lvar l) = dlevel s - j) /\
  (forall l, atom t (lvar l) -> value s l = LTrue -> In l (prop_q s) \/ In l (concat vs)).
Proof.
  intros G Et. destruct (h_views _ _ _ _ (i_h _ _ (g_inv _ _ (fg_good _ G))) 0 (t, 0)) as (vs & V1 & V2 & V3 & V4); [cbn; rewrite Et; reflexivity|].
  exists vs. assert (HR : uniq t /\ DReach L t vs).
  { destruct V1 as [Hu [[_ (v & -> & HR)]|(ups & v1 & v0 & -> & Hl & HR & _)]]; cbn [fst snd] in *; [auto|]. destruct ups; [auto|discriminate]. }
  split; [apply HR|]. split; [apply HR|]. split; [exact V2|]. split.
  - intros j v l Ej Hl. exact (V3 j v l Ej (or_introl Logic.I) Hl).
  - intros l Ha Hv. destruct (V4 l Ha Hv) as [H|H]; [left; exact H|right]. destruct H as (j & w & Ej & Hw & _). apply in_concat. exists w. split; [apply (nth_error_In _ j), Ej|exact Hw].
Qed.
Lemma flat_uniq s t : fgood s -> theories s = [t] -> uniq t.
Proof. intros G Et. destruct (flat_told s t G Et) as (vs & H & _). exact H. Qed.
Lemma root_lay s t : fgood s -> dlevel s = 0 -> theories s = [t] -> dlayers t = [].
Proof. intros G Hd Et. destruct (flat_told s t G Et) as (vs & _ & HR & Hl & _). rewrite Hd in Hl. destruct vs as [|v [|]]; try discriminate. apply (root_layers L t v HR). Qed.
Lemma lim_root (s : st) : dlevel s = 0 -> trail_lim s = [].
Proof. unfold dlevel. destruct (trail_lim s); [reflexivity|discriminate]. Qed.
(** A network at root level. *)
Lemma fgood_root s : fgood s -> dlevel s = 0 -> dgood L s.
Proof.
  intros G Hd. pose proof G as [_ [t Et] [[A B E F H K] K1 K2]]. constructor; [apply lim_root, Hd|eauto|]. constructor.
  - constructor.
    + destruct A; constructor; assumption.
    + destruct B; constructor; assumption.
    + destruct E; constructor; assumption.
    + exact F.
    + destruct H; constructor; assumption.
    + destruct K as [J1 J2 J3 J4 J5 J6]. constructor; [|exact J2|exact J3|exact J4|exact J5|].
      * intros i u Eu. destruct (J1 i u Eu) as (vs & V1 & V). exists vs. split; [|exact V]. assert (Hl : length vs = 1) by (rewrite (proj1 V); change (dlevel (mu s)) with (dlevel s); rewrite Hd; reflexivity).
        destruct V1 as [_ [[E0 (v & -> & HR)]|(ups & v1 & v0 & -> & Hl' & HR & _)]]; [|rewrite app_length in Hl; cbn in Hl; lia].
        exists [], v. split; [reflexivity|]. split; [cbn; lia|exact HR].
      * intros i u n v Eu [].
  - intros k p Hk. destruct (K1 k p Hk) as (o & O1 & O2 & O3 & O4). exists o. split; [exact O1|]. split; [exact O2|]. split; [exact O3|]. intros M HM. apply O4, flat_model, HM.
  - intros Hn. change (dlevel (mu s)) with (dlevel s) in Hn. lia.
Qed.

(** ** The functions of the core. *)
Lemma flat_prop_eq t val p : th_prop fops (t, 0) val p = rmp (fun x => ((fst (fst x), 0), snd (fst x), snd x)) (th_prop ops t val p).
Proof. cbn [th_prop flat_ops fst snd]. change (0 =? 0) with true. cbn iota. match goal with |- rbind ?a _ = rmp _ ?b => change b with a; destruct a as [[[t' ls] cf]| |]; reflexivity end. Qed.
Lemma flat_check_eq t val : th_check fops (t, 0) val = rmp (fun x => ((fst x, 0), snd x)) (th_check ops t val).
Proof. cbn [th_check flat_ops fst snd]. change (0 =? 0) with true. cbn iota. match goal with |- rbind ?a _ = rmp _ ?b => change b with a; destruct a as [[t' cf]| |]; reflexivity end. Qed.
Lemma flat_popc : popc (fun t : dl => (t, 0)) ops fops.
Proof. intros t. reflexivity. Qed.
Lemma flat_pushes s t : fgood s -> dlevel s = 0 -> theories s = [t] -> forall u, In u (theories s) -> (th_push ops u, 0) = th_push fops (u, 0).
Proof. intros G Hd Et u Hu. rewrite Et in Hu. destruct Hu as [<-|[]]. cbn [th_push flat_ops]. unfold flat_push. cbn [fst snd]. rewrite (root_lay s t G Hd Et). reflexivity. Qed.
Lemma fmu_step fl s c : fgood s -> fsat s c -> step (ops := fops) fl (mu s) c = rmp (m1 (fun t : dl => (t, 0))) (step (ops := ops) fl s c).
Proof.
  intros G HL. destruct (rooted_call c && (dlevel s =? 0)) eqn:Er.
  { apply andb_prop in Er as [Er Ed]. apply Nat.eqb_eq in Ed. apply (mp_step (fun t : dl => (t, 0)) ops fops eq_refl flat_prop_eq flat_check_eq). right. split; [apply lim_root, Ed|exact Er]. }
  destruct (fg_one _ G) as [t Et]. destruct c; cbn [step fsat rooted_call] in *.
  - reflexivity.
  - rewrite mp_new_clause. destruct (new_clause s ls) as [[? ?]| |]; reflexivity.
  - rewrite (mp_propagate _ ops fops eq_refl flat_prop_eq flat_check_eq fl s (or_introl flat_popc)). destruct (propagate ops fl s) as [[? ?]| |]; reflexivity.
  - destruct HL as (Hd & _). rewrite (mp_assume (fun t : dl => (t, 0)) ops fops eq_refl flat_prop_eq flat_check_eq fl s p (flat_pushes s t G Hd Et) flat_popc). destruct (assume ops fl s p) as [[? ?]| |]; reflexivity.
  - rewrite (mp_pop (fun t : dl => (t, 0)) ops fops s flat_popc). destruct (pop ops s) as [?| |]; reflexivity.
  - destruct HL as (Hd & _ & _ & Hl). rewrite (mp_check (fun t : dl => (t, 0)) ops fops eq_refl flat_prop_eq flat_check_eq fl s ls (or_intror (conj Hl (conj flat_popc (flat_pushes s t G Hd Et))))). destruct (check ops fl s ls) as [[? ?]| |]; reflexivity.
  - rewrite (mp_next (fun t : dl => (t, 0)) ops fops eq_refl flat_prop_eq flat_check_eq fl s (or_introl flat_popc)). destruct (next ops fl s) as [[? ?]| |]; reflexivity.
  - rewrite HL in Er. discriminate.
  - destruct HL as [HL _]. rewrite HL in Er. discriminate.
  - destruct HL as [HL _]. rewrite HL in Er. discriminate.
  - destruct HL as [HL _]. rewrite HL in Er. discriminate.
  - destruct HL as [HL _]. rewrite HL in Er. discriminate.
  - destruct HL as [HL _]. rewrite HL in Er. discriminate.
  - rewrite mp_listen. destruct (listen s v l) as [?| |]; reflexivity.
Qed.
Lemma fsat_legal Y s c : fsat s c -> legal (FC Y) (mu s) c.
Proof. destruct c; cbn [fsat legal]; intros H; try exact H; [destruct H as (_ & A & B)|destruct H as (_ & A & B & _)]; (split; [exact A|]; split; [apply fsettled|exact B]). Qed.
Lemma flat_total Y : th_total (FC Y).
Proof.
  split.
  - intros [t n] vs val p HI Ha Hn HT HV HP. cbn [th_prop flat_ops fst snd]. destruct n as [|n]; [|discriminate]. change (0 =? 0) with true. cbn iota.
    assert (HR : DReach L t vs) by (destruct HI as [_ [[_ (v & -> & HR)]|(ups & v1 & v0 & -> & Hl & HR & _)]]; [exact HR|]; destruct ups; [exact HR|discriminate]).
    pose proof (reach_core L _ _ HR) as HC. destruct Ha as (c & Hc & Ev).
    assert (Hrd : reads val (p :: concat vs)) by (split; [exact Hn|intros q [<-|Hq]; auto]).
    destruct (prop_core L t _ p c val HC Hc Ev Hrd) as [(e & E & _)|[(E & _)|(t' & us & val' & ls & E & _)]]; cbn [fst]; rewrite E; discriminate.
  - intros [t n] vs val HI Hn HT HV. cbn [th_check flat_ops fst snd]. destruct n as [|n]; [|discriminate]. change (0 =? 0) with true. cbn iota. unfold dl_check, guard. destruct (forallb _ _); discriminate.
Qed.
Lemma good_quiet Y s : good (FC Y) s -> prop_q s = [] -> quiet (FC Y) s.
Proof. intros G Hq. apply (quiet_of (FC Y) s G Hq), fsettled. Qed.
(** There is never more than one open decision. *)
Lemma flat_level fl s c s' r : fgood s -> fsat s c -> step (ops := ops) fl s c = Ok (s', r) -> dlevel s' <= 1.
Proof.
  intros G HL E. destruct (rooted_call c && (dlevel s =? 0)) eqn:Er.
  { apply andb_prop in Er as [Er Ed]. apply Nat.eqb_eq in Ed. unfold dlevel. rewrite (tl_step fl s c s' r (lim_root s Ed) Er E). cbn. lia. }
  pose proof (fmu_step fl s c G HL) as Em. rewrite E in Em. unfold m1 in Em; cbn [rmp fst snd] in Em. pose proof (fg_level _ G) as Hl1. pose proof (fg_good _ G) as G3. pose proof (g_inv _ _ G3) as HI. change (dlevel s') with (dlevel (mu s')). change (dlevel s) with (dlevel (mu s)) in Hl1.
  destruct c; cbn [step fsat rooted_call] in *.
  - cbn in E. injection E as <- _. exact Hl1.
  - destruct HL as [HL _]. rewrite HL in Er. discriminate.
  - pose proof (propagate_ok (FC anyy) (dlevel (mu s)) fl (mu s) HI (le_n _)) as H. destruct (propagate fops fl (mu s)) as [[s1 b]| |]; cbn [rbind] in Em; try discriminate. injection Em as <- _. pose proof (pp_dl _ _ _ _ H). lia.
  - destruct HL as (Hd & Hq & Hr). pose proof (good_quiet anyy (mu s) G3 Hq) as Q. assert (Hp : lvar p < nv (mu s)) by (apply Hr; left; reflexivity).
    rewrite (assume_eq (FC anyy)) in Em by assumption. destruct (assumed_ok (FC anyy) (mu s) p Q Hp) as (HIa & HMa & Hga).
    assert (Ed : dlevel (@push_st _ fops (mu s) p) = 1) by (change (dlevel (@push_st _ fops (mu s) p)) with (S (dlevel s)); rewrite Hd; reflexivity).
    destruct (lbool_eqb_spec (value (mu s) p) LFalse) as [Ef|Ef].
    { rewrite Ef in Em. apply (f_equal (fun x => match x with Ok (a, _) => dlevel a | _ => 0 end)) in Em. unfold rbind in Em. cbv beta iota in Em. lia. }
    assert (Eas : match value (mu s) p with LFalse => Ok (@push_st _ fops (mu s) p, false) | _ => propagate fops fl (@assumed _ fops (mu s) p) end = propagate fops fl (@assumed _ fops (mu s) p)) by (destruct (value (mu s) p); congruence). rewrite Eas in Em.
    pose proof (propagate_ok (FC anyy) (dlevel (@assumed _ fops (mu s) p)) fl (@assumed _ fops (mu s) p) HIa (le_n _)) as H. destruct (propagate fops fl _) as [[s1 b]| |]; cbn [rbind] in Em; try discriminate. injection Em as <- _.
    pose proof (pp_dl _ _ _ _ H). rewrite (grow_dlevel _ _ Hga) in H0. lia.
  - destruct (g_up _ _ G3 HL) as [Hq _]. destruct (pop_ok (FC anyy) (mu s) (Inv_InvX (FC anyy) (mu s) HI Hq) HL) as (s1 & rem & E1 & _ & _ & _ & _ & _ & Hd & _). rewrite E1 in Em. cbn [rbind] in Em. injection Em as <- _.
    unfold dlevel in *. rewrite Hd. destruct (trail_lim (mu s)); cbn in *; lia.
  - destruct HL as (Hd & Hq & Hr & _). pose proof (SatApi2.check_ok (FC anyy) fl (mu s) ls (good_quiet anyy (mu s) G3 Hq) Hr) as H. destruct (check fops fl (mu s) ls) as [[s1 b]| |]; cbn [rbind] in Em; try discriminate. injection Em as <- _. destruct H as (_ & H & _). lia.
  - destruct (Nat.eq_dec (dlevel (mu s)) 0) as [Hd|Hd]; [change (dlevel (mu s)) with (dlevel s) in Hd; rewrite Hd in Er; discriminate|]. destruct (g_up _ _ G3 Hd) as [Hq _].
    pose proof (next_ok (FC anyy) fl (mu s) (good_quiet anyy (mu s) G3 Hq) HL Hd) as H. destruct (next fops fl (mu s)) as [[s1 b]| |]; cbn [rbind] in Em; try discriminate. injection Em as <- _. destruct H as (_ & H & _). lia.
  - rewrite HL in Er. discriminate.
  - destruct HL as [HL _]. rewrite HL in Er. discriminate.
  - destruct HL as [HL _]. rewrite HL in Er. discriminate.
  - destruct HL as [HL _]. rewrite HL in Er. discriminate.
  - destruct HL as [HL _]. rewrite HL in Er. discriminate.
  - destruct HL as [HL _]. rewrite HL in Er. discriminate.
  - unfold listen, guard in E. destruct (v <? nv s); cbn [rbind] in E; [|discriminate]. destruct (is_undef s _); [destruct (memn l _)|]; cbn [rbind] in E; injection E as <- _; exact Hl1.
Qed.
Definition fbound (s : st) : nat := S (2 * (nv s * nv s) + nv s).
Lemma pow_le n k : k <= 1 -> n * n ^ k <= n * n.
Proof. intros H. destruct n as [|n]; [lia|]. destruct k as [|[|k]]; [rewrite Nat.pow_0_r; nia|rewrite Nat.pow_1_r; lia|lia]. Qed.
Theorem fsat_ok fl s c : fgood s -> fsat s c ->
  match step (ops := ops) fl s c with
  | UB => False
  | OOF => fl <= fbound s
  | Ok (s', r) => (fgood s' \/ (r = RBool false /\ forall M y, ~ dsol L s' M y)) /\ nv s <= nv s' /\
      (forall M y, dsol L s' M y -> dsol L s M y /\ said c (decisions s) r M) /\ (exact c -> forall M y, dsol L s M y -> said c (decisions s) r M -> dsol L s' M y)
  end.
Proof.
  intros G HL. pose proof G as [G1 [t Et] G3].
  pose proof (step_ok (FC anyy) fl (mu s) c G3 (fsat_legal anyy s c HL)) as H.
  assert (Hy : forall y, match step (ops := fops) fl (mu s) c with Ok (s', r) => (forall M, smodels (FC (eq y)) s' M -> smodels (FC (eq y)) (mu s) M /\ said c (decisions (mu s)) r M) /\
    (exact c -> forall M, smodels (FC (eq y)) (mu s) M -> said c (decisions (mu s)) r M -> smodels (FC (eq y)) s' M) | _ => True end).
  { intros y. pose proof (step_ok (FC (eq y)) fl (mu s) c (fgood_y _ _ G3) (fsat_legal (eq y) s c HL)) as K. destruct (step fl (mu s) c) as [[s' r]| |]; auto. destruct K as (_ & _ & K). exact K. }
  rewrite (fmu_step fl s c G HL) in H, Hy. destruct (step (ops := ops) fl s c) as [[s' r]| |] eqn:E; unfold m1 in H, Hy; cbn [rbind rmp fst snd] in *; [|exact H|].
  + cbn [decisions mp] in Hy, H. destruct H as (H1 & H2 & _).
    assert (Et' : exists t', theories s' = [t']).
    { assert (Hlen : map (fun _ : dl => tt) (theories s') = map (fun _ : dl => tt) (theories s)) by (apply (ThRel.K_step ops (fun _ => tt)) with (fuel := fl) (c := c) (r := r); auto).
      rewrite Et in Hlen. destruct (theories s') as [|t' [|? ?]]; try discriminate Hlen. eauto. }
    split; [|split; [exact H2|split]].
    * destruct H1 as [H1|[-> Hu]]; [left|right].
      -- constructor; [apply (flat_level fl s c s' r G HL E)|exact Et'|exact H1].
      -- split; [reflexivity|]. intros M y HM. apply (de_unsat _ _ Hu M). apply (fmodel_any (eq y)), flat_model, HM.
    * intros M y HM. apply flat_model in HM. apply (proj1 (Hy y)) in HM as [HM Hs]. split; [apply flat_model, HM|exact Hs].
    * intros Hx M y HM Hs. apply flat_model. apply (proj2 (Hy y) Hx); [apply flat_model, HM|exact Hs].
  + specialize (H (flat_total _)). unfold fuel_bound in H. unfold fbound. change (dlevel (mu s)) with (dlevel s) in H. change (nv (mu s)) with (nv s) in H.
    pose proof (pow_le (nv s) (dlevel s) G1) as P0.
    destruct c; cbn [fsat] in HL; try lia.
    * destruct HL as (Hd & _). pose proof (pow_le (nv s) (S (dlevel s)) ltac:(lia)). lia.
    * destruct HL as (Hd & _ & _ & Hl). pose proof (pow_le (nv s) (dlevel s + length ls) ltac:(lia)). lia.
Qed.

(** ** The functions of the theory. *)
Lemma fvar_good s s' x : fgood s -> dlevel s = 0 -> dl_new_var W s 0 = Ok (s', x) -> fgood s'.
Proof.
  intros G Hd. pose proof G as [G1 [t Et] G3].
  unfold dl_new_var, dl_th. rewrite Et. cbn [nth_error]. destruct (t_dl_var W t) as [t1 x1] eqn:E1. cbn [rbind]. intros K. injection K as <- _.
  assert (Et1 : t1 = fst (t_dl_var W t)) by (rewrite E1; reflexivity).
  assert (Ec : dcons t1 = dcons t) by (rewrite Et1; unfold t_dl_var; cbn [fst]; destruct (Nat.eqb _ _); reflexivity).
  assert (El : dlayers t1 = dlayers t) by (rewrite Et1; unfold t_dl_var; cbn [fst]; destruct (Nat.eqb _ _); reflexivity).
  assert (Eg : grow_st (mu s) 0 (t1, 0) None = mu (dl_put s 0 t1)) by (unfold grow_st, dl_put, mp, set_theories; cbn; rewrite Et; reflexivity).
  constructor; [exact G1|exists t1; unfold dl_put; cbn; rewrite Et; reflexivity|]. rewrite <- Eg.
  apply (grow_ok (FC anyy) (mu s) 0 (t, 0) (t1, 0) None G3).
  - cbn. rewrite Et. reflexivity.
  - intros v. cbn. unfold atom. rewrite Ec. split; [auto|]. intros [H|H]; [exact H|discriminate].
  - discriminate.
  - intros vs Hl [Hu HI] _. change (dlevel (mu s)) with (dlevel s) in Hl. rewrite Hd in Hl. split; [unfold uniq; cbn [fst]; rewrite Ec; exact Hu|].
    destruct HI as [[_ (v & -> & HR)]|(ups & v1 & v0 & -> & _)]; [|rewrite app_length in Hl; cbn in Hl; lia].
    left. split; [reflexivity|]. exists v. split; [reflexivity|]. cbn [fst] in *. rewrite Et1. apply (DR_step L t [v]); [exact HR|constructor].
  - auto.
  - intros M _. cbn. unfold dlmodel. rewrite Ec. auto.
  - intros n v (c & Hc & Ev & Hn & Hdc). exists c. cbn [fst snd] in *. rewrite Ec in Hc. rewrite El in Hn. rewrite (root_lay s t G Hd Et) in Hn |- *. cbn in Hn. assert (n = 0) as -> by lia. cbn [Nat.sub popn] in *.
    split; [exact Hc|]. split; [exact Ev|]. split; [cbn; lia|].
    destruct (flat_told s t G Et) as (vs & _ & HR & _). pose proof (reach_core L _ _ HR) as HC. pose proof (dc_cons L _ _ HC c Hc) as (Hw & Hf & Ht & _).
    pose proof (dc_n L _ _ HC) as Hcap.
    assert (Ed : forall i j, i < nvars t -> j < nvars t -> dists t1 i j = dists t i j).
    { intros i j Hi Hj. rewrite Et1. unfold t_dl_var. cbn [fst cap]. destruct (Nat.eqb_spec (cap t) (nvars t)); [|reflexivity]. unfold dl_resize. cbn. destruct (Nat.ltb_spec i (cap t)); [|lia]. destruct (Nat.ltb_spec j (cap t)); [|lia]. reflexivity. }
    unfold decided in *. rewrite !Ed in Hdc by assumption. exact Hdc.
Qed.
(** A new constraint, if any, between two variables that had none. *)
Lemma fdist_good s t from to w s' p : fgood s -> dlevel s = 0 -> theories s = [t] -> from < nvars t -> to < nvars t -> wcon L w -> pair_free t from to -> new_distance W s 0 from to w = Ok (s', p) -> fgood s'.
Proof.
  intros G Hd Et Hf Ht Hw Hpf. pose proof G as [G1 _ G3].
  destruct (flat_told s t G Et) as (vs & Hu & HR & Hvl & _ & _). pose proof (reach_core L _ _ HR) as HC. pose proof (i_t _ _ (g_inv _ _ G3)) as HT.
  unfold new_distance, dl_th. rewrite Et. cbn [nth_error]. unfold guard. destruct (Nat.ltb from (cap t) && Nat.ltb to (cap t)); [|discriminate].
  destruct (dist_lt W (dists t to from) (Some (-' w))) eqn:E1; [intros E; injection E as <- _; exact G|]. destruct (dist_le W (dists t from to) (Some w)) eqn:E2; [intros E; injection E as <- _; exact G|].
  cbn [new_var]. cbv beta iota zeta. set (x := nv s). set (c := mk_dcon (mk_lit x true) from to w).
  assert (Hne : from <> to).
  { intros <-. rewrite (cl_diag L _ (dc_closed L _ _ HC)) in E1, E2. unfold dist_le in E2. cbn in E1, E2. apply negb_false_iff in E1. rewrite negb_involutive in E2. destruct (wle_or L (w0 W) w) as [K|K]; [pose proof (proj2 (wle_iff L _ _) K); congruence|].
    pose proof (proj1 (wle_iff L _ _) E1) as E3. clear E1. rename E3 into E1. unfold wlt, wle in *. destruct (evt_ex _ (evt_and _ _ K E1)) as (e & _ & A & B). rewrite (ev_neg _ L) in B. rewrite (ev_0 _ L) in *. lra. }
  assert (Hfresh : ~ atom t x).
  { intros K. destruct (h_range _ _ _ _ (i_h _ _ (g_inv _ _ G3)) 0 (t, 0) x) as [_ K2]; [cbn; rewrite Et; reflexivity|exact K|]. unfold x in K2. cbn in K2. lia. }
  assert (Hg : good_con L (nvars t) c) by (split; [exact Hw|]; cbn; auto).
  set (sn := fst (new_var s)). assert (Esn : mu sn = fst (new_var (mu s))) by reflexivity.
  assert (N1 : good (FC anyy) (mu sn)).
  { pose proof (step_ok (FC anyy) 1 (mu s) CVar G3 Logic.I) as K. cbn [step] in K. rewrite Esn. destruct (new_var (mu s)) as [s1 v1]. cbn [fst] in *. destruct K as ([K|[K _]] & _); [exact K|discriminate]. }
  assert (Eg : grow_st (mu sn) 0 (add_con t c, 0) (Some x) = mu (dl_put (bind sn x 0) 0 (add_con t c))).
  { unfold grow_st, dl_put, bind. change (bounds (mu sn)) with (bounds sn). destruct (memn 0 (bounds sn x)); unfold mp, set_theories; cbn; rewrite Et; reflexivity. }
  intros E. apply (f_equal (fun z => match z with Ok (a, _) => a | _ => s' end)) in E. cbv beta iota in E. rewrite <- E. clear E s'.
  match goal with |- context [dl_put (bind ?a x 0) 0 _] => change a with sn end. set (s' := dl_put (bind sn x 0) 0 (add_con t c)) in *.
  constructor.
  - unfold s', dl_put, bind. destruct (memn 0 (bounds sn x)); exact G1.
  - exists (add_con t c). unfold s', dl_put, bind. destruct (memn 0 (bounds sn x)); cbn; rewrite Et; reflexivity.
  - rewrite <- Eg. apply (grow_ok (FC anyy) (mu sn) 0 (t, 0) (add_con t c, 0) (Some x) N1).
    + cbn. rewrite Et. reflexivity.
    + intros z. cbn. unfold atom. cbn [dcons add_con]. split.
      * intros (c' & Hc' & Ex). apply in_app_or in Hc' as [Hc'|[<-|[]]]; [left; eauto|right; cbn in Ex; congruence].
      * intros [(c' & Hc' & Ex)|Ex]; [exists c'; split; [apply in_or_app; auto|exact Ex]|]. injection Ex as <-. exists c. split; [apply in_or_app; right; left; reflexivity|reflexivity].
    + intros z Ez. injection Ez as <-. split; [|split; [|exact Hfresh]].
      * pose proof (t_nv _ HT). cbn in *. unfold x. lia.
      * cbn. unfold upd, x. rewrite Nat.eqb_refl. reflexivity.
    + intros ws Hl [_ HI] _. change (dlevel (mu sn)) with (dlevel s) in Hl. rewrite Hd in Hl. split.
      * intros a b Ha Hb Hs. cbn [fst dcons add_con] in Ha, Hb. apply in_app_or in Ha as [Ha|[<-|[]]], Hb as [Hb|[<-|[]]]; [apply Hu; assumption| | |reflexivity].
        -- exfalso. destruct (Hpf a Ha) as [P1 P2]. unfold same_pair in Hs. cbn in Hs. destruct Hs as [Hs|Hs]; [apply P1|apply P2]; tauto.
        -- exfalso. destruct (Hpf b Hb) as [P1 P2]. unfold same_pair in Hs. cbn in Hs. destruct Hs as [[S1 S2]|[S1 S2]]; [apply P1|apply P2]; auto.
      * destruct HI as [[_ (v & -> & HR')]|(ups & v1 & v0 & -> & _)]; [|rewrite app_length in Hl; cbn in Hl; lia].
        left. split; [reflexivity|]. exists v. split; [reflexivity|]. cbn [fst] in *. apply (DR_step L t [v]); [exact HR'|constructor; assumption].
    + auto.
    + intros M _. cbn. intros (y & Hy & Hy0 & K). exists y. split; [exact Hy|]. split; [exact Hy0|]. intros c' Hc'. apply K. cbn. apply in_or_app. auto.
    + intros n v (c' & Hc' & Ev & Hn & Hdc). cbn [fst snd dlayers add_con] in *. rewrite (root_lay s t G Hd Et) in Hn. cbn in Hn. assert (n = 0) as -> by lia. cbn [Nat.sub popn dcons add_con] in *.
      apply in_app_or in Hc' as [Hc'|[<-|[]]].
      * exists c'. cbn [fst snd]. split; [exact Hc'|]. split; [exact Ev|]. split; [lia|exact Hdc].
      * exfalso. unfold decided in Hdc. cbn [dists add_con c_to c_from c_w c] in Hdc. rewrite E1, E2 in Hdc. destruct Hdc; discriminate.
Qed.
(** A comparison states a constraint between the two variables of its difference, or nothing. *)
Lemma pair_free_sym t u v : pair_free t u v -> pair_free t v u.
Proof. intros H c Hc. destruct (H c Hc). auto. Qed.
Lemma frel_good s t r e1 e2 s' p : fgood s -> dlevel s = 0 -> theories s = [t] -> r <> DEq -> dlegal L last s (DCmp r e1 e2) -> (forall u v, pair_of (DCmp r e1 e2) = Some (u, v) -> pair_free t u v) ->
  new_rel (W := W) last r s e1 e2 = Ok (Some (s', p)) -> fgood s'.
Proof.
  intros G Hd Et Hr (Hl & Hr' & (t0 & Et0 & Vl & Vr) & Hg) Hpf. rewrite Et in Et0. injection Et0 as <-.
  destruct (flat_told s t G Et) as (vs & _ & HR & _). pose proof (reach_core L _ _ HR) as HC. pose proof (dc_n L _ _ HC) as Hcap.
  assert (Hmay : forall from to w, from < nvars t -> to < nvars t -> wcon L w -> pair_free t from to -> may (new_distance W s 0 from to w) = Ok (Some (s', p)) -> fgood s').
  { intros from to w Hf Ht Hw Hp E. unfold may in E. destruct (new_distance W s 0 from to w) as [[s1 p1]| |] eqn:E1; cbn [rbind] in E; try discriminate. injection E as <- <-. apply (fdist_good s t from to w s1 p1); assumption. }
  destruct (dl_form W (lin_sub e1 e2)) as [f0|] eqn:Ef0; [|intros E; exfalso; destruct (throws_iff (W := W) s 0 e1 e2 (proj1 (form_none _) Ef0)) as (A1 & A2 & A3 & A4 & A5); destruct r; cbn [new_rel] in E; congruence].
  destruct (cmp_cases (W := W) t e1 e2 (proj1 Hcap) Hl Hr' Vl Vr (form_some _ _ Ef0)) as [(k & Ef & Hk)|(f & n & v & v1 & k & c & q & Ef & Ea & Hv & Hv1' & Hq & Hn & Hk)].
  - intros E. assert (K : s' = s) by (destruct r; cbn [new_rel] in E; unfold dl_new_lt, dl_new_leq, dl_new_eq, dl_new_geq, new_gt_with in E; rewrite Ef in E; injection E as <- _; reflexivity). rewrite K. exact G.
  - destruct (rq_con L WR q k Hq) as (C1 & C2 & C3 & C4).
    assert (Hpv : pair_free t v v1 /\ pair_free t v1 v).
    { cbn [pair_of] in Hpf. rewrite Ef in Hpf. destruct f as [|[] x k'|[] x x1 k']; try discriminate; injection Ea as <- <- <- <-; specialize (Hpf _ _ eq_refl); split; auto using pair_free_sym. }
    destruct Hpv as [P1 P2].
    destruct r; try congruence; cbn [new_rel]; unfold dl_new_lt, dl_new_leq, dl_new_geq, new_gt_with; rewrite Ef; (destruct f as [|[] x k'|[] x x1 k']; try discriminate; injection Ea as <- <- <- <-);
      try (destruct (Hg eq_refl) as [Hg'|Hg']; [rewrite Hg'|case (Hg' _ _ _ Ef)]); apply Hmay; assumption.
Qed.
(** ** All calls. *)
Lemma fdlegal s c : flegal s c -> match c with DSat _ => True | _ => dlevel s = 0 /\ dlegal L last s c /\ forall t u v, theories s = [t] -> pair_of c = Some (u, v) -> pair_free t u v end.
Proof. destruct c as [c| |from to w|from to mn mx|[] e1 e2]; cbn [flegal]; auto; intros []. Qed.
Lemma fth_good fl s c s' r : fgood s -> flegal s c -> match c with DSat _ => False | _ => True end -> dcstep (W := W) last fl s c = Ok (s', r) -> fgood s'.
Proof.
  intros G HL Hc E. destruct (fg_one _ G) as [t Et]. pose proof (fdlegal s c HL) as K. destruct c as [c| |from to w|from to mn mx|r0 e1 e2]; cbn [dcstep flegal] in *; [case Hc| | |case HL|]; destruct K as (Hd & Hl & Hp).
  - destruct (dl_new_var W s 0) as [[s1 x]| |] eqn:E1; cbn [rbind] in E; try discriminate. injection E as <- _. apply (fvar_good s s1 x); assumption.
  - destruct (new_distance W s 0 from to w) as [[s1 p]| |] eqn:E1; cbn [rbind] in E; try discriminate. injection E as <- _. destruct Hl as (Hw & t0 & Et0 & Hf & Ht). apply (fdist_good s t0 from to w s1 p); auto.
  - destruct (new_rel last r0 s e1 e2) as [[[s1 p]|]| |] eqn:E1; cbn [rbind] in E; try discriminate; injection E as <- _; [|exact G]. apply (frel_good s t r0 e1 e2 s1 p); auto. intros ->. exact HL.
Qed.
Theorem fcstep_ok fl s c : fgood s -> flegal s c ->
  match dcstep (W := W) last fl s c with
  | UB => False
  | OOF => fl <= fbound s
  | Ok (s', r) => (fgood s' \/ (r = DR (RBool false) /\ forall M y, ~ dsol L s' M y)) /\ nv s <= nv s' /\
      (forall M y, dsol L s' M y -> dsol L s M y /\ fsaid (decisions s) c r M y) /\ (dexact c -> forall M y, dsol L s M y -> fsaid (decisions s) c r M y -> dsol L s' M y)
  end.
Proof.
  intros G HL. assert (Hth : match c with DSat _ => False | _ => True end -> match dcstep (W := W) last fl s c with
  | UB => False
  | OOF => fl <= fbound s
  | Ok (s', r) => (fgood s' \/ (r = DR (RBool false) /\ forall M y, ~ dsol L s' M y)) /\ nv s <= nv s' /\
      (forall M y, dsol L s' M y -> dsol L s M y /\ fsaid (decisions s) c r M y) /\ (dexact c -> forall M y, dsol L s M y -> fsaid (decisions s) c r M y -> dsol L s' M y)
  end).
  { intros Hc. pose proof (fdlegal s c HL) as K. assert (K' : dlevel s = 0 /\ dlegal L last s c) by (destruct c; [case Hc|..]; split; apply K). destruct K' as [Hd Hl].
    pose proof (dcstep_ok L WR last fl s c (fgood_root s G Hd) Hl) as H. destruct (dcstep last fl s c) as [[s' r]| |] eqn:E; [|exact H|unfold fbound, dbound in *; destruct (nv s); nia].
    destruct H as (_ & H2 & H3 & H4 & _). split; [left; apply (fth_good fl s c s' r G HL Hc E)|]. split; [exact H2|]. destruct c; [case Hc|..]; split; assumption. }
  destruct c as [c| |from to w|from to mn mx|r0 e1 e2]; try (apply Hth; exact Logic.I). clear Hth. cbn [dcstep flegal] in *.
  pose proof (fsat_ok fl s c G HL) as K. destruct (step fl s c) as [[s' r]| |]; cbn [rbind]; [|exact K|exact K]. destruct K as (K1 & K2 & K3 & K4). split; [destruct K1 as [K1|[-> K1]]; auto|]. auto.
Qed.
(** What comes later: values of the root level are kept, constraints and variables are added. *)
Definition flater (s s' : st) : Prop :=
  (forall q, value s q <> LUndef -> level s (lvar q) = 0 -> value s' q = value s q /\ level s' (lvar q) = 0) /\ forall t, theories s = [t] -> exists t', theories s' = [t'] /\ nvars t <= nvars t' /\ incl (dcons t) (dcons t').
Lemma kept_neg (s s' : st) : kept s s' -> forall q, value s q <> LUndef -> level s (lvar q) = 0 -> value s' q = value s q /\ level s' (lvar q) = 0.
Proof.
  intros K q Hq Hl. destruct (value s q) eqn:Ev; [| |congruence].
  - assert (Ev' : value s (negl q) = LTrue) by (unfold value, vlit in *; cbn; destruct (assigns s (lvar q)), (lsgn q); cbn in *; congruence). destruct (K (negl q) Ev') as [K1 K2]; [cbn; lia|]. cbn in K2. split; [|congruence].
    unfold value, vlit in *. cbn in *. destruct (assigns s' (lvar q)), (lsgn q); cbn in *; congruence.
  - destruct (K q Ev) as [K1 K2]; [lia|]. split; [exact K1|congruence].
Qed.
Lemma root_level0 s v : fgood s -> dlevel s = 0 -> level s v = 0.
Proof.
  intros G Hd. pose proof (i_t _ _ (g_inv _ _ (fg_good _ G))) as HT. destruct (Nat.eq_dec (level s v) 0) as [E0|E0]; [exact E0|]. pose proof (t_on _ HT v E0) as Ho. apply in_map_iff in Ho as (p & <- & Hp).
  apply in_split in Hp as (pre & post & Ep). pose proof (t_level _ HT pre p post Ep) as El. cbn in El. rewrite (lim_root s Hd) in El. exact El.
Qed.
(** [y] respects the constraints whose literal has a value at root level. *)
Definition resp0 (s : st) (y : nat -> Q) : Prop :=
  forall t c, theories s = [t] -> In c (dcons t) -> level s (lvar (c_b c)) = 0 -> (value s (c_b c) = LTrue -> con_sat L c y) /\ (value s (c_b c) = LFalse -> ~ con_sat L c y).
Definition means0 (s : st) (p : lit) (P : (nat -> Q) -> Prop) : Prop :=
  forall y, vals_ok L y -> (y O == 0)%Q -> resp0 s y -> (p = TRUE_lit /\ P y) \/ (p = FALSE_lit /\ ~ P y) \/ exists t c, theories s = [t] /\ In c (dcons t) /\ c_b c = p /\ (con_sat L c y <-> P y).
Definition fevent_means (s : st) (c : @dcall D) (r : dret) : Prop :=
  match c, r with
  | DDist from to w, DP p => means0 s p (fun y => wsat L w (y to - y from)%Q)
  | DCmp r e1 e2, DP p => r <> DEq -> means0 s p (fun y => rel_holds r (lval y e1) (lval y e2))
  | _, _ => True
  end.
Lemma means_root s p P : fgood s -> dlevel s = 0 -> means L s p P -> means0 s p P.
Proof. intros G Hd H y Hy Hy0 Hr. apply H; auto. intros t c Et Hc. apply (Hr t c Et Hc). apply (root_level0 s _ G Hd). Qed.
Lemma flater_means s s' t p P : theories s = [t] -> flater s s' -> means0 s p P -> means0 s' p P.
Proof.
  intros Et [K1 K2] H y H1 H2 H3. destruct (H y H1 H2) as [A|[A|(t0 & c & A & B & C)]]; [|auto|auto|].
  - intros t0 c Et0 Hc Hlv. destruct (K2 t0 Et0) as (t' & Et' & _ & Hi). split; intros V; (assert (V' : value s (c_b c) <> LUndef) by congruence); destruct (K1 _ V' Hlv) as [K3 K4]; destruct (H3 t' c Et' (Hi c Hc) K4) as [R1 R2]; [apply R1|apply R2]; congruence.
  - right. right. destruct (K2 t0 A) as (t' & Et' & _ & Hi). exists t', c. split; [exact Et'|]. split; [apply Hi, B|exact C].
Qed.
Theorem fcstep_later fl s c s' r : fgood s -> flegal s c -> dcstep (W := W) last fl s c = Ok (s', r) -> flater s s' /\ fevent_means s' c r.
Proof.
  intros G HL E. assert (Hth : match c with DSat _ => False | _ => True end -> flater s s' /\ fevent_means s' c r).
  { intros Hc. pose proof (fdlegal s c HL) as K. assert (K' : dlevel s = 0 /\ dlegal L last s c) by (destruct c; [case Hc|..]; split; apply K). destruct K' as [Hd Hl].
    pose proof (fth_good fl s c s' r G HL Hc E) as G'.
    assert (Hd' : dlevel s' = 0).
    { destruct c as [c| |from to w|from to mn mx|r0 e1 e2]; [case Hc| | |case HL|]; pose proof (dcstep_ok L WR last fl s _ (fgood_root s G Hd) Hl) as H; rewrite E in H; destruct H as ([H|[H1 H2]] & _).
      1, 3, 5: unfold dlevel; rewrite (dg_root _ _ H); reflexivity.
      all: exfalso; cbn [dcstep] in E; subst r; revert E.
      - destruct (dl_new_var W s 0) as [[? ?]| |]; cbn [rbind]; discriminate.
      - destruct (new_distance W s 0 from to w) as [[? ?]| |]; cbn [rbind]; discriminate.
      - destruct (new_rel last r0 s e1 e2) as [[[? ?]|]| |]; cbn [rbind]; discriminate. }
    destruct (dcstep_later L WR last fl s c s' r (fgood_root s G Hd) Hl E) as [[H1 H2] H3]. split.
    - split; [|exact H2]. intros q Hq _. split; [apply H1, Hq|apply (root_level0 s' _ G' Hd')].
    - unfold fevent_means. unfold event_means in H3. destruct c, r; auto; try (apply (means_root s' _ _ G' Hd'), H3). intros Hx. apply (means_root s' _ _ G' Hd'), H3, Hx. }
  destruct c as [c| |from to w|from to mn mx|r0 e1 e2]; try (apply Hth; exact Logic.I). clear Hth. cbn [dcstep flegal] in *. destruct (step fl s c) as [[s1 r1]| |] eqn:E1; cbn [rbind] in E; try discriminate. injection E as <- <-.
  split; [|exact Logic.I]. split.
  - pose proof (fmu_step fl s c G HL) as Em. rewrite E1 in Em. unfold m1 in Em. cbn [rmp fst snd] in Em. pose proof (kept_step (FC anyy) fl (mu s) (mu s1) c r1 (fg_good _ G) (fsat_legal anyy s c HL) Em) as K. apply (kept_neg s s1 K).
  - intros t Et. pose proof (sh_step W fl s s1 c r1 E1) as Es. rewrite Et in Es. destruct (theories s1) as [|t' [|? ?]]; try discriminate Es. injection Es as E2 E3. exists t'. split; [reflexivity|]. rewrite E2, E3. split; [lia|apply incl_refl].
Qed.
End Net.
End Srt.
