(** A network with a difference logic theory and a linear real arithmetic theory on one core, driven at root level by its public interface: the
    calls of sat_core.h, of idl_theory.h:28-44 (rdl_theory.h:28-44) and of lra_theory.h:30-74. *)
From Verif Require Import Base Keys Sat SatSpec SatInv SatPop SatImp SatRec SatAn SatProp SatLoop SatMain SatApi SatApi2 SatNext SatSimp Reify Amo Run SatFacts.
From Verif Require Import Lin Qe Lra LraTab LraVal LraInv LraChk LraPro LraCon ThGrow LraNew LraCmp ThRel LraApi LraRun LraEnd ThSum OvStep Mix MixApi MixRun.
From Verif Require Import Dw Dl DlClo DlTight DlEdge DlTh DlFacts DlApi MapTh DlRoot DlNet Two TwoApi TwoSame.
From Coq Require Import Lqa.
Open Scope nat_scope.
Local Arguments Nat.ltb : simpl never.
Local Arguments Nat.eqb : simpl never.
Local Arguments Nat.pow : simpl never.
Local Arguments Nat.mul : simpl never.
Section Srt.
Context {sr : sorter}.

Section ANet.
Context {D : Type} {W : wops D} (L : wlaws W) (WR : wreads L).
Context (last : Sat.st (dl D + lra) -> nat -> nat -> nat -> D -> res (Sat.st (dl D + lra) * lit)).
Context (ord : nat -> list nat -> list nat) (Hord : forall k l, Permutation l (ord k l)) (fuel : lra -> nat).
Notation dl := (dl D).
Notation st := (st (dl + lra)).
Notation lops := (lra_ops ord fuel).
Notation ops := (sum_ops (dl_ops (sr := sr) W) lops).
Notation mops := (sum_ops (mute_ops (dl_ops (sr := sr) W)) lops).
Notation CL := (lraT ord Hord fuel).
Notation CLY := (fun Y u => lraC ord Hord fuel Y (LraCon.later u) (HPlater u)).
Notation C := (sumC (mute_ops (dl_ops (sr := sr) W)) lops (rootC L anyy) CL).
Notation CY := (fun Y u => sumC (mute_ops (dl_ops (sr := sr) W)) lops (rootC L anyy) (lraC ord Hord fuel Y (LraCon.later u) (HPlater u))).
Notation mu := (mp (@emb D lra)).
Notation msol := (msol (rootC L anyy) ord Hord fuel).

(** ** The machine.  The difference logic theory is theory 0, the arithmetic one theory 1. *)
Inductive acall := AD (c : @dcall D) | AVar | ASlack (l : lin) | ACmp (sd : side) (strict : bool) (left right : lin).
Inductive aret := AR (r : dret) | AX (x : nat) | AP (p : lit).
Definition astep (fl : nat) (s : st) (c : acall) : res (st * aret) :=
  match c with
  | AD c => '(s1, r) <- tstep (W := W) (ob := lops) last fl s 0 c ;; Ok (s1, AR r)
  | AVar => '(s1, x) <- mx_new_var s 1 ;; Ok (s1, AX x)
  | ASlack l => '(s1, x) <- mx_new_slack s 1 l ;; Ok (s1, AX x)
  | ACmp sd strict l r => '(s1, p) <- mx_cmp s 1 sd strict l r ;; Ok (s1, AP p)
  end.
Definition alin_vars (c : acall) : list nat :=
  match c with ASlack l => map fst (lvars l) | ACmp _ _ l r => map fst (lvars l) ++ map fst (lvars r) | _ => [] end.
(** Constraints are stated about existing variables, nothing is assumed or popped. *)
Definition alegal (s : st) (c : acall) : Prop :=
  match c with
  | AD c => tlegal L last s 0 c
  | AVar => True
  | ASlack l => exists u, nth_error (theories s) 1 = Some (inr u) /\ slackable u l
  | ACmp _ _ l r => lin_clean l /\ lin_clean r /\ exists u, nth_error (theories s) 1 = Some (inr u) /\ forall x, In x (alin_vars c) -> x < nx u
  end.
(** An assignment to the variables of the core and one to the variables of each theory, that satisfy the network. *)
Definition asol (s : st) (M : nat -> bool) (y z : nat -> Q) : Prop := smodels C (mu s) M /\ exists t u, theories s = [inl t; inr u] /\ djoint L t M y /\ joint u M z.
Definition asaid (c : acall) (r : aret) (M : nat -> bool) (y z : nat -> Q) : Prop :=
  match c, r with
  | AD c, AR r => dsaid L c r M y
  | ASlack l, AX x => (z x == lval z l)%Q
  | ACmp sd strict l r, AP p => mlit M p = true <-> cmpP sd strict (lval z l) (lval z r)
  | _, _ => True
  end.
Definition aexact (c : acall) : Prop := match c with AD c => dexact c | _ => True end.
Definition aalive (s' : st) (r : aret) : Prop := r = AR (DR (RBool false)) -> exists M y z, asol s' M y z.
Record agood (s : st) (t : dl) (u : lra) : Prop := { ag_root : trail_lim s = []; ag_th : theories s = [inl t; inr u]; ag_good : good C (mu s) }.

(** ** The same contract, for fixed numeric values and tracking what happens to the arithmetic theory. *)
Lemma amodels_any (s : Sat.st (dl * nat + lra)) Y u M : smodels (CY Y u) s M -> smodels C s M.
Proof. intros [A B E F]. constructor; auto. intros [x|x] Hx; specialize (F _ Hx); [exact F|]. destruct F as (y & _ & Hy). exists y. split; [exact Logic.I|exact Hy]. Qed.
Lemma amodels_all (s : Sat.st (dl * nat + lra)) u M : smodels C s M -> smodels (CY (fun _ => True) u) s M.
Proof. intros [A B E F]. constructor; auto. Qed.
Lemma in_inr s u : In (inr u) (theories (mu s)) -> In (inr u) (theories s).
Proof. cbn. intros H. apply in_map_iff in H as ([x|x] & E & Hx); cbn in E; [discriminate|injection E as <-; exact Hx]. Qed.
Lemma agood_any s t u Y u0 : agood s t u -> LraCon.later u0 u -> tgood L (CLY Y u0) s 0.
Proof.
  intros [G1 G2 G3] HP. constructor; [exact G1|exists t; rewrite G2; reflexivity|]. apply (good_change C (CY Y u0) (mu s) G3).
  - intros [x|x] v; reflexivity.
  - intros [x|x] vs Hx; cbn; [auto|]. intros [H _]. split; [exact H|]. apply in_inr in Hx. rewrite G2 in Hx. destruct Hx as [Hx|[Hx|[]]]; [discriminate|injection Hx as <-; exact HP].
  - intros [x|x] Hx; exact Hx.
  - intros [x|x] n v [].
  - apply amodels_any.
Qed.
Lemma agood_t s t u : agood s t u -> tgood L CL s 0.
Proof. intros [G1 G2 G3]. constructor; [exact G1|exists t; rewrite G2; reflexivity|exact G3]. Qed.
Lemma agood_back s u0 : tgood L (CLY (fun _ => True) u0) s 0 -> good C (mu s) /\ forall u, In (inr u) (theories s) -> LraCon.later u0 u.
Proof.
  intros [G1 _ G]. split.
  - apply (good_change (CY (fun _ => True) u0) C (mu s) G).
    + intros [x|x] v; reflexivity.
    + intros [x|x] vs Hx; cbn; [auto|]. intros [H _]. split; [exact H|exact Logic.I].
    + intros [x|x] Hx; exact Hx.
    + intros [x|x] n v [].
    + apply amodels_all.
  - intros u Hu. apply In_nth_error in Hu as (i & Ei). assert (Ei' : nth_error (theories (mu s)) i = Some (inr u)) by (cbn; rewrite nth_error_map, Ei; reflexivity). destruct (h_views _ _ _ _ (i_h _ _ (g_inv _ _ G)) i _ Ei') as (vs & V & _). apply V.
Qed.
Lemma asol_single s t u u0 M y z : theories s = [inl t; inr u] -> (asol s M y z <-> dsol2 L (CLY (eq z) u0) s 0 M y).
Proof.
  intros Et. split.
  - intros ([A B E F] & t' & u' & Et' & Hy & Hz). rewrite Et in Et'. injection Et' as <- <-. split; [|exists t; rewrite Et; auto]. constructor; auto. intros x Hx. cbn in Hx. rewrite Et in Hx. destruct Hx as [<-|[<-|[]]].
    + apply (F (inl (t, 0))). cbn. rewrite Et. left. reflexivity.
    + exists z. auto.
  - intros (HM & t' & Et' & Hy). rewrite Et in Et'. injection Et' as <-. split; [apply (amodels_any _ _ _ _ HM)|]. exists t, u. split; [exact Et|]. split; [exact Hy|]. pose proof (sm_th _ _ _ HM (inr u)) as H. cbn in H. rewrite Et in H. destruct (H (or_intror (or_introl eq_refl))) as (z' & <- & Hz). exact Hz.
Qed.
Lemma asol_msol s t u M y z : theories s = [inl t; inr u] -> (asol s M y z <-> msol (mu s) 1 M z /\ djoint L t M y).
Proof.
  intros Et. split.
  - intros (HM & t' & u' & Et' & Hy & Hz). rewrite Et in Et'. injection Et' as <- <-. split; [|exact Hy]. split; [exact HM|]. exists u. split; [cbn; rewrite Et; reflexivity|exact Hz].
  - intros [(HM & u' & Eu & Hz) Hy]. cbn in Eu. rewrite Et in Eu. injection Eu as <-. split; [exact HM|]. exists t, u. auto.
Qed.
Lemma asol_ex s t u M : theories s = [inl t; inr u] -> smodels C (mu s) M -> exists y z, asol s M y z.
Proof.
  intros Et HM. pose proof (sm_th _ _ _ HM) as F. cbn in F. rewrite Et in F. destruct (any_joint L t M (F _ (or_introl eq_refl))) as (y & Hy). destruct (F (inr u) (or_intror (or_introl eq_refl))) as (z & _ & Hz). exists y, z. split; [exact HM|]. exists t, u. auto.
Qed.
(** The theories of a state that becomes a given one. *)
Lemma mu_ths (s : st) t u : theories (mu s) = [inl (t, 0); inr u] -> theories s = [inl t; inr u].
Proof. cbn. destruct (theories s) as [|[a|a] [|[b|b] [|? ?]]]; cbn; intros E; try discriminate; injection E as <- <-; reflexivity. Qed.
Lemma ashape (s s' : st) t u : theories s = [inl t; inr u] -> map (tshape (D := D) (BT := lra)) (theories s') = map (tshape (D := D) (BT := lra)) (theories s) -> exists t' u', theories s' = [inl t'; inr u'].
Proof. intros Et E. rewrite Et in E. destruct (theories s') as [|[a|a] [|[b|b] [|? ?]]]; cbn in E; try discriminate E. eauto. Qed.

(** What is known of the answers. *)
Definition ainfo (s' : st) (u' : lra) (c : acall) (r : aret) : Prop :=
  match c, r with
  | AD c, AR r => tevent L s' 0 c r
  | ASlack l, AX x => x < nx u' /\ forall z, tsol (tab u') z -> (z x == lval z l)%Q
  | ACmp sd strict l r, AP p => lvar p < nv s' /\ forall z, rsat u' z -> answers u' p z (cmpP sd strict (lval z l) (lval z r))
  | AVar, AX x => x < nx u'
  | _, _ => True
  end.
(** What still is a solution. *)
Definition aext (s s' : st) (u : lra) (c : acall) (r : aret) : Prop :=
  match c with
  | AD c => dexact c -> forall M y z, asol s M y z -> asaid (AD c) r M y z -> asol s' M y z
  | AVar => r = AX (nx u) /\ forall M y z q, asol s M y z -> asol s' M y (upd z (nx u) q)
  | ASlack _ => forall M y z, asol s M y z -> exists z', (forall x, x < nx u -> z' x = z x) /\ asol s' M y z'
  | ACmp _ _ _ _ => forall M y z, asol s M y z -> asaid c r M y z -> exists z', (forall x, x < nx u -> z' x = z x) /\ asol s' M y z'
  end.
Definition aapart (t t' : dl) (u u' : lra) (c : acall) : Prop := match c with AD (DSat _) => nvars t' = nvars t /\ dcons t' = dcons t | AD _ => u' = u | _ => t' = t end.
Theorem astep_ok fl s s' t u c r : agood s t u -> alegal s c -> astep fl s c = Ok (s', r) -> aalive s' r ->
  exists t' u', agood s' t' u' /\ grows u u' /\ tlater s s' 0 /\ ainfo s' u' c r /\ nv s <= nv s' /\
  (forall M y z, asol s' M y z -> asol s M y z /\ asaid c r M y z) /\ aext s s' u c r /\ aapart t t' u u' c.
Proof.
  intros AG HL HE HA. pose proof AG as [G1 Et G3].
  assert (Ei : nth_error (theories (mu s)) 1 = Some (inr u)) by (cbn; rewrite Et; reflexivity).
  assert (Hd : dlevel (mu s) = 0) by (unfold dlevel; cbn; rewrite G1; reflexivity).
  assert (HTL : forall s1, theories s1 = [inl t; inr u] -> forall s2 u2, theories s2 = [inl t; inr u2] -> (forall p, value (mu s2) p = value (mu s1) p) -> tlater s1 s2 0).
  { intros s1 E1 s2 u2 E2 Hv. split; [intros q _; apply Hv|]. exists t, t. rewrite E1, E2. split; [reflexivity|]. split; [reflexivity|]. split; [lia|apply incl_refl]. }
  destruct c as [c| |l|sd strict l k]; cbn [astep alegal] in *.
  - (* the core and the difference logic theory *)
    destruct (tstep (W := W) (ob := lops) last fl s 0 c) as [[s1 r1]| |] eqn:E; cbn [rbind] in HE; try discriminate HE. assert (s1 = s' /\ r = AR r1) as [-> ->] by (split; congruence). clear HE.
    pose proof (tstep_ok L WR last (CLY (fun _ => True) u) fl s 0 c (agood_any s t u _ u AG (later_refl u)) HL) as K. rewrite E in K. destruct K as (K1 & Kn & _ & _ & K3 & K4 & K5).
    assert (Hsh : exists t' u', theories s' = [inl t'; inr u'] /\ aapart t t' u u' (AD c)).
    { destruct c as [c| |from to w|from to mn mx|r e1 e2].
      1:{ cbn [tstep] in E. destruct (step fl s c) as [[s2 r2]| |] eqn:E2; cbn [rbind] in E; try discriminate E. injection E as -> _. destruct (ashape s s' t u Et (tsh_step fl s s' c r2 E2)) as (t' & u' & Et'). exists t', u'. split; [exact Et'|].
          destruct (tsh_nth fl s s' 0 t c r2 E2 ltac:(rewrite Et; reflexivity)) as (t2 & Et2 & A & B). rewrite Et' in Et2. injection Et2 as <-. cbn. auto. }
      all: destruct K5 as [(t' & Et') _]; rewrite Et in Et'; exists t', u; (split; [exact Et'|reflexivity]). }
    destruct Hsh as (t' & u' & Et' & Hap).
    assert (K1' : tgood L (CLY (fun _ => True) u) s' 0).
    { destruct K1 as [K1|[-> K1]]; [exact K1|]. destruct (HA eq_refl) as (M & y & z & HM & _). case (K1 M (amodels_all _ u _ HM)). }
    destruct (agood_back s' u K1') as [G' HP']. assert (La : LraCon.later u u') by (apply HP'; rewrite Et'; right; left; reflexivity).
    exists t', u'. split; [constructor; [apply K1'|exact Et'|exact G']|]. split; [apply later_grows, La|]. split; [exact K3|]. split; [exact K4|]. split; [exact Kn|].
    assert (HZ : forall z, (forall M y, dsol2 L (CLY (eq z) u) s' 0 M y -> dsol2 L (CLY (eq z) u) s 0 M y /\ dsaid L c r1 M y) /\ (dexact c -> forall M y, dsol2 L (CLY (eq z) u) s 0 M y -> dsaid L c r1 M y -> dsol2 L (CLY (eq z) u) s' 0 M y)).
    { intros z. pose proof (tstep_ok L WR last (CLY (eq z) u) fl s 0 c (agood_any s t u _ u AG (later_refl u)) HL) as K. rewrite E in K. destruct K as (_ & _ & Ka & Kb & _). auto. }
    split; [|split; [|exact Hap]].
    + intros M y z HM. apply (asol_single s' t' u' u M y z Et') in HM. apply (proj1 (HZ z)) in HM as [A B]. split; [apply (asol_single s t u u M y z Et), A|exact B].
    + intros Hx M y z HM Hs. apply (asol_single s' t' u' u M y z Et'). apply (proj2 (HZ z) Hx); [apply (asol_single s t u u M y z Et), HM|exact Hs].
  - (* new_var() *)
    destruct (mx_new_var_call (rootC L anyy) ord Hord fuel (mu s) 1 u G3 Ei) as (s1 & u1 & E & SO & En & Hnx & Hva & Gw & H1 & H2). rewrite (oth_new_var (@emb D lra) (fun _ => eq_refl) (fun a => ex_intro _ (a, 0) eq_refl)) in E.
    destruct (mx_new_var s 1) as [[s2 x]| |]; cbn in E; try discriminate E. injection E as <- ->. cbn [rbind] in HE. injection HE as <- <-.
    assert (Et' : theories s2 = [inl t; inr u1]) by (apply mu_ths; rewrite (ms_th _ _ _ _ _ _ _ _ SO); cbn; rewrite Et; reflexivity).
    exists t, u1. split; [constructor; [|exact Et'|apply SO]|split; [exact Gw|split; [apply (HTL s Et s2 u1 Et'), SO|split; [cbn; lia|split; [apply SO|split; [|split; [split; [reflexivity|]|reflexivity]]]]]]].
    + pose proof (ms_dl _ _ _ _ _ _ _ _ SO) as K. rewrite Hd in K. unfold dlevel in K. cbn in K. destruct (trail_lim s2); [reflexivity|discriminate].
    + intros M y z HM. split; [|exact Logic.I]. apply (asol_msol s2 t u1 M y z Et') in HM as [HM Hy]. apply (asol_msol s t u M y z Et). split; [apply H1, HM|exact Hy].
    + intros M y z q HM. apply (asol_msol s t u M y z Et) in HM as [HM Hy]. apply (asol_msol s2 t u1 M y _ Et'). split; [apply H2, HM|exact Hy].
  - (* new_var(lin) *)
    destruct HL as (u0 & Eu & Hsl). rewrite Et in Eu. injection Eu as <-.
    destruct (mx_new_slack_call (rootC L anyy) ord Hord fuel (mu s) 1 u l G3 Hd Ei Hsl) as (s1 & u1 & x & E & SO & En & Gw & Hx & Hva & Hs & H1 & H2). rewrite (oth_new_slack (@emb D lra) (fun _ => eq_refl) (fun a => ex_intro _ (a, 0) eq_refl)) in E.
    destruct (mx_new_slack s 1 l) as [[s2 x2]| |]; cbn in E; try discriminate E. injection E as <- ->. cbn [rbind] in HE. injection HE as <- <-.
    assert (Et' : theories s2 = [inl t; inr u1]) by (apply mu_ths; rewrite (ms_th _ _ _ _ _ _ _ _ SO); cbn; rewrite Et; reflexivity).
    exists t, u1. split; [constructor; [|exact Et'|apply SO]|split; [exact Gw|split; [apply (HTL s Et s2 u1 Et'), SO|split; [split; [exact Hx|exact Hs]|split; [apply SO|split; [|split; [|reflexivity]]]]]]].
    + pose proof (ms_dl _ _ _ _ _ _ _ _ SO) as K. rewrite Hd in K. unfold dlevel in K. cbn in K. destruct (trail_lim s2); [reflexivity|discriminate].
    + intros M y z HM. apply (asol_msol s2 t u1 M y z Et') in HM as [HM Hy]. destruct (H1 M z HM) as [A B]. split; [|exact B]. apply (asol_msol s t u M y z Et). split; [exact A|exact Hy].
    + intros M y z HM. apply (asol_msol s t u M y z Et) in HM as [HM Hy]. destruct (H2 M z HM) as (z' & A & B). exists z'. split; [exact A|]. apply (asol_msol s2 t u1 M y _ Et'). split; [exact B|exact Hy].
  - (* the comparisons *)
    destruct HL as (Hl & Hr & u0 & Eu & Hv). rewrite Et in Eu. injection Eu as <-.
    destruct (mx_cmp_call (rootC L anyy) ord Hord fuel (mu s) 1 u sd strict l k G3 Hd Ei Hl Hr) as (s1 & u1 & p & E & SO & Gw & Hp & An & H1 & H2 & H3 & H4).
    { intros v Hv'. apply Hv. cbn [alin_vars]. apply in_or_app. destruct Hv' as [Hv'|Hv']; [left|right]; apply dom_fst, Hv'. }
    rewrite (oth_cmp (@emb D lra) (fun _ => eq_refl) (fun a => ex_intro _ (a, 0) eq_refl)) in E.
    destruct (mx_cmp s 1 sd strict l k) as [[s2 p2]| |]; cbn in E; try discriminate E. injection E as <- ->. cbn [rbind] in HE. injection HE as <- <-.
    assert (Et' : theories s2 = [inl t; inr u1]) by (apply mu_ths; rewrite (ms_th _ _ _ _ _ _ _ _ SO); cbn; rewrite Et; reflexivity).
    exists t, u1. split; [constructor; [|exact Et'|apply SO]|split; [exact Gw|split; [apply (HTL s Et s2 u1 Et'), SO|split; [split; [exact Hp|exact An]|split; [apply SO|split; [|split; [|reflexivity]]]]]]].
    + pose proof (ms_dl _ _ _ _ _ _ _ _ SO) as K. rewrite Hd in K. unfold dlevel in K. cbn in K. destruct (trail_lim s2); [reflexivity|discriminate].
    + intros M y z HM. apply (asol_msol s2 t u1 M y z Et') in HM as [HM Hy]. destruct (H1 M z HM) as [A B]. split; [|exact B]. apply (asol_msol s t u M y z Et). split; [exact A|exact Hy].
    + intros M y z HM Hs. apply (asol_msol s t u M y z Et) in HM as [HM Hy]. destruct (H2 M z HM Hs) as (z' & A & B). exists z'. split; [exact A|]. apply (asol_msol s2 t u1 M y _ Et'). split; [exact B|exact Hy].
Qed.
End ANet.
End Srt.
