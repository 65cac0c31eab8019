(** The calls of the arithmetic theory on a core that holds other theories as well (Mix.v): the proofs are those of LraApi.v, for the sum of the contracts. *)
From Verif Require Import Base Keys Sat SatSpec SatInv SatPop SatImp SatRec SatAn SatProp SatLoop SatMain SatApi SatApi2 SatNext SatSimp Reify Amo Run.
From Verif Require Import Lin Qe Lra LraTab LraVal LraInv LraChk LraPro LraCon ThGrow LraNew LraCmp ThRel LraApi ThSum Mix.
From Coq Require Import Lqa.
Open Scope Q_scope.
Local Arguments Nat.ltb : simpl never.
Local Arguments Nat.eqb : simpl never.
Section Srt.
Context {sr : sorter}.

Section Api.
Context {BT : Type} {ob : theory_ops BT} (CB : contract ob) (ord : nat -> list nat -> list nat) (Hord : forall k l, Permutation l (ord k l)) (fuel : lra -> nat).
Notation C := (sumC ob (lra_ops ord fuel) CB (lraT ord Hord fuel)).
Notation st := (st (BT + lra)).

(** The Boolean assignment [M] and the values [y] of the numeric variables of the [i]-th theory
    solve the network. *)
Definition msol (s : st) (i : nat) (M : nat -> bool) (y : nat -> Q) : Prop :=
  smodels C s M /\ exists t, nth_error (theories s) i = Some (inr t) /\ joint t M y.

Lemma root_view (s : st) i t : good C s -> dlevel s = 0%nat -> nth_error (theories s) i = Some (inr t) ->
  exists v, TInv t [v] /\ layers t = [] /\ (forall p, In p v -> value s p = LTrue /\ level s (lvar p) = 0%nat) /\
    forall M p, smodels C s M -> In p v -> mlit M p = true.
Proof.
  intros G Hd Et. destruct (h_views _ _ _ _ (i_h _ _ (g_inv _ _ G)) i (inr t) Et) as (vs & A & B & D & _). rewrite Hd in B. destruct vs as [|v [|w vs]]; try discriminate B.
  destruct A as [A _]. exists v. split; [exact A|]. split; [pose proof (ti_ls _ _ A) as HL; destruct (layers t); [reflexivity|destruct HL]|]. assert (K : forall p, In p v -> value s p = LTrue /\ level s (lvar p) = 0%nat).
  { intros p Hp. destruct (D 0%nat v p eq_refl (or_introl I) Hp) as [X Y]. split; [exact X|]. rewrite Y, Hd. reflexivity. }
  split; [exact K|]. intros M p HM Hp. destruct (K p Hp). apply (sm_facts _ _ _ HM); assumption.
Qed.

(** Replacing the theory by a wider one with the same atoms. *)
Lemma put_ok (s : st) i t t1 : good C s -> nth_error (theories s) i = Some (inr t) -> v_asrts t1 = v_asrts t ->
  (forall vs, length vs = S (dlevel s) -> TInv t vs -> TInv t1 vs) -> (feas t (cb t) -> feas t1 (cb t1)) -> wider t t1 ->
  good C (mx_put s i t1) /\ (settled C s -> settled C (mx_put s i t1)) /\
  forall M, smodels C (mx_put s i t1) M <-> smodels C s M /\ exists y, joint t1 M y.
Proof.
  intros G Et Ea Hi Hf W. destruct (grow_ok C s i (inr t) (inr t1) None G Et) as (A & B & D).
  - intros w. cbn [th_atom sumC sum_atom lraT lraC mk_strict]. unfold atoms. rewrite Ea. split; [auto|intros [H|H]; [exact H|discriminate]].
  - discriminate.
  - intros vs H1 [H2 _] _. split; [apply Hi; assumption|exact I].
  - exact Hf.
  - intros M _ (y & _ & Hy). exists y. split; [exact I|]. apply (wd_joint _ _ W), Hy.
  - intros m v Hx. exact Hx.
  - split; [exact A|]. split; [exact B|]. intros M. rewrite (D M). cbn [th_model sumC sum_model lraT lraC mk_strict]. split; (intros [HM (y & Hy)]; split; [exact HM|exists y]); [apply Hy|auto].
Qed.
Lemma put_nth (s : st) i t t1 : nth_error (theories s) i = Some (inr t) -> nth_error (theories (mx_put s i t1)) i = Some (inr t1).
Proof. intros E. cbn. rewrite nth_set_nth by (apply nth_error_Some; congruence). rewrite Nat.eqb_refl. reflexivity. Qed.
Lemma put_other (s : st) i j t t1 : nth_error (theories s) i = Some (inr t) -> j <> i -> nth_error (theories (mx_put s i t1)) j = nth_error (theories s) j.
Proof. intros E Hj. cbn. rewrite nth_set_nth by (apply nth_error_Some; congruence). destruct (Nat.eqb_spec j i); [congruence|reflexivity]. Qed.

(** What does not change on the Boolean side, and on the other theories. *)
Record mside (s s' : st) (i : nat) (t' : lra) : Prop := {
  ms_good : good C s';
  ms_dl : dlevel s' = dlevel s;
  ms_nv : (nv s <= nv s')%nat;
  ms_val : forall p, value s' p = value s p;
  ms_q : prop_q s' = prop_q s;
  ms_dec : decisions s' = decisions s;
  ms_set : settled C s -> settled C s';
  ms_th : theories s' = set_nth (theories s) i (inr t') }.


(** ** new_var() *)
Theorem mx_new_var_call (s : st) i t : good C s -> nth_error (theories s) i = Some (inr t) ->
  exists s' t', mx_new_var s i = Ok (s', nx t) /\ mside s s' i t' /\ nv s' = nv s /\ nx t' = S (nx t) /\ v_asrts t' = v_asrts t /\ grows t t' /\
    (forall M y, msol s' i M y -> msol s i M y) /\
    (forall M y q, msol s i M y -> msol s' i M (upd y (nx t) q)).
Proof.
  intros G Et. unfold mx_new_var, mx_th. rewrite Et. destruct (t_new_var t) as [t1 x] eqn:E1.
  assert (H1 : t1 = fst (t_new_var t)) by (rewrite E1; reflexivity). assert (Ex : x = nx t) by (unfold t_new_var in E1; inversion E1; reflexivity). subst x.
  destruct (h_views _ _ _ _ (i_h _ _ (g_inv _ _ G)) i (inr t) Et) as (vs0 & [A0 _] & _). destruct (new_var_ok t vs0 A0) as (_ & W & HJ & Ecb & Hfe). rewrite <- H1 in *.
  destruct (put_ok s i t t1 G Et) as (G1 & S1 & M1).
  { subst t1; reflexivity. }
  { intros vs _ H. subst t1. apply new_var_ok, H. }
  { exact Hfe. }
  { exact W. }
  exists (mx_put s i t1), t1. split; [reflexivity|]. split; [constructor; auto; reflexivity|]. split; [reflexivity|]. split; [subst t1; reflexivity|]. split; [subst t1; reflexivity|]. split; [apply wider_grows, W|]. split.
  - intros M y (HM & u & Eu & Hu). rewrite (put_nth s i t t1 Et) in Eu. inversion Eu; subst u. apply M1 in HM as [HM _]. split; [exact HM|]. exists t. split; [exact Et|apply HJ, Hu].
  - intros M y q (HM & u & Eu & Hu). rewrite Et in Eu. inversion Eu; subst u.
    assert (Hj : joint t1 M (upd y (nx t) q)).
    { apply HJ. destruct Hu as (J1 & J2 & J3). destruct (fresh_nonbasic t vs0 (nx t) A0 (le_n _)) as (F1 & F2 & F3 & F4).
      assert (HE : forall u, u <> nx t -> upd y (nx t) q u == y u) by (intros u Hu; rewrite upd_neq by exact Hu; reflexivity). split; [|split; [|exact J3]].
      - intros r k Hi. assert (Hr : r <> nx t) by (intros ->; apply (gasc_in_find _ (wt_asc _ _ _ (ti_wf _ _ A0))) in Hi; congruence).
        rewrite (HE r Hr), (J1 r k Hi). unfold lval. rewrite (msum_ext (upd y (nx t) q) y (lvars k)); [reflexivity|]. intros u Hu. apply HE. intros ->. exact (F4 r k Hi Hu).
      - intros w a Ha. rewrite (J2 w a Ha). unfold ahold. destruct (ti_atom _ _ A0 w a Ha) as (_ & _ & Hax & _). rewrite upd_neq by lia. reflexivity. }
    split; [apply M1; split; [exact HM|eauto]|]. exists t1. split; [apply (put_nth s i t t1 Et)|exact Hj].
Qed.

(** ** new_var(lin), at root level, for an expression over non-basic variables *)
Lemma slack_step (s : st) i t l : good C s -> dlevel s = 0%nat -> nth_error (theories s) i = Some (inr t) -> slackable t l ->
  exists t1 x, t_new_slack (root_level s) t l = Ok (t1, x) /\ mside s (mx_put s i t1) i t1 /\ nv (mx_put s i t1) = nv s /\
    (x < nx t1)%nat /\ wider t t1 /\ v_asrts t1 = v_asrts t /\ s_asrts t1 = s_asrts t /\ (forall y, tsol (tab t1) y -> y x == lval y l) /\
    (forall M y, msol (mx_put s i t1) i M y -> msol s i M y) /\
    (forall M y, msol s i M y -> exists y', (forall z, (z < nx t)%nat -> y' z = y z) /\ msol (mx_put s i t1) i M y') /\
    (lkt l == 0 -> forall k, gfind x (tab t1) = Some k -> lkt k == 0).
Proof.
  intros G Hd Et Hl. assert (Hr : root_level s = true) by (apply root_dlevel, Hd).
  destruct (root_view s i t G Hd Et) as (v & HI & HLay & Hv & Hmv). destruct (new_slack_ok (root_level s) t v l HI Hl Hr) as (t1 & x & E & HI1 & Hx & W & Hs & Hva & Hsa & Hf & _ & Hc & Hkt).
  exists t1, x. split; [exact E|]. destruct (put_ok s i t t1 G Et Hva) as (G1 & S1 & M1).
  { intros vs Hvs H. rewrite Hd in Hvs. destruct vs as [|v' [|? ?]]; try discriminate Hvs. destruct (new_slack_ok (root_level s) t v' l H Hl Hr) as (t2 & x2 & E2 & H2 & _).
    rewrite E in E2. assert (t2 = t1) as -> by congruence. exact H2. }
  { exact Hf. }
  { exact W. }
  split; [constructor; auto; reflexivity|]. split; [reflexivity|]. split; [exact Hx|]. split; [exact W|]. split; [exact Hva|]. split; [exact Hsa|]. split; [exact Hs|]. split; [|split; [|exact Hkt]].
  - intros M y (HM & u & Eu & Hu). rewrite (put_nth s i t t1 Et) in Eu. inversion Eu; subst u. apply M1 in HM as [HM _]. split; [exact HM|]. exists t. split; [exact Et|apply (wd_joint _ _ W), Hu].
  - intros M y (HM & u & Eu & Hu). rewrite Et in Eu. inversion Eu; subst u. destruct (Hc M y (fun p Hp => Hmv M p HM Hp) Hu) as (q & Hq).
    exists (if Nat.ltb x (nx t) then y else upd y x q). split.
    + intros z Hz. destruct (Nat.ltb_spec x (nx t)) as [Hlt|Hge]; [reflexivity|]. rewrite upd_neq by lia. reflexivity.
    + split; [apply M1; split; [exact HM|eauto]|]. exists t1. split; [apply (put_nth s i t t1 Et)|exact Hq].
Qed.
Theorem mx_new_slack_call (s : st) i t l : good C s -> dlevel s = 0%nat -> nth_error (theories s) i = Some (inr t) -> slackable t l ->
  exists s' t' x, mx_new_slack s i l = Ok (s', x) /\ mside s s' i t' /\ nv s' = nv s /\ grows t t' /\ (x < nx t')%nat /\ v_asrts t' = v_asrts t /\ (forall y, tsol (tab t') y -> y x == lval y l) /\
    (forall M y, msol s' i M y -> msol s i M y /\ y x == lval y l) /\
    (forall M y, msol s i M y -> exists y', (forall z, (z < nx t)%nat -> y' z = y z) /\ msol s' i M y').
Proof.
  intros G Hd Et Hl. destruct (slack_step s i t l G Hd Et Hl) as (t1 & x & E & SO & En & Hx & W & Hva & Hsa & Hs & H1 & H2 & _).
  exists (mx_put s i t1), t1, x. split; [unfold mx_new_slack, mx_th; rewrite Et, E; reflexivity|]. split; [exact SO|]. split; [exact En|]. split; [apply wider_grows, W|]. split; [exact Hx|]. split; [exact Hva|]. split; [exact Hs|]. split; [|exact H2].
  intros M y HN. split; [apply H1, HN|]. destruct HN as (_ & u & Eu & Hu). rewrite (put_nth s i t t1 Et) in Eu. inversion Eu; subst u. apply Hs, Hu.
Qed.

(** ** The comparisons, at root level *)
Lemma mean_old (s : st) i t p : good C s -> nth_error (theories s) i = Some (inr t) -> forall a, In (lvar p, a) (v_asrts t) -> (lvar p < nv s)%nat.
Proof. intros G Et a Ha. apply (h_range _ _ _ _ (i_h _ _ (g_inv _ _ G)) i (inr t) (lvar p) Et). cbn. unfold atoms. change (lvar p) with (fst (lvar p, a)). apply in_map, Ha. Qed.

Lemma const_mean (s : st) M : smodels C s M -> mlit M TRUE_lit = true /\ mlit M FALSE_lit = false.
Proof. intros HM. unfold mlit. cbn. rewrite (sm_false _ _ _ HM). auto. Qed.

Theorem mx_cmp_call (s : st) i t sd strict left right : good C s -> dlevel s = 0%nat -> nth_error (theories s) i = Some (inr t) ->
  lin_clean left -> lin_clean right -> (forall v, dom (lvars left) v \/ dom (lvars right) v -> (v < nx t)%nat) ->
  exists s' t' p, mx_cmp s i sd strict left right = Ok (s', p) /\ mside s s' i t' /\ grows t t' /\ (lvar p < nv s')%nat /\ (forall y, rsat t' y -> answers t' p y (cmpP sd strict (lval y left) (lval y right))) /\
    (forall M y, msol s' i M y -> msol s i M y /\ (mlit M p = true <-> cmpP sd strict (lval y left) (lval y right))) /\
    (forall M y, msol s i M y -> (mlit M p = true <-> cmpP sd strict (lval y left) (lval y right)) ->
       exists y', (forall z, (z < nx t)%nat -> y' z = y z) /\ msol s' i M y') /\
    ((lvar p < nv s)%nat \/ (lvar p = nv s /\ lsgn p = true)) /\
    ((lvar p < nv s)%nat -> forall M y, msol s i M y -> (mlit M p = true <-> cmpP sd strict (lval y left) (lval y right))).
Proof.
  intros G Hd Et Hl Hr Hv. unfold mx_cmp, mx_th. rewrite Et. destruct (root_view s i t G Hd Et) as (v & HI & HLay & Hvv & Hmv).
  destruct (lin_add_clean left right Hl Hr) as (_ & _ & Hcl).
  destruct (subst_ok t [v] HI (lin_sub left right) Hcl) as (Hc1 & Hval & Hvar).
  { intros u Hu. apply Hv. cbn [lin_sub lvars] in Hu. apply fold_sub_dom in Hu; [exact Hu|apply Hl]. }
  set (e0 := subst_basic t (lin_sub left right)) in *. set (c := cmp_right sd strict (lkt e0)). set (e := mk_lin (lvars e0) 0).
  assert (Hce : lin_clean e) by exact Hc1. assert (Hn0 : (0 < nv s)%nat) by apply (t_nv s (i_t _ _ (g_inv _ _ G))).
  assert (Hmean : forall y, tsol (tab t) y -> (bhold sd (Some c) (lval y e) <-> cmpP sd strict (lval y left) (lval y right))).
  { intros y Hy. apply right_hold. rewrite <- (lin_sub_ok y left right (proj1 Hl)), <- (Hval y Hy). unfold lval; cbn [e lvars lkt]. lra. }
  assert (SO : mside s s i t) by (constructor; auto; symmetry; apply set_nth_same, Et).
  (* the bounds of the expression hold *)
  assert (Hb : forall sd' M y, msol s i M y -> bhold sd' (bound_lin t sd' e) (lval y e)).
  { intros sd' M y (HM & u & Eu & Hu). rewrite Et in Eu. inversion Eu; subst u. apply (bound_lin_joint t [v] e HI Hce sd' M y (sm_false _ _ _ HM) Hu).
    intros w k _. unfold breason. destruct (fst (cb t (tside sd' k) w)) as [b|] eqn:Eb.
    - destruct (b_why _ _ _ (ti_b _ _ HI) _ _ b Eb) as [[-> _]|[Hi _]]; [apply (const_mean s M HM)|]. cbn in Hi. rewrite app_nil_r in Hi. apply (Hmv M _ HM Hi).
    - rewrite (b_none _ _ _ (ti_b _ _ HI) _ _ Eb). apply (const_mean s M HM). }
  assert (Htab : forall M y, msol s i M y -> tsol (tab t) y) by (intros M y (_ & u & Eu & Hu); rewrite Et in Eu; inversion Eu; subst u; apply Hu).
  assert (Hb0 : forall sd' y, rsat t y -> bhold sd' (bound_lin t sd' e) (lval y e)).
  { intros sd' y [Hy1 Hy2]. rewrite bound_lin_sum. unfold rootcb in Hy2. rewrite HLay in Hy2. cbn [unwind] in Hy2. eapply bhold_eq; [|apply (bsum_hold sd' (fun v c => bound t (tside sd' c) v) y (lvars e) (Some (qe_of (lkt e))) (lkt e))].
    - unfold lval. ring.
    - apply Hce.
    - intros u k _. split; [apply (b_sgn _ _ _ (ti_b _ _ HI))|apply Hy2].
    - destruct sd'; cbn; lra.
    - destruct sd'; cbn; lra. }
  destruct (cmp_sat sd strict c (bound_lin t sd e)) eqn:E1.
  { exists s, t, TRUE_lit. split; [reflexivity|]. split; [exact SO|]. split; [apply grows_refl|]. split; [exact Hn0|]. split; [intros y Hy; left; split; [reflexivity|]; apply (Hmean y (proj1 Hy)); apply (cmp_sat_ok _ _ _ _ _ E1 (Hb0 sd y Hy))|].
    assert (K : forall M y, msol s i M y -> (mlit M TRUE_lit = true <-> cmpP sd strict (lval y left) (lval y right))).
    { intros M y HN. rewrite (proj1 (const_mean s M (proj1 HN))). split; [intros _|auto]. apply (Hmean y (Htab M y HN)). apply (cmp_sat_ok _ _ _ _ _ E1 (Hb sd M y HN)). }
    split; [intros M y HN; split; [exact HN|apply K, HN]|]. split; [intros M y HN _; exists y; auto|]. split; [left; exact Hn0|]. intros _. exact K. }
  destruct (cmp_unsat sd strict c (bound_lin t (other sd) e)) eqn:E2.
  { exists s, t, FALSE_lit. split; [reflexivity|]. split; [exact SO|]. split; [apply grows_refl|]. split; [exact Hn0|]. split; [intros y Hy; right; left; split; [reflexivity|]; intros Hx; apply (Hmean y (proj1 Hy)) in Hx; revert Hx; apply (cmp_unsat_ok _ _ _ _ _ (bound_lin_sgn t [v] e (other sd) HI Hce) E2 (Hb0 (other sd) y Hy))|].
    assert (K : forall M y, msol s i M y -> (mlit M FALSE_lit = true <-> cmpP sd strict (lval y left) (lval y right))).
    { intros M y HN. rewrite (proj2 (const_mean s M (proj1 HN))). split; [discriminate|]. intros Hx. exfalso. apply (Hmean y (Htab M y HN)) in Hx. revert Hx.
      apply (cmp_unsat_ok _ _ _ _ _ (bound_lin_sgn t [v] e (other sd) HI Hce) E2 (Hb (other sd) M y HN)). }
    split; [intros M y HN; split; [exact HN|apply K, HN]|]. split; [intros M y HN _; exists y; auto|]. split; [left; exact Hn0|]. intros _. exact K. }
  assert (Hne : lvars e <> []).
  { intros En. assert (Eb : forall sd', bound_lin t sd' e = Some (qe_of 0)) by (intros sd'; unfold bound_lin; rewrite En; reflexivity). rewrite Eb in E1, E2. exact (cmp_empty _ _ _ _ E1 E2). }
  assert (Hsl : slackable t e) by (constructor; [exact Hce|exact Hne|exact Hvar]).
  destruct (slack_step s i t e G Hd Et Hsl) as (t1 & x & Es & SO1 & En1 & Hx & W & Hva & Hsa & Hs & N1 & N2 & N3). specialize (N3 (Qeq_refl 0)). rewrite Es. cbn [rbind]. set (s1 := mx_put s i t1) in *.
  assert (Et1 : nth_error (theories s1) i = Some (inr t1)) by apply (put_nth s i t t1 Et). assert (G1 := ms_good _ _ _ _ SO1).
  assert (Hd1 : dlevel s1 = 0%nat) by (rewrite (ms_dl _ _ _ _ SO1); exact Hd).
  destruct (root_view s1 i t1 G1 Hd1 Et1) as (v1 & HI1 & HLay1 & Hvv1 & Hmv1).
  assert (Hj1 : forall M y, msol s1 i M y -> joint t1 M y) by (intros M y (_ & u & Eu & Hu); rewrite Et1 in Eu; inversion Eu; subst u; exact Hu).
  assert (Hmean1 : forall M y, msol s1 i M y -> (bhold sd (Some c) (y x) <-> cmpP sd strict (lval y left) (lval y right))).
  { intros M y HN. rewrite <- (Hmean y (Htab M y (N1 M y HN))). assert (Ex : y x == lval y e) by (apply Hs, (Hj1 M y HN)). split; apply bhold_eq; [exact Ex|symmetry; exact Ex]. }
  assert (Hb1 : forall sd' M y, msol s1 i M y -> bhold sd' (bound t1 sd' x) (y x)).
  { intros sd' M y HN. assert (HM := proj1 HN). apply (bound_holds t1 [v1] HI1 (cb t1) [v1] (ti_b _ _ HI1) _ _ M y (sm_false _ _ _ HM) (Hj1 M y HN)).
    destruct (fst (cb t1 sd' x)) as [b|] eqn:Eb.
    - destruct (b_why _ _ _ (ti_b _ _ HI1) _ _ b Eb) as [[-> _]|[Hi _]]; [apply (const_mean s1 M HM)|]. cbn in Hi. rewrite app_nil_r in Hi. apply (Hmv1 M _ HM Hi).
    - rewrite (b_none _ _ _ (ti_b _ _ HI1) _ _ Eb). apply (const_mean s1 M HM). }
  assert (Hmean2 : forall y, tsol (tab t1) y -> (bhold sd (Some c) (y x) <-> cmpP sd strict (lval y left) (lval y right))).
  { intros y Hy. rewrite <- (Hmean y (wd_sol _ _ W y Hy)). assert (Ex : y x == lval y e) by apply (Hs y Hy). split; apply bhold_eq; [exact Ex|symmetry; exact Ex]. }
  assert (Hb2 : forall sd' y, rsat t1 y -> bhold sd' (bound t1 sd' x) (y x)).
  { intros sd' y [_ Hy]. specialize (Hy sd' x). unfold rootcb in Hy. rewrite HLay1 in Hy. exact Hy. }
  (* an answer already available in s1 *)
  assert (OLD : forall p, (lvar p < nv s)%nat -> (forall y, rsat t1 y -> answers t1 p y (bhold sd (Some c) (y x))) -> (forall M y, msol s1 i M y -> (mlit M p = true <-> bhold sd (Some c) (y x))) ->
    exists s' t' p', Ok (s1, p) = Ok (s', p') /\ mside s s' i t' /\ grows t t' /\ (lvar p' < nv s')%nat /\ (forall y, rsat t' y -> answers t' p' y (cmpP sd strict (lval y left) (lval y right))) /\
    (forall M y, msol s' i M y -> msol s i M y /\ (mlit M p' = true <-> cmpP sd strict (lval y left) (lval y right))) /\
    (forall M y, msol s i M y -> (mlit M p' = true <-> cmpP sd strict (lval y left) (lval y right)) ->
       exists y', (forall z, (z < nx t)%nat -> y' z = y z) /\ msol s' i M y') /\
    ((lvar p' < nv s)%nat \/ (lvar p' = nv s /\ lsgn p' = true)) /\
    ((lvar p' < nv s)%nat -> forall M y, msol s i M y -> (mlit M p' = true <-> cmpP sd strict (lval y left) (lval y right)))).
  { intros p Hp HA HK. exists s1, t1, p. split; [reflexivity|]. split; [exact SO1|]. split; [apply wider_grows, W|]. split; [rewrite En1; exact Hp|].
    split; [intros y Hy; pose proof (Hmean2 y (proj1 Hy)) as K; destruct (HA y Hy) as [[-> K1]|[[-> K1]|(a & K1 & K2 & K3)]]; [left|right; left|right; right; exists a]; tauto|].
    split; [intros M y HN; split; [apply N1, HN|rewrite (HK M y HN); apply (Hmean1 M y HN)]|]. split; [intros M y HN _; apply N2, HN|]. split; [left; exact Hp|].
    intros _ M y HN. destruct (N2 M y HN) as (y' & Hy' & HN'). rewrite (HK M y' HN'), (Hmean1 M y' HN').
    assert (Hsame : forall l, (forall u, dom (lvars l) u -> (u < nx t)%nat) -> lval y' l == lval y l).
    { intros l Hlv. unfold lval. rewrite (msum_ext y' y (lvars l)); [reflexivity|]. intros u Hu. rewrite (Hy' u (Hlv u Hu)). reflexivity. }
    assert (S1 := Hsame left (fun u Hu => Hv u (or_introl Hu))). assert (S2 := Hsame right (fun u Hu => Hv u (or_intror Hu))).
    unfold cmpP. destruct sd, strict; lra. }
  destruct (cmp_sat sd strict c (bound t1 sd x)) eqn:E3.
  { apply OLD; [exact Hn0|intros y Hy; left; split; [reflexivity|apply (cmp_sat_ok _ _ _ _ _ E3 (Hb2 sd y Hy))]|]. intros M y HN. rewrite (proj1 (const_mean s1 M (proj1 HN))). split; [intros _|auto]. apply (cmp_sat_ok _ _ _ _ _ E3 (Hb1 sd M y HN)). }
  destruct (cmp_unsat sd strict c (bound t1 (other sd) x)) eqn:E4.
  { apply OLD; [exact Hn0|intros y Hy; right; left; split; [reflexivity|apply (cmp_unsat_ok _ _ _ _ _ (b_sgn _ _ _ (ti_b _ _ HI1) _ _) E4 (Hb2 (other sd) y Hy))]|]. intros M y HN. rewrite (proj2 (const_mean s1 M (proj1 HN))). split; [discriminate|]. intros Hx'. exfalso. revert Hx'.
    apply (cmp_unsat_ok _ _ _ _ _ (b_sgn _ _ _ (ti_b _ _ HI1) _ _) E4 (Hb1 (other sd) M y HN)). }
  destruct (find_asrt t1 sd x c) as [p|] eqn:E5.
  { destruct (find_asrt_ok t1 [v1] sd x c p HI1 E5) as (a & A1 & A2 & A3 & A4 & A5). apply OLD.
    - rewrite <- En1. apply (mean_old s1 i t1 p G1 Et1 a A1).
    - intros y Hy. right; right. exists a. split; [exact A1|]. split; [rewrite A2; symmetry; apply (ti_atom _ _ HI1 _ _ A1)|]. unfold ahold. rewrite A3, A4. apply (bhold_qeq sd _ _ _ A5).
    - intros M y HN. destruct (Hj1 M y HN) as (_ & J & _). specialize (J _ _ A1). unfold ahold in J. rewrite A3, A4, (bhold_qeq sd (a_v a) c (y x) A5) in J.
      rewrite <- J. rewrite A2. unfold mlit. cbn. destruct (M (lvar p)); cbn; split; congruence. }
  (* a new atom *)
  clear OLD. destruct (SatApi.new_var_ok C s1 (g_inv _ _ G1)) as [Ev V]. destruct (new_var_ext C s1 (g_inv _ _ G1) (g_cache _ _ G1)) as (HE & _ & _).
  destruct (new_var s1) as [s2 w] eqn:E6. cbn [fst snd] in *. subst w. set (w := nv s1) in *.
  assert (G2 : good C s2).
  { constructor; [apply HE|apply HE|]. intros Hx'. rewrite (e_dl _ _ _ HE) in Hx'. lia. }
  assert (Et2 : nth_error (theories s2) i = Some (inr t1)) by (rewrite (vp_ths _ _ _ V); exact Et1).
  assert (Hw0 : (0 < w)%nat) by (rewrite En1; exact Hn0).
  assert (Hwu : assigns s1 w = LUndef) by (apply (t_out s1 (i_t _ _ (g_inv _ _ G1))); apply le_n).
  assert (Hwa : ~ atoms t1 w).
  { intros Ha. pose proof (h_range _ _ _ _ (i_h _ _ (g_inv _ _ G1)) i (inr t1) w Et1 Ha) as Hr'. lia. }
  assert (Hwf : forall b, ~ In (mk_lit w b) (facts t1)).
  { intros b Hi. apply (ti_facts _ _ HI1) in Hi. cbn [last] in Hi. destruct (Hvv1 _ Hi) as [Hval' _]. assert (Hun : value s1 (mk_lit w b) = LUndef) by (apply value_undef, Hwu). congruence. }
  assert (Hbok := right_ok sd strict (lkt e0)). fold c in Hbok.
  set (t3 := add_asrt t1 sd x c w). destruct (add_asrt_ok t1 [v1] sd x c w HI1 N3 Hwa (proj2 (Nat.neq_0_lt_0 _) Hw0) Hx Hbok) as (_ & W3 & Hat3 & Hf3 & HJ3). fold t3 in W3, Hat3, Hf3, HJ3.
  destruct (grow_ok C s2 i (inr t1) (inr t3) (Some w) G2 Et2) as (G3 & S3 & M3).
  { intros u. cbn [th_atom sumC sum_atom lraT lraC mk_strict]. rewrite Hat3. split; (intros [H|H]; [left; exact H|right; congruence]). }
  { intros u Eu. inversion Eu; subst u. split; [rewrite (vp_nv _ _ _ V); unfold w; lia|]. split; [rewrite (vp_assigns _ _ _ V); exact Hwu|exact Hwa]. }
  { intros vs _ [Hvs _] _. split; [|exact I]. apply (add_asrt_ok t1 vs sd x c w Hvs N3 Hwa (proj2 (Nat.neq_0_lt_0 _) Hw0) Hx Hbok). }
  { exact Hf3. }
  { intros M _ (y & _ & Hy). exists y. split; [exact I|]. apply (wd_joint _ _ W3), Hy. }
  { intros m u Hx'. exact Hx'. }
  exists (mx_put (bind s2 w i) i t3), t3, (mk_lit w true). split; [reflexivity|].
  assert (Eg : mx_put (bind s2 w i) i t3 = grow_st s2 i (inr t3) (Some w)).
  { unfold mx_put, grow_st. rewrite bind_eq. reflexivity. }
  rewrite Eg. set (s3 := grow_st s2 i (inr t3) (Some w)) in *.
  assert (Eb : s3 = set_theories (set_nth (theories s2) i (inr t3)) (set_bounds (bounds (bind s2 w i)) s2)).
  { unfold s3, grow_st. rewrite bind_eq. reflexivity. }
  assert (Et3 : nth_error (theories s3) i = Some (inr t3)).
  { rewrite Eb. cbn [theories set_theories]. rewrite nth_set_nth by (apply nth_error_Some; congruence). rewrite Nat.eqb_refl. reflexivity. }
  assert (Hn3 : nv s3 = S (nv s)) by (rewrite Eb; cbn [nv set_theories set_bounds]; rewrite (vp_nv _ _ _ V); f_equal; exact En1).
  assert (Hw : w = nv s) by exact En1.
  split.
  { destruct SO1 as [Q1 Q2 Q3 Q4 Q5 Q6 Q7 Q8]. constructor.
    - exact G3.
    - rewrite <- Q2. rewrite Eb. change (dlevel s2 = dlevel s1). apply HE.
    - rewrite Hn3. lia.
    - intros p. rewrite <- Q4. rewrite Eb. change (value s2 p = value s1 p). unfold value, vlit. rewrite (vp_assigns _ _ _ V). reflexivity.
    - rewrite <- Q5, Eb. apply (vp_q _ _ _ V).
    - rewrite <- Q6, Eb. apply (vp_trail _ _ _ V).
    - intros Hset. apply S3. intros u Hu. rewrite (vp_ths _ _ _ V) in Hu. apply (Q7 Hset u Hu).
    - rewrite Eb. cbn [theories set_theories]. rewrite (vp_ths _ _ _ V), Q8. apply set_nth_twice. }
  split; [eapply grows_trans; apply wider_grows; eassumption|]. split; [cbn [lvar]; lia|].
  split.
  { intros y [Hy _]. right; right. exists (mk_asrt sd (mk_lit w true) x c). split; [cbn [lvar t3 add_asrt v_asrts]; apply in_or_app; right; left; reflexivity|]. split; [reflexivity|]. apply Hmean2. exact Hy. }
  assert (Hmw := fun M => mlit_pos M w).
  split; [|split; [|split]].
  - intros M y (HM & u & Eu & Hu). rewrite Et3 in Eu. inversion Eu; subst u. apply M3 in HM as [HM _]. apply (vp_models _ _ _ V) in HM. apply HJ3 in Hu as (Hu & Hb' & _).
    assert (HN : msol s1 i M y) by (split; [exact HM|exists t1; auto]). split; [apply N1, HN|]. rewrite Hmw, Hb'. apply (Hmean1 M y HN).
  - intros M y HN Hmm. destruct (N2 M y HN) as (y' & Hy' & HN'). exists y'. split; [exact Hy'|].
    assert (Hj : joint t3 M y').
    { apply HJ3. split; [apply (Hj1 M y' HN')|]. split; [|split; intros Hi; destruct (Hwf _ Hi)]. rewrite (Hmean1 M y' HN'), <- Hmw, Hmm.
      assert (Hsame : forall l, (forall u, dom (lvars l) u -> (u < nx t)%nat) -> lval y' l == lval y l).
      { intros l Hlv. unfold lval. rewrite (msum_ext y' y (lvars l)); [reflexivity|]. intros u Hu. rewrite (Hy' u (Hlv u Hu)). reflexivity. }
      assert (S1 := Hsame left (fun u Hu => Hv u (or_introl Hu))). assert (S2 := Hsame right (fun u Hu => Hv u (or_intror Hu))). unfold cmpP. destruct sd, strict; lra. }
    split; [|exists t3; auto]. apply M3. split; [apply (vp_models _ _ _ V), HN'|exists y'; split; [exact I|exact Hj]].
  - right. cbn. split; [exact Hw|reflexivity].
  - cbn [lvar]. rewrite Hw. lia.
Qed.
End Api.
End Srt.
