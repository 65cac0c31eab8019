(** A network with a linear real arithmetic theory whose history may also contain equalities between
    literals, at-most-one and exactly-one constraints. *)
From Verif Require Import Base Keys Sat SatSpec SatInv SatPop SatImp SatRec SatAn SatProp SatLoop SatMain SatApi SatApi2 SatNext SatSimp Reify Amo Run SatFacts SatProps Exec Full FullEnd.
From Verif Require Import Lin Qe Lra LraTab LraVal LraInv LraChk LraPro LraCon ThGrow LraNew LraCmp ThRel LraApi LraRun LraEnd LraExec.
From Coq Require Import Lqa.
Local Arguments Nat.ltb : simpl never.
Local Arguments Nat.eqb : simpl never.
Section Srt.
Context {sr : sorter}.

(** What one call tells the client, about a Boolean assignment and the values of the numeric variables. *)
Definition ltold (e : levent) (M : nat -> bool) (y : nat -> Q) : Prop :=
  match lev_call e, lev_ret e with
  | LSat c, LR r => Full.told (mk_ev c (lev_decs e) r) M
  | LSlack l, LX x => y x == lval y l
  | LCmp sd strict l r, LP p => mlit M p = true <-> cmpP sd strict (lval y l) (lval y r)
  | _, _ => True
  end.
(** The Boolean variables the client knows: the constant and those it was given. *)
Definition lseen (tr : list levent) (v : nat) : Prop :=
  v = 0%nat \/ exists e, In e tr /\ match lev_ret e with LR (RVar w) => v = w | LR (RLit p) | LP p => v = lvar p | _ => False end.
Definition lrespects (tr : list levent) (M : nat -> bool) (y : nat -> Q) : Prop := M 0%nat = false /\ forall e, In e tr -> ltold e M y.

Section LFull.
Context (ord : nat -> list nat -> list nat) (Hord : forall k l, Permutation l (ord k l)) (fuel : lra -> nat).
Notation C := (lraT ord Hord fuel).
Notation ops := (lra_ops ord fuel).
Notation st := (st lra).
Notation nsol := (nsol ord Hord fuel).
Notation CY := (fun Y t => lraC ord Hord fuel Y (later t) (HPlater t)).

(** Known variables only; the conditions of [Full.careful] on equalities, at-most-one and exactly-one. *)
Definition lcareful (tr : list levent) (s : st) (c : lcall) : Prop :=
  match c with LSat c => careful (lseen tr) s c | _ => forall x, In x (lvars_of c) -> In x (known tr) end.
Inductive FTrace : list levent -> st -> Prop :=
| FT_init : FTrace [] linit
| FT_step fl tr s c s' r : FTrace tr s -> llegal ord Hord fuel s c -> lcareful tr s c -> lstep ord fuel fl s c = Ok (s', r) -> lalive ord Hord fuel s' r ->
    FTrace (mk_lev c (decisions s) r :: tr) s'.
Lemma ftrace_trace tr s : FTrace tr s -> LTrace ord Hord fuel tr s.
Proof. induction 1; [constructor|econstructor; eassumption]. Qed.
Lemma ftrace_good tr s : FTrace tr s -> lgood ord Hord fuel s.
Proof. intros H. eapply ltrace_good, ftrace_trace, H. Qed.

(** Every solution respects what was told. *)
Theorem ffull_sound tr s : FTrace tr s -> forall M y, nsol s 0 M y -> lrespects tr M y.
Proof.
  induction 1 as [|fl tr s c s' r HT IH HL HV HE HA]; intros M y HN.
  - split; [apply linit_good in HN; exact HN|intros e []].
  - pose proof (ftrace_good _ _ HT) as G. destruct (lstep_ok ord Hord fuel fl s s' c r G HL HE HA) as (G' & _ & _ & H & _). destruct (H M y HN) as [H1 H2]. destruct (IH M y H1) as [A B].
    split; [exact A|]. intros e [<-|He]; [|apply B, He]. destruct c as [c| |l|sd strict l k]; cbn [ltold lev_call lev_ret lev_decs]; [|exact Logic.I|exact H2|exact H2].
    cbn [lstep] in HE. destruct (step fl s c) as [[s1 r1]| |] eqn:E; cbn [rbind] in HE; try discriminate. injection HE as -> <-.
    destruct G as [G (t & Et)]. apply (step_told C fl s s' c r1 (lseen tr) G HL HV E M). apply HN.
Qed.

(** What the calls of the theory do to the expressions of the core and to the assertions of the theory. *)
Lemma slack_asrts b t e t1 x : t_new_slack b t e = Ok (t1, x) -> v_asrts t1 = v_asrts t.
Proof.
  unfold t_new_slack. destruct (lvars e); cbn [guard]; [discriminate|]. destruct (find_slack t e); [intros E; injection E as <- _; reflexivity|].
  destruct b; cbn [guard]; [|discriminate]. unfold t_new_var. cbv zeta. destruct (new_row _ _ _ _). intros E. injection E as <- _. reflexivity.
Qed.
Lemma cmp_shape (s s' : st) t t' sd strict l k p : good C s' -> dlevel s' = 0%nat -> theories s = [t] -> theories s' = [t'] -> lra_cmp s 0 sd strict l k = Ok (s', p) ->
  (exprs s' = exprs s /\ nv s' = nv s /\ (lvar p = 0%nat \/ exists a, In (lvar p, a) (v_asrts t)) /\ v_asrts t' = v_asrts t) \/
  (exprs s' = exprs s ++ [(key_var (nv s), p)] /\ p = mk_lit (nv s) true /\ nv s' = S (nv s) /\ exists a, v_asrts t' = v_asrts t ++ [(nv s, a)]).
Proof.
  intros G' Hd Et Et' E. unfold lra_cmp, with_th in E. rewrite Et in E. cbn [nth_error] in E. cbv zeta in E.
  set (e := subst_basic t (lin_sub l k)) in *. set (c := cmp_right sd strict (lkt e)) in *. set (e1 := mk_lin (lvars e) 0) in *.
  destruct (cmp_sat sd strict c (bound_lin t sd e1)). { injection E as <- <-. left. rewrite Et in Et'. injection Et' as <-. auto. }
  destruct (cmp_unsat sd strict c (bound_lin t (other sd) e1)). { injection E as <- <-. left. rewrite Et in Et'. injection Et' as <-. auto. }
  destruct (t_new_slack (root_level s) t e1) as [[t1 x]| |] eqn:Es; cbn [rbind] in E; try discriminate. apply slack_asrts in Es.
  assert (Ht : theories (put_th s 0 t1) = [t1]) by (cbn; rewrite Et; reflexivity).
  destruct (cmp_sat sd strict c (bound t1 sd x)). { injection E as <- <-. left. rewrite Ht in Et'. injection Et' as <-. auto. }
  destruct (cmp_unsat sd strict c (bound t1 (other sd) x)). { injection E as <- <-. left. rewrite Ht in Et'. injection Et' as <-. auto. }
  destruct (find_asrt t1 sd x c) as [q|] eqn:Ef.
  { injection E as <- <-. left. rewrite Ht in Et'. injection Et' as <-. split; [reflexivity|]. split; [reflexivity|]. split; [|exact Es]. right.
    destruct (root_view ord Hord fuel (put_th s 0 t1) 0 t1 G' Hd) as (v & HI & _); [rewrite Ht; reflexivity|].
    destruct (find_asrt_ok t1 [v] sd x c q HI Ef) as (a & Ha & _). rewrite Es in Ha. eauto. }
  cbn [new_var] in E. injection E as <- <-. right.
  assert (Hb : forall s2 v, exprs (bind (T := lra) s2 v 0) = exprs s2 /\ nv (bind (T := lra) s2 v 0) = nv s2 /\ theories (bind (T := lra) s2 v 0) = theories s2).
  { intros s2 v. unfold bind. destruct (memn 0 (bounds s2 v)); auto. }
  unfold put_th in Et'. cbn [theories set_theories] in Et'. unfold put_th. cbn [exprs nv set_theories].
  match goal with |- context [bind ?a ?v 0] => destruct (Hb a v) as (H1 & H2 & H3) end. rewrite H1, H2. rewrite H3 in Et'. cbn [exprs nv theories] in *.
  split; [reflexivity|]. split; [reflexivity|]. split; [reflexivity|]. rewrite Et in Et'. cbn in Et'. injection Et' as <-. cbn. rewrite Es. eauto.
Qed.

Definition atoms_seen (V : nat -> Prop) (s : st) : Prop := forall t v a, theories s = [t] -> In (v, a) (v_asrts t) -> V v.
Lemma seen_any (V : nat -> Prop) (s : st) Y t : seen_ok C V s -> seen_ok (CY Y t) V s.
Proof. intros (A & B & D). split; [exact A|]. split; [exact B|]. intros (M & HM). apply D. exists M. eapply models_any, HM. Qed.
Lemma lseen_event tr c ds r v : lseen (mk_lev c ds r :: tr) v <->
  lseen tr v \/ match r with LR (RVar w) => v = w | LR (RLit p) | LP p => v = lvar p | _ => False end.
Proof.
  split.
  - intros [H|(e & [<-|He] & H)]; [left; left; exact H|right; exact H|left; right; eauto].
  - intros [[H|(e & He & H)]|H]; [left; exact H|right; exists e; split; [right; exact He|exact H]|]. right. eexists. split; [left; reflexivity|exact H].
Qed.

Theorem ffull_complete tr s : FTrace tr s -> seen_ok C (lseen tr) s /\ atoms_seen (lseen tr) s /\
  forall M y, lrespects tr M y -> exists M' y', (forall v, lseen tr v -> M' v = M v) /\ (forall x, In x (known tr) -> y' x == y x) /\ nsol s 0 M' y'.
Proof.
  induction 1 as [|fl tr s c s' r HT IH HL HV HE HA].
  - split; [|split].
    + destruct linit_good with (ord := ord) (Hord := Hord) (fuel := fuel) as [[G _] _]. split; [|split; [left; reflexivity|]].
      * intros v [->|(e & [] & _)]. apply (t_nv linit (i_t _ _ (g_inv _ _ G))).
      * intros _ o e Hi _. left. destruct (g_cache _ _ G _ _ Hi) as (_ & _ & _ & Hr & _). cbn in Hr. lia.
    + intros t v a Et Hi. cbn in Et. injection Et as <-. destruct Hi.
    + intros M y [H0 _]. exists M, y. split; [reflexivity|]. split; [intros x []|]. apply linit_good, H0.
  - destruct IH as (IS & IA & IM). pose proof (ftrace_good _ _ HT) as LG. destruct LG as [G (t0 & Et0)].
    destruct (lstep_ok ord Hord fuel fl s s' c r (ftrace_good _ _ HT) HL HE HA) as ([G' (t1 & Et1)] & Hnv & HG & HN & H2).
    destruct (HG t0 t1 Et0 Et1) as [Gw _]. clear HG.
    pose proof (known_lt ord Hord fuel tr s (ftrace_trace _ _ HT) t0 Et0) as Kn.
    destruct c as [c| |l|sd strict l k]; cbn [lstep llegal lcareful lvars_of] in *.
    + (* a call of the core *)
      destruct (step fl s c) as [[s1 r1]| |] eqn:E; cbn [rbind] in HE; try discriminate. injection HE as -> <-.
      destruct (sat_step ord Hord fuel fl s s' t0 c r1 G Et0 HL E) as (_ & _ & t' & Et' & La & _); [intros ->; apply HA; reflexivity|].
      rewrite Et1 in Et'. injection Et' as <-.
      assert (Hev : forall v, (lseen tr v \/ match r1 with RVar w => v = w | RLit p => v = lvar p | _ => False end) <-> lseen (mk_lev (LSat c) (decisions s) (LR r1) :: tr) v).
      { intros v. rewrite lseen_event. destruct r1; reflexivity. }
      split; [|split].
      * eapply seen_ok_ext; [exact Hev|]. exact (proj1 (full_step C fl s s' (lseen tr) c r1 G HL HV E IS)).
      * intros t v a Et Hi. rewrite Et1 in Et. injection Et as <-. apply Hev. left. apply (IA t0 v a Et0). rewrite <- (sm_va _ _ (lt_same _ _ La)). exact Hi.
      * intros M y [H0 Ht]. destruct (IM M y) as (M0 & y0 & A0 & Y0 & N0); [split; [exact H0|intros e He; apply Ht; right; exact He]|].
        assert (HP : forall u, In u (theories s) -> later t0 u) by (intros u Hu; rewrite Et0 in Hu; destruct Hu as [<-|[]]; apply later_refl).
        destruct (full_step (CY (eq y0) t0) fl s s' (lseen tr) c r1 (good_any ord Hord fuel s (eq y0) t0 G HP) HL HV E (seen_any _ _ _ _ IS)) as [_ B].
        destruct (B M M0) as (M1 & S1 & A1).
        { apply (nsol_single ord Hord fuel s t0 t0 M0 y0 Et0), N0. } { exact A0. } { exact (Ht _ (or_introl eq_refl)). }
        exists M1, y0. split; [intros v Hv; apply A1, Hev, Hv|]. split; [exact Y0|]. apply (nsol_single ord Hord fuel s' t1 t0 M1 y0 Et1), S1.
    + (* new_var() *)
      destruct (new_var_call ord Hord fuel s 0 t0 G) as (s1 & u & E & SO & En & Hnx & Hva & _ & K1 & K2); [rewrite Et0; reflexivity|].
      assert (Hex : exprs s' = exprs s). { unfold lra_new_var, with_th in HE. rewrite Et0 in HE. cbn [nth_error] in HE. destruct (t_new_var t0). cbn [rbind] in HE. injection HE as <- _. reflexivity. }
      rewrite E in HE. cbn [rbind] in HE. injection HE as -> <-.
      assert (u = t1) as -> by (pose proof (so_th _ _ _ _ _ _ _ SO) as H; rewrite Et0, Et1 in H; cbn in H; congruence).
      assert (Hev : forall v, lseen tr v <-> lseen (mk_lev LVar (decisions s) (LX (nx t0)) :: tr) v) by (intros v; rewrite lseen_event; tauto).
      split; [|split].
      * eapply seen_ok_ext; [exact Hev|]. apply (seen_ok_same C (lseen tr) s s' Hex Hnv); [|exact IS]. intros M HM.
        destruct (sm_th _ _ _ HM t1) as (y & _ & Hy); [rewrite Et1; left; reflexivity|]. apply (K1 M y). split; [exact HM|]. exists t1. split; [rewrite Et1; reflexivity|exact Hy].
      * intros t v a Et Hi. rewrite Et1 in Et. injection Et as <-. apply Hev, (IA t0 v a Et0). rewrite <- Hva. exact Hi.
      * intros M y [H0 Ht]. destruct (IM M y) as (M0 & y0 & A0 & Y0 & N0); [split; [exact H0|intros e He; apply Ht; right; exact He]|].
        exists M0, (upd y0 (nx t0) (y (nx t0))). split; [intros v Hv; apply A0, Hev, Hv|]. split; [|apply K2, N0].
        intros x Hx. unfold known in Hx. cbn [flat_map lev_ret app] in Hx. destruct Hx as [<-|Hx]; [rewrite upd_eq; reflexivity|].
        specialize (Kn x Hx). rewrite upd_neq by lia. apply Y0, Hx.
    + (* new_var(lin) *)
      assert (Hex : exprs s' = exprs s /\ v_asrts t1 = v_asrts t0 /\ exists x, r = LX x).
      { destruct (lra_new_slack s 0 l) as [[s1 x]| |] eqn:E; cbn [rbind] in HE; try discriminate. injection HE as -> <-. unfold lra_new_slack, with_th in E. rewrite Et0 in E. cbn [nth_error] in E.
        destruct (t_new_slack (root_level s) t0 l) as [[u z]| |] eqn:Es; cbn [rbind] in E; try discriminate. injection E as <- _. cbn in Et1. rewrite Et0 in Et1. cbn in Et1. injection Et1 as <-.
        split; [reflexivity|]. split; [eapply slack_asrts, Es|eauto]. }
      destruct Hex as (Hex & Hva & x & ->).
      assert (Hev : forall v, lseen tr v <-> lseen (mk_lev (LSlack l) (decisions s) (LX x) :: tr) v) by (intros v; rewrite lseen_event; tauto).
      assert (Hmod : forall M, smodels C s' M -> smodels C s M).
      { intros M HM. destruct (sm_th _ _ _ HM t1) as (y & _ & Hy); [rewrite Et1; left; reflexivity|]. apply (HN M y). split; [exact HM|]. exists t1. split; [rewrite Et1; reflexivity|exact Hy]. }
      split; [|split].
      * eapply seen_ok_ext; [exact Hev|]. apply (seen_ok_same C (lseen tr) s s' Hex Hnv Hmod IS).
      * intros t v a Et Hi. rewrite Et1 in Et. injection Et as <-. apply Hev, (IA t0 v a Et0). rewrite <- Hva. exact Hi.
      * intros M y [H0 Ht]. destruct (IM M y) as (M0 & y0 & A0 & Y0 & N0); [split; [exact H0|intros e He; apply Ht; right; exact He]|].
        destruct (H2 Logic.I M0 y0 N0) as (y2 & N2 & A2); [right; eauto|]. exists M0, y2. split; [intros v Hv; apply A0, Hev, Hv|]. split; [|exact N2].
        assert (Hold : forall z, In z (known tr) -> y2 z == y z) by (intros z Hz; rewrite (A2 t0 Et0 z (Kn z Hz)); apply Y0, Hz).
        intros z Hz. unfold known in Hz. cbn [flat_map lev_ret app] in Hz. destruct Hz as [<-|Hz]; [|apply Hold, Hz].
        destruct (HN M0 y2 N2) as [_ Hs]. specialize (Ht _ (or_introl eq_refl)). cbn [lsaid ltold lev_call lev_ret] in *. rewrite Hs, Ht. apply (lval_agree y y2 l (known tr)); [exact Hold|]. intros u Hu. apply HV, Hu.
    + (* a comparison *)
      destruct HL as (Hd & Hl & Hr & u & Eu & Hv). rewrite Et0 in Eu. injection Eu as <-.
      destruct (cmp_call ord Hord fuel s 0 t0 sd strict l k G Hd) as (s1 & t2 & p & E & SO & _ & Hp & _ & K1 & K2 & Hpos & K3); [rewrite Et0; reflexivity|exact Hl|exact Hr| |].
      { intros v Hv'. apply Hv. cbn [lvars_of]. apply in_or_app. destruct Hv' as [Hv'|Hv']; [left|right]; apply dom_fst, Hv'. }
      rewrite E in HE. cbn [rbind] in HE. injection HE as -> <-.
      assert (Hd' : dlevel s' = 0%nat) by (rewrite (so_dl _ _ _ _ _ _ _ SO); exact Hd).
      pose proof (cmp_shape s s' t0 t1 sd strict l k p G' Hd' Et0 Et1 E) as Sh.
      assert (Hev : forall v, lseen tr v \/ v = lvar p <-> lseen (mk_lev (LCmp sd strict l k) (decisions s) (LP p) :: tr) v) by (intros v; rewrite lseen_event; tauto).
      assert (Hmod : forall M, smodels C s' M -> smodels C s M).
      { intros M HM. destruct (sm_th _ _ _ HM t1) as (y & _ & Hy); [rewrite Et1; left; reflexivity|]. apply (HN M y). split; [exact HM|]. exists t1. split; [rewrite Et1; reflexivity|exact Hy]. }
      split; [|split].
      * eapply seen_ok_ext; [exact Hev|]. destruct Sh as [(Hex & En & Ho & _)|(Hex & -> & En & _)].
        -- assert (Vp : lseen tr (lvar p)) by (destruct Ho as [->|(a & Ha)]; [left; reflexivity|exact (IA t0 _ a Et0 Ha)]).
           apply (seen_step C (lseen tr) s s' [p] p IS (g_cache _ _ G) (g_cache _ _ G') Hnv Hp Hmod); [intros q [<-|[]]; exact Vp|].
           intros _. split; [right; right; left; exists p; split; [left; reflexivity|reflexivity]|]. intros x e Hi. rewrite Hex in Hi. left; exact Hi.
        -- apply (seen_step C (lseen tr) s s' [] _ IS (g_cache _ _ G) (g_cache _ _ G') Hnv Hp Hmod); [intros q []|].
           intros _. split; [left; cbn; lia|]. intros x e Hi. rewrite Hex in Hi. apply in_app_or in Hi as [Hi|[Hi|[]]]; [left; exact Hi|]. injection Hi as <- _. right; left. eauto.
      * intros t v a Et Hi. rewrite Et1 in Et. injection Et as <-. apply Hev. destruct Sh as [(_ & _ & _ & Ea)|(_ & -> & _ & b & Ea)]; rewrite Ea in Hi; [left; exact (IA t0 v a Et0 Hi)|].
        apply in_app_or in Hi as [Hi|[Hi|[]]]; [left; exact (IA t0 v a Et0 Hi)|]. injection Hi as <- _. right. reflexivity.
      * intros M y [H0 Ht]. destruct (IM M y) as (M0 & y0 & A0 & Y0 & N0); [split; [exact H0|intros e He; apply Ht; right; exact He]|].
        specialize (Ht _ (or_introl eq_refl)). cbn [ltold lev_call lev_ret] in Ht.
        assert (E1 : lval y0 l == lval y l) by (apply (lval_agree y y0 l (known tr) Y0); intros x Hi; apply HV, in_or_app; left; exact Hi).
        assert (E2 : lval y0 k == lval y k) by (apply (lval_agree y y0 k (known tr) Y0); intros x Hi; apply HV, in_or_app; right; exact Hi).
        assert (Ecmp : cmpP sd strict (lval y0 l) (lval y0 k) <-> cmpP sd strict (lval y l) (lval y k)) by (unfold cmpP; destruct sd, strict; rewrite E1, E2; reflexivity).
        assert (HX : exists M1, (forall v, lseen tr v \/ v = lvar p -> M1 v = M v) /\ nsol s 0 M1 y0 /\ (mlit M1 p = true <-> cmpP sd strict (lval y0 l) (lval y0 k))).
        { destruct Hpos as [Hold|[Hnew Hsg]].
          - exists M0. pose proof (K3 Hold M0 y0 N0) as K. split; [|split; [exact N0|exact K]]. intros v [Hv'| ->]; [apply A0, Hv'|].
            apply mlit_var. apply eq_true_iff_eq. rewrite K, Ecmp, Ht. reflexivity.
          - exists (upd M0 (lvar p) (M (lvar p))). assert (HM1 : forall v, lseen tr v \/ v = lvar p -> upd M0 (lvar p) (M (lvar p)) v = M v).
            { intros v [Hv'| ->]; [|apply upd_eq]. rewrite upd_neq; [apply A0, Hv'|]. pose proof (proj1 IS v Hv'). lia. }
            split; [exact HM1|]. split.
            + apply (nsol_single ord Hord fuel s t0 t0 _ y0 Et0). apply (nsol_single ord Hord fuel s t0 t0 M0 y0 Et0) in N0.
              assert (HP : forall u, In u (theories s) -> later t0 u) by (intros u Hu; rewrite Et0 in Hu; destruct Hu as [<-|[]]; apply later_refl).
              eapply smodels_agree; [exact (g_inv _ _ (good_any ord Hord fuel s (eq y0) t0 G HP))| |exact N0]. intros v Hv'. rewrite upd_neq by lia. reflexivity.
            + rewrite Ecmp, <- Ht. unfold mlit. rewrite HM1 by auto. reflexivity. }
        destruct HX as (M1 & A1 & N1 & Ep). destruct (K2 M1 y0 N1 Ep) as (y1 & Y1 & N1'). exists M1, y1.
        split; [intros v Hv'; apply A1, Hev, Hv'|]. split; [|exact N1']. intros z Hz. unfold known in Hz. cbn [flat_map lev_ret app] in Hz. rewrite (Y1 z (Kn z Hz)). apply Y0, Hz.
Qed.
End LFull.

Section LEnds.
Context (ord : nat -> list nat -> list nat) (Hord : forall k l, Permutation l (ord k l)) (fuel : lra -> nat).
Notation C := (lraT ord Hord fuel).
Notation ops := (lra_ops ord fuel).
Notation st := (st lra).

Lemma ffull_false tr (s : st) fl s' : FTrace ord Hord fuel tr s -> propagate ops fl s = Ok (s', false) -> forall M y, ~ lrespects tr M y.
Proof.
  intros HT E M y HR. destruct (proj2 (proj2 (ffull_complete ord Hord fuel tr s HT)) M y HR) as (M' & y' & _ & _ & HN).
  exact (false_final lra ops C s s fl s' (lg_good _ _ _ _ (ftrace_good _ _ _ _ _ HT)) (R_init _ _) E M' (proj1 HN)).
Qed.
Lemma ffull_clause tr (s : st) ls s' : FTrace ord Hord fuel tr s -> dlevel s = 0%nat -> in_scope s ls -> (forall q, In q ls -> lseen tr (lvar q)) ->
  new_clause s ls = Ok (s', false) -> forall M y, lrespects tr M y -> forall q, In q ls -> mlit M q = false.
Proof.
  intros HT Hd Hr Hv E M y HR q Hq. destruct (proj2 (proj2 (ffull_complete ord Hord fuel tr s HT)) M y HR) as (M' & y' & Ag & _ & HN).
  destruct (clause_meaning lra ops C s s ls (lg_good _ _ _ _ (ftrace_good _ _ _ _ _ HT)) (R_init _ _) Hd Hr) as (s1 & b & E1 & _ & Hf).
  rewrite E in E1. injection E1 as <- <-. destruct (Hf eq_refl) as [_ Hn].
  destruct (mlit M q) eqn:Eq; [|reflexivity]. exfalso. apply (Hn M'). split; [apply HN|]. exists q. split; [exact Hq|].
  unfold mlit. rewrite (Ag _ (Hv q Hq)). exact Eq.
Qed.
Lemma ffull_check tr (s : st) fl ls s' : FTrace ord Hord fuel tr s -> legal C s (CCheck ls) -> (forall q, In q (decisions s ++ ls) -> lseen tr (lvar q)) ->
  check ops fl s ls = Ok (s', false) -> forall M y, lrespects tr M y -> exists d, In d (decisions s ++ ls) /\ mlit M d = false.
Proof.
  intros HT HL Hv E M y HR. destruct (proj2 (proj2 (ffull_complete ord Hord fuel tr s HT)) M y HR) as (M' & y' & Ag & _ & HN).
  destruct (check_sound lra ops C s s fl ls s' false (lg_good _ _ _ _ (ftrace_good _ _ _ _ _ HT)) (R_init _ _) HL E) as [Hf _].
  destruct (Hf eq_refl M' (proj1 HN)) as (d & Hd & Ed). exists d. split; [exact Hd|]. unfold mlit in *. rewrite <- (Ag _ (Hv d Hd)). exact Ed.
Qed.
Lemma ffull_values tr (s : st) q : FTrace ord Hord fuel tr s -> value s q = LTrue -> lseen tr (lvar q) -> (forall d, In d (decisions s) -> lseen tr (lvar d)) ->
  forall M y, lrespects tr M y -> (forall k d, nth_error (decisions s) k = Some d -> (dlevel s - k <= level s (lvar q))%nat -> mlit M d = true) -> mlit M q = true.
Proof.
  intros HT Hq Hv Hds M y HR Hd. destruct (proj2 (proj2 (ffull_complete ord Hord fuel tr s HT)) M y HR) as (M' & y' & Ag & _ & HN).
  assert (E : mlit M' q = true).
  { apply (values_implied lra ops C s s M' q (lg_good _ _ _ _ (ftrace_good _ _ _ _ _ HT)) (R_init _ _) (proj1 HN) Hq). intros k d Hk Hl.
    unfold mlit. rewrite (Ag (lvar d)) by (apply Hds; eapply nth_error_In, Hk). apply (Hd k d Hk Hl). }
  unfold mlit in *. rewrite <- (Ag _ Hv). exact E.
Qed.
Lemma ffull_total tr (s : st) fl s' : FTrace ord Hord fuel tr s -> propagate ops fl s = Ok (s', true) -> total s' ->
  exists t, theories s' = [t] /\ exists d0, (0 < d0)%Q /\ forall d, (0 < d)%Q -> (d <= d0)%Q -> lrespects tr (values s') (fun x => at_eps d (vals t x)).
Proof.
  intros HT E Ht. destruct (propagate_total ord Hord fuel tr s fl s' (ftrace_trace _ _ _ _ _ HT) E Ht) as (t & Et & d0 & Hd0 & H). exists t. split; [exact Et|]. exists d0. split; [exact Hd0|].
  intros d H1 H2. destruct (H d H1 H2) as [HN _].
  assert (HT' : FTrace ord Hord fuel (mk_lev (LSat CPropagate) (decisions s) (LR (RBool true)) :: tr) s').
  { eapply FT_step with (fl := fl); [exact HT|exact Logic.I|exact Logic.I| |intros D; discriminate]. cbn [lstep step]. rewrite E. reflexivity. }
  destruct (ffull_sound ord Hord fuel _ s' HT' _ _ HN) as [A B]. split; [exact A|]. intros e He. apply B. right. exact He.
Qed.
End LEnds.

End Srt.
(** ** Executable careful histories *)
Definition lcarefulb (ws xs : list nat) (s : st lra) (c : lcall) : bool :=
  match c with LSat c => carefulb ws s c | _ => forallb (fun x => existsb (Nat.eqb x) xs) (lvars_of c) end.
Definition llearn (ws : list nat) (r : lret) : list nat := match r with LR (RVar v) => v :: ws | LR (RLit p) | LP p => lvar p :: ws | _ => ws end.
Fixpoint frun (fl : nat) (s : st lra) (ws : list nat) (tr : list levent) (cs : list lcall) : option (list levent * st lra) :=
  match cs with
  | [] => Some (tr, s)
  | c :: r =>
    if llegalb s c && lcarefulb ws (known tr) s c then
      match lstep ord0 fuel0 fl s c with
      | Ok (s', x) => if lnot_false x then frun fl s' (llearn ws x) (mk_lev c (decisions s) x :: tr) r else None
      | _ => None
      end
    else None
  end.
Definition fevs (cs : list lcall) : list levent := match frun 200 linit [0%nat] [] cs with Some (tr, _) => tr | None => [] end.
Definition fafter (cs : list lcall) : st lra := match frun 200 linit [0%nat] [] cs with Some (_, s) => s | None => linit end.
Definition fruns (cs : list lcall) : bool := match frun 200 linit [0%nat] [] cs with Some _ => true | None => false end.
Lemma frun_trace fl : forall cs ws tr s tr' s', (forall w, In w ws -> lseen tr w) -> FTrace ord0 Hord0 fuel0 tr s -> frun fl s ws tr cs = Some (tr', s') -> FTrace ord0 Hord0 fuel0 tr' s'.
Proof.
  induction cs as [|c r IH]; intros ws tr s tr' s' HV HT; cbn [frun]; [intros E; injection E as <- <-; exact HT|].
  destruct (llegalb s c && lcarefulb ws (known tr) s c) eqn:El; [|discriminate]. apply andb_prop in El as [E1 E2].
  destruct (lstep ord0 fuel0 fl s c) as [[s1 x]| |] eqn:Es; try discriminate.
  destruct (lnot_false x) eqn:Ex; [|discriminate]. apply IH.
  - intros w Hw. apply lseen_event. destruct x as [[]| |]; cbn in Hw; try (left; apply HV, Hw); destruct Hw as [<-|Hw]; auto.
  - eapply FT_step; [exact HT|apply llegalb_ok; [apply (ftrace_good _ _ _ _ _ HT)|exact E1]| |exact Es|intros ->; discriminate].
    assert (Hk : forallb (fun x => existsb (Nat.eqb x) (known tr)) (lvars_of c) = true -> forall x, In x (lvars_of c) -> In x (known tr)).
    { intros H z Hz. rewrite forallb_forall in H. specialize (H z Hz). apply existsb_exists in H as (w & Hw & E). apply Nat.eqb_eq in E. subst w. exact Hw. }
    destruct c as [c| |l|sd strict l k]; cbn [lcareful lcarefulb] in *; [apply (carefulb_ok ws); assumption|apply Hk, E2|apply Hk, E2|apply Hk, E2].
Qed.
Lemma fruns_trace cs : fruns cs = true -> FTrace ord0 Hord0 fuel0 (fevs cs) (fafter cs).
Proof.
  unfold fruns, fevs, fafter. destruct (frun 200 linit [0%nat] [] cs) as [[tr s]|] eqn:E; [|discriminate]. intros _.
  eapply (frun_trace 200 cs [0%nat] []); [|constructor|exact E]. intros w [<-|[]]. left. reflexivity.
Qed.
