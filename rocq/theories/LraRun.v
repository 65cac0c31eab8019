(** A network with a linear real arithmetic theory, driven by its public interface: the calls of
    sat_core.h and those of lra_theory.h:30-74. *)
From Verif Require Import Base Keys Sat SatSpec SatInv SatPop SatImp SatRec SatAn SatProp SatLoop SatMain SatApi SatApi2 SatNext SatSimp Reify Amo Run.
From Verif Require Import Lin Qe Lra LraTab LraVal LraInv LraChk LraPro LraCon ThGrow LraNew LraCmp ThRel LraApi.
From Coq Require Import Lqa.
Open Scope Q_scope.
Local Arguments Nat.ltb : simpl never.
Local Arguments Nat.eqb : simpl never.
Section Srt.
Context {sr : sorter}.

Section LRun.
Context (ord : nat -> list nat -> list nat) (Hord : forall k l, Permutation l (ord k l)) (fuel : lra -> nat).
Notation C := (lraT ord Hord fuel).
Notation ops := (lra_ops ord fuel).
Notation st := (st lra).
Notation nsol := (nsol ord Hord fuel).

Definition HPlater (t : lra) : forall a b, later a b -> later t a -> later t b := fun a b H K => later_trans t a b K H.
(** The same contract, for fixed numeric values and tracking what happens to the theory. *)
Notation CY := (fun Y t => lraC ord Hord fuel Y (later t) (HPlater t)).

Lemma models_any (s : st) Y t M : smodels (CY Y t) s M -> smodels C s M.
Proof. intros [A B D E]. constructor; auto. intros u Hu. destruct (E u Hu) as (y & _ & Hy). exists y. split; [exact I|exact Hy]. Qed.
Lemma good_any (s : st) Y t : good C s -> (forall u, In u (theories s) -> later t u) -> good (CY Y t) s.
Proof.
  intros [[A B D E F H] K1 K2] HP. constructor.
  - constructor.
    + destruct A; constructor; assumption.
    + destruct B; constructor; assumption.
    + destruct D; constructor; assumption.
    + exact E.
    + destruct F; constructor; assumption.
    + destruct H as [J1 J2 J3 J4 J5 J6]. constructor.
      * intros i u Eu. destruct (J1 i u Eu) as (vs & [V1 _] & V2 & V3 & V4). exists vs. split; [split; [exact V1|apply HP, (nth_error_In _ i), Eu]|]. auto.
      * exact J2.
      * exact J3.
      * exact J4.
      * exact J5.
      * exact J6.
  - intros k p Hk. destruct (K1 k p Hk) as (o & O1 & O2 & O3 & O4). exists o. split; [exact O1|]. split; [exact O2|]. split; [exact O3|].
    intros M HM. apply O4. apply (models_any s Y t M HM).
  - exact K2.
Qed.
Lemma good_back (s : st) Y t : good (CY Y t) s -> (forall M, smodels C s M -> smodels (CY Y t) s M) -> good C s /\ forall u, In u (theories s) -> later t u.
Proof.
  intros [[A B D E F H] K1 K2] HM. split.
  - constructor.
    + constructor.
      * destruct A; constructor; assumption.
      * destruct B; constructor; assumption.
      * destruct D; constructor; assumption.
      * exact E.
      * destruct F; constructor; assumption.
      * destruct H as [J1 J2 J3 J4 J5 J6]. constructor.
        -- intros i u Eu. destruct (J1 i u Eu) as (vs & [V1 _] & V2 & V3 & V4). exists vs. split; [split; [exact V1|exact I]|]. auto.
        -- exact J2.
        -- exact J3.
        -- exact J4.
        -- exact J5.
        -- exact J6.
    + intros k p Hk. destruct (K1 k p Hk) as (o & O1 & O2 & O3 & O4). exists o. split; [exact O1|]. split; [exact O2|]. split; [exact O3|]. intros M Hm. apply O4, HM, Hm.
    + exact K2.
  - intros u Hu. apply In_nth_error in Hu as (i & Ei). destruct (h_views _ _ _ _ H i u Ei) as (vs & [_ V] & _). exact V.
Qed.

Lemma nsol_single (s : st) t t0 M y : theories s = [t] -> (nsol s 0 M y <-> smodels (CY (eq y) t0) s M).
Proof.
  intros Et. split.
  - intros ([A B D E] & u & Eu & Hu). rewrite Et in Eu. inversion Eu; subst u. constructor; auto. intros u Hu'. rewrite Et in Hu'. destruct Hu' as [<-|[]]. exists y. auto.
  - intros HM. split; [apply (models_any _ _ _ _ HM)|]. exists t. split; [rewrite Et; reflexivity|]. destruct (sm_th _ _ _ HM t) as (z & <- & Hz); [rewrite Et; left; reflexivity|exact Hz].
Qed.

(** ** A call of the SAT core. *)
Theorem sat_step fl (s s' : st) t c r : good C s -> theories s = [t] -> legal C s c -> step (ops := ops) fl s c = Ok (s', r) -> alive C s' r ->
  good C s' /\ (nv s <= nv s')%nat /\ exists t', theories s' = [t'] /\ later t t' /\
  (forall M y, nsol s' 0 M y -> nsol s 0 M y /\ said c (decisions s) r M) /\
  (exact c -> forall M y, nsol s 0 M y -> said c (decisions s) r M -> nsol s' 0 M y).
Proof.
  intros G Et HL HE HA. assert (HP : forall u, In u (theories s) -> later t u) by (intros u Hu; rewrite Et in Hu; destruct Hu as [<-|[]]; apply later_refl).
  assert (HY : forall Y, good (CY Y t) s) by (intros Y; apply good_any; assumption).
  pose proof (step_ok (CY (fun _ => True) t) fl s c (HY _) HL) as H. rewrite HE in H. destruct H as (H1 & Hn & _).
  assert (MT : forall M, smodels C s' M -> smodels (CY (fun _ => True) t) s' M).
  { intros M [A B D E]. constructor; auto. }
  assert (G' : good (CY (fun _ => True) t) s').
  { destruct H1 as [H1|[-> Hu]]; [exact H1|]. exfalso. destruct (HA eq_refl) as (M & HM). apply (de_unsat _ _ Hu M), MT, HM. }
  destruct (good_back s' _ t G' MT) as [G1 HP1]. split; [exact G1|]. split; [exact Hn|].
  assert (Hlen : map (fun _ : lra => tt) (theories s') = map (fun _ : lra => tt) (theories s)) by (apply (K_step ops (fun _ => tt)) with (fuel := fl) (c := c) (r := r); auto).
  rewrite Et in Hlen. destruct (theories s') as [|t' [|? ?]] eqn:Et'; try discriminate Hlen. exists t'. split; [reflexivity|]. split; [apply HP1; left; reflexivity|].
  split.
  - intros M y HN. apply (nsol_single s' t' t M y Et') in HN. pose proof (step_ok (CY (eq y) t) fl s c (HY _) HL) as H. rewrite HE in H. destruct H as (_ & _ & H2 & _).
    destruct (H2 M HN) as [A B]. split; [apply (nsol_single s t t M y Et), A|exact B].
  - intros Hx M y HN Hs. apply (nsol_single s t t M y Et) in HN. pose proof (step_ok (CY (eq y) t) fl s c (HY _) HL) as H. rewrite HE in H. destruct H as (_ & _ & _ & H3).
    apply (nsol_single s' t' t M y Et'). apply (H3 Hx M HN Hs).
Qed.

(** ** The machine. *)
Inductive lcall :=
| LSat (c : call) | LVar | LSlack (l : lin) | LCmp (sd : side) (strict : bool) (left right : lin).
Inductive lret := LR (r : ret) | LX (x : nat) | LP (p : lit).
Definition lstep (fl : nat) (s : st) (c : lcall) : res (st * lret) :=
  match c with
  | LSat c => '(s1, r) <- step (ops := ops) fl s c ;; Ok (s1, LR r)
  | LVar => '(s1, x) <- lra_new_var s 0 ;; Ok (s1, LX x)
  | LSlack l => '(s1, x) <- lra_new_slack s 0 l ;; Ok (s1, LX x)
  | LCmp sd strict l r => '(s1, p) <- lra_cmp s 0 sd strict l r ;; Ok (s1, LP p)
  end.
Definition lvars_of (c : lcall) : list nat :=
  match c with LSlack l => map fst (lvars l) | LCmp _ _ l r => map fst (lvars l) ++ map fst (lvars r) | _ => [] end.
Definition over (s : st) (vs : list nat) : Prop := exists t, theories s = [t] /\ forall x, In x vs -> (x < nx t)%nat.
(** Constraints are created at root level, over existing variables.  new_var(lin) moreover asks for
    an expression over variables that are not basic (see the refutations in
    PropLra.v). *)
Definition llegal (s : st) (c : lcall) : Prop :=
  match c with
  | LSat c => legal C s c
  | LVar => True
  | LSlack l => dlevel s = 0%nat /\ exists t, theories s = [t] /\ slackable t l
  | LCmp _ _ l r => dlevel s = 0%nat /\ lin_clean l /\ lin_clean r /\ over s (lvars_of c)
  end.
Definition lalive (s' : st) (r : lret) : Prop := r = LR (RBool false) -> exists M, smodels C s' M.

(** What the client has been told, about a Boolean assignment and the values of the numeric variables. *)
Definition lsaid (c : lcall) (ds : list lit) (r : lret) (M : nat -> bool) (y : nat -> Q) : Prop :=
  match c, r with
  | LSat c, LR r => said c ds r M
  | LSlack l, LX x => y x == lval y l
  | LCmp sd strict l r, LP p => mlit M p = true <-> cmpP sd strict (lval y l) (lval y r)
  | _, _ => True
  end.
Definition lexact (c : lcall) : Prop := match c with LSat c => exact c | _ => True end.
Definition linit : st := init [lra_init].
Record lgood (s : st) : Prop := { lg_good : good C s; lg_one : exists t, theories s = [t] }.

Lemma linit_good : lgood linit /\ forall M y, nsol linit 0 M y <-> M 0%nat = false.
Proof.
  destruct (init_good C [lra_init]) as (_ & G & HM).
  { intros t [<-|[]]. destruct lra_init_inv as (A & B & D). split; [split; [exact A|exact I]|]. split; [exact B|exact D]. }
  split; [constructor; [exact G|exists lra_init; reflexivity]|]. intros M y.
  assert (J : forall M' y', joint lra_init M' y') by (intros M' y'; split; [intros x l []|split; [intros v a []|intros l []]]).
  split.
  - intros [H _]. apply HM in H. apply H.
  - intros H. split; [apply HM; split; [exact H|]; intros t [<-|[]]; exists y; split; [exact I|apply J]|]. exists lra_init. split; [reflexivity|apply J].
Qed.

Lemma set_nth_one (t t' : lra) : set_nth [t] 0 t' = [t'].
Proof. reflexivity. Qed.
Lemma dom_in (m : qmap) v : dom m v <-> In v (map fst m).
Proof. split; [apply dom_fst|]. intros H. apply dom_fst, H. Qed.

Theorem lstep_ok fl (s s' : st) c r : lgood s -> llegal s c -> lstep fl s c = Ok (s', r) -> lalive s' r ->
  lgood s' /\ (nv s <= nv s')%nat /\ (forall t t', theories s = [t] -> theories s' = [t'] -> grows t t' /\
    match c, r with
    | LSlack l, LX x => (x < nx t')%nat /\ forall y, tsol (tab t') y -> y x == lval y l
    | LVar, LX x => x = nx t /\ (x < nx t')%nat
    | LCmp sd strict l r, LP p => forall y, rsat t' y -> answers t' p y (cmpP sd strict (lval y l) (lval y r))
    | _, _ => True
    end) /\
  (forall M y, nsol s' 0 M y -> nsol s 0 M y /\ lsaid c (decisions s) r M y) /\
  (lexact c -> forall M y, nsol s 0 M y -> lsaid c (decisions s) r M y \/ (exists l x, c = LSlack l /\ r = LX x) ->
     exists y', nsol s' 0 M y' /\ forall t, theories s = [t] -> forall z, (z < nx t)%nat -> y' z = y z).
Proof.
  intros [G (t & Et)] HL HE HA. assert (Ei : nth_error (theories s) 0 = Some t) by (rewrite Et; reflexivity). destruct c as [c| |l|sd strict l k]; cbn [lstep llegal lexact] in *.
  - destruct (step fl s c) as [[s1 r1]| |] eqn:E; cbn [rbind] in HE; try discriminate. assert (s1 = s' /\ r = LR r1) as [-> ->] by (split; congruence).
    destruct (sat_step fl s s' t c r1 G Et HL E) as (G' & Hn & t' & Et' & La & H1 & H2); [intros ->; apply HA; reflexivity|].
    split; [constructor; eauto|]. split; [exact Hn|]. split; [intros u u' Eu Eu'; rewrite Et in Eu; rewrite Et' in Eu'; inversion Eu; inversion Eu'; subst; split; [apply later_grows, La|exact I]|].
    split; [exact H1|]. intros Hx M y HN [Hs|(l & x & D & _)]; [|discriminate]. exists y. split; [apply H2; assumption|]. reflexivity.
  - destruct (new_var_call ord Hord fuel s 0 t G Ei) as (s1 & t1 & E & SO & En & Hx & Hva & Gw & H1 & H2). rewrite E in HE. cbn [rbind] in HE. assert (s1 = s' /\ r = LX (nx t)) as [-> ->] by (split; congruence).
    assert (Et' : theories s' = [t1]) by (rewrite (so_th _ _ _ _ _ _ _ SO), Et; reflexivity).
    split; [constructor; [apply SO|eauto]|]. split; [apply SO|]. split; [intros u u' Eu Eu'; rewrite Et in Eu; rewrite Et' in Eu'; inversion Eu; inversion Eu'; subst; split; [exact Gw|split; [reflexivity|lia]]|].
    split; [intros M y HN; split; [apply H1, HN|exact I]|]. intros _ M y HN _. exists (upd y (nx t) 0). split; [apply H2, HN|]. intros u Eu z Hz. rewrite Et in Eu. inversion Eu; subst u. rewrite upd_neq by lia. reflexivity.
  - destruct HL as (Hd & u & Eu & Hsl). rewrite Et in Eu. inversion Eu; subst u. destruct (new_slack_call ord Hord fuel s 0 t l G Hd Ei Hsl) as (s1 & t1 & x & E & SO & En & Gw & Hx & Hva & Hs & H1 & H2).
    rewrite E in HE. cbn [rbind] in HE. assert (s1 = s' /\ r = LX x) as [-> ->] by (split; congruence).
    assert (Et' : theories s' = [t1]) by (rewrite (so_th _ _ _ _ _ _ _ SO), Et; reflexivity).
    split; [constructor; [apply SO|eauto]|]. split; [apply SO|]. split; [intros u u' Eu1 Eu'; rewrite Et in Eu1; rewrite Et' in Eu'; inversion Eu1; inversion Eu'; subst; split; [exact Gw|split; assumption]|].
    split; [exact H1|]. intros _ M y HN _. destruct (H2 M y HN) as (y' & A & B). exists y'. split; [exact B|]. intros u Eu1 z Hz. rewrite Et in Eu1. inversion Eu1; subst u. apply A, Hz.
  - destruct HL as (Hd & Hl & Hr & u & Eu & Hv). rewrite Et in Eu. inversion Eu; subst u.
    destruct (cmp_call ord Hord fuel s 0 t sd strict l k G Hd Ei Hl Hr) as (s1 & t1 & p & E & SO & Gw & Hp & An & H1 & H2 & _ & _).
    { intros v Hv'. apply Hv. cbn [lvars_of]. apply in_or_app. destruct Hv' as [Hv'|Hv']; [left|right]; apply dom_fst, Hv'. }
    rewrite E in HE. cbn [rbind] in HE. assert (s1 = s' /\ r = LP p) as [-> ->] by (split; congruence).
    assert (Et' : theories s' = [t1]) by (rewrite (so_th _ _ _ _ _ _ _ SO), Et; reflexivity).
    split; [constructor; [apply SO|eauto]|]. split; [apply SO|]. split; [intros u u' Eu1 Eu'; rewrite Et in Eu1; rewrite Et' in Eu'; inversion Eu1; inversion Eu'; subst; split; assumption|].
    split; [exact H1|]. intros _ M y HN [Hs|(? & ? & D & _)]; [|discriminate]. destruct (H2 M y HN Hs) as (y' & A & B). exists y'. split; [exact B|]. intros u Eu1 z Hz. rewrite Et in Eu1. inversion Eu1; subst u. apply A, Hz.
Qed.

(** ** Histories *)
Record levent := mk_lev { lev_call : lcall; lev_decs : list lit; lev_ret : lret }.
Inductive LTrace : list levent -> st -> Prop :=
| LT_init : LTrace [] linit
| LT_step fl tr s c s' r : LTrace tr s -> llegal s c -> lstep fl s c = Ok (s', r) -> lalive s' r ->
    LTrace (mk_lev c (decisions s) r :: tr) s'.
Definition told (tr : list levent) (M : nat -> bool) (y : nat -> Q) : Prop :=
  forall e, In e tr -> lsaid (lev_call e) (lev_decs e) (lev_ret e) M y.
(** The numeric variables the client knows of. *)
Definition known (tr : list levent) : list nat := flat_map (fun e => match lev_ret e with LX x => [x] | _ => [] end) tr.
(** The client only mentions variables it has been given. *)
Inductive mindful : list levent -> Prop :=
| mf_nil : mindful []
| mf_cons e tr : mindful tr -> lexact (lev_call e) -> (forall x, In x (lvars_of (lev_call e)) -> In x (known tr)) -> mindful (e :: tr).

Lemma ltrace_good tr s : LTrace tr s -> lgood s.
Proof. induction 1 as [|fl tr s c s' r HT IH HL HE HA]; [apply linit_good|]. apply (lstep_ok fl s s' c r IH HL HE HA). Qed.

(** The solutions of the network respect what the client has been told... *)
Theorem told_all tr s : LTrace tr s -> forall M y, nsol s 0 M y -> M 0%nat = false /\ told tr M y.
Proof.
  induction 1 as [|fl tr s c s' r HT IH HL HE HA]; intros M y HN.
  - split; [apply linit_good in HN; exact HN|intros e []].
  - destruct (lstep_ok fl s s' c r (ltrace_good _ _ HT) HL HE HA) as (_ & _ & _ & H & _). destruct (H M y HN) as [H1 H2]. destruct (IH M y H1) as [A B].
    split; [exact A|]. intros e [<-|He]; [exact H2|apply B, He].
Qed.

Lemma known_lt tr s : LTrace tr s -> forall t, theories s = [t] -> forall x, In x (known tr) -> (x < nx t)%nat.
Proof.
  induction 1 as [|fl tr s c s' r HT IH HL HE HA]; intros t Et x Hx; [destruct Hx|].
  destruct (ltrace_good _ _ HT) as [_ (t0 & Et0)]. destruct (lstep_ok fl s s' c r (ltrace_good _ _ HT) HL HE HA) as (_ & _ & H & _). destruct (H t0 t Et0 Et) as [Gw K].
  unfold known in Hx. cbn [flat_map lev_ret] in Hx. apply in_app_or in Hx as [Hx|Hx]; [|specialize (IH t0 Et0 x Hx); pose proof (gw_nx _ _ Gw); lia].
  destruct r as [r|x'|p]; [destruct Hx| |destruct Hx]. destruct Hx as [<-|[]]. destruct c as [c| |l|sd strict l k]; cbn [lstep] in HE.
  - destruct (step fl s c) as [[? ?]| |]; cbn [rbind] in HE; discriminate.
  - apply K.
  - apply K.
  - destruct (lra_cmp s 0 sd strict l k) as [[? ?]| |]; cbn [rbind] in HE; discriminate.
Qed.
Lemma lval_agree y y' l (vs : list nat) : (forall x, In x vs -> y' x == y x) -> (forall x, In x (map fst (lvars l)) -> In x vs) -> lval y' l == lval y l.
Proof. intros H K. unfold lval. rewrite (msum_ext y' y (lvars l)); [reflexivity|]. intros u Hu. apply H, K. apply dom_fst, Hu. Qed.

(** ... and conversely whatever respects it extends to a solution (on the variables that the client
    knows; the others are slack variables). *)
Theorem told_enough tr s : LTrace tr s -> mindful tr -> forall M y, M 0%nat = false -> told tr M y ->
  exists y', (forall x, In x (known tr) -> y' x == y x) /\ nsol s 0 M y'.
Proof.
  induction 1 as [|fl tr s c s' r HT IH HL HE HA]; intros HM M y H0 Ht.
  - exists y. split; [intros x []|]. apply linit_good, H0.
  - inversion HM as [|? ? HM' Hx Hk]; subst. cbn [lev_call] in *.
    destruct (IH HM' M y H0) as (y1 & Y1 & N1); [intros e He; apply Ht; right; exact He|]. clear IH.
    destruct (ltrace_good _ _ HT) as [G (t0 & Et0)]. destruct (lstep_ok fl s s' c r (ltrace_good _ _ HT) HL HE HA) as (G' & _ & HG & HN & H2).
    specialize (Ht _ (or_introl eq_refl)). cbn [lev_call lev_decs lev_ret] in Ht.
    assert (Kn := known_lt tr s HT t0 Et0).
    assert (HV : c = LVar \/ (exists l x, c = LSlack l /\ r = LX x) \/ (lsaid c (decisions s) r M y1 /\ match r with LX _ => False | _ => True end)).
    { destruct c as [c| |l|sd strict l k]; cbn [lstep lvars_of] in *.
      - destruct (step fl s c) as [[s1 r1]| |]; cbn [rbind] in HE; try discriminate. inversion HE; subst. right; right. auto.
      - left; reflexivity.
      - destruct (lra_new_slack s 0 l) as [[s1 x]| |]; cbn [rbind] in HE; try discriminate. inversion HE; subst. right; left; eauto.
      - destruct (lra_cmp s 0 sd strict l k) as [[s1 p]| |]; cbn [rbind] in HE; try discriminate. inversion HE; subst. right; right. split; [|exact I]. cbn [lsaid] in *. rewrite Ht.
        assert (E1 : lval y1 l == lval y l) by (apply (lval_agree y y1 l (known tr) Y1); intros x Hi; apply Hk, in_or_app; left; exact Hi).
        assert (E2 : lval y1 k == lval y k) by (apply (lval_agree y y1 k (known tr) Y1); intros x Hi; apply Hk, in_or_app; right; exact Hi).
        unfold cmpP. destruct sd, strict; lra. }
    destruct HV as [->|[(l & x & -> & ->)|[Hs Hr]]].
    + cbn [lstep] in HE. destruct (new_var_call ord Hord fuel s 0 t0 G) as (s1 & t1 & E & SO & En & Hnx & Hva & Gw & K1 & K2); [rewrite Et0; reflexivity|]. rewrite E in HE. cbn [rbind] in HE. inversion HE; subst.
      exists (upd y1 (nx t0) (y (nx t0))). split; [|apply K2, N1]. intros x Hx'. unfold known in Hx'. cbn [flat_map lev_ret app] in Hx'. destruct Hx' as [<-|Hx']; [rewrite upd_eq; reflexivity|].
      specialize (Kn x Hx'). rewrite upd_neq by lia. apply Y1, Hx'.
    + destruct (H2 I M y1 N1) as (y2 & N2 & A2); [right; eauto|]. exists y2. split; [|exact N2]. assert (Hold : forall z, In z (known tr) -> y2 z == y z) by (intros z Hz; rewrite (A2 t0 Et0 z (Kn z Hz)); apply Y1, Hz).
      intros z Hz. unfold known in Hz. cbn [flat_map lev_ret app] in Hz. destruct Hz as [<-|Hz]; [|apply Hold, Hz].
      destruct (HN M y2 N2) as [_ Hs]. cbn [lsaid] in *. rewrite Hs, Ht. apply (lval_agree y y2 l (known tr)); [exact Hold|]. intros u Hu. apply Hk, Hu.
    + destruct (H2 Hx M y1 N1 (or_introl Hs)) as (y2 & N2 & A2). exists y2. split; [|exact N2].
      intros z Hz. unfold known in Hz. cbn [flat_map lev_ret] in Hz. destruct r as [r|x|p]; [|destruct Hr|]; cbn [app] in Hz; rewrite (A2 t0 Et0 z (Kn z Hz)); apply Y1, Hz.
Qed.
End LRun.
End Srt.
