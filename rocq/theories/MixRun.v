(** A network with object variables and linear real arithmetic on one core, driven by its public interface: the calls of sat_core.h, of
    ov_theory.h:23-29 and of lra_theory.h:30-74. *)
From Verif Require Import Base Keys Sat SatSpec SatInv SatPop SatImp SatRec SatAn SatProp SatLoop SatMain SatApi SatApi2 SatNext SatSimp Reify Amo Run SatFacts.
From Verif Require Import Lin Qe Lra LraTab LraVal LraInv LraChk LraPro LraCon ThGrow LraNew LraCmp ThRel LraApi LraRun LraEnd ThSum Ov OvInv OvEq OvRun OvStep Mix MixApi.
From Coq Require Import Lqa.
Open Scope Q_scope.
Local Arguments Nat.ltb : simpl never.
Local Arguments Nat.eqb : simpl never.
Section Srt.
Context {sr : sorter}.

(** Two contracts for the same theories. *)
Lemma good_change {T} {ops : theory_ops T} (C1 C2 : contract ops) (s : st T) : good C1 s -> (forall t v, th_atom C2 t v <-> th_atom C1 t v) ->
  (forall t vs, In t (theories s) -> th_inv C1 t vs -> th_inv C2 t vs) -> (forall t, th_feas C1 t -> th_feas C2 t) -> (forall t n v, th_fixed C2 t n v -> th_fixed C1 t n v) -> (forall M, smodels C2 s M -> smodels C1 s M) -> good C2 s.
Proof.
  intros [[A B D E F H] K1 K2] Ha Hi Hf Hx HM. constructor.
  - constructor.
    + destruct A; constructor; assumption.
    + destruct B; constructor; assumption.
    + destruct D; constructor; assumption.
    + exact E.
    + destruct F; constructor; assumption.
    + destruct H as [J1 J2 J3 J4 J5 J6]. constructor.
      * intros i u Eu. destruct (J1 i u Eu) as (vs & V1 & V2 & V3 & V4). exists vs. split; [apply Hi; [apply (nth_error_In _ i), Eu|exact V1]|]. split; [exact V2|]. split; [exact V3|].
        intros l Hl. apply V4, Ha, Hl.
      * intros i u v Eu Hu. apply (J2 i u v Eu), Ha, Hu.
      * intros i u v Eu Hu. apply (J3 i u v Eu), Ha, Hu.
      * intros i v Hv. destruct (J4 i v Hv) as (u & Eu & Hu). exists u. split; [exact Eu|apply Ha, Hu].
      * exact J5.
      * intros i u n v Eu Hu. apply (J6 i u n v Eu), Hx, Hu.
  - intros k p Hk. destruct (K1 k p Hk) as (o & O1 & O2 & O3 & O4). exists o. split; [exact O1|]. split; [exact O2|]. split; [exact O3|]. intros M Hm. apply O4, HM, Hm.
  - intros Hd. destruct (K2 Hd) as [Q1 Q2]. split; [exact Q1|]. intros t Ht. apply Hf, Q2, Ht.
Qed.

Section MRun.
Context (om : list (nat * lit) -> list (nat * lit)) (oi : list nat -> list nat) (Hom : forall m, Permutation m (om m)) (Hoi : forall l, Permutation l (oi l)).
Context (ord : nat -> list nat -> list nat) (Hord : forall k l, Permutation l (ord k l)) (fuel : lra -> nat).
Notation lops := (lra_ops ord fuel).
Notation CL := (lraT ord Hord fuel).
Notation C := (sumC ov_ops lops ovC CL).
Notation ops := (sum_ops ov_ops lops).
Notation st := (st (ovs + lra)).
Notation msol := (msol ovC ord Hord fuel).
Notation mside := (mside ovC ord Hord fuel).
Notation gok := (gok (T := lra)).

(** ** The machine.  The object theory is theory 0, the arithmetic one theory 1. *)
Inductive mcall := MO (c : ocall) | MVar | MSlack (l : lin) | MCmp (sd : side) (strict : bool) (left right : lin).
Inductive mret := MR (r : oret) | MX (x : nat) | MP (p : lit).
Definition mstep (fl : nat) (s : st) (c : mcall) : res (st * mret) :=
  match c with
  | MO c => '(s1, r) <- gstep om oi (ops2 := lops) fl s c ;; Ok (s1, MR r)
  | MVar => '(s1, x) <- mx_new_var s 1 ;; Ok (s1, MX x)
  | MSlack l => '(s1, x) <- mx_new_slack s 1 l ;; Ok (s1, MX x)
  | MCmp sd strict l r => '(s1, p) <- mx_cmp s 1 sd strict l r ;; Ok (s1, MP p)
  end.
Definition mlin_vars (c : mcall) : list nat :=
  match c with MSlack l => map fst (lvars l) | MCmp _ _ l r => map fst (lvars l) ++ map fst (lvars r) | _ => [] end.
(** Constraints are stated at root level, about existing variables (see LraRun.v, OvRun.v). *)
Definition mlegal (s : st) (c : mcall) : Prop :=
  match c with
  | MO c => glegal CL s c
  | MVar => True
  | MSlack l => dlevel s = 0%nat /\ exists t, nth_error (theories s) 1 = Some (inr t) /\ slackable t l
  | MCmp _ _ l r => dlevel s = 0%nat /\ lin_clean l /\ lin_clean r /\ exists t, nth_error (theories s) 1 = Some (inr t) /\ forall x, In x (mlin_vars c) -> (x < nx t)%nat
  end.
Definition malive (s' : st) (r : mret) : Prop := r = MR (OR (RBool false)) -> exists M, smodels C s' M.
Definition minit : st := init [inl ov_empty; inr lra_init].
Record mev := mk_mev { me_call : mcall; me_decs : list lit; me_ret : mret }.
Inductive MTrace : list mev -> st -> Prop :=
| MT_init : MTrace [] minit
| MT_step fl tr s c s' r : MTrace tr s -> mlegal s c -> mstep fl s c = Ok (s', r) -> malive s' r -> MTrace (mk_mev c (decisions s) r :: tr) s'.

(** The entries of an object variable of the history. *)
Fixpoint mdom_of (tr : list mev) (x : nat) : option (list (nat * lit)) :=
  match tr with
  | [] => None
  | e :: r => match me_ret e with MR (OX y m) => if Nat.eqb x y then Some m else mdom_of r x | _ => mdom_of r x end
  end.
(** What the client has been told, about a Boolean assignment and the values of the numeric variables. *)
Definition msaid (tr : list mev) (c : mcall) (ds : list lit) (r : mret) (M : nat -> bool) (y : nat -> Q) : Prop :=
  match c, r with
  | MO (OSat c), MR (OR r) => said c ds r M
  | MO (ONew items true), MR (OX x m) => exists v, In v items /\ takes1 M m v
  | MO (OEq a b), MR (OP p) => forall da db, mdom_of tr a = Some da -> mdom_of tr b = Some db -> eq_means M p da db
  | MSlack l, MX x => y x == lval y l
  | MCmp sd strict l r, MP p => mlit M p = true <-> cmpP sd strict (lval y l) (lval y r)
  | _, _ => True
  end.
Fixpoint mtold (tr : list mev) (M : nat -> bool) (y : nat -> Q) : Prop :=
  match tr with [] => M 0%nat = false | e :: r => mtold r M y /\ msaid r (me_call e) (me_decs e) (me_ret e) M y end.
(** The Boolean and the numeric variables that the client knows of. *)
Definition mret_vars (r : mret) : list nat := match r with MR r => ret_vars r | MX _ => [] | MP p => [lvar p] end.
Definition mvis (tr : list mev) : list nat := 0%nat :: flat_map (fun e => mret_vars (me_ret e)) tr.
Definition mknown (tr : list mev) : list nat := flat_map (fun e => match me_ret e with MX x => [x] | _ => [] end) tr.
Definition mcall_lits (c : mcall) : list lit := match c with MO c => call_lits c | _ => [] end.
(** The client only mentions variables it has been given, and it does not use the half-constrained literals (see [said]). *)
Inductive mmindful : list mev -> Prop :=
| mm_nil : mmindful []
| mm_cons e tr : mmindful tr -> (forall c, me_call e = MO (OSat c) -> exact c) -> (forall p, In p (mcall_lits (me_call e)) -> In (lvar p) (mvis tr)) ->
    (forall p, In p (me_decs e) -> In (lvar p) (mvis tr)) -> (forall x, In x (mlin_vars (me_call e)) -> In x (mknown tr)) -> mmindful (e :: tr).

(** ** The same contract, for fixed numeric values and tracking what happens to the arithmetic theory. *)
Notation CLY := (fun Y t => lraC ord Hord fuel Y (later t) (HPlater t)).
Notation CY := (fun Y t => sumC ov_ops lops ovC (lraC ord Hord fuel Y (later t) (HPlater t))).
Lemma mmodels_any (s : st) Y t M : smodels (CY Y t) s M -> smodels C s M.
Proof.
  intros [A B D E]. constructor; auto. intros [u|u] Hu; specialize (E _ Hu); [exact E|]. destruct E as (y & _ & Hy). exists y. split; [exact I|exact Hy].
Qed.
Lemma mmodels_all (s : st) t M : smodels C s M -> smodels (CY (fun _ => True) t) s M.
Proof. intros [A B D E]. constructor; auto. Qed.
Lemma mgood_any (s : st) Y t : good C s -> (forall u, In (inr u) (theories s) -> later t u) -> good (CY Y t) s.
Proof.
  intros G HP. apply (good_change C (CY Y t) s G).
  - intros [u|u] v; reflexivity.
  - intros [u|u] vs Hu; cbn; [auto|]. intros [H _]. split; [exact H|apply HP, Hu].
  - intros [u|u] Hu; exact Hu.
  - intros [u|u] n v [].
  - apply mmodels_any.
Qed.
Lemma mgood_back (s : st) t : good (CY (fun _ => True) t) s -> good C s /\ forall u, In (inr u) (theories s) -> later t u.
Proof.
  intros G. split.
  - apply (good_change (CY (fun _ => True) t) C s G).
    + intros [u|u] v; reflexivity.
    + intros [u|u] vs Hu; cbn; [auto|]. intros [H _]. split; [exact H|exact I].
    + intros [u|u] Hu; exact Hu.
    + intros [u|u] n v [].
    + apply mmodels_all.
  - intros u Hu. apply In_nth_error in Hu as (i & Ei). destruct (h_views _ _ _ _ (i_h _ _ (g_inv _ _ G)) i _ Ei) as (vs & V & _). apply V.
Qed.
Lemma msol_single (s : st) o t t0 M y : theories s = [inl o; inr t] -> (msol s 1 M y <-> smodels (CY (eq y) t0) s M).
Proof.
  intros Et. split.
  - intros ([A B D E] & u & Eu & Hu). rewrite Et in Eu. inversion Eu; subst u. constructor; auto. intros u Hu'. rewrite Et in Hu'. destruct Hu' as [<-|[<-|[]]]; [exact I|]. exists y. auto.
  - intros HM. split; [apply (mmodels_any _ _ _ _ HM)|]. exists t. split; [rewrite Et; reflexivity|]. pose proof (sm_th _ _ _ HM (inr t)) as H. rewrite Et in H. destruct (H (or_intror (or_introl eq_refl))) as (z & <- & Hz). exact Hz.
Qed.
Lemma mok_any (s : st) Y t o : ov_ok CL s o -> ov_ok (CLY Y t) s o.
Proof.
  intros [A B D]. constructor; [exact A|exact B|]. intros a b p Hp. destruct (D a b p Hp) as (D1 & D2 & dl & dr & D3 & D4 & D5). split; [exact D1|]. split; [exact D2|]. exists dl, dr.
  split; [exact D3|]. split; [exact D4|]. intros M HM. apply D5, (mmodels_any s Y t M HM).
Qed.
Lemma mok_back (s : st) t o : ov_ok (CLY (fun _ => True) t) s o -> ov_ok CL s o.
Proof.
  intros [A B D]. constructor; [exact A|exact B|]. intros a b p Hp. destruct (D a b p Hp) as (D1 & D2 & dl & dr & D3 & D4 & D5). split; [exact D1|]. split; [exact D2|]. exists dl, dr.
  split; [exact D3|]. split; [exact D4|]. intros M HM. apply D5, (mmodels_all s t M HM).
Qed.
Lemma gok_any (s : st) Y t o : gok CL s o -> (forall u, In (inr u) (theories s) -> later t u) -> gok (CLY Y t) s o.
Proof. intros [A B D] H. constructor; [apply mgood_any; assumption|exact B|apply mok_any, D]. Qed.

(** ** The invariant. *)
Record mgood (tr : list mev) (s : st) (o : ovs) (t : lra) : Prop := {
  mg_ok : gok CL s o;
  mg_th : theories s = [inl o; inr t];
  mg_seen : seen (fun v => In v (mvis tr)) s o;
  mg_dom : forall x, mdom_of tr x = nth_error (odom o) x;
  mg_known : forall x, In x (mknown tr) -> (x < nx t)%nat }.
Lemma minit_good : mgood [] minit ov_empty lra_init /\ forall M y, msol minit 1 M y <-> M 0%nat = false.
Proof.
  destruct (init_good C [inl ov_empty; inr lra_init]) as (_ & G & HM).
  { intros t [<-|[<-|[]]]; [split; [exact I|split; [exact I|intros w []]]|]. destruct lra_init_inv as (A & B & D). split; [split; [exact A|exact I]|]. split; [exact B|exact D]. }
  assert (J : forall M' y', joint lra_init M' y') by (intros M' y'; split; [intros x l []|split; [intros v a []|intros l []]]).
  split.
  - constructor.
    + constructor; [exact G|reflexivity|]. constructor; [intros m x l []|intros m []|intros a b p []].
    + reflexivity.
    + constructor.
      * intros v [<-|[]]. apply (t_nv minit (i_t _ _ (g_inv _ _ G))).
      * left; reflexivity.
      * intros x m y l E. destruct x; discriminate E.
      * intros k p [].
    + intros x. destruct x; reflexivity.
    + intros x [].
  - intros M y. split.
    + intros [H _]. apply HM in H. apply H.
    + intros H. split; [apply HM; split; [exact H|]; intros t [<-|[<-|[]]]; [exact I|]; exists y; split; [exact I|apply J]|]. exists lra_init. split; [reflexivity|apply J].
Qed.
Lemma mvis_cons c ds r tr : forall v, In v (mvis (mk_mev c ds r :: tr)) <-> In v (mvis tr) \/ In v (mret_vars r).
Proof. intros v. unfold mvis. cbn [flat_map me_ret In]. rewrite in_app_iff. tauto. Qed.
Lemma mdom_snoc tr c ds o (m : list (nat * lit)) : (forall x, mdom_of tr x = nth_error (odom o) x) ->
  forall x, mdom_of (mk_mev c ds (MR (OX (length (odom o)) m)) :: tr) x = nth_error (odom o ++ [m]) x.
Proof.
  intros H x. cbn [mdom_of me_ret]. destruct (Nat.eqb_spec x (length (odom o))) as [->|Hn].
  - rewrite nth_error_app2, Nat.sub_diag by lia. reflexivity.
  - rewrite H. destruct (le_lt_dec (length (odom o)) x) as [Hl|Hl]; [|rewrite nth_error_app1 by exact Hl; reflexivity].
    rewrite (proj2 (nth_error_None _ _) Hl). symmetry. apply nth_error_None. rewrite app_length. cbn. lia.
Qed.
Lemma seen_ext (V W : nat -> Prop) (s : st) o : (forall v, V v <-> W v) -> seen V s o -> seen W s o.
Proof.
  intros H [A B D E]. constructor.
  - intros v Hv. apply A, H, Hv.
  - apply H, B.
  - intros x m y l Em Hi. apply H, (D x m y l Em Hi).
  - intros k p Hp. apply H, (E k p Hp).
Qed.
Definition minfo (t t' : lra) (c : mcall) (r : mret) : Prop :=
  match c, r with
  | MSlack l, MX x => forall y, tsol (tab t') y -> y x == lval y l
  | MCmp sd strict l r, MP p => forall y, rsat t' y -> answers t' p y (cmpP sd strict (lval y l) (lval y r))
  | _, _ => True
  end.
Definition mextends (tr : list mev) (s : st) (c : mcall) (r : mret) (s' : st) : Prop :=
  mmindful (mk_mev c (decisions s) r :: tr) ->
  forall M y M1 y1, M 0%nat = false -> msaid tr c (decisions s) r M y -> (forall v, In v (mvis tr) -> M1 v = M v) -> (forall x, In x (mknown tr) -> y1 x == y x) -> msol s 1 M1 y1 ->
  exists M2 y2, (forall v, In v (mvis tr) \/ In v (mret_vars r) -> M2 v = M v) /\
    (forall x, In x (mknown (mk_mev c (decisions s) r :: tr)) -> y2 x == y x) /\ msol s' 1 M2 y2.

Lemma gsaid_tr tr s o t c ds r M y : mgood tr s o t -> (gsaid o c ds r M <-> msaid tr (MO c) ds (MR r) M y).
Proof.
  intros G. destruct c as [c|items [|]|ls vals|a b], r as [r|x m|p]; cbn [gsaid msaid]; try tauto.
  split; intros H da db Ha Hb; apply H; [rewrite <- (mg_dom _ _ _ _ G)|rewrite <- (mg_dom _ _ _ _ G)|rewrite (mg_dom _ _ _ _ G)|rewrite (mg_dom _ _ _ _ G)]; assumption.
Qed.
Lemma shape_sat fl (s s' : st) o t c r : theories s = [inl o; inr t] -> step (ops := ops) fl s c = Ok (s', r) -> exists t', theories s' = [inl o; inr t'].
Proof.
  intros Et E. assert (H : map (fun t : ovs + lra => match t with inl o => Some o | inr _ => None end) (theories s') = map (fun t : ovs + lra => match t with inl o => Some o | inr _ => None end) (theories s)).
  { apply (K_step ops (fun t : ovs + lra => match t with inl o => Some o | inr _ => None end)) with (fuel := fl) (c := c) (r := r); [| | | |exact E].
    - intros [a|b] val p t' ls cf H; cbn in H; [inversion H; reflexivity|]. destruct (lra_prop _ _ _ _) as [[[b' ?] ?]| |]; cbn in H; try discriminate. inversion H; subst. reflexivity.
    - intros [a|b] val t' cf H; cbn in H; [inversion H; reflexivity|]. destruct (lra_check _ _) as [[b' ?]| |]; cbn in H; try discriminate. inversion H; subst. reflexivity.
    - intros [a|b]; reflexivity.
    - intros [a|b]; reflexivity. }
  rewrite Et in H. destruct (theories s') as [|[a|a] [|[b|b] [|? ?]]]; cbn in H; try discriminate H. injection H as ->. eauto.
Qed.

Theorem mstep_ok fl tr (s s' : st) o t c r : mgood tr s o t -> mlegal s c -> mstep fl s c = Ok (s', r) -> malive s' r ->
  exists o' t', mgood (mk_mev c (decisions s) r :: tr) s' o' t' /\ grows t t' /\ minfo t t' c r /\
  (forall M y, msol s' 1 M y -> msol s 1 M y /\ msaid tr c (decisions s) r M y) /\ mextends tr s c r s'.
Proof.
  intros MG HL HE HA. pose proof MG as [GO Et SE HD HK]. pose proof (gk_good _ _ _ GO) as G. assert (Ei : nth_error (theories s) 1 = Some (inr t)) by (rewrite Et; reflexivity).
  assert (HP : forall u, In (inr u) (theories s) -> later t u) by (intros u Hu; rewrite Et in Hu; destruct Hu as [Hu|[Hu|[]]]; [discriminate Hu|injection Hu as ->; apply later_refl]).
  destruct c as [c| |l|sd strict l k]; cbn [mstep mlegal] in *.
  - (* the core and the object theory *)
    destruct (gstep om oi fl s c) as [[s1 r1]| |] eqn:E; cbn [rbind] in HE; try discriminate HE. assert (s1 = s' /\ r = MR r1) as [-> ->] by (split; congruence). clear HE.
    destruct (gstep_ok (CLY (fun _ => True) t) om oi Hom Hoi fl s s' o c r1 (gok_any s _ t o GO HP) HL E) as (o' & H1 & Hn & Hr & Hs & Ho & Hx & Hj & _ & _).
    assert (GA : galive (CLY (fun _ => True) t) s' r1) by (intros ->; destruct (HA eq_refl) as (M & HM); exists M; apply mmodels_all, HM).
    specialize (H1 GA). destruct (mgood_back s' t (gk_good _ _ _ H1)) as [G' HP'].
    assert (Hsh : exists t', theories s' = [inl o'; inr t']).
    { pose proof (gk_th _ _ _ H1) as H0. destruct c as [c|items e|ls vals|a b]; cbn [gstep] in E.
      - destruct (step fl s c) as [[s1 r2]| |] eqn:E2; cbn [rbind] in E; try discriminate E. injection E as -> _. destruct (shape_sat fl s s' o t c r2 Et E2) as (t' & Et'). exists t'. rewrite Et' in H0. cbn in H0. congruence.
      - pose proof (Hj 1%nat ltac:(lia)) as J1. pose proof (Hj 2%nat ltac:(lia)) as J2. rewrite Et in J1, J2. cbn in J1, J2. exists t. destruct (theories s') as [|? [|? [|? ?]]]; cbn in H0, J1, J2; congruence.
      - pose proof (Hj 1%nat ltac:(lia)) as J1. pose proof (Hj 2%nat ltac:(lia)) as J2. rewrite Et in J1, J2. cbn in J1, J2. exists t. destruct (theories s') as [|? [|? [|? ?]]]; cbn in H0, J1, J2; congruence.
      - pose proof (Hj 1%nat ltac:(lia)) as J1. pose proof (Hj 2%nat ltac:(lia)) as J2. rewrite Et in J1, J2. cbn in J1, J2. exists t. destruct (theories s') as [|? [|? [|? ?]]]; cbn in H0, J1, J2; congruence. }
    destruct Hsh as (t' & Et'). assert (La : later t t') by (apply HP'; rewrite Et'; right; left; reflexivity).
    exists o', t'. split; [|split; [apply later_grows, La|split; [exact I|split]]].
    + constructor.
      * constructor; [exact G'|apply H1|apply (mok_back s' t), H1].
      * exact Et'.
      * apply (seen_ext (fun v => In v (mvis tr) \/ In v (ret_vars r1))); [intros v; symmetry; apply (mvis_cons (MO c) (decisions s) (MR r1) tr v)|apply Hs, SE].
      * intros x. rewrite Ho. destruct r1 as [r1|x1 m1|p1]; [apply HD| |apply HD]. rewrite (Hx x1 m1 eq_refl). apply mdom_snoc, HD.
      * intros x Hx'. cbn in Hx'. specialize (HK x Hx'). pose proof (gw_nx _ _ (later_grows _ _ La)). lia.
    + intros M y HM. apply (msol_single s' o' t' t M y Et') in HM.
      destruct (gstep_ok (CLY (eq y) t) om oi Hom Hoi fl s s' o c r1 (gok_any s _ t o GO HP) HL E) as (_ & _ & _ & _ & _ & _ & _ & _ & H2 & _).
      destruct (H2 M HM) as [A B]. split; [apply (msol_single s o t t M y Et), A|apply (gsaid_tr tr s o t c (decisions s) r1 M y MG), B].
    + intros Hm M y M1 y1 HM0 Hsd HM1 Hy1 HS. inversion Hm as [|? ? Hm' Hex Hcl Hdl Hlv]; subst. cbn [me_call me_decs mcall_lits] in *.
      apply (msol_single s o t t M1 y1 Et) in HS.
      destruct (gstep_ok (CLY (eq y1) t) om oi Hom Hoi fl s s' o c r1 (gok_any s _ t o GO HP) HL E) as (_ & _ & _ & _ & _ & _ & _ & _ & _ & H3).
      destruct (H3 (fun v => In v (mvis tr)) SE) with (M := M) (M1 := M1) as (M2 & A & B).
      * intros c' ->. apply Hex. reflexivity.
      * exact Hcl.
      * exact Hdl.
      * exact HM0.
      * apply (gsaid_tr tr s o t c (decisions s) r1 M y MG), Hsd.
      * exact HM1.
      * exact HS.
      * exists M2, y1. split; [exact A|]. split; [exact Hy1|]. apply (msol_single s' o' t' t M2 y1 Et'), B.
  - (* new_var() *)
    destruct (mx_new_var_call ovC ord Hord fuel s 1 t G Ei) as (s1 & t1 & E & SO & En & Hnx & Hva & Gw & H1 & H2). rewrite E in HE. cbn [rbind] in HE. assert (s1 = s' /\ r = MX (nx t)) as [-> ->] by (split; congruence).
    assert (Et' : theories s' = [inl o; inr t1]) by (rewrite (ms_th _ _ _ _ _ _ _ _ SO), Et; reflexivity).
    exists o, t1. split; [|split; [exact Gw|split; [exact I|split]]].
    + constructor.
      * constructor; [apply SO|rewrite Et'; reflexivity|]. apply (ok_mono CL s); [apply GO|rewrite En; lia|]. intros M HM.
        pose proof (sm_th _ _ _ HM (inr t1)) as Hj. rewrite Et' in Hj. destruct (Hj (or_intror (or_introl eq_refl))) as (y & _ & Hy). apply (H1 M y). split; [exact HM|exists t1; rewrite Et'; auto].
      * exact Et'.
      * destruct SE as [A B D F]. constructor; [intros v Hv; rewrite En; apply A; apply (mvis_cons MVar (decisions s) (MX (nx t)) tr) in Hv as [Hv|[]]; exact Hv|left; reflexivity| |].
        -- intros x m y l Em Hi. apply (mvis_cons MVar (decisions s) (MX (nx t)) tr). left. apply (D x m y l Em Hi).
        -- intros k p Hp. apply (mvis_cons MVar (decisions s) (MX (nx t)) tr). left. apply (F k p Hp).
      * exact HD.
      * intros x [<-|Hx]; [lia|]. specialize (HK x Hx). lia.
    + intros M y HM. split; [apply H1, HM|exact I].
    + intros _ M y M1 y1 HM0 _ HM1 Hy1 HS. exists M1, (upd y1 (nx t) (y (nx t))). split; [intros v [Hv|[]]; apply HM1, Hv|]. split; [|apply H2, HS].
      intros x [<-|Hx]; [rewrite upd_eq; reflexivity|]. specialize (HK x Hx). rewrite upd_neq by lia. apply Hy1, Hx.
  - (* new_var(lin) *)
    destruct HL as (Hd & u & Eu & Hsl). rewrite Ei in Eu. injection Eu as <-.
    destruct (mx_new_slack_call ovC ord Hord fuel s 1 t l G Hd Ei Hsl) as (s1 & t1 & x & E & SO & En & Gw & Hx & Hva & Hs & H1 & H2). rewrite E in HE. cbn [rbind] in HE. assert (s1 = s' /\ r = MX x) as [-> ->] by (split; congruence).
    assert (Et' : theories s' = [inl o; inr t1]) by (rewrite (ms_th _ _ _ _ _ _ _ _ SO), Et; reflexivity).
    exists o, t1. split; [|split; [exact Gw|split; [exact Hs|split]]].
    + constructor.
      * constructor; [apply SO|rewrite Et'; reflexivity|]. apply (ok_mono CL s); [apply GO|rewrite En; lia|]. intros M HM.
        pose proof (sm_th _ _ _ HM (inr t1)) as Hj. rewrite Et' in Hj. destruct (Hj (or_intror (or_introl eq_refl))) as (y & _ & Hy). apply (H1 M y). split; [exact HM|exists t1; rewrite Et'; auto].
      * exact Et'.
      * destruct SE as [A B D F]. constructor; [intros v Hv; rewrite En; apply A; apply (mvis_cons (MSlack l) (decisions s) (MX x) tr) in Hv as [Hv|[]]; exact Hv|left; reflexivity| |].
        -- intros z m y q Em Hi. apply (mvis_cons (MSlack l) (decisions s) (MX x) tr). left. apply (D z m y q Em Hi).
        -- intros k p Hp. apply (mvis_cons (MSlack l) (decisions s) (MX x) tr). left. apply (F k p Hp).
      * exact HD.
      * intros z [<-|Hz]; [exact Hx|]. specialize (HK z Hz). pose proof (gw_nx _ _ Gw). lia.
    + exact H1.
    + intros Hm M y M1 y1 HM0 Hsd HM1 Hy1 HS. inversion Hm as [|? ? Hm' Hex Hcl Hdl Hlv]; subst. cbn [me_call mlin_vars msaid] in *.
      destruct (H2 M1 y1 HS) as (y2 & A & B). assert (Hold : forall z, In z (mknown tr) -> y2 z == y z) by (intros z Hz; rewrite (A z (HK z Hz)); apply Hy1, Hz).
      exists M1, y2. split; [intros v [Hv|[]]; apply HM1, Hv|]. split; [|exact B]. intros z [<-|Hz]; [|apply Hold, Hz].
      destruct (H1 M1 y2 B) as [_ Hs2]. rewrite Hs2, Hsd. apply (lval_agree y y2 l (mknown tr)); assumption.
  - (* the comparisons *)
    destruct HL as (Hd & Hl & Hr & u & Eu & Hv). rewrite Ei in Eu. injection Eu as <-.
    destruct (mx_cmp_call ovC ord Hord fuel s 1 t sd strict l k G Hd Ei Hl Hr) as (s1 & t1 & p & E & SO & Gw & Hp & An & H1 & H2 & H3 & H4).
    { intros v Hv'. apply Hv. cbn [mlin_vars]. apply in_or_app. destruct Hv' as [Hv'|Hv']; [left|right]; apply dom_fst, Hv'. }
    rewrite E in HE. cbn [rbind] in HE. assert (s1 = s' /\ r = MP p) as [-> ->] by (split; congruence).
    assert (Et' : theories s' = [inl o; inr t1]) by (rewrite (ms_th _ _ _ _ _ _ _ _ SO), Et; reflexivity).
    exists o, t1. split; [|split; [exact Gw|split; [exact An|split]]].
    + constructor.
      * constructor; [apply SO|rewrite Et'; reflexivity|]. apply (ok_mono CL s); [apply GO|apply SO|]. intros M HM.
        pose proof (sm_th _ _ _ HM (inr t1)) as Hj. rewrite Et' in Hj. destruct (Hj (or_intror (or_introl eq_refl))) as (y & _ & Hy). apply (H1 M y). split; [exact HM|exists t1; rewrite Et'; auto].
      * exact Et'.
      * destruct SE as [A B D F]. constructor.
        -- intros v Hw. apply (mvis_cons (MCmp sd strict l k) (decisions s) (MP p) tr) in Hw as [Hw|[<-|[]]]; [|exact Hp]. specialize (A v Hw). pose proof (ms_nv _ _ _ _ _ _ _ _ SO). lia.
        -- left; reflexivity.
        -- intros z m y q Em Hi. apply (mvis_cons (MCmp sd strict l k) (decisions s) (MP p) tr). left. apply (D z m y q Em Hi).
        -- intros k' q Hq. apply (mvis_cons (MCmp sd strict l k) (decisions s) (MP p) tr). left. apply (F k' q Hq).
      * exact HD.
      * intros z Hz. cbn in Hz. specialize (HK z Hz). pose proof (gw_nx _ _ Gw). lia.
    + exact H1.
    + intros Hm M y M1 y1 HM0 Hsd HM1 Hy1 HS. inversion Hm as [|? ? Hm' Hex Hcl Hdl Hlv]; subst. cbn [me_call mlin_vars msaid] in *.
      assert (E1 : lval y1 l == lval y l) by (apply (lval_agree y y1 l (mknown tr) Hy1); intros x Hi; apply Hlv, in_or_app; left; exact Hi).
      assert (E2 : lval y1 k == lval y k) by (apply (lval_agree y y1 k (mknown tr) Hy1); intros x Hi; apply Hlv, in_or_app; right; exact Hi).
      assert (Hsd1 : mlit M p = true <-> cmpP sd strict (lval y1 l) (lval y1 k)) by (rewrite Hsd; unfold cmpP; destruct sd, strict; lra).
      destruct H3 as [H3|[H3 _]].
      * assert (Hp1 : mlit M1 p = mlit M p) by (pose proof (H4 H3 M1 y1 HS) as K; rewrite <- Hsd1 in K; destruct (mlit M1 p), (mlit M p); try reflexivity; [symmetry; apply K; reflexivity|apply K; reflexivity]).
        destruct (H2 M1 y1 HS) as (y2 & A & B); [rewrite Hp1; exact Hsd1|]. exists M1, y2. split; [|split; [|exact B]].
        -- intros v [Hw|[<-|[]]]; [apply HM1, Hw|apply lit_same, Hp1].
        -- intros z Hz. cbn in Hz. rewrite (A z (HK z Hz)). apply Hy1, Hz.
      * set (M2 := upd M1 (nv s) (M (nv s))). assert (Ag : agree (nv s) M1 M2) by (intros v Hw; unfold M2; rewrite upd_neq by lia; reflexivity).
        assert (HS2 : msol s 1 M2 y1).
        { apply (msol_single s o t t M2 y1 Et). apply (smodels_agree (CY (eq y1) t) s M1); [apply (mgood_any s _ t G HP)|exact Ag|apply (msol_single s o t t M1 y1 Et), HS]. }
        assert (Hp1 : mlit M2 p = mlit M p) by (unfold mlit, M2; rewrite H3, upd_eq; reflexivity).
        destruct (H2 M2 y1 HS2) as (y2 & A & B); [rewrite Hp1; exact Hsd1|]. exists M2, y2. split; [|split; [|exact B]].
        -- intros v [Hw|[<-|[]]]; [rewrite <- (Ag v (se_lt _ _ _ SE v Hw)); apply HM1, Hw|apply lit_same, Hp1].
        -- intros z Hz. cbn in Hz. rewrite (A z (HK z Hz)). apply Hy1, Hz.
Qed.

Lemma mtrace_good tr s : MTrace tr s -> exists o t, mgood tr s o t.
Proof.
  induction 1 as [|fl tr s c s' r HT (o & t & IH) HL HE HA]; [exists ov_empty, lra_init; apply minit_good|].
  destruct (mstep_ok fl tr s s' o t c r IH HL HE HA) as (o' & t' & G & _). eauto.
Qed.
(** The solutions of the network respect what the client has been told... *)
Theorem mtold_all tr s : MTrace tr s -> forall M y, msol s 1 M y -> mtold tr M y.
Proof.
  induction 1 as [|fl tr s c s' r HT IH HL HE HA]; intros M y HS; [apply minit_good in HS; exact HS|].
  destruct (mtrace_good tr s HT) as (o & t & G). destruct (mstep_ok fl tr s s' o t c r G HL HE HA) as (o' & t' & _ & _ & _ & H & _). destruct (H M y HS) as [A B]. split; [apply IH, A|exact B].
Qed.
Lemma mtold_false tr M y : mtold tr M y -> M 0%nat = false.
Proof. induction tr as [|e tr IH]; cbn; [auto|]. intros [H _]. apply IH, H. Qed.
(** ... and conversely whatever respects it extends to a solution. *)
Theorem mtold_enough tr s : MTrace tr s -> mmindful tr -> forall M y, mtold tr M y ->
  exists M' y', (forall v, In v (mvis tr) -> M' v = M v) /\ (forall x, In x (mknown tr) -> y' x == y x) /\ msol s 1 M' y'.
Proof.
  induction 1 as [|fl tr s c s' r HT IH HL HE HA]; intros HM M y Ht.
  - exists M, y. split; [auto|]. split; [intros x []|]. apply minit_good, Ht.
  - pose proof HM as HM0. inversion HM as [|? ? HM' _ _ _ _]; subst. cbn [mtold me_call me_decs me_ret] in Ht. destruct Ht as [Ht Hs]. destruct (IH HM' M y Ht) as (M1 & y1 & A1 & B1 & S1).
    destruct (mtrace_good tr s HT) as (o & t & G). destruct (mstep_ok fl tr s s' o t c r G HL HE HA) as (o' & t' & _ & _ & _ & _ & H).
    destruct (H HM0 M y M1 y1 (mtold_false _ _ _ Ht) Hs A1 B1 S1) as (M2 & y2 & A2 & B2 & S2). exists M2, y2. split; [|split; assumption].
    intros v Hv. apply A2, (mvis_cons c (decisions s) r tr v), Hv.
Qed.
End MRun.
End Srt.
