(** A root-level network with a difference logic theory and a linear real arithmetic theory on one core, end to end: its histories, what they have
    stated, and the meaning of a propagation. *)
From Verif Require Import Base Keys Sat SatSpec SatInv SatPop SatImp SatRec SatAn SatProp SatLoop SatMain SatApi SatApi2 SatNext SatSimp Reify Amo Run SatFacts.
From Verif Require Import Lin Qe Lra LraTab LraVal LraInv LraChk LraTerm LraPro LraCon ThGrow LraNew LraCmp ThRel LraApi LraRun LraEnd LraEq LraTh LraExec LraFacts ThSum Mix MixApi.
From Verif Require Import Dw Dl DlClo DlTight DlEdge DlTh DlFacts DlVal DlApi MapTh DlRoot DlNet Two TwoApi TwoSame TwoNet.
From Coq Require Import Lqa.
Open Scope nat_scope.
Local Arguments Nat.ltb : simpl never.
Local Arguments Nat.eqb : simpl never.
Local Arguments Nat.pow : simpl never.
Local Arguments Nat.mul : simpl never.
Section Srt.
Context {sr : sorter}.

(** ** Literals of an arithmetic theory that shares its core. *)
Section Answer.
Context {BT : Type} {ob : theory_ops BT} (CB : contract ob) (ord : nat -> list nat -> list nat) (Hord : forall k l, Permutation l (ord k l)) (fuel : lra -> nat).
Notation C := (sumC ob (lra_ops ord fuel) CB (lraT ord Hord fuel)).
Lemma asserted_true (s : st (BT + lra)) i t y p sd x b : good C s -> prop_q s = [] -> nth_error (theories s) i = Some (inr t) -> (forall s x, bhold s (bound t s x) (y x)) ->
  lmean t p = Some (sd, x, b) -> value s p = LTrue -> bhold sd (Some b) (y x).
Proof.
  intros G Hq Et HB Hm Hp. destruct (h_views _ _ _ _ (i_h _ _ (g_inv _ _ G)) i _ Et) as (vs & [HI _] & B & E & F).
  assert (Ha : th_atom C (inr t) (lvar p)) by (cbn [th_atom sumC sum_atom lraT lraC mk_strict]; apply atoms_find; unfold lmean in Hm; destruct (gfind (lvar p) (v_asrts t)); congruence).
  destruct (F p Ha Hp) as [Hx|(j & v & Ej & Hv & _)]; [rewrite Hq in Hx; destruct Hx|].
  destruct (b_lit _ _ _ (ti_b _ _ HI) p) as (s1 & x1 & b1 & A1 & A2); [apply in_concat; exists v; split; [eapply nth_error_In, Ej|exact Hv]|].
  rewrite Hm in A1. inversion A1; subst. eapply bhold_weak; [exact A2|apply HB].
Qed.
Lemma answer_true (s : st (BT + lra)) i t y p A : good C s -> prop_q s = [] -> nth_error (theories s) i = Some (inr t) -> (forall s x, bhold s (bound t s x) (y x)) ->
  answers t p y A -> (value s p = LTrue -> A) /\ (value s p = LFalse -> ~ A).
Proof.
  intros G Hq Et HB HA. pose proof (t_a0 _ (i_t _ _ (g_inv _ _ G))) as H0. destruct (h_views _ _ _ _ (i_h _ _ (g_inv _ _ G)) i _ Et) as (vs & [HI _] & _).
  destruct HA as [[-> Hx]|[[-> Hx]|(a & Ha & Ep & Hx)]].
  - split; [auto|]. unfold value, vlit. cbn. rewrite H0. discriminate.
  - split; [|auto]. unfold value, vlit. cbn. rewrite H0. discriminate.
  - destruct (ti_atom _ _ HI _ _ Ha) as (E1 & E2 & E3 & E4). assert (Hl : lsgn p = true) by (rewrite Ep, E1; reflexivity).
    assert (Hf : gfind (lvar p) (v_asrts t) = Some a) by (apply gfind_nodup; [apply HI|exact Ha]).
    split; intros Hp.
    + apply Hx. unfold ahold. apply (asserted_true s i t y p _ _ _ G Hq Et HB); [|exact Hp]. unfold lmean. rewrite Hf, Hl. reflexivity.
    + rewrite <- Hx. unfold ahold. apply (neg_hold a (y (a_x a)) E4). apply (asserted_true s i t y (negl p) _ _ _ G Hq Et HB).
      * unfold lmean. cbn [lvar lsgn negl]. rewrite Hf, Hl. reflexivity.
      * rewrite value_negl, Hp. reflexivity.
Qed.
Lemma total_joint (s : st (BT + lra)) i t y vs : good C s -> prop_q s = [] -> total s -> nth_error (theories s) i = Some (inr t) -> TInv t vs ->
  (forall j v l, nth_error vs j = Some v -> In l v -> value s l = LTrue) -> tsol (tab t) y -> (forall s x, bhold s (bound t s x) (y x)) -> joint t (values s) y.
Proof.
  intros G Hq Htot Ei HI Hvt A B. pose proof (g_inv _ _ G) as HI'. split; [exact A|]. split.
  - intros v a Ha. pose proof (h_range _ _ _ _ (i_h _ _ HI') i (inr t) v Ei) as Hr. assert (Hv : 0 < v < nv s) by (apply Hr; cbn; unfold atoms; change v with (fst (v, a)); apply in_map, Ha).
    specialize (Htot v (proj2 Hv)). assert (An : answers t (mk_lit v true) y (ahold y a)).
    { right; right. exists a. split; [exact Ha|]. split; [symmetry; apply (ti_atom _ _ HI _ _ Ha)|reflexivity]. }
    destruct (answer_true s i t y (mk_lit v true) _ G Hq Ei B An) as [K1 K2]. unfold value, vlit in K1, K2. cbn in K1, K2. unfold values. destruct (assigns s v); [split; [discriminate|intros K; destruct (K2 eq_refl K)]|split; [intros _; apply K1; reflexivity|reflexivity]|congruence].
  - intros l Hl _. apply (ti_facts _ _ HI) in Hl. assert (Hv : exists j v, nth_error vs j = Some v /\ In l v).
    { destruct vs as [|w vs]; [destruct Hl|]. exists (length vs), (List.last (w :: vs) []). split; [|exact Hl]. clear. revert w. induction vs as [|u vs IH]; intros w; [reflexivity|]. cbn [length nth_error]. rewrite IH. reflexivity. }
    destruct Hv as (j & v & Ej & Hj). pose proof (Hvt j v l Ej Hj) as Hv. apply values_lit; congruence.
Qed.
End Answer.

Section ATrace.
Context {D : Type} {W : wops D} (L : wlaws W) (WR : wreads L).
Context (last : Sat.st (dl D + lra) -> nat -> nat -> nat -> D -> res (Sat.st (dl D + lra) * lit)).
Context (ord : nat -> list nat -> list nat) (Hord : forall k l, Permutation l (ord k l)) (fuel : lra -> nat).
Notation dl := (dl D).
Notation st := (st (dl + lra)).
Notation lops := (lra_ops ord fuel).
Notation ops := (sum_ops (dl_ops (sr := sr) W) lops).
Notation CL := (lraT ord Hord fuel).
Notation C := (sumC (mute_ops (dl_ops (sr := sr) W)) lops (rootC L anyy) CL).
Notation mu := (mp (@emb D lra)).
Notation asol := (asol L ord Hord fuel).
Notation agood := (agood L ord Hord fuel).
Notation aalive := (aalive L ord Hord fuel).
Notation alegal := (alegal L last).
Notation astep := (astep (W := W) last ord fuel).
Notation asaid := (asaid L).

(** A new core with a new theory of each kind. *)
Definition ainit (size : nat) : st := init [inl (dl_init W size); inr lra_init].
Record aev := mk_aev { ae_call : @acall D; ae_ret : aret }.
(** A client goes on unless it has been told that the network is inconsistent. *)
Inductive ATrace (size : nat) : list aev -> st -> Prop :=
| AT_init : ATrace size [] (ainit size)
| AT_step fl tr s c s' r : ATrace size tr s -> alegal s c -> astep fl s c = Ok (s', r) -> aalive s' r -> ATrace size (mk_aev c r :: tr) s'.
(** What a history has stated, about the propositional variables, the variables of the difference logic theory (the first is the origin) and those of
    the arithmetic one. *)
Definition astated (tr : list aev) (M : nat -> bool) (y z : nat -> Q) : Prop :=
  M 0 = false /\ vals_ok L y /\ (y O == 0)%Q /\ forall e, In e tr -> asaid (ae_call e) (ae_ret e) M y z.
(** The arithmetic variables that the client knows of. *)
Definition aknown (tr : list aev) : list nat := flat_map (fun e => match ae_ret e with AX x => [x] | _ => [] end) tr.
(** Calls that create no hidden variables, and expressions over variables that have been given to the client. *)
Inductive amindful : list aev -> Prop :=
| am_nil : amindful []
| am_cons e tr : amindful tr -> aexact (ae_call e) -> (forall x, In x (alin_vars (ae_call e)) -> In x (aknown tr)) -> amindful (e :: tr).

Lemma ainit_good size : 0 < size -> agood (ainit size) (dl_init W size) lra_init /\ forall M y z, asol (ainit size) M y z <-> M 0 = false /\ vals_ok L y /\ (y O == 0)%Q.
Proof.
  intros Hs. assert (Ei : mu (ainit size) = init [inl (dl_init W size, 0); inr lra_init]) by reflexivity.
  destruct (init_good C [inl (dl_init W size, 0); inr lra_init]) as (_ & G & HM).
  { destruct lra_init_inv as (A & B & E). intros t [<-|[<-|[]]]; (split; [|split]).
    - exists [], []. split; [reflexivity|]. split; [reflexivity|]. apply DR_init, Hs.
    - exact Logic.I.
    - intros v (c & [] & _).
    - split; [exact A|exact Logic.I].
    - exact B.
    - exact E. }
  assert (J : forall M z, joint lra_init M z) by (intros M z; split; [intros x l []|split; [intros v a []|intros l []]]).
  split; [constructor; [reflexivity|reflexivity|rewrite Ei; exact G]|]. intros M y z. unfold TwoNet.asol. rewrite Ei, (HM M). split.
  - intros [[A _] (t & u & Et & (B1 & B2 & _) & _)]. auto.
  - intros (A & B & E). split; [split; [exact A|]; intros t [<-|[<-|[]]]|].
    + exists y. split; [split; [exact B|exact Logic.I]|]. split; [exact E|]. intros c [].
    + exists z. split; [exact Logic.I|apply J].
    + exists (dl_init W size), lra_init. split; [reflexivity|]. split; [split; [exact B|split; [exact E|intros c []]]|apply J].
Qed.

Section Size.
Context (size : nat) (Hsize : 0 < size).
Lemma atrace_good tr s : ATrace size tr s -> exists t u, agood s t u /\ forall x, In x (aknown tr) -> x < nx u.
Proof.
  induction 1 as [|fl tr s c s' r HT (t & u & G & HK) HL HE HA]; [exists (dl_init W size), lra_init; split; [apply ainit_good, Hsize|intros x []]|].
  destruct (astep_ok L WR last ord Hord fuel fl s s' t u c r G HL HE HA) as (t' & u' & G' & Gw & _ & Hi & _ & _ & He & _). exists t', u'. split; [exact G'|].
  intros x Hx. unfold aknown in Hx. cbn [flat_map ae_ret] in Hx. apply in_app_or in Hx as [Hx|Hx].
  - destruct r as [r|x'|p]; [destruct Hx| |destruct Hx]. destruct Hx as [<-|[]]. destruct c as [c| |l|sd strict l k].
    + exfalso. clear - HE. cbn [TwoNet.astep] in HE. destruct (tstep last fl s 0 c) as [[? ?]| |]; cbn [rbind] in HE; discriminate.
    + exact Hi.
    + apply Hi.
    + exfalso. clear - HE. cbn [TwoNet.astep] in HE. destruct (mx_cmp s 1 sd strict l k) as [[? ?]| |]; cbn [rbind] in HE; discriminate.
  - specialize (HK x Hx). pose proof (gw_nx _ _ Gw). lia.
Qed.
Lemma atrace_ok tr s : ATrace size tr s -> exists t u, agood s t u.
Proof. intros H. destruct (atrace_good tr s H) as (t & u & G & _). eauto. Qed.
(** The solutions of the network respect what the client has been told... *)
Theorem asol_stated tr s : ATrace size tr s -> forall M y z, asol s M y z -> astated tr M y z.
Proof.
  induction 1 as [|fl tr s c s' r HT IH HL HE HA]; intros M y z HM.
  - apply (ainit_good size Hsize) in HM as (A & B & E). split; [exact A|]. split; [exact B|]. split; [exact E|]. intros e [].
  - destruct (atrace_ok tr s HT) as (t & u & G). destruct (astep_ok L WR last ord Hord fuel fl s s' t u c r G HL HE HA) as (t' & u' & _ & _ & _ & _ & _ & K & _).
    destruct (K M y z HM) as [HM' Hs]. destruct (IH M y z HM') as (A & B & E & F). split; [exact A|]. split; [exact B|]. split; [exact E|]. intros e [<-|He]; [exact Hs|apply F, He].
Qed.
(** ... and conversely whatever respects it extends to a solution. *)
Lemma known_lval (z z' : nat -> Q) l ks : (forall x, In x ks -> (z' x == z x)%Q) -> (forall x, In x (map fst (lvars l)) -> In x ks) -> (lval z' l == lval z l)%Q.
Proof. intros H1 H2. apply (lval_agree z z' l ks H1 H2). Qed.
Theorem stated_asol tr s : ATrace size tr s -> amindful tr -> forall M y z, astated tr M y z -> exists z', (forall x, In x (aknown tr) -> (z' x == z x)%Q) /\ asol s M y z'.
Proof.
  induction 1 as [|fl tr s c s' r HT IH HL HE HA]; intros Hm M y z (A & B & E & F).
  - exists z. split; [intros x []|]. apply (ainit_good size Hsize). auto.
  - inversion Hm as [|? ? Hm' Hx Hv]; subst. cbn [ae_call] in *. destruct (IH Hm' M y z) as (z1 & Hz1 & HS); [split; [exact A|split; [exact B|split; [exact E|intros e He; apply F; right; exact He]]]|].
    destruct (atrace_good tr s HT) as (t & u & G & HK). destruct (astep_ok L WR last ord Hord fuel fl s s' t u c r G HL HE HA) as (t' & u' & _ & _ & _ & Hi & _ & K & He & _).
    pose proof (F _ (or_introl eq_refl)) as Hsd. cbn [ae_call ae_ret] in Hsd. destruct c as [c| |l|sd strict l k]; cbn [aext] in He.
    + exists z1. split.
      * intros x Hx'. unfold aknown in Hx'. cbn [flat_map ae_ret] in Hx'. apply in_app_or in Hx' as [Hx'|Hx']; [|apply Hz1, Hx']. destruct r as [r|x'|p]; [destruct Hx'| |destruct Hx'].
        exfalso. clear - HE. cbn [TwoNet.astep] in HE. destruct (tstep last fl s 0 c) as [[? ?]| |]; cbn [rbind] in HE; discriminate.
      * apply He; [exact Hx|exact HS|]. destruct r; exact Hsd.
    + destruct He as [-> He]. exists (upd z1 (nx u) (z (nx u))). split; [|apply He, HS]. intros x [<-|Hx']; [rewrite upd_eq; reflexivity|]. specialize (HK x Hx'). rewrite upd_neq by lia. apply Hz1, Hx'.
    + destruct (He M y z1 HS) as (z2 & Hz2 & HS2). exists z2. assert (Hold : forall x, In x (aknown tr) -> (z2 x == z x)%Q) by (intros x Hx'; rewrite (Hz2 x (HK x Hx')); apply Hz1, Hx'). split; [|exact HS2].
      intros x Hx'. unfold aknown in Hx'. cbn [flat_map ae_ret] in Hx'. apply in_app_or in Hx' as [Hx'|Hx']; [|apply Hold, Hx']. destruct r as [r|x'|p]; [destruct Hx'| |destruct Hx']. destruct Hx' as [<-|[]].
      destruct (K M y z2 HS2) as [_ K2]. cbn [TwoNet.asaid] in K2, Hsd. rewrite K2, Hsd. apply (known_lval z z2 l (aknown tr) Hold Hv).
    + assert (Hr : exists p, r = AP p) by (clear - HE; cbn [TwoNet.astep] in HE; destruct (mx_cmp s 1 sd strict l k) as [[? ?]| |]; cbn [rbind] in HE; try discriminate; injection HE as _ <-; eauto). destruct Hr as [p ->]. cbn [TwoNet.asaid] in Hsd, He.
      assert (E1 : (lval z1 l == lval z l)%Q) by (apply (known_lval z z1 l (aknown tr) Hz1); intros x Hi'; apply Hv, in_or_app; left; exact Hi').
      assert (E2 : (lval z1 k == lval z k)%Q) by (apply (known_lval z z1 k (aknown tr) Hz1); intros x Hi'; apply Hv, in_or_app; right; exact Hi').
      destruct (He M y z1 HS) as (z2 & Hz2 & HS2); [rewrite Hsd; unfold cmpP; destruct sd, strict; lra|]. exists z2. split; [|exact HS2]. intros x Hx'. cbn in Hx'. rewrite (Hz2 x (HK x Hx')). apply Hz1, Hx'.
Qed.

(** ** Propagation. *)
Lemma mu_prop fl s s' b t u : agood s t u -> propagate ops fl s = Ok (s', b) -> prop_post C (mu s) (mu s') b.
Proof.
  intros G E. assert (Em : propagate (sum_ops (mute_ops (dl_ops (sr := sr) W)) lops) fl (mu s) = rmp (m1 (@emb D lra)) (propagate ops fl s)) by (apply mp_propagate; [reflexivity|apply emb_prop|apply emb_check|right; apply G]). rewrite E in Em. cbn in Em.
  pose proof (propagate_ok C (dlevel (mu s)) fl (mu s) (g_inv _ _ (ag_good _ _ _ _ _ _ _ G)) (le_n _)) as H. rewrite Em in H. exact H.
Qed.
Theorem afalse tr s fl s' : ATrace size tr s -> amindful tr -> astep fl s (AD (DSat CPropagate)) = Ok (s', AR (DR (RBool false))) -> forall M y z, ~ astated tr M y z.
Proof.
  intros HT Hx E M y z HM. cbn [TwoNet.astep tstep step] in E. destruct (propagate ops fl s) as [[s1 b]| |] eqn:E1; cbn [rbind] in E; try discriminate. injection E as <- ->.
  destruct (atrace_ok tr s HT) as (t & u & G). pose proof (mu_prop fl s s1 false t u G E1) as H. destruct (pp_false _ _ _ _ H eq_refl) as [_ Hu _]. destruct (stated_asol tr s HT Hx M y z HM) as (z' & _ & HS). apply (Hu M), (pp_models _ _ _ _ H), HS.
Qed.
Theorem aclause_false tr s fl ls s' : ATrace size tr s -> amindful tr -> in_scope s ls -> astep fl s (AD (DSat (CClause ls))) = Ok (s', AR (DR (RBool false))) -> forall M y z, astated tr M y z -> ~ mcl M ls.
Proof.
  intros HT Hx Hs E M y z HM. cbn [TwoNet.astep tstep step] in E. destruct (new_clause s ls) as [[s1 b]| |] eqn:E1; cbn [rbind] in E; try discriminate. injection E as <- ->.
  destruct (atrace_ok tr s HT) as (t & u & G). destruct (new_clause_ok C (mu s) ls) as (s2 & b & E2 & H); [apply (g_inv _ _ (ag_good _ _ _ _ _ _ _ G))|unfold dlevel; cbn; rewrite (ag_root _ _ _ _ _ _ _ G); reflexivity|exact Hs|].
  rewrite (mp_new_clause (@emb D lra) s ls), E1 in E2. cbn in E2. injection E2 as <- <-. destruct (stated_asol tr s HT Hx M y z HM) as (z' & _ & HS). apply (cp_false _ _ _ _ _ H eq_refl), HS.
Qed.
(** What has a value. *)
Theorem aimplied tr s q : ATrace size tr s -> amindful tr -> value s q = LTrue -> forall M y z, astated tr M y z -> mlit M q = true.
Proof.
  intros HT Hx Hq M y z HM. destruct (atrace_ok tr s HT) as (t & u & G). destruct (stated_asol tr s HT Hx M y z HM) as (z' & _ & HS & _). apply (sm_facts _ _ _ HS); [exact Hq|]. apply (tlevels L CL s 0 (lvar q) (agood_t L ord Hord fuel s t u G)).
Qed.
(** Distances. *)
Theorem adistance tr s t u i j d : ATrace size tr s -> amindful tr -> theories s = [inl t; inr u] -> dists t i j = Some d -> forall M y z, astated tr M y z -> wsat L d (y j - y i)%Q.
Proof.
  intros HT Hx Et Ed M y z HM. destruct (atrace_ok tr s HT) as (t1 & u1 & G). pose proof (ag_th _ _ _ _ _ _ _ G) as Et1. rewrite Et in Et1. injection Et1 as <- <-. pose proof (agood_t L ord Hord fuel s t u G) as GT.
  assert (Ei : nth_error (theories s) 0 = Some (inl t)) by (rewrite Et; reflexivity).
  destruct (ttold L CL s 0 t GT Ei) as (v & HR & Hv & _). pose proof (reach_core L _ _ HR) as HC. cbn [concat] in HC. rewrite app_nil_r in HC.
  apply (dist_sound L t v y i j d HC); [|exact Ed]. destruct (stated_asol tr s HT Hx M y z HM) as (z' & _ & HS & t2 & u2 & E2 & Hy & _). rewrite Et in E2. injection E2 as <- <-. apply (tsol_told L CL s 0 t v M y); auto. split; [exact HS|]. exists t. auto.
Qed.
(** Every call returns, and none makes an invalid access. *)
Lemma astep_ret s t u c fl : agood s t u -> alegal s c -> match astep fl s c with Ok _ => True | UB => False | OOF => th_total CL -> fl <= tbound s end.
Proof.
  intros G HL. pose proof G as [G1 Et G3]. assert (Ei : nth_error (theories (mu s)) 1 = Some (inr u)) by (cbn; rewrite Et; reflexivity). assert (Hd : dlevel (mu s) = 0) by (unfold dlevel; cbn; rewrite G1; reflexivity).
  destruct c as [c| |l|sd strict l k]; cbn [TwoNet.astep TwoNet.alegal] in *.
  - pose proof (tstep_ok L WR last CL fl s 0 c (agood_t L ord Hord fuel s t u G) HL) as K. destruct (tstep last fl s 0 c) as [[s' r]| |]; cbn; auto.
  - destruct (mx_new_var_call (rootC L anyy) ord Hord fuel (mu s) 1 u G3 Ei) as (s1 & u1 & E & _). rewrite (oth_new_var (@emb D lra) (fun _ => eq_refl) (fun a => ex_intro _ (a, 0) eq_refl)) in E. destruct (mx_new_var s 1) as [[s2 x]| |]; cbn in E; try discriminate E. cbn. auto.
  - destruct HL as (u0 & Eu & Hsl). rewrite Et in Eu. injection Eu as <-.
    destruct (mx_new_slack_call (rootC L anyy) ord Hord fuel (mu s) 1 u l G3 Hd Ei Hsl) as (s1 & u1 & x & E & _). rewrite (oth_new_slack (@emb D lra) (fun _ => eq_refl) (fun a => ex_intro _ (a, 0) eq_refl)) in E. destruct (mx_new_slack s 1 l) as [[s2 x2]| |]; cbn in E; try discriminate E. cbn. auto.
  - destruct HL as (Hl & Hr & u0 & Eu & Hv). rewrite Et in Eu. injection Eu as <-.
    destruct (mx_cmp_call (rootC L anyy) ord Hord fuel (mu s) 1 u sd strict l k G3 Hd Ei Hl Hr) as (s1 & u1 & p & E & _).
    { intros v Hv'. apply Hv. cbn [alin_vars]. apply in_or_app. destruct Hv' as [Hv'|Hv']; [left|right]; apply dom_fst, Hv'. }
    rewrite (oth_cmp (@emb D lra) (fun _ => eq_refl) (fun a => ex_intro _ (a, 0) eq_refl)) in E. destruct (mx_cmp s 1 sd strict l k) as [[s2 p2]| |]; cbn in E; try discriminate E. cbn. auto.
Qed.
Theorem atotal tr s c fl : ATrace size tr s -> alegal s c -> (forall u, 6 ^ nx u <= fuel u) -> tbound s < fl -> exists s' r, astep fl s c = Ok (s', r).
Proof.
  intros HT HL Hf Hfl. destruct (atrace_ok tr s HT) as (t & u & G). pose proof (astep_ret s t u c fl G HL) as K. destruct (astep fl s c) as [[s' r]| |]; [eauto|destruct K|]. specialize (K (lra_total ord Hord fuel Hf)). lia.
Qed.
Theorem anever_ub tr s c fl : ATrace size tr s -> alegal s c -> astep fl s c <> UB.
Proof. intros HT HL E. destruct (atrace_ok tr s HT) as (t & u & G). pose proof (astep_ret s t u c fl G HL) as K. rewrite E in K. exact K. Qed.

(** ** A successful propagation. *)
Lemma tresp_ex s t u : agood s t u -> prop_q s = [] -> exists y, vals_ok L y /\ (y O == 0)%Q /\ tresp L s 0 y.
Proof.
  intros G Hq. pose proof (agood_t L ord Hord fuel s t u G) as GT. assert (Et : nth_error (theories s) 0 = Some (inl t)) by (rewrite (ag_th _ _ _ _ _ _ _ G); reflexivity).
  destruct (ttold L CL s 0 t GT Et) as (v & HR & Hv & Hd). pose proof (reach_core L _ _ HR) as HC. cbn [concat] in HC. rewrite app_nil_r in HC.
  destruct (solution_exists L t v HC) as (y0 & Hy0 & Hl0). exists (fun k => (y0 k - y0 O)%Q). split; [intros k; apply isv_sub; apply Hy0|]. split; [cbn; lra|].
  assert (Hsh : forall c, con_sat L c (fun k => (y0 k - y0 O)%Q) <-> con_sat L c y0) by (intros c; unfold con_sat; split; apply wsat_eq; lra).
  intros t0 c Et0 Hc. rewrite Et in Et0. injection Et0 as <-. rewrite Hsh. destruct (dc_cons L _ _ HC c Hc) as (_ & _ & _ & _ & Hs). split; intros V.
  - destruct (Hd (c_b c)) as [K|K]; [exists c; auto|exact V|rewrite Hq in K; case K|]. specialize (Hl0 _ c K Hc eq_refl). rewrite Hs in Hl0. exact Hl0.
  - destruct (Hd (negl (c_b c))) as [K|K]; [exists c; auto|unfold value, vlit in *; cbn; destruct (assigns s (lvar (c_b c))), (lsgn (c_b c)); cbn in *; congruence|rewrite Hq in K; case K|].
    specialize (Hl0 _ c K Hc eq_refl). cbn in Hl0. rewrite Hs in Hl0. exact Hl0.
Qed.
(** What the answers of the theories amount to, all along a history. *)
Lemma aevents tr s : ATrace size tr s -> forall t u, theories s = [inl t; inr u] -> forall e, In e tr ->
  match ae_call e, ae_ret e with
  | AD c, AR r => tevent L s 0 c r
  | ASlack l, AX x => forall z, rsat u z -> (z x == lval z l)%Q
  | ACmp sd strict l r, AP p => forall z, rsat u z -> answers u p z (cmpP sd strict (lval z l) (lval z r))
  | _, _ => True
  end.
Proof.
  induction 1 as [|fl tr s c s' r HT IH HL HE HA]; intros t1 u1 Et1 e He; [destruct He|].
  destruct (atrace_ok tr s HT) as (t & u & G). destruct (astep_ok L WR last ord Hord fuel fl s s' t u c r G HL HE HA) as (t' & u' & G' & Gw & Hl & Hi & _).
  pose proof (ag_th _ _ _ _ _ _ _ G') as Et'. rewrite Et1 in Et'. injection Et' as <- <-.
  destruct He as [<-|He]; cbn [ae_call ae_ret].
  - destruct c as [c| |l|sd strict l k], r as [r|x|p]; auto; cbn [ainfo] in Hi; [intros z Hz; apply Hi, Hz|intros z Hz; apply Hi, Hz].
  - specialize (IH t u (ag_th _ _ _ _ _ _ _ G) e He). destruct (ae_call e) as [c0| |l|sd strict l k], (ae_ret e) as [r0|x|p]; auto.
    + unfold tevent in *. destruct c0 as [| | | |r1 e1 e2], r0; auto; [apply (tlater_means L s s' 0 _ _ Hl IH)|]. intros Hr. apply (tlater_means L s s' 0 _ _ Hl (IH Hr)).
    + intros z Hz. apply IH, (gw_rsat _ _ Gw z Hz).
    + intros z Hz. eapply answers_grows; [exact Gw|]. apply IH, (gw_rsat _ _ Gw z Hz).
Qed.
(** The constraint stated by an event, if the event is one that states a constraint by means of its literal only. *)
Definition acon (e : aev) : option (lit * ((nat -> Q) -> (nat -> Q) -> Prop)) :=
  match ae_call e, ae_ret e with
  | AD (DDist from to w), AR (DP p) => Some (p, fun y _ => wsat L w (y to - y from)%Q)
  | AD (DCmp DEq _ _), AR (DP _) => None
  | AD (DCmp r e1 e2), AR (DP p) => Some (p, fun y _ => rel_holds r (lval y e1) (lval y e2))
  | ACmp sd strict l r, AP p => Some (p, fun _ z => cmpP sd strict (lval z l) (lval z r))
  | _, _ => None
  end.
Lemma apropagate_within fl (s s' : st) : propagate ops fl s = Ok (s', true) -> forall u vs, In (inr u) (theories s') -> TInv u vs -> LraInv.within (cb u) (vals u).
Proof.
  intros E t vs Ht HI s0 x. destruct (gfind x (tab t)) eqn:Ex; [|apply (ti_nb _ _ HI), Ex].
  refine (propagate_checked ops (fun t => match t with inr t => forall s x, gfind x (tab t) <> None -> inb s (bound t s x) (vals t x) | inl _ => True end) _ fl s s' E (inr t) Ht s0 x _); [|congruence].
  intros [u|u] val u' Eu; cbn [th_check sum_ops] in Eu.
  - destruct (th_check (dl_ops W) u val) as [[a c]| |]; cbn [rbind] in Eu; try discriminate Eu. inversion Eu; subst. exact Logic.I.
  - cbn [th_check lra_ops] in Eu. destruct (lra_check (fuel u) u) as [[a c]| |] eqn:Ec; cbn [rbind] in Eu; try discriminate Eu. inversion Eu; subst. apply (check_within _ _ _ Ec).
Qed.
Theorem atrue tr s fl s' : ATrace size tr s -> astep fl s (AD (DSat CPropagate)) = Ok (s', AR (DR (RBool true))) ->
  exists t u y, theories s' = [inl t; inr u] /\ vals_ok L y /\ (y O == 0)%Q /\ exists d0, (0 < d0)%Q /\ forall d, (0 < d)%Q -> (d <= d0)%Q -> let z x := at_eps d (vals u x) in
  (forall e p P, In e tr -> acon e = Some (p, P) -> (value s' p = LTrue -> P y z) /\ (value s' p = LFalse -> ~ P y z)) /\
  (forall e l x, In e tr -> ae_call e = ASlack l -> ae_ret e = AX x -> (z x == lval z l)%Q) /\
  (total s' -> asol s' (values s') y z /\ astated tr (values s') y z).
Proof.
  intros HT E. assert (HT' : ATrace size (mk_aev (AD (DSat CPropagate)) (AR (DR (RBool true))) :: tr) s') by (apply (AT_step size fl tr s (AD (DSat CPropagate)) s' _ HT Logic.I E); intros K; discriminate K).
  destruct (atrace_ok _ s' HT') as (t & u & G). pose proof G as [G1 Et G3]. cbn [TwoNet.astep tstep step] in E. destruct (propagate ops fl s) as [[s1 b]| |] eqn:E1; cbn [rbind] in E; try discriminate. injection E as -> ->.
  destruct (atrace_ok tr s HT) as (t0 & u0 & G0). pose proof (mu_prop fl s s' true t0 u0 G0 E1) as H. destruct (pp_true _ _ _ _ H eq_refl) as (_ & Hq & _).
  destruct (tresp_ex s' t u G Hq) as (y & Hy & Hy0 & Hr). exists t, u, y. split; [exact Et|]. split; [exact Hy|]. split; [exact Hy0|].
  assert (Ei : nth_error (theories (mu s')) 1 = Some (inr u)) by (cbn; rewrite Et; reflexivity). pose proof (g_inv _ _ G3) as HI'.
  destruct (h_views _ _ _ _ (i_h _ _ HI') 1 _ Ei) as (vs & [HI _] & Hvl & Hvt & _).
  assert (HW : LraInv.within (cb u) (vals u)) by (apply (apropagate_within fl s s' E1 u vs); [rewrite Et; right; left; reflexivity|exact HI]).
  destruct (vals_real u vs HI HW) as (d0 & P & HV). exists d0. split; [exact P|]. intros d Hd Hle z. destruct (HV d Hd Hle) as [A B]. fold z in A.
  assert (HR : rsat u z) by (apply (real_rsat u vs); assumption).
  assert (HEV := aevents _ s' HT' t u Et).
  split; [|split].
  - intros e p Q He Hc. specialize (HEV e (or_intror He)). unfold acon in Hc.
    assert (Hdl : forall PP, tmeans L s' 0 p PP -> (value s' p = LTrue -> PP y) /\ (value s' p = LFalse -> ~ PP y)).
    { intros PP Hm. pose proof (t_a0 _ (i_t _ _ HI')) as H0. cbn in H0. destruct (Hm y Hy Hy0 Hr) as [[-> K]|[[-> K]|(t1 & c & Et1 & Hc0 & <- & K)]].
      + split; [auto|]. unfold value, vlit. cbn. rewrite H0. discriminate.
      + split; [|auto]. unfold value, vlit. cbn. rewrite H0. discriminate.
      + rewrite <- K. apply (Hr t1 c Et1 Hc0). }
    destruct (ae_call e) as [[c0| |from to w|from to mn mx|r1 e1 e2]| |l|sd strict l k], (ae_ret e) as [[r0|x0|p0|]|x0|p0]; try discriminate Hc; try (destruct r1; discriminate Hc).
    + injection Hc as -> <-. exact (Hdl _ HEV).
    + destruct r1; try discriminate Hc; injection Hc as -> <-; exact (Hdl _ (HEV ltac:(discriminate))).
    + injection Hc as -> <-. apply (answer_true (rootC L anyy) ord Hord fuel (mu s') 1 u z p _ G3 Hq Ei B (HEV z HR)).
  - intros e l x He Ec Er. specialize (HEV e (or_intror He)). rewrite Ec, Er in HEV. apply HEV, HR.
  - intros Htot.
    assert (HJ : joint u (values s') z).
    { apply (total_joint (rootC L anyy) ord Hord fuel (mu s') 1 u z vs G3 Hq Htot Ei HI); [|exact A|exact B]. intros j v l Ej Hj. apply (Hvt j v l Ej (or_introl Logic.I) Hj). }
    assert (HD : djoint L t (values s') y).
    { split; [exact Hy|]. split; [exact Hy0|]. intros c Hc. destruct (Hr t c ltac:(rewrite Et; reflexivity) Hc) as [R1 R2].
      assert (Hu : value s' (c_b c) <> LUndef).
      { destruct (h_range _ _ _ _ (i_h _ _ HI') 0 (inl (t, 0)) (lvar (c_b c))) as [_ K]; [cbn; rewrite Et; reflexivity|exists c; auto|]. pose proof (Htot (lvar (c_b c)) K) as K2. unfold value, vlit. destruct (assigns s' (lvar (c_b c))), (lsgn (c_b c)); cbn; congruence. }
      rewrite (values_lit s' _ Hu). destruct (value s' (c_b c)) eqn:V; [|intuition congruence|congruence]. split; [congruence|]. intros K. case (R2 eq_refl K). }
    assert (HN : asol s' (values s') y z).
    { split; [|exists t, u; auto]. change (values s') with (values (mu s')). constructor.
      - unfold values. rewrite (t_a0 _ (i_t _ _ HI')). reflexivity.
      - apply (total_cls C (mu s') HI' Hq Htot).
      - intros p Hp _. apply (values_lit (mu s')); congruence.
      - intros x Hx. cbn in Hx. rewrite Et in Hx. destruct Hx as [<-|[<-|[]]]; [apply (joint_any L t _ y HD)|]. exists z. split; [exact Logic.I|exact HJ]. }
    split; [exact HN|]. destruct (asol_stated _ s' HT' _ _ _ HN) as (K1 & K2 & K3 & K4). split; [exact K1|]. split; [exact K2|]. split; [exact K3|]. intros e He. apply K4. right. exact He.
Qed.
(** The calls of one theory leave the other one as it is. *)
Theorem akept tr s c fl s' r t u : ATrace size tr s -> alegal s c -> astep fl s c = Ok (s', r) -> aalive s' r -> theories s = [inl t; inr u] ->
  exists t' u', theories s' = [inl t'; inr u'] /\ aapart t t' u u' c.
Proof.
  intros HT HL HE HA Et. destruct (atrace_ok tr s HT) as (t0 & u0 & G). pose proof (ag_th _ _ _ _ _ _ _ G) as Et0. rewrite Et in Et0. injection Et0 as <- <-.
  destruct (astep_ok L WR last ord Hord fuel fl s s' t u c r G HL HE HA) as (t' & u' & G' & _ & _ & _ & _ & _ & _ & K). exists t', u'. split; [apply G'|exact K].
Qed.
(** After a successful propagation the difference logic theory has been told all the literals of its constraints that have a value. *)
Theorem atold tr s fl s' : ATrace size tr s -> astep fl s (AD (DSat CPropagate)) = Ok (s', AR (DR (RBool true))) ->
  exists t u v, theories s' = [inl t; inr u] /\ DReach L t [v] /\ forall l, atom t (lvar l) -> (In l v <-> value s' l = LTrue).
Proof.
  intros HT E. assert (HT' : ATrace size (mk_aev (AD (DSat CPropagate)) (AR (DR (RBool true))) :: tr) s') by (apply (AT_step size fl tr s (AD (DSat CPropagate)) s' _ HT Logic.I E); intros K; discriminate K).
  destruct (atrace_ok _ s' HT') as (t & u & G). cbn [TwoNet.astep tstep step] in E. destruct (propagate ops fl s) as [[s1 b]| |] eqn:E1; cbn [rbind] in E; try discriminate. injection E as -> ->.
  destruct (atrace_ok tr s HT) as (t0 & u0 & G0). pose proof (mu_prop fl s s' true t0 u0 G0 E1) as H. destruct (pp_true _ _ _ _ H eq_refl) as (_ & Hq & _). cbn in Hq.
  destruct (ttold L CL s' 0 t (agood_t L ord Hord fuel s' t u G)) as (v & HR & Hv & Hd); [rewrite (ag_th _ _ _ _ _ _ _ G); reflexivity|].
  exists t, u, v. split; [apply G|]. split; [exact HR|]. intros l Ha. split; [apply Hv|]. intros V. destruct (Hd l Ha V) as [K|K]; [rewrite Hq in K; destruct K|exact K].
Qed.
(** The bounds of the variables that the client knows of. *)
Theorem abounds tr s t u sd x : ATrace size tr s -> amindful tr -> theories s = [inl t; inr u] -> In x (aknown tr) -> forall M y z, astated tr M y z -> bhold sd (bound u sd x) (z x).
Proof.
  intros HT Hx Et Hk M y z HM. destruct (atrace_ok tr s HT) as (t1 & u1 & G). pose proof G as [G1 Et1 G3]. rewrite Et in Et1. injection Et1 as <- <-.
  destruct (stated_asol tr s HT Hx M y z HM) as (z' & Hz & HS & t2 & u2 & E2 & _ & HJ). rewrite Et in E2. injection E2 as <- <-.
  destruct (root_view (rootC L anyy) ord Hord fuel (mu s) 1 u G3) as (v & HI & _ & _ & Hmv); [unfold dlevel; cbn; rewrite G1; reflexivity|cbn; rewrite Et; reflexivity|].
  assert (K : bhold sd (bound u sd x) (z' x)).
  { apply (bound_holds u [v] HI (cb u) [v] (ti_b _ _ HI) sd x M z' (sm_false _ _ _ HS) HJ). destruct (fst (cb u sd x)) as [b|] eqn:Eb.
    - destruct (b_why _ _ _ (ti_b _ _ HI) sd x b Eb) as [[-> _]|[Hi _]]; [unfold mlit; cbn; rewrite (sm_false _ _ _ HS); reflexivity|]. cbn [concat] in Hi. rewrite app_nil_r in Hi. apply (Hmv M _ HS Hi).
    - rewrite (b_none _ _ _ (ti_b _ _ HI) sd x Eb). unfold mlit. cbn. rewrite (sm_false _ _ _ HS). reflexivity. }
  specialize (Hz x Hk). destruct (bound u sd x) as [[r e]|]; [|exact Logic.I]. destruct sd; cbn in *; rewrite <- Hz; exact K.
Qed.
End Size.
End ATrace.
End Srt.
