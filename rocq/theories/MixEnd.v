(** A network with object variables and linear real arithmetic on one core, end to end: the meaning of a successful propagation, of a failed one,
    of the domains of the object variables. *)
From Verif Require Import Base Keys Sat SatSpec SatInv SatPop SatImp SatRec SatAn SatProp SatLoop SatMain SatApi SatApi2 SatNext SatSimp Reify Amo Run SatFacts.
From Verif Require Import Lin Qe Lra LraTab LraVal LraInv LraChk LraTerm LraPro LraCon ThGrow LraNew LraCmp ThRel LraApi LraRun LraEnd LraEq LraTh LraExec LraFacts ThSum Ov OvInv OvEq OvRun OvStep Mix MixApi MixRun.
From Coq Require Import Lqa.
Open Scope Q_scope.
Local Arguments Nat.ltb : simpl never.
Local Arguments Nat.eqb : simpl never.
Section Srt.
Context {sr : sorter}.

Section MEnd.
Context (om : list (nat * lit) -> list (nat * lit)) (oi : list nat -> list nat) (Hom : forall m, Permutation m (om m)) (Hoi : forall l, Permutation l (oi l)).
Context (ord : nat -> list nat -> list nat) (Hord : forall k l, Permutation l (ord k l)) (fuel : lra -> nat).
Notation lops := (lra_ops ord fuel).
Notation CL := (lraT ord Hord fuel).
Notation C := (sumC ov_ops lops ovC CL).
Notation ops := (sum_ops ov_ops lops).
Notation st := (st (ovs + lra)).
Notation msol := (msol ovC ord Hord fuel).
Notation MTrace := (MTrace om oi ord Hord fuel).
Notation mgood := (mgood ord Hord fuel).

Lemma mpropagate_within fl (s s' : st) : propagate ops fl s = Ok (s', true) -> forall t vs, In (inr t) (theories s') -> TInv t vs -> within (cb t) (vals t).
Proof.
  intros E t vs Ht HI s0 x. destruct (gfind x (tab t)) eqn:Ex; [|apply (ti_nb _ _ HI), Ex].
  refine (propagate_checked ops (fun t => match t with inr t => forall s x, gfind x (tab t) <> None -> inb s (bound t s x) (vals t x) | inl _ => True end) _ fl s s' E (inr t) Ht s0 x _); [|congruence].
  intros [u|u] val u' Eu; cbn [th_check sum_ops] in Eu.
  - destruct (th_check ov_ops u val) as [[a c]| |]; cbn [rbind] in Eu; try discriminate Eu. inversion Eu; subst. exact I.
  - cbn [th_check lra_ops] in Eu. destruct (lra_check (fuel u) u) as [[a c]| |] eqn:Ec; cbn [rbind] in Eu; try discriminate Eu. inversion Eu; subst. apply (check_within _ _ _ Ec).
Qed.
Lemma masserted_hold (s : st) i t y p sd x b : good C s -> prop_q s = [] -> nth_error (theories s) i = Some (inr t) -> (forall s x, bhold s (bound t s x) (y x)) ->
  lmean t p = Some (sd, x, b) -> value s p = LTrue -> bhold sd (Some b) (y x).
Proof.
  intros G Hq Et HB Hm Hp. destruct (h_views _ _ _ _ (i_h _ _ (g_inv _ _ G)) i _ Et) as (vs & [HI _] & B & D & F).
  assert (Ha : th_atom C (inr t) (lvar p)) by (cbn [th_atom sumC sum_atom lraT lraC mk_strict]; apply atoms_find; unfold lmean in Hm; destruct (gfind (lvar p) (v_asrts t)); congruence).
  destruct (F p Ha Hp) as [Hx|(j & v & Ej & Hv & _)]; [rewrite Hq in Hx; destruct Hx|].
  destruct (b_lit _ _ _ (ti_b _ _ HI) p) as (s1 & x1 & b1 & A1 & A2); [apply in_concat; exists v; split; [eapply nth_error_In, Ej|exact Hv]|].
  rewrite Hm in A1. inversion A1; subst. eapply bhold_weak; [exact A2|apply HB].
Qed.
Lemma manswer_hold (s : st) i t y p A : good C s -> prop_q s = [] -> nth_error (theories s) i = Some (inr t) -> (forall s x, bhold s (bound t s x) (y x)) ->
  answers t p y A -> (value s p = LTrue -> A) /\ (value s p = LFalse -> ~ A).
Proof.
  intros G Hq Et HB HA. pose proof (t_a0 _ (i_t _ _ (g_inv _ _ G))) as H0. destruct (h_views _ _ _ _ (i_h _ _ (g_inv _ _ G)) i _ Et) as (vs & [HI _] & _).
  destruct HA as [[-> Hx]|[[-> Hx]|(a & Ha & Ep & Hx)]].
  - split; [auto|]. unfold value, vlit. cbn. rewrite H0. discriminate.
  - split; [|auto]. unfold value, vlit. cbn. rewrite H0. discriminate.
  - destruct (ti_atom _ _ HI _ _ Ha) as (E1 & E2 & E3 & E4). assert (Hl : lsgn p = true) by (rewrite Ep, E1; reflexivity).
    assert (Hf : gfind (lvar p) (v_asrts t) = Some a) by (apply gfind_nodup; [apply HI|exact Ha]).
    split; intros Hp.
    + apply Hx. unfold ahold. apply (masserted_hold s i t y p _ _ _ G Hq Et HB); [|exact Hp]. unfold lmean. rewrite Hf, Hl. reflexivity.
    + rewrite <- Hx. unfold ahold. apply (neg_hold a (y (a_x a)) E4). apply (masserted_hold s i t y (negl p) _ _ _ G Hq Et HB).
      * unfold lmean. cbn [lvar lsgn negl]. rewrite Hf, Hl. reflexivity.
      * rewrite value_negl, Hp. reflexivity.
Qed.
(** What the answers of the arithmetic theory amount to, all along a history. *)
Lemma manswered tr s : MTrace tr s -> forall o t, theories s = [inl o; inr t] -> forall y, rsat t y -> forall e, In e tr ->
  match me_call e, me_ret e with
  | MSlack l, MX x => y x == lval y l
  | MCmp sd strict l r, MP p => answers t p y (cmpP sd strict (lval y l) (lval y r))
  | _, _ => True
  end.
Proof.
  induction 1 as [|fl tr s c s' r HT IH HL HE HA]; intros o1 t1 Et1 y Hy e He; [destruct He|].
  destruct (mtrace_good om oi Hom Hoi ord Hord fuel tr s HT) as (o & t & G). destruct (mstep_ok om oi Hom Hoi ord Hord fuel fl tr s s' o t c r G HL HE HA) as (o' & t' & G' & Gw & K & _).
  pose proof (mg_th _ _ _ _ _ _ _ G') as Et'. assert (t' = t1) by congruence. subst t1.
  destruct He as [<-|He]; cbn [me_call me_ret].
  - destruct c as [c| |l|sd strict l k], r as [r|x|p]; auto; cbn [minfo] in K; apply K, Hy.
  - specialize (IH o t (mg_th _ _ _ _ _ _ _ G) y (gw_rsat _ _ Gw y Hy) e He). destruct (me_call e) as [c0| |l|sd strict l k], (me_ret e) as [r0|x|p]; auto. eapply answers_grows; eassumption.
Qed.
Lemma mprop_step tr s fl s' : MTrace tr s -> propagate ops fl s = Ok (s', true) -> MTrace (mk_mev (MO (OSat CPropagate)) (decisions s) (MR (OR (RBool true))) :: tr) s' /\ prop_q s' = [].
Proof.
  intros HT E. destruct (mtrace_good om oi Hom Hoi ord Hord fuel tr s HT) as (o & t & G). split.
  - apply (MT_step om oi ord Hord fuel fl tr s (MO (OSat CPropagate)) s' (MR (OR (RBool true))) HT I); [cbn [mstep gstep step]; rewrite E; reflexivity|intros D; discriminate D].
  - pose proof (propagate_ok C (dlevel s) fl s (g_inv _ _ (gk_good _ _ _ (mg_ok _ _ _ _ _ _ _ G))) (le_n _)) as H. rewrite E in H. apply (pp_true _ _ _ _ H eq_refl).
Qed.

(** A successful propagation: the numeric values (for all small values of the infinitesimal) satisfy every definition, every constraint whose
    literal is true, and the opposite of every constraint whose literal is false; *)
Theorem mpropagate_true tr s fl s' : MTrace tr s -> propagate ops fl s = Ok (s', true) ->
  exists o t, theories s' = [inl o; inr t] /\ exists d0, 0 < d0 /\ forall d, 0 < d -> d <= d0 -> let y x := at_eps d (vals t x) in
  forall e, In e tr ->
  match me_call e, me_ret e with
  | MSlack l, MX x => y x == lval y l
  | MCmp sd strict l r, MP p => (value s' p = LTrue -> cmpP sd strict (lval y l) (lval y r)) /\ (value s' p = LFalse -> ~ cmpP sd strict (lval y l) (lval y r))
  | _, _ => True
  end.
Proof.
  intros HT E. destruct (mprop_step tr s fl s' HT E) as [HT' Hq]. destruct (mtrace_good om oi Hom Hoi ord Hord fuel _ s' HT') as (o & t' & G'). pose proof (mg_th _ _ _ _ _ _ _ G') as Et'. pose proof (gk_good _ _ _ (mg_ok _ _ _ _ _ _ _ G')) as G.
  assert (Ei : nth_error (theories s') 1 = Some (inr t')) by (rewrite Et'; reflexivity).
  destruct (h_views _ _ _ _ (i_h _ _ (g_inv _ _ G)) 1%nat _ Ei) as (vs & [HI _] & _).
  assert (HW := mpropagate_within fl s s' E t' vs (nth_error_In _ _ Ei) HI).
  destruct (vals_real t' vs HI HW) as (d0 & P & H). exists o, t'. split; [exact Et'|]. exists d0. split; [exact P|]. intros d Hd Hle y. destruct (H d Hd Hle) as [A B]. intros e He.
  assert (HR : rsat t' y) by (apply (real_rsat t' vs); assumption). assert (K := manswered _ s' HT' o t' Et' y HR e (or_intror He)).
  destruct (me_call e) as [c0| |l|sd strict l k], (me_ret e) as [r0|x|p]; auto.
  apply (manswer_hold s' 1 t' y p _ G Hq Ei B K).
Qed.
(** when moreover everything is assigned, the assignment and the values solve the network. *)
Theorem mpropagate_total tr s fl s' : MTrace tr s -> propagate ops fl s = Ok (s', true) -> total s' ->
  exists o t, theories s' = [inl o; inr t] /\ exists d0, 0 < d0 /\ forall d, 0 < d -> d <= d0 -> let y x := at_eps d (vals t x) in
  msol s' 1 (values s') y /\ mtold tr (values s') y.
Proof.
  intros HT E Htot. destruct (mprop_step tr s fl s' HT E) as [HT' Hq]. destruct (mtrace_good om oi Hom Hoi ord Hord fuel _ s' HT') as (o & t' & G'). pose proof (mg_th _ _ _ _ _ _ _ G') as Et'. pose proof (gk_good _ _ _ (mg_ok _ _ _ _ _ _ _ G')) as G.
  assert (Ei : nth_error (theories s') 1 = Some (inr t')) by (rewrite Et'; reflexivity). pose proof (g_inv _ _ G) as HI'.
  destruct (h_views _ _ _ _ (i_h _ _ HI') 1%nat _ Ei) as (vs & [HI _] & Hvl & Hvt & _).
  assert (HW := mpropagate_within fl s s' E t' vs (nth_error_In _ _ Ei) HI).
  destruct (vals_real t' vs HI HW) as (d0 & P & H). exists o, t'. split; [exact Et'|]. exists d0. split; [exact P|]. intros d Hd Hle y. destruct (H d Hd Hle) as [A B]. fold y in A.
  assert (HJ : joint t' (values s') y).
  { split; [exact A|]. split.
    - intros v a Ha. pose proof (h_range _ _ _ _ (i_h _ _ HI') 1%nat (inr t') v Ei) as Hr. assert (Hv : (0 < v < nv s')%nat) by (apply Hr; cbn; unfold atoms; change v with (fst (v, a)); apply in_map, Ha).
      specialize (Htot v (proj2 Hv)). assert (An : answers t' (mk_lit v true) y (ahold y a)).
      { right; right. exists a. split; [exact Ha|]. split; [symmetry; apply (ti_atom _ _ HI _ _ Ha)|reflexivity]. }
      destruct (manswer_hold s' 1 t' y (mk_lit v true) _ G Hq Ei B An) as [K1 K2]. unfold value, vlit in K1, K2. cbn in K1, K2. unfold values. destruct (assigns s' v); [split; [discriminate|intros K; destruct (K2 eq_refl K)]|split; [intros _; apply K1; reflexivity|reflexivity]|congruence].
    - intros l Hl _. apply (ti_facts _ _ HI) in Hl. assert (Hv : exists j v, nth_error vs j = Some v /\ In l v).
      { destruct vs as [|w vs]; [destruct Hl|]. exists (length vs), (last (w :: vs) []). split; [|exact Hl]. clear. revert w. induction vs as [|u vs IH]; intros w; [reflexivity|]. cbn [length nth_error]. rewrite IH. reflexivity. }
      destruct Hv as (j & v & Ej & Hj). destruct (Hvt j v l Ej (or_introl I) Hj) as [Hv _]. apply values_lit; congruence. }
  assert (HN : msol s' 1 (values s') y).
  { split; [|exists t'; auto]. constructor.
    - unfold values. rewrite (t_a0 _ (i_t _ _ HI')). reflexivity.
    - apply (total_cls C s' HI' Hq Htot).
    - intros p Hp _. apply values_lit; congruence.
    - intros u Hu. rewrite Et' in Hu. destruct Hu as [<-|[<-|[]]]; [exact I|]. exists y. split; [exact I|exact HJ]. }
  split; [exact HN|]. apply (mtold_all om oi Hom Hoi ord Hord fuel _ s' HT' _ _ HN).
Qed.
(** A failed propagation: nothing respects what the client has been told. *)
Theorem mpropagate_false tr s fl s' : MTrace tr s -> mmindful tr -> propagate ops fl s = Ok (s', false) -> forall M y, ~ mtold tr M y.
Proof.
  intros HT HM E M y Ht. destruct (mtold_enough om oi Hom Hoi ord Hord fuel tr s HT HM M y Ht) as (M' & y' & _ & _ & HN & _). destruct (mtrace_good om oi Hom Hoi ord Hord fuel tr s HT) as (o & t & G).
  pose proof (propagate_ok C (dlevel s) fl s (g_inv _ _ (gk_good _ _ _ (mg_ok _ _ _ _ _ _ _ G))) (le_n _)) as H. rewrite E in H.
  destruct (pp_false _ _ _ _ H eq_refl) as [_ Hu _]. apply (Hu M'), (pp_models _ _ _ _ H), HN.
Qed.
(** A refused clause contradicts what the client has been told. *)
Theorem mclause_false tr s ls s' : MTrace tr s -> mmindful tr -> mlegal ord Hord fuel s (MO (OSat (CClause ls))) -> (forall p, In p ls -> In (lvar p) (mvis tr)) ->
  new_clause s ls = Ok (s', false) -> forall M y, mtold tr M y -> ~ mcl M ls.
Proof.
  intros HT Hm [Hd Hs] Hv E M y Ht Hc. destruct (mtold_enough om oi Hom Hoi ord Hord fuel tr s HT Hm M y Ht) as (M' & y' & A & _ & HS & _). destruct (mtrace_good om oi Hom Hoi ord Hord fuel tr s HT) as (o & t & G).
  destruct (new_clause_ok C s ls (g_inv _ _ (gk_good _ _ _ (mg_ok _ _ _ _ _ _ _ G))) Hd Hs) as (s1 & b & E1 & P). rewrite E in E1. injection E1 as <- <-. destruct (cp_false _ _ _ _ _ P eq_refl) as [_ Hu]. apply (Hu M' HS), (mcl_vis M M' (mvis tr) ls A Hv Hc).
Qed.
(** What is true, and a value that is no longer in a domain, follow from what the client has been told and the decisions. *)
Theorem mimplied tr s q : MTrace tr s -> mmindful tr -> In (lvar q) (mvis tr) -> value s q = LTrue -> forall M y, mtold tr M y ->
  (forall d, In d (decisions s) -> In (lvar d) (mvis tr) /\ mlit M d = true) -> mlit M q = true.
Proof.
  intros HT Hm Hv Hq M y Ht Hd. destruct (mtold_enough om oi Hom Hoi ord Hord fuel tr s HT Hm M y Ht) as (M' & y' & A & _ & HS & _). destruct (mtrace_good om oi Hom Hoi ord Hord fuel tr s HT) as (o & t & G).
  pose proof (gk_good _ _ _ (mg_ok _ _ _ _ _ _ _ G)) as GG. rewrite <- (mlit_vis M M' (mvis tr) q A Hv).
  apply (SatImp.implied C s (i_t _ _ (g_inv _ _ GG)) (i_r _ _ (g_inv _ _ GG)) M' HS q Hq). intros k d Hk _. apply nth_error_In in Hk. destruct (Hd d Hk) as [D1 D2]. rewrite (mlit_vis M M' (mvis tr) d A D1). exact D2.
Qed.
Lemma mdom_vis tr x m y l : mdom_of tr x = Some m -> In (y, l) m -> In (lvar l) (mvis tr).
Proof.
  induction tr as [|[c ds r] tr IH]; cbn [mdom_of me_ret]; [discriminate|]. intros E Hi. apply (mvis_cons c ds r tr).
  destruct r as [[r|z k|p]|z|p]; try (left; apply IH; assumption). destruct (Nat.eqb x z); [|left; apply IH; assumption]. right. injection E as ->. cbn. apply in_map_iff. exists (y, l). auto.
Qed.
Theorem mvalue_sound tr s o t v m M y x : MTrace tr s -> mmindful tr -> theories s = [inl o; inr t] -> mdom_of tr v = Some m -> mtold tr M y ->
  (forall d, In d (decisions s) -> In (lvar d) (mvis tr) /\ mlit M d = true) -> takes M m x -> exists vals, ov_value om s o v = Some vals /\ In x vals.
Proof.
  intros HT Hm Et Em Ht Hd (l & Hl & El). destruct (mtrace_good om oi Hom Hoi ord Hord fuel tr s HT) as (o' & t' & G). pose proof (mg_th _ _ _ _ _ _ _ G) as Et'. assert (o' = o) by congruence. subst o'.
  assert (E0 : nth_error (odom o) v = Some m) by (rewrite <- (mg_dom _ _ _ _ _ _ _ G); exact Em). unfold ov_value. rewrite E0. eexists. split; [reflexivity|]. apply in_map_iff. exists (x, l). split; [reflexivity|]. apply filter_In. split; [apply (om_in om Hom), Hl|]. cbn [snd].
  unfold is_false. destruct (value s l) eqn:Ev; try reflexivity. exfalso. assert (Hn : value s (negl l) = LTrue) by (rewrite value_negl, Ev; reflexivity).
  pose proof (mimplied tr s (negl l) HT Hm (mdom_vis tr v m x l Em Hl) Hn M y Ht Hd) as K. rewrite mlit_negl, El in K. discriminate K.
Qed.
(** Which calls are answered: none makes an invalid access; those of the core return when the checks of the arithmetic theory are given enough iterations. *)
Theorem mcall_answers tr s c fl : MTrace tr s -> (forall t, (6 ^ nx t <= fuel t)%nat) -> mlegal ord Hord fuel s c ->
  match c with
  | MO (OSat c) => (fuel_bound s c < fl)%nat
  | MO (ONew _ true) => exists M, smodels C s M
  | MO (OEq a b) => a <> b -> exists M da db, smodels C s M /\ mdom_of tr a = Some da /\ mdom_of tr b = Some db /\ compat M da db
  | _ => True
  end -> exists s' r, mstep om oi ord fuel fl s c = Ok (s', r).
Proof.
  intros HT Hf HL HP. destruct (mtrace_good om oi Hom Hoi ord Hord fuel tr s HT) as (o & t & MG). pose proof MG as [GO Et SE HD HK]. pose proof GO as [G E0 HO]. assert (Ei : nth_error (theories s) 1 = Some (inr t)) by (rewrite Et; reflexivity).
  assert (HTt : th_total C).
  { destruct (lra_total ord Hord fuel Hf) as [T1 T2]. split.
    - intros [a|b] vs val p H1 H2 H3 H4 H5 H6 H7 H8; [cbn; discriminate|]. pose proof (T1 b vs val p H1 H2 H3 H4 H5 H6 H7 H8) as H. cbn [th_prop sum_ops]. destruct (th_prop lops b val p) as [[[? ?] ?]| |]; cbn [rbind]; congruence.
    - intros [a|b] vs val H1 H3 H4 H5; [cbn; discriminate|]. pose proof (T2 b vs val H1 H3 H4 H5) as H. cbn [th_check sum_ops]. destruct (th_check lops b val) as [[? ?]| |]; cbn [rbind]; congruence. }
  destruct c as [c| |l|sd strict l k]; cbn [mstep mlegal] in *.
  - assert (H : exists s' r, gstep om oi (ops2 := lops) fl s c = Ok (s', r)); [|destruct H as (s' & r & H); rewrite H; cbn; eauto].
    destruct c as [c|items e|ls vals|l k]; cbn [gstep glegal] in *.
    + pose proof (step_ok C fl s c G HL) as H. destruct (step fl s c) as [[s' r]| |]; [cbn; eauto|destruct H|]. exfalso. specialize (H HTt). lia.
    + destruct HL as [Hne Hroot]. destruct items as [|x1 items']; [case Hne; reflexivity|]. destruct items' as [|x2 items'].
      * destruct (new_var_single CL s 0 o x1 e G E0) as (s1 & o1 & m & Eq & _). rewrite Eq. cbn. eauto.
      * destruct e.
        -- destruct (new_var_exact CL s 0 o (x1 :: x2 :: items') G E0 ltac:(cbn; lia) (Hroot eq_refl) HP) as (s1 & o1 & m & Eq & _). rewrite Eq. cbn. eauto.
        -- destruct (new_var_free CL s 0 o (x1 :: x2 :: items') G E0 ltac:(cbn; lia)) as (s1 & o1 & m & Eq & _). rewrite Eq. cbn. eauto.
    + destruct HL as (Hne & Hlen & Hsc). destruct (new_var_lits_ok CL s 0 o ls vals G E0 Hne Hlen Hsc) as (s1 & o1 & m & Eq & _). rewrite Eq. cbn. eauto.
    + destruct HL as (Hd & o2 & Et2 & Hl & Hk). assert (o2 = o) by congruence. subst o2.
      destruct (nth_error (odom o) l) as [dl|] eqn:El; [|apply nth_error_None in El; lia]. destruct (nth_error (odom o) k) as [dr|] eqn:Er; [|apply nth_error_None in Er; lia].
      pose proof (OvEq.new_eq_ok CL om oi Hom Hoi s 0 o l k dl dr G E0 HO Hd El Er) as H. destruct (ov_new_eq om oi s 0 l k) as [[s1 p]| |]; [cbn; eauto| |destruct H].
      exfalso. destruct H as [Hn H]. destruct (HP Hn) as (M & da & db & HS & Ha & Hb & Hc). rewrite HD in Ha, Hb. assert (da = dl) by congruence. assert (db = dr) by congruence. subst da db. apply (H M HS Hc).
  - destruct (mx_new_var_call ovC ord Hord fuel s 1 t G Ei) as (s1 & t1 & E & _). rewrite E. cbn. eauto.
  - destruct HL as (Hd & u & Eu & Hsl). rewrite Ei in Eu. injection Eu as <-. destruct (mx_new_slack_call ovC ord Hord fuel s 1 t l G Hd Ei Hsl) as (s1 & t1 & x & E & _). rewrite E. cbn. eauto.
  - destruct HL as (Hd & Hl & Hr & u & Eu & Hv). rewrite Ei in Eu. injection Eu as <-.
    destruct (mx_cmp_call ovC ord Hord fuel s 1 t sd strict l k G Hd Ei Hl Hr) as (s1 & t1 & p & E & _); [|rewrite E; cbn; eauto].
    intros v Hv'. apply Hv. cbn [mlin_vars]. apply in_or_app. destruct Hv' as [Hv'|Hv']; [left|right]; apply dom_fst, Hv'.
Qed.
(** The calls of one theory leave the other one as it is. *)
Theorem mapart tr s c fl s' r o t : MTrace tr s -> mlegal ord Hord fuel s c -> malive ord Hord fuel s' r -> mstep om oi ord fuel fl s c = Ok (s', r) -> theories s = [inl o; inr t] ->
  exists o' t', theories s' = [inl o'; inr t'] /\ match c with MO (OSat _) => o' = o | MO _ => t' = t | _ => o' = o end.
Proof.
  intros HT HL HA E Et. destruct (mtrace_good om oi Hom Hoi ord Hord fuel tr s HT) as (o0 & t0 & MG). pose proof (mg_th _ _ _ _ _ _ _ MG) as Et0. assert (o0 = o) by congruence. assert (t0 = t) by congruence. subst o0 t0.
  pose proof (mg_ok _ _ _ _ _ _ _ MG) as GO. pose proof (gk_good _ _ _ GO) as G. assert (Ei : nth_error (theories s) 1 = Some (inr t)) by (rewrite Et; reflexivity).
  destruct (mstep_ok om oi Hom Hoi ord Hord fuel fl tr s s' o t c r MG HL E HA) as (o' & t' & MG' & _). pose proof (mg_th _ _ _ _ _ _ _ MG') as Et'. exists o', t'. split; [exact Et'|].
  destruct c as [c| |l|sd strict l k]; cbn [mstep mlegal] in *.
  - destruct (gstep om oi fl s c) as [[s1 r1]| |] eqn:Eg; cbn [rbind] in E; try discriminate E. injection E as -> <-.
    destruct c as [c|items e|ls vals|a b].
    + cbn [gstep] in Eg. destruct (step fl s c) as [[s1 r2]| |] eqn:E2; cbn [rbind] in Eg; try discriminate Eg. injection Eg as -> _.
      destruct (shape_sat ord fuel fl s s' o t c r2 Et E2) as (t2 & Et2). congruence.
    + destruct (gstep_ok CL om oi Hom Hoi fl s s' o _ r1 GO HL Eg) as (_ & _ & _ & _ & _ & _ & _ & Hj & _). specialize (Hj 1%nat ltac:(lia)). cbn iota in Hj. rewrite Et', Et in Hj. cbn in Hj. congruence.
    + destruct (gstep_ok CL om oi Hom Hoi fl s s' o _ r1 GO HL Eg) as (_ & _ & _ & _ & _ & _ & _ & Hj & _). specialize (Hj 1%nat ltac:(lia)). cbn iota in Hj. rewrite Et', Et in Hj. cbn in Hj. congruence.
    + destruct (gstep_ok CL om oi Hom Hoi fl s s' o _ r1 GO HL Eg) as (_ & _ & _ & _ & _ & _ & _ & Hj & _). specialize (Hj 1%nat ltac:(lia)). cbn iota in Hj. rewrite Et', Et in Hj. cbn in Hj. congruence.
  - destruct (mx_new_var_call ovC ord Hord fuel s 1 t G Ei) as (s1 & t1 & E1 & SO & _). rewrite E1 in E. cbn [rbind] in E. injection E as -> _. pose proof (ms_th _ _ _ _ _ _ _ _ SO) as H. rewrite Et', Et in H. cbn in H. congruence.
  - destruct HL as (Hd & u & Eu & Hsl). rewrite Ei in Eu. injection Eu as <-. destruct (mx_new_slack_call ovC ord Hord fuel s 1 t l G Hd Ei Hsl) as (s1 & t1 & x & E1 & SO & _). rewrite E1 in E. cbn [rbind] in E. injection E as -> _. pose proof (ms_th _ _ _ _ _ _ _ _ SO) as H. rewrite Et', Et in H. cbn in H. congruence.
  - destruct HL as (Hd & Hl & Hr & u & Eu & Hv). rewrite Ei in Eu. injection Eu as <-.
    destruct (mx_cmp_call ovC ord Hord fuel s 1 t sd strict l k G Hd Ei Hl Hr) as (s1 & t1 & p & E1 & SO & _).
    { intros v Hv'. apply Hv. cbn [mlin_vars]. apply in_or_app. destruct Hv' as [Hv'|Hv']; [left|right]; apply dom_fst, Hv'. }
    rewrite E1 in E. cbn [rbind] in E. injection E as -> _. pose proof (ms_th _ _ _ _ _ _ _ _ SO) as H. rewrite Et', Et in H. cbn in H. congruence.
Qed.
End MEnd.
End Srt.
