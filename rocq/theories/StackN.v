(** [sat_stack] with any number of shared theories, pushes and pops nested at will. *)
From Verif Require Import Base Keys Sat SatSpec SatInv SatPop SatImp SatRec SatAn SatProp SatLoop SatMain SatApi SatApi2 SatNext SatSimp Stack Reify Amo Run Listen ThRel StackTh MapTh.

(** Two states of a theory with the same meaning. *)
Definition same_th {T} {ops : theory_ops T} (C : contract ops) (t t' : T) : Prop := (forall M, th_model C t' M <-> th_model C t M) /\ (forall v, th_atom C t' v <-> th_atom C t v).
(** The theories of two cores have, one by one, the same meaning. *)
Definition same_ths {T} {ops : theory_ops T} (C : contract ops) (s s' : st T) : Prop :=
  length (theories s') = length (theories s) /\ forall i t t', nth_error (theories s) i = Some t -> nth_error (theories s') i = Some t' -> same_th C t t'.
Lemma same_th_refl {T} {ops : theory_ops T} (C : contract ops) t : same_th C t t.
Proof. split; intros; reflexivity. Qed.
Lemma same_th_trans {T} {ops : theory_ops T} (C : contract ops) t1 t2 t3 : same_th C t1 t2 -> same_th C t2 t3 -> same_th C t1 t3.
Proof. intros [A B] [D E]. split; [intros M; rewrite D; apply A|intros v; rewrite E; apply B]. Qed.
Lemma same_ths_refl {T} {ops : theory_ops T} (C : contract ops) s : same_ths C s s.
Proof. split; [reflexivity|]. intros i t t' E1 E2. assert (t' = t) by congruence. subst. apply same_th_refl. Qed.
Lemma nth_len {A B} (l : list A) (m : list B) i x : length l = length m -> nth_error l i = Some x -> exists y, nth_error m i = Some y.
Proof. intros E H. assert (i < length m) by (rewrite <- E; apply nth_error_Some; congruence). destruct (nth_error m i) eqn:K; [eauto|apply nth_error_None in K; lia]. Qed.
Lemma same_ths_trans {T} {ops : theory_ops T} (C : contract ops) s1 s2 s3 : same_ths C s1 s2 -> same_ths C s2 s3 -> same_ths C s1 s3.
Proof.
  intros [L1 H1] [L2 H2]. split; [congruence|]. intros i t t' E1 E3. destruct (nth_len _ (theories s2) i t' (eq_sym (eq_sym L2)) E3) as (u & E2). eapply same_th_trans; [eapply H1|eapply H2]; eassumption.
Qed.
Lemma same_ths_models {T} {ops : theory_ops T} (C : contract ops) (s : st T) ths : length ths = length (theories s) ->
  (forall i t t', nth_error (theories s) i = Some t -> nth_error ths i = Some t' -> same_th C t t') -> forall M, smodels C (set_theories ths s) M <-> smodels C s M.
Proof.
  intros L H M. split; intros [A B D E]; constructor; try assumption; cbn [theories set_theories] in *; intros t Ht; apply In_nth_error in Ht as (i & Ei).
  - destruct (nth_len _ ths i t (eq_sym L) Ei) as (u & Eu). apply (H i t u Ei Eu). apply E, (nth_error_In _ i), Eu.
  - destruct (nth_len _ (theories s) i t L Ei) as (u & Eu). apply (H i u t Eu Ei). apply E, (nth_error_In _ i), Eu.
Qed.

(** ** The meaning of each theory is kept by every call of the core. *)
Section Tag.
Context {T : Type} {ops : theory_ops T} (C : contract ops) (ths0 : list T).
Notation U := (nat * T)%type.
Definition tops : theory_ops U := mk_ops
  (fun u val p => '(t', ls, cf) <- th_prop ops (snd u) val p ;; Ok ((fst u, t'), ls, cf))
  (fun u val => '(t', cf) <- th_check ops (snd u) val ;; Ok ((fst u, t'), cf))
  (fun u => (fst u, th_push ops (snd u))) (fun u => (fst u, th_pop ops (snd u))) (th_sort ops).
Definition kept (u : U) : Prop := exists t0, nth_error ths0 (fst u) = Some t0 /\ same_th C t0 (snd u).
Lemma kept_same i t t' : kept (i, t) -> same_th C t t' -> kept (i, t').
Proof. intros (t0 & A & B) H. exists t0. split; [exact A|]. eapply same_th_trans; [exact B|exact H]. Qed.
Lemma tag_rules : fixed_rules tops (fun u => th_atom C (snd u)) (fun u vs => th_inv C (snd u) vs /\ kept u) (fun u => th_fixed C (snd u)).
Proof.
  constructor.
  - intros [i t] n v. exact (fx_atom _ _ _ _ (c_fixed _ C) t n v).
  - intros [i t] vs n v [H _]. exact (fx_push _ _ _ _ (c_fixed _ C) t vs n v H).
  - intros [i t] v w vs n x [H _]. exact (fx_pop _ _ _ _ (c_fixed _ C) t v w vs n x H).
  - intros [i t] v vs val p t' ls cf n x [H _] H2 H3 H4 H5 H6 H7 H8 E. cbn [th_prop tops snd fst] in *.
    destruct (th_prop ops t val p) as [[[a' ls'] cf']| |] eqn:Ea; try discriminate E. cbn [rbind] in E. injection E as <- <- <-.
    exact (fx_prop _ _ _ _ (c_fixed _ C) t v vs val p a' ls' cf' n x H H2 H3 H4 H5 H6 H7 H8 Ea).
  - intros [i t] vs val t' cf n x [H _] H2 H3 H4 E. cbn [th_check tops snd fst] in *.
    destruct (th_check ops t val) as [[a' cf']| |] eqn:Ea; try discriminate E. cbn [rbind] in E. injection E as <- <-.
    exact (fx_check _ _ _ _ (c_fixed _ C) t vs val a' cf' n x H H2 H3 H4 Ea).
Qed.
Definition tagC : contract tops.
Proof.
  refine (mk_contract U tops (fun u => th_model C (snd u)) (fun u => th_atom C (snd u)) (fun u vs => th_inv C (snd u) vs /\ kept u) (fun u => th_feas C (snd u)) (fun u => th_fixed C (snd u)) tag_rules (fun u => c_model_ext ops C (snd u)) _ _ _ _).
  - intros [i t] vs [H K] HF. cbn in *. destruct (c_push ops C t vs H HF) as (A & B & D & E). split; [split; [exact A|apply (kept_same i t); [exact K|split; assumption]]|auto].
  - intros [i t] v w vs [H K]. cbn in *. destruct (c_pop ops C t v w vs H) as (A & B & D & E). split; [split; [exact A|apply (kept_same i t); [exact K|split; assumption]]|auto].
  - intros [i t] v vs val p [H K] Ha Hn HT HV Hp HX1 HX2. cbn [tops th_prop fst snd] in *. pose proof (c_prop ops C t v vs val p H Ha Hn HT HV Hp HX1 HX2) as R. destruct (th_prop ops t val p) as [[[t' ls] cf]| |]; cbn [safe rbind] in *; auto. cbn [fst snd].
    destruct R as ((v' & I1 & I2) & A & B & D). split; [exists v'; split; [split; [exact I1|apply (kept_same i t); [exact K|split; assumption]]|exact I2]|]. split; [exact A|]. split; [exact B|exact D].
  - intros [i t] v vs val [H K] Hn HT HV. cbn [tops th_check fst snd] in *. pose proof (c_check ops C t v vs val H Hn HT HV) as R. destruct (th_check ops t val) as [[t' cf]| |]; cbn [safe rbind] in *; auto. cbn [fst snd].
    destruct R as (I1 & I2 & A & B & D). split; [split; [exact I1|apply (kept_same i t); [exact K|split; assumption]]|]. split; [exact I2|]. split; [exact A|]. split; [exact B|exact D].
Defined.
Notation un := (mp (@snd nat T)).
Lemma un_nth (s : st U) i u : nth_error (theories s) i = Some u -> nth_error (theories (un s)) i = Some (snd u).
Proof. intros H. cbn [mp theories]. rewrite nth_error_map, H. reflexivity. Qed.
Lemma tag_smodels (s : st U) M : smodels tagC s M <-> smodels C (un s) M.
Proof.
  split; intros [A B D E]; constructor; try assumption; cbn [mp theories] in *.
  - intros t Ht. apply in_map_iff in Ht as (u & <- & Hu). apply (E u Hu).
  - intros u Hu. apply (E (snd u)), in_map, Hu.
Qed.
Lemma tag_settled (s : st U) : settled tagC s <-> settled C (un s).
Proof.
  split; intros H t Ht.
  - cbn [mp theories] in Ht. apply in_map_iff in Ht as (u & <- & Hu). apply (H u Hu).
  - apply (H (snd t)). cbn [mp theories]. apply in_map, Ht.
Qed.
Lemma tag_good (s : st U) : good C (un s) -> (forall u, In u (theories s) -> kept u) -> good tagC s.
Proof.
  intros [[A B D E F G] Hc Hu] HK. constructor.
  - constructor; try (destruct A; constructor; assumption); try (destruct B; constructor; assumption); try (destruct D; constructor; assumption); try (destruct F; constructor; assumption); [exact E|]. destruct G as [G1 G2 G3 G4 G5 G6]. constructor.
    + intros i u Eu. destruct (G1 i (snd u) (un_nth s i u Eu)) as (vs & V1 & V2). exists vs. split; [split; [exact V1|apply HK, (nth_error_In _ i), Eu]|exact V2].
    + intros i u v Eu. apply (G2 i (snd u) v), un_nth, Eu.
    + intros i u v Eu. apply (G3 i (snd u) v), un_nth, Eu.
    + intros i v Hi. destruct (G4 i v Hi) as (t & Et & Ha). cbn [mp theories] in Et. rewrite nth_error_map in Et. destruct (nth_error (theories s) i) as [u|] eqn:Eu; [|discriminate]. injection Et as <-. exists u. split; [reflexivity|exact Ha].
    + exact G5.
    + intros i u n v Eu. apply (G6 i (snd u) n v), un_nth, Eu.
  - intros k p Hi. destruct (Hc k p Hi) as (o & K1 & K2 & K3 & K4). exists o. split; [exact K1|]. split; [exact K2|]. split; [exact K3|]. intros M HM. apply K4, tag_smodels, HM.
  - intros Hd. destruct (Hu Hd) as [H1 H2]. split; [exact H1|apply tag_settled, H2].
Qed.
Lemma tag_prop u val p : th_prop ops (snd u) val p = rmp (fun x : U * list (list lit) * option (list lit) => (snd (fst (fst x)), snd (fst x), snd x)) (th_prop tops u val p).
Proof. cbn [tops th_prop]. destruct (th_prop ops (snd u) val p) as [[[t' ls] cf]| |]; reflexivity. Qed.
Lemma tag_check u val : th_check ops (snd u) val = rmp (fun x : U * option (list lit) => (snd (fst x), snd x)) (th_check tops u val).
Proof. cbn [tops th_check]. destruct (th_check ops (snd u) val) as [[t' cf]| |]; reflexivity. Qed.
Lemma tag_step n (s : st U) c : step (ops := ops) n (un s) c = rmp (m1 (@snd nat T)) (step (ops := tops) n s c).
Proof. apply (mp_step (@snd nat T) tops ops eq_refl tag_prop tag_check). left. split; intros t; reflexivity. Qed.
Lemma tag_legal (s : st U) c : legal C (un s) c -> legal tagC s c.
Proof. destruct c; cbn; auto; intros (A & B & D); (split; [exact A|]; split; [apply tag_settled, B|exact D]). Qed.
Lemma tag_fst n (s s' : st U) c r : step (ops := tops) n s c = Ok (s', r) -> map fst (theories s') = map fst (theories s).
Proof.
  apply (K_step tops (@fst nat T)); [| |reflexivity|reflexivity].
  - intros u val p u' ls cf E. cbn [tops th_prop] in E. destruct (th_prop ops (snd u) val p) as [[[t' ls'] cf']| |]; cbn [rbind] in E; try discriminate. injection E as <- _ _. reflexivity.
  - intros u val u' cf E. cbn [tops th_check] in E. destruct (th_check ops (snd u) val) as [[t' cf']| |]; cbn [rbind] in E; try discriminate. injection E as <- _. reflexivity.
Qed.
Lemma tag_reach (s : st U) s' : Reach C (un s) s' -> exists s1, Reach tagC s s1 /\ un s1 = s' /\ map fst (theories s1) = map fst (theories s).
Proof.
  induction 1 as [|fuel s1 c s2 r HR IH HL HE HA]; [exists s; split; [constructor|auto]|]. destruct IH as (s1' & R1 & <- & F1).
  rewrite tag_step in HE. destruct (step (ops := tops) fuel s1' c) as [[s2' r']| |] eqn:E2; cbn [rmp] in HE; try discriminate. unfold m1 in HE. cbn [fst snd] in HE. injection HE as <- <-.
  exists s2'. split; [|split; [reflexivity|rewrite (tag_fst _ _ _ _ _ E2); exact F1]]. apply (R_step _ _ fuel s1' c s2' r' R1); [apply tag_legal, HL|exact E2|]. intros E. destruct (HA E) as (M & HM). exists M. apply tag_smodels, HM.
Qed.
Lemma tag_left (s : st U) s' : left_in C (un s) s' -> exists s1, left_in tagC s s1 /\ un s1 = s' /\ map fst (theories s1) = map fst (theories s).
Proof.
  intros [H|(fuel & s1 & c & r & HR & HL & HE)].
  - destruct (tag_reach s s' H) as (s1 & A & B & D). exists s1. split; [left; exact A|auto].
  - destruct (tag_reach s s1 HR) as (s1' & A & <- & D). rewrite tag_step in HE. destruct (step (ops := tops) fuel s1' c) as [[s2' r']| |] eqn:E2; cbn [rmp] in HE; try discriminate. unfold m1 in HE. cbn [fst snd] in HE. injection HE as <- <-.
    exists s2'. split; [right; exists fuel, s1', c, r'; split; [exact A|]; split; [apply tag_legal, HL|exact E2]|]. split; [reflexivity|rewrite (tag_fst _ _ _ _ _ E2); exact D].
Qed.
Lemma left_views (s : st U) s' : good tagC s -> left_in tagC s s' -> forall u, In u (theories s') -> kept u.
Proof.
  intros G HL u Hu. apply In_nth_error in Hu as (i & Eu). destruct HL as [HR|(fuel & s1 & c & r & HR & Hc & E)].
  - pose proof (reach_good _ _ _ G HR) as G2. destruct (h_views _ _ _ _ (i_h _ _ (g_inv _ _ G2)) i u Eu) as (ws & [_ K] & _). exact K.
  - pose proof (reach_good _ _ _ G HR) as G2. pose proof (step_ok _ fuel s1 c G2 Hc) as H. rewrite E in H. destruct H as ([G3|[_ Hd]] & _).
    + destruct (h_views _ _ _ _ (i_h _ _ (g_inv _ _ G3)) i u Eu) as (ws & [_ K] & _). exact K.
    + destruct (de_th _ _ Hd i u Eu) as (ws & [_ K] & _). exact K.
Qed.
End Tag.

Section Kept.
Context {T : Type} {ops : theory_ops T} (C : contract ops).
Lemma snd_combine {A B} : forall (a : list A) (b : list B), length a = length b -> map snd (combine a b) = b.
Proof. induction a as [|x a IH]; intros [|y b]; cbn; try discriminate; [reflexivity|]. intros E. injection E as E. rewrite IH; auto. Qed.
Lemma fst_combine {A B} : forall (a : list A) (b : list B), length a = length b -> map fst (combine a b) = a.
Proof. induction a as [|x a IH]; intros [|y b]; cbn; try discriminate; [reflexivity|]. intros E. injection E as E. rewrite IH; auto. Qed.
Theorem left_same (s s' : st T) : good C s -> left_in C s s' -> same_ths C s s'.
Proof.
  intros G HL. set (n := length (theories s)).
  set (sU := mk_st (nv s) (cls s) (ncid s) (constrs s) (watches s) (assigns s) (level s) (reason s) (prop_q s) (trail s) (trail_lim s) (decisions s) (exprs s) (combine (seq 0 n) (theories s)) (bounds s) (listening s) (log s)).
  assert (L : length (seq 0 n) = length (theories s)) by (rewrite seq_length; reflexivity).
  assert (EU : mp (@snd nat T) sU = s) by (unfold mp; cbn; rewrite (snd_combine _ _ L); destruct s; reflexivity).
  assert (EF : map fst (theories sU) = seq 0 n) by (cbn; apply fst_combine, L).
  assert (GU : good (tagC C (theories s)) sU).
  { apply tag_good; [rewrite EU; exact G|]. intros [i t] Hu. apply In_nth_error in Hu as (j & Ej). assert (E1 : nth_error (map fst (theories sU)) j = Some i) by (rewrite nth_error_map, Ej; reflexivity).
    assert (E2 : nth_error (map snd (theories sU)) j = Some t) by (rewrite nth_error_map, Ej; reflexivity). rewrite EF in E1. cbn [sU theories] in E2. rewrite (snd_combine _ _ L) in E2.
    assert (Hj : j < n) by (apply nth_error_Some; congruence). rewrite (nth_error_nth' _ 0) in E1 by (rewrite seq_length; exact Hj). rewrite seq_nth in E1 by exact Hj. injection E1 as <-.
    exists t. split; [exact E2|apply same_th_refl]. }
  rewrite <- EU in HL. destruct (tag_left C (theories s) sU s' HL) as (s1 & HL1 & <- & F1). rewrite EF in F1.
  assert (L1 : length (theories s1) = n) by (rewrite <- (map_length fst), F1, seq_length; reflexivity).
  split; [cbn [mp theories]; rewrite map_length; exact L1|]. intros i t t' E1 E2. cbn [mp theories] in E2. rewrite nth_error_map in E2. destruct (nth_error (theories s1) i) as [[j u]|] eqn:E3; [|discriminate]. injection E2 as <-.
  assert (Hi : i < n) by (rewrite <- L1; apply nth_error_Some; congruence).
  assert (E4 : nth_error (map fst (theories s1)) i = Some j) by (rewrite nth_error_map, E3; reflexivity). rewrite F1, (nth_error_nth' _ 0), seq_nth in E4 by (try rewrite seq_length; exact Hi). injection E4 as <-.
  destruct (left_views C (theories s) sU s1 GU HL1 (0 + i, u) (nth_error_In _ _ E3)) as (t0 & K1 & K2). cbn [fst snd Nat.add] in K1, K2. assert (t0 = t) by congruence. subst t0. exact K2.
Qed.
End Kept.

(** ** The contract of the theories of a covered core, whichever literals they had been told below. *)
Section Family.
Context {T : Type} {ops : theory_ops T} (C : contract ops) (F : T -> list (list lit) -> Prop).
Definition finv (t : T) (ws : list (list lit)) : Prop := exists t0 base, F t0 base /\ dinv C t0 base t ws.
Definition famC : contract ops.
Proof.
  refine (mk_contract T ops (th_model C) (th_atom C) finv (th_feas C) no_fixed (no_fixed_rules _ _ _) (c_model_ext ops C) _ _ _ _).
  - intros t ws (t0 & base & HF & HD) Hf. destruct (c_push ops (deepC C t0 base) t ws HD Hf) as (A & B). split; [exists t0, base; auto|exact B].
  - intros t v w ws (t0 & base & HF & HD). destruct (c_pop ops (deepC C t0 base) t v w ws HD) as (A & B). split; [exists t0, base; auto|exact B].
  - intros t v ws val p (t0 & base & HF & HD) Ha Hn HT HV Hp _ _. pose proof (c_prop ops (deepC C t0 base) t v ws val p HD Ha Hn HT HV Hp (fun m y X => match X with end) (fun m X => match X with end)) as R. destruct (th_prop ops t val p) as [[[t' ls] cf]| |]; cbn [safe] in *; auto.
    destruct R as ((v' & I1 & I2) & R). split; [|exact R]. exists v'. split; [exists t0, base; auto|exact I2].
  - intros t v ws val (t0 & base & HF & HD) Hn HT HV. pose proof (c_check ops (deepC C t0 base) t v ws val HD Hn HT HV) as R. destruct (th_check ops t val) as [[t' cf]| |]; cbn [safe] in *; auto.
    destruct R as (I1 & R). split; [exists t0, base; auto|exact R].
Defined.
Lemma fam_smodels s M : smodels famC s M <-> smodels C s M.
Proof. split; intros [A B D E]; constructor; assumption. Qed.
Lemma fam_total : th_total C -> th_total famC.
Proof.
  intros HT. split.
  - intros t ws val p (t0 & base & HF & HD) Ha Hn H1 HV Hp _ _. apply (proj1 (deep_total C t0 base HT) t ws val p HD Ha Hn H1 HV Hp); intros *; intros [].
  - intros t ws val (t0 & base & HF & HD) Hn H1 HV. apply (proj2 (deep_total C t0 base HT) t ws val HD Hn H1 HV).
Qed.
End Family.

(** A theory whose last check has succeeded does not fail when it is checked again. *)
Definition th_again {T} {ops : theory_ops T} (C : contract ops) : Prop := forall t vs val t' cf, th_inv C t vs -> th_feas C t ->
  (forall q, val (negl q) = lneg (val q)) -> val TRUE_lit = LTrue -> (forall q, In q (concat vs) -> val q = LTrue) -> th_check ops t val = Ok (t', cf) -> cf = None.
Lemma fam_again {T} {ops : theory_ops T} (C : contract ops) F : th_again C -> th_again (famC C F).
Proof.
  intros H t ws val t' cf (t0 & base & HF & front & b & -> & HD & _) Hf Hn HT HV. apply (H t (front ++ b :: base) val t' cf HD Hf Hn HT).
  intros q Hq. apply HV. rewrite !concat_app in *. cbn [concat] in *. rewrite app_nil_r. exact Hq.
Qed.

(** What theory [t] of the core [s] has been told. *)
Definition seen_by {T} {ops : theory_ops T} (C : contract ops) (s : st T) (t : T) (vs : list (list lit)) : Prop := th_views C True (fun _ => False) s t vs.
Lemma quiet_seen {T} {ops : theory_ops T} (C : contract ops) (s : st T) i t : quiet C s -> nth_error (theories s) i = Some t -> exists vs, seen_by C s t vs.
Proof.
  intros [HI Hq Hs] Et. destruct (h_views _ _ _ _ (i_h _ _ HI) i t Et) as (vs & V1 & V2 & V3 & V4). exists vs. split; [exact V1|]. split; [exact V2|]. split; [exact V3|].
  intros l Hl Hv. destruct (V4 l Hl Hv) as [H|H]; [rewrite Hq in H; destruct H|right; exact H].
Qed.
Lemma quiet_ths {T} {ops : theory_ops T} (C C' : contract ops) (s : st T) ths : plain C' -> quiet C s -> length ths = length (theories s) ->
  (forall i t t', nth_error (theories s) i = Some t -> nth_error ths i = Some t' -> (forall v, th_atom C' t' v <-> th_atom C t v) /\ th_feas C' t' /\ exists vs, seen_by C' s t' vs) ->
  quiet C' (set_theories ths s).
Proof.
  intros PL [[HT HC HR HW HQ HH] Hq Hs] L H.
  assert (H' : forall i t', nth_error ths i = Some t' -> exists t, nth_error (theories s) i = Some t /\ (forall v, th_atom C' t' v <-> th_atom C t v) /\ th_feas C' t' /\ exists vs, seen_by C' s t' vs).
  { intros i t' E. destruct (nth_len _ (theories s) i t' L E) as (t & Et). exists t. split; [exact Et|apply (H i t t' Et E)]. }
  constructor; [|exact Hq|intros u Hu; apply In_nth_error in Hu as (i & Ei); destruct (H' i u Ei) as (t & _ & _ & K & _); exact K].
  constructor; try (destruct HT; constructor; assumption); try (destruct HC; constructor; assumption); try (destruct HR; constructor; assumption); try (destruct HQ; constructor; assumption); [exact HW|].
  constructor.
  - intros i u E. destruct (H' i u E) as (t & Et & _ & _ & vs & V1 & V2 & V3 & V4). exists vs. split; [exact V1|]. split; [exact V2|]. split; [exact V3|].
    intros l Hl Hv. destruct (V4 l Hl Hv) as [[]|K]. right. exact K.
  - intros i u v E Ha. destruct (H' i u E) as (t & Et & Ka & _). apply (h_range _ _ _ _ HH i t v Et), Ka, Ha.
  - intros i u v E Ha K. destruct (H' i u E) as (t & Et & Ka & _). apply (h_bound _ _ _ _ HH i t v Et); [apply Ka, Ha|exact K].
  - intros i v Hi. destruct (h_owned _ _ _ _ HH i v Hi) as (u & Eu & Ha). destruct (nth_len _ ths i u (eq_sym L) Eu) as (u' & Eu'). exists u'. split; [exact Eu'|apply (H i u u' Eu Eu'), Ha].
  - apply (h_nodup _ _ _ _ HH).
  - intros i u n v _ Hf. destruct (PL _ _ _ Hf).
Qed.

(** Checking theories which do not fail. *)
Lemma check_all_again {T} (ops : theory_ops T) (P : nat -> T -> Prop) (val : lit -> lbool) : forall n i (s : st T), value s = val ->
  (forall j t, P j t -> match th_check ops t val with UB => False | OOF => True | Ok (t', cf) => cf = None /\ P j t' end) ->
  (forall j t, nth_error (theories s) j = Some t -> P j t) ->
  (th_check_all ops s n i = OOF /\ exists j t, P j t /\ th_check ops t val = OOF) \/
  exists ths, th_check_all ops s n i = Ok (set_theories ths s, None) /\ length ths = length (theories s) /\ forall j t, nth_error ths j = Some t -> P j t.
Proof.
  induction n as [|n IH]; intros i s Ev HP H; cbn [th_check_all].
  - right. exists (theories s). split; [destruct s; reflexivity|auto].
  - destruct (nth_error (theories s) i) as [t|] eqn:Et; [|right; exists (theories s); split; [destruct s; reflexivity|auto]].
    pose proof (HP i t (H i t Et)) as R. rewrite Ev. destruct (th_check ops t val) as [[t' cf]| |] eqn:Ec; try contradiction; [|left; split; [reflexivity|exists i, t; split; [apply H, Et|exact Ec]]]. destruct R as [-> R]. cbn [rbind].
    set (s1 := set_theories (set_nth (theories s) i t') s). destruct (IH (S i) s1) as [K|(ths & E & L & K)].
    + exact Ev.
    + exact HP.
    + intros j u Ej. cbn [s1 set_theories theories] in Ej. rewrite nth_set_nth in Ej by (apply nth_error_Some; congruence). revert Ej. destruct (Nat.eqb_spec j i) as [->|Hj]; intros Ej; [injection Ej as <-; exact R|apply (H j u Ej)].
    + left. exact K.
    + right. exists ths. split; [exact E|]. split; [rewrite L; apply length_set_nth|exact K].
Qed.

Section PushPop.
Context {T : Type} {ops : theory_ops T} (C : contract ops) (PL : plain C).
(** The theories of [s], and what they have been told. *)
Definition covered (s : st T) (t : T) (vs : list (list lit)) : Prop := exists i, nth_error (theories s) i = Some t /\ seen_by C s t vs.
Lemma seen_in (s : st T) t vs l : seen_by C s t vs -> In l (concat vs) -> value s l = LTrue.
Proof. intros (_ & _ & V3 & _) Hl. apply in_concat in Hl as (w & Hw & Hl). apply In_nth_error in Hw as (j & Ej). apply (V3 j w l Ej (or_introl Logic.I) Hl). Qed.
Lemma seen_all (s : st T) t vs l : seen_by C s t vs -> th_atom C t (lvar l) -> value s l = LTrue -> In l (concat vs).
Proof. intros (_ & _ & _ & V4) Ha Hl. destruct (V4 l Ha Hl) as [[]|(j & v & Ej & Hv & _)]. apply in_concat. exists v. split; [apply (nth_error_In _ j), Ej|exact Hv]. Qed.

Lemma push_fam fuel (s : st T) r : th_again C -> quiet C s -> cache_ok C s ->
  match stack_push ops fuel (s :: r) with
  | UB => False
  | OOF => th_total C -> fuel = 0
  | Ok k => exists s1, k = s1 :: s :: r /\ dlevel s1 = 0 /\ nv s1 = nv s /\ (forall p, value s1 p = value s p) /\
     (forall M, smodels C s1 M <-> smodels C s M /\ forall p, value s p = LTrue -> mlit M p = true) /\
     same_ths C s s1 /\ good (famC C (covered s)) s1 /\ quiet (famC C (covered s)) s1
  end.
Proof.
  intros HA Q HX. set (F1 := fun t0 base => exists i v, nth_error (theories s) i = Some t0 /\ seen_by C s t0 (v :: base)). set (C1 := famC C F1).
  assert (Split : forall vs s' t, seen_by C s' t vs -> exists v tl, vs = v :: tl) by (intros vs s' t (_ & V2 & _); destruct vs; [discriminate|eauto]).
  destruct (copy_core_gen C C1 s Q) as (s1 & Es1 & Q1 & D1 & N1 & A1 & X1 & T1 & Tr1 & De1 & M1).
  { intros i u Eu. split; [intros; reflexivity|]. split; [intros; reflexivity|]. split; [apply (qu_set _ _ Q), (nth_error_In _ i), Eu|].
    destruct (quiet_seen C s i u Q Eu) as (vs & V). destruct (Split _ _ _ V) as (v & tl & ->). exists (v ++ concat tl). split; [|split].
    - exists u, tl. split; [exists i, v; auto|]. apply dinv_one; [exact PL|apply V|intros; reflexivity|intros; reflexivity].
    - intros l Hl. apply (seen_in s u (v :: tl) l V Hl).
    - intros l Ha Hl. apply (seen_all s u (v :: tl) l V Ha Hl). }
  { intros i u n x _ []. }
  unfold stack_push, copy_ctor. rewrite Es1. cbn [rbind]. unfold simplify_db. assert (Er : root_level s1 = true) by (apply root_dlevel, D1). rewrite Er. cbn [guard].
  destruct fuel as [|fuel]; [cbn; auto|]. cbn [propagate]. rewrite (qu_q _ _ Q1).
  assert (Ev : forall q, value s1 q = value s q) by (intros q; unfold value; rewrite A1; reflexivity).
  assert (HT1 := true_lit_true s1 (i_t _ _ (qu_inv _ _ Q1))).
  set (P := fun i t' => exists t, nth_error (theories s) i = Some t /\ same_th C t t' /\ th_feas C t' /\ forall vs, seen_by C s t vs -> th_inv C t' vs).
  destruct (check_all_again ops P (value s1) (length (theories s1)) 0 s1 eq_refl) as [(E & j & t & (t0 & K1 & K2 & K3 & K4) & Ec)|(ths & E & L & K)].
  { intros j t (t0 & K1 & K2 & K3 & K4). destruct (quiet_seen C s j t0 Q K1) as (vs & V). destruct (Split _ _ _ V) as (v & tl & ->).
    assert (HV : forall q, In q (concat (v :: tl)) -> value s1 q = LTrue) by (intros q Hq; rewrite Ev; apply (seen_in s t0 _ q V Hq)).
    pose proof (c_check ops C t v tl (value s1) (K4 _ V) (value_negl s1) HT1 HV) as R. pose proof (HA t (v :: tl) (value s1)) as R2.
    destruct (th_check ops t (value s1)) as [[t' cf]| |] eqn:Ec; cbn [safe] in R; auto. destruct R as (_ & I2 & I3 & I4 & _).
    assert (cf = None) by (apply (R2 t' cf (K4 _ V) K3 (value_negl s1) HT1 HV eq_refl)). subst cf. split; [reflexivity|]. exists t0. split; [exact K1|]. split; [eapply same_th_trans; [exact K2|split; assumption]|]. split; [apply I2; reflexivity|].
    intros vs V'. destruct (Split _ _ _ V') as (v' & tl' & ->). assert (HV' : forall q, In q (concat (v' :: tl')) -> value s1 q = LTrue) by (intros q Hq; rewrite Ev; apply (seen_in s t0 _ q V' Hq)).
    pose proof (c_check ops C t v' tl' (value s1) (K4 _ V') (value_negl s1) HT1 HV') as R. rewrite Ec in R. cbn [safe] in R. apply R. }
  { intros j t Ej. rewrite T1 in Ej. exists t. split; [exact Ej|]. split; [apply same_th_refl|]. split; [apply (qu_set _ _ Q), (nth_error_In _ j), Ej|]. intros vs V. apply V. }
  { rewrite E. cbn [rbind]. intros HT. exfalso. destruct (quiet_seen C s j t0 Q K1) as (vs & V). apply (proj2 HT t vs (value s1) (K4 _ V) (value_negl s1) HT1); [|exact Ec]. intros q Hq. rewrite Ev. apply (seen_in s t0 _ q V Hq). }
  rewrite E. cbn [rbind]. set (s2 := set_theories ths s1) in *. rewrite T1 in L.
  assert (L0 : forall x, level s1 x = 0) by (intros x; pose proof (level_le s1 (i_t _ _ (qu_inv _ _ Q1)) x); lia).
  assert (Q2 : quiet C1 s2).
  { apply (quiet_ths C1 C1 s1 ths (fun x n y X => match X with end) Q1); [rewrite T1; exact L|]. intros i t t' Et Et'. rewrite T1 in Et. destruct (K i t' Et') as (t0 & K1 & K2 & K3 & K4). assert (t0 = t) by congruence. subst t0. split; [apply K2|]. split; [exact K3|].
    destruct (quiet_seen C s i t Q K1) as (vs & V). destruct (Split _ _ _ V) as (v & tl & ->). exists [v ++ concat tl]. split; [|split; [|split]].
    - exists t, tl. split; [exists i, v; auto|]. apply dinv_one; [exact PL|apply K4, V|apply K2|apply K2].
    - rewrite D1. reflexivity.
    - intros [|[|j]] w l Ej _ Hl; [|discriminate..]. injection Ej as <-. split; [rewrite Ev; apply (seen_in s t (v :: tl) l V Hl)|rewrite L0, D1; reflexivity].
    - intros l Hl Hv. right. exists 0, (v ++ concat tl). split; [reflexivity|]. split; [|rewrite L0, D1; reflexivity]. rewrite Ev in Hv. apply (seen_all s t (v :: tl) l V); [apply K2, Hl|exact Hv]. }
  pose proof (simplify_tail C1 s2 Q2 D1) as HS. destruct (simp_loop (length (constrs s2)) s2 [] (constrs s2) []) as [[s3 kept] out].
  destruct HS as (s4 & E4 & Q4 & M4 & _ & _ & _ & E1 & E2 & E3 & E5 & E6 & E7 & E8 & E9 & E10 & _). rewrite E4. cbn [rbind]. rewrite E9. cbn [s2 set_theories theories].
  set (s5 := set_theories (map (th_push ops) ths) s4). exists s5. split; [reflexivity|].
  assert (D5 : dlevel s5 = 0) by (unfold dlevel; cbn [s5 set_theories trail_lim]; rewrite E5; exact D1). split; [exact D5|].
  assert (N5 : nv s5 = nv s) by (cbn [s5 set_theories nv]; rewrite E7; exact N1). split; [exact N5|].
  assert (Ev5 : forall p, value s5 p = value s p) by (intros p; unfold value; cbn [s5 set_theories assigns]; rewrite E1; exact (Ev p)). split; [exact Ev5|].
  assert (Psh : forall i t, nth_error ths i = Some t -> exists t0, nth_error (theories s) i = Some t0 /\ same_th C t0 t /\ same_th C t0 (th_push ops t) /\ th_feas C (th_push ops t) /\ forall vs, seen_by C s t0 vs -> th_inv C (th_push ops t) ([] :: vs)).
  { intros i t Ei. destruct (K i t Ei) as (t0 & K1 & K2 & K3 & K4). exists t0. split; [exact K1|]. split; [exact K2|]. destruct (quiet_seen C s i t0 Q K1) as (vs & V). destruct (c_push ops C t vs (K4 _ V) K3) as (_ & P2 & P3 & P4).
    split; [eapply same_th_trans; [exact K2|split; assumption]|]. split; [exact P2|]. intros vs' V'. apply (c_push ops C t vs' (K4 _ V') K3). }
  assert (E9' : theories s4 = ths) by (rewrite E9; reflexivity).
  assert (Lp : length (map (th_push ops) ths) = length (theories s4)) by (rewrite map_length, E9'; reflexivity).
  assert (HM5 : forall M, smodels C s5 M <-> smodels C s M /\ forall p, value s p = LTrue -> mlit M p = true).
  { intros M. rewrite <- M1. unfold C1. rewrite (fam_smodels C F1 s1 M). transitivity (smodels C s4 M); [|transitivity (smodels C s2 M)].
    - apply (same_ths_models C s4 _ Lp). intros i t t' Et Et'. rewrite E9' in Et. rewrite nth_error_map, Et in Et'. injection Et' as <-. destruct (K i t Et) as (t0 & K1 & K2 & K3 & K4). destruct (quiet_seen C s i t0 Q K1) as (vs & V). destruct (c_push ops C t vs (K4 _ V) K3) as (_ & _ & P3 & P4). split; assumption.
    - rewrite <- (fam_smodels C F1 s4 M), <- (fam_smodels C F1 s2 M). apply M4.
    - apply (same_ths_models C s1 ths); [rewrite T1; exact L|]. intros i t t' Et Et'. rewrite T1 in Et. destruct (K i t' Et') as (t0 & K1 & K2 & _). assert (t0 = t) by congruence. subst t0. exact K2. }
  split; [exact HM5|]. split.
  { split; [cbn [s5 set_theories theories]; rewrite map_length; exact L|]. intros i t t' Et Et'. cbn [s5 set_theories theories] in Et'. rewrite nth_error_map in Et'. destruct (nth_error ths i) as [u|] eqn:Eu; [|discriminate]. injection Et' as <-.
    destruct (Psh i u Eu) as (t0 & K1 & _ & K2 & _). assert (t0 = t) by congruence. subst t0. exact K2. }
  set (C2 := famC C (covered s)).
  assert (Q5 : quiet C2 s5).
  { apply (quiet_ths C1 C2 s4 _ (fun x n y X => match X with end) Q4 Lp). intros i t t' Et Et'. rewrite E9' in Et. rewrite nth_error_map, Et in Et'. injection Et' as <-. destruct (Psh i t Et) as (t0 & K1 & K0 & K2 & K3 & K4). split.
    { intros v. transitivity (th_atom C t0 v); [apply K2|symmetry; apply K0]. } split; [exact K3|]. destruct (quiet_seen C s i t0 Q K1) as (vs & V). exists [[] ++ concat vs].
    assert (D4 : dlevel s4 = 0) by exact D5. assert (L4 : forall x, level s4 x = 0) by (intros x; pose proof (level_le s4 (i_t _ _ (qu_inv _ _ Q4)) x); lia). split; [|split; [|split]].
    - exists t0, vs. split; [exists i; auto|]. apply dinv_one; [exact PL|apply K4, V|apply K2|apply K2].
    - rewrite D4. reflexivity.
    - intros [|[|j]] w l Ej _ Hl; [|discriminate..]. injection Ej as <-. cbn [app] in Hl. split; [|rewrite L4, D4; reflexivity]. change (value s5 l = LTrue). rewrite Ev5. apply (seen_in s t0 vs l V Hl).
    - intros l Hl Hv. right. exists 0, ([] ++ concat vs). split; [reflexivity|]. split; [|rewrite L4, D4; reflexivity]. change (value s5 l = LTrue) in Hv. rewrite Ev5 in Hv. apply (seen_all s t0 vs l V); [apply K2, Hl|exact Hv]. }
  split; [|exact Q5]. constructor; [apply Q5| |intros H; congruence].
  intros k p Hi. cbn [s5 set_theories exprs] in Hi. rewrite E8 in Hi. cbn [s2 set_theories exprs] in Hi. rewrite X1 in Hi. destruct (HX k p Hi) as (o & K1 & K2 & K3 & K4).
  exists o. rewrite N5. split; [exact K1|]. split; [exact K2|]. split; [exact K3|]. intros M HM. apply K4. apply (fam_smodels C (covered s) s5 M) in HM. apply HM5, HM.
Qed.

(** Popping a core at root level. *)
Lemma pop_fam (s s1 : st T) r : quiet C s -> cache_ok C s -> same_ths C s s1 ->
  (forall i t1, nth_error (theories s1) i = Some t1 -> exists ws, finv C (covered s) t1 ws /\ length ws = 1) ->
  exists s2, stack_pop ops (s1 :: s :: r) = Ok (s2 :: r) /\ (exists lg ths, s2 = set_log lg (set_theories ths s)) /\ same_ths C s s2 /\ good C s2 /\ quiet C s2 /\ (forall M, smodels C s2 M <-> smodels C s M).
Proof.
  intros Q HX [HL HS] HV. cbn [stack_pop]. set (ths := map (th_pop ops) (theories s1)). match goal with |- context [set_log ?lg _] => set (L := lg) end. exists (set_log L (set_theories ths s)). split; [reflexivity|]. split; [eexists _, _; reflexivity|].
  assert (Len : length ths = length (theories s)) by (unfold ths; rewrite map_length; exact HL).
  assert (H : forall i t t', nth_error (theories s) i = Some t -> nth_error ths i = Some t' -> same_th C t t' /\ th_feas C t' /\ exists vs, seen_by C s t' vs).
  { intros i t t' Et Et'. unfold ths in Et'. rewrite nth_error_map in Et'. destruct (nth_error (theories s1) i) as [t1|] eqn:E1; [|discriminate]. injection Et' as <-. destruct (HV i t1 E1) as (ws & (t0 & base & (j & Ej & V) & front & b & -> & HI & Km & Ka & _) & Hl).
    rewrite app_length in Hl. cbn in Hl. destruct front; [|cbn in Hl; lia]. cbn [app] in HI. pose proof V as (V1 & V2 & V3 & V4). destruct base as [|v base]; [discriminate V2|]. destruct (c_pop ops C t1 b v base HI) as (P1 & P2 & P3 & P4).
    split; [eapply same_th_trans; [apply (HS i t t1 Et E1)|split; assumption]|]. split; [exact P2|]. exists (v :: base). split; [exact P1|]. split; [exact V2|]. split; [exact V3|]. intros l Ha Hv. apply V4; [apply Ka, P4, Ha|exact Hv]. }
  split; [split; [exact Len|intros i t t' A B; apply (H i t t' A B)]|].
  assert (Q2 : quiet C (set_theories ths s)) by (apply (quiet_ths C C s ths PL Q Len); intros i t t' A B; destruct (H i t t' A B) as ([_ K1] & K2 & K3); auto).
  assert (HM : forall M, smodels C (set_log L (set_theories ths s)) M <-> smodels C s M).
  { intros M. transitivity (smodels C (set_theories ths s) M); [split; intros [A B D F]; constructor; assumption|]. apply (same_ths_models C s ths Len). intros i t t' A B. apply (H i t t' A B). }
  assert (Q3 : quiet C (set_log L (set_theories ths s))).
  { destruct Q2 as [[A B D E F G] H1 H2]. constructor; [|exact H1|exact H2]. constructor; try (destruct A; constructor; assumption); try (destruct B; constructor; assumption); try (destruct D; constructor; assumption); try (destruct F; constructor; assumption); [exact E|].
    destruct G; constructor; assumption. }
  split; [|split; [exact Q3|exact HM]]. constructor; [apply Q3| |intros _; split; [apply Q3|apply (qu_set _ _ Q3)]]. apply (cache_mono C s); [exact HX|reflexivity|apply le_n|intros M; apply HM].
Qed.
End PushPop.

(** ** Histories of a stack of cores. *)
(** A contract which gives the theories the same meaning. *)
Definition like {T} {ops : theory_ops T} (C D : contract ops) : Prop := th_model D = th_model C /\ th_atom D = th_atom C /\ th_feas D = th_feas C.
Lemma like_smodels {T} {ops : theory_ops T} (C D : contract ops) s M : like C D -> (smodels D s M <-> smodels C s M).
Proof. intros (A & _). split; intros [H1 H2 H3 H4]; constructor; try assumption; [rewrite <- A|rewrite A]; assumption. Qed.
Lemma like_settled {T} {ops : theory_ops T} (C D : contract ops) (s : st T) : like C D -> (settled D s <-> settled C s).
Proof. intros (_ & _ & A). unfold settled. rewrite A. tauto. Qed.
Lemma like_legal {T} {ops : theory_ops T} (C D : contract ops) (s : st T) c : like C D -> (legal D s c <-> legal C s c).
Proof. intros H. destruct c; cbn [legal]; try tauto; rewrite (like_settled C D s H); tauto. Qed.
Lemma like_same {T} {ops : theory_ops T} (C D : contract ops) t t' : like C D -> (same_th D t t' <-> same_th C t t').
Proof. intros (A & B & _). unfold same_th. rewrite A, B. tauto. Qed.
Lemma like_sames {T} {ops : theory_ops T} (C D : contract ops) (s s' : st T) : like C D -> (same_ths D s s' <-> same_ths C s s').
Proof. intros H. unfold same_ths. split; intros [E K]; (split; [exact E|]); intros i t t' E1 E2; apply (like_same C D t t' H), (K i); assumption. Qed.

Section Hist.
Context {T : Type} {ops : theory_ops T} (C : contract ops).
(** One operation on a stack.  The flag says that the last call on the top core has answered that there is no solution (what else
    it may do then is not defined: the core can only be popped). *)
Inductive tstep : bool * list (st T) -> bool * list (st T) -> Prop :=
| ts_call fuel s r c s' x : legal C s c -> step (ops := ops) fuel s c = Ok (s', x) -> alive C s' x -> tstep (false, s :: r) (false, s' :: r)
| ts_last fuel s r c s' : legal C s c -> step (ops := ops) fuel s c = Ok (s', RBool false) -> tstep (false, s :: r) (true, s' :: r)
| ts_push fuel s r k : prop_q s = [] -> settled C s -> stack_push ops fuel (s :: r) = Ok k -> tstep (false, s :: r) (false, k)
| ts_pop o s r k : dlevel s = 0 -> stack_pop ops (s :: r) = Ok k -> tstep (o, s :: r) (false, k).
Inductive THist (s0 : st T) : bool * list (st T) -> Prop :=
| TH_init : THist s0 (false, [s0])
| TH_step x y : THist s0 x -> tstep x y -> THist s0 y.
(** Runs during which the [n] lower cores stay covered. *)
Inductive tinner (n : nat) (x : bool * list (st T)) : bool * list (st T) -> Prop :=
| ti_refl : tinner n x x
| ti_step y z : tinner n x y -> tstep y z -> n < length (snd z) -> tinner n x z.

(** The contract met by the core above those of the list. *)
Inductive chain : contract ops -> list (st T) -> Prop :=
| ch_nil : chain C []
| ch_cons D p r : chain D r -> quiet D p -> cache_ok D p -> chain (famC D (covered D p)) (p :: r).
Lemma chain_like D r : chain D r -> like C D.
Proof. induction 1 as [|D p r H IH]; [repeat split; reflexivity|]. exact IH. Qed.
Lemma chain_again D r : th_again C -> chain D r -> th_again D.
Proof. intros HA. induction 1 as [|D p r H IH]; [exact HA|]. apply fam_again, IH. Qed.
Lemma chain_total D r : th_total C -> chain D r -> th_total D.
Proof. intros HA. induction 1 as [|D p r H IH]; [exact HA|]. apply fam_total, IH. Qed.

Lemma chain_plain D r : plain C -> chain D r -> plain D.
Proof. intros HP. induction 1 as [|D p r H IH]; [exact HP|]. intros t n v []. Qed.

Definition above (s : st T) (r : list (st T)) : Prop := match r with [] => True | p :: _ => same_ths C p s end.
Definition stack_ok (x : bool * list (st T)) : Prop := exists s r D, snd x = s :: r /\ chain D r /\ above s r /\ (good D s \/ doomed D s) /\ (fst x = false -> good D s).

Lemma call_ok D fuel (s s' : st T) c x : like C D -> good D s -> legal C s c -> step (ops := ops) fuel s c = Ok (s', x) ->
  same_ths C s s' /\ (good D s' \/ (x = RBool false /\ doomed D s')).
Proof.
  intros HL G Hc E. apply (like_legal C D s c HL) in Hc. split.
  - apply (like_sames C D s s' HL). apply (left_same D s s' G). right. exists fuel, s, c, x. split; [constructor|auto].
  - pose proof (step_ok D fuel s c G Hc) as H. rewrite E in H. apply H.
Qed.
Lemma above_call (s s' : st T) r : above s r -> same_ths C s s' -> above s' r.
Proof. destruct r as [|p r]; cbn; [auto|]. intros A B. eapply same_ths_trans; eassumption. Qed.
Lemma root_views D p r' (s : st T) : chain (famC D (covered D p)) r' -> dlevel s = 0 -> good (famC D (covered D p)) s \/ doomed (famC D (covered D p)) s ->
  forall i t1, nth_error (theories s) i = Some t1 -> exists ws, finv D (covered D p) t1 ws /\ length ws = 1.
Proof.
  intros _ Hd [G|Hx] i t1 E1.
  - destruct (h_views _ _ _ _ (i_h _ _ (g_inv _ _ G)) i t1 E1) as (ws & A & B & _). exists ws. split; [exact A|congruence].
  - destruct (de_th _ _ Hx i t1 E1) as (ws & A & B). exists ws. split; [exact A|congruence].
Qed.
Lemma pop_top (s p : st T) r D : plain C -> chain D (p :: r) -> above s (p :: r) -> dlevel s = 0 -> good D s \/ doomed D s ->
  exists D' p', chain D' r /\ quiet D' p /\ stack_pop ops (s :: p :: r) = Ok (p' :: r) /\ (exists lg ths, p' = set_log lg (set_theories ths p)) /\ same_ths C p p' /\ good D' p' /\ quiet D' p' /\ (forall M, smodels C p' M <-> smodels C p M).
Proof.
  intros PL HC HA Hd HG. inversion HC as [|D' p0 r0 HC' Q HX]; subst. pose proof (chain_like _ _ HC') as HL.
  destruct (pop_fam D' (chain_plain _ _ PL HC') p s r Q HX) as (p' & E & Hp & K1 & K2 & K3 & K4).
  - apply (like_sames C D' p s HL), HA.
  - apply (root_views D' p (p :: r) s HC Hd HG).
  - exists D', p'. split; [exact HC'|]. split; [exact Q|]. split; [exact E|]. split; [exact Hp|]. split; [apply (like_sames C D' p p' HL), K1|]. split; [exact K2|]. split; [exact K3|]. intros M. rewrite <- !(like_smodels C D' _ M HL). apply K4.
Qed.
(** Each covered core stands above the one below it. *)
Fixpoint stacked (k : list (st T)) : Prop := match k with [] => True | s :: r => above s r /\ stacked r end.
Theorem hist_ok s0 x : plain C -> th_again C -> good C s0 -> THist s0 x -> stack_ok x /\ stacked (snd x).
Proof.
  intros PL HA G0. induction 1 as [|x y HH [IH IS] HS].
  - split; [|cbn; auto]. exists s0, [], C. cbn. split; [reflexivity|]. split; [constructor|]. auto.
  - destruct HS as [fuel s r c s' x Hc E Ha|fuel s r c s' Hc E|fuel s r k Hq Hs E|o s r k Hd E]; destruct IH as (s1 & r1 & D & E1 & HC & Hab & HG & Hg); cbn [fst snd] in *; injection E1 as <- <-; cbn [stacked] in IS; pose proof (chain_like _ _ HC) as HL.
    + destruct (call_ok D fuel s s' c x HL (Hg eq_refl) Hc E) as [K1 K2]. pose proof (above_call s s' r Hab K1) as Hab'. split; [|cbn [stacked]; tauto]. exists s', r, D. cbn. split; [reflexivity|]. split; [exact HC|]. split; [exact Hab'|].
      assert (G' : good D s'). { destruct K2 as [K2|[-> K2]]; [exact K2|]. exfalso. destruct (Ha eq_refl) as (M & HM). apply (de_unsat _ _ K2 M). apply (like_smodels C D s' M HL), HM. } auto.
    + destruct (call_ok D fuel s s' c _ HL (Hg eq_refl) Hc E) as [K1 K2]. pose proof (above_call s s' r Hab K1) as Hab'. split; [|cbn [stacked]; tauto]. exists s', r, D. cbn. split; [reflexivity|]. split; [exact HC|]. split; [exact Hab'|]. split; [tauto|discriminate].
    + specialize (Hg eq_refl). assert (Q : quiet D s) by (apply quiet_of; [exact Hg|exact Hq|apply (like_settled C D s HL), Hs]).
      pose proof (push_fam D (chain_plain _ _ PL HC) fuel s r (chain_again _ _ HA HC) Q (g_cache _ _ Hg)) as H. rewrite E in H. destruct H as (s1 & -> & _ & _ & _ & _ & K1 & K2 & _). cbn [snd].
      assert (Hab' : above s1 (s :: r)) by (apply (like_sames C D s s1 HL), K1). split; [|cbn [stacked] in *; tauto]. exists s1, (s :: r), (famC D (covered D s)). split; [reflexivity|]. split; [constructor; [exact HC|exact Q|apply Hg]|]. auto.
    + destruct r as [|p r]; [discriminate|]. destruct (pop_top s p r D PL HC Hab Hd HG) as (D' & p' & A1 & _ & A2 & _ & A3 & A4 & _). rewrite E in A2. injection A2 as ->. cbn [snd stacked] in *.
      assert (Hab' : above p' r) by (eapply above_call; [apply IS|exact A3]). split; [|tauto]. exists p', r, D'. cbn. split; [reflexivity|]. split; [exact A1|]. auto.
Qed.

(** What a client sees of each operation on a stack. *)
Theorem stack_history s0 o s r : plain C -> th_again C -> good C s0 -> THist s0 (o, s :: r) ->
  (o = false -> (exists D, like C D /\ good D s) /\
    (forall c fuel, legal C s c -> match step (ops := ops) fuel s c with
       | UB => False
       | OOF => th_total C -> fuel <= fuel_bound s c
       | Ok (s', x) => (forall M, smodels C s' M -> smodels C s M /\ said c (decisions s) x M) /\ (exact c -> forall M, smodels C s M -> said c (decisions s) x M -> smodels C s' M)
       end) /\
    (prop_q s = [] -> settled C s -> forall fuel, match stack_push ops fuel (s :: r) with
       | UB => False
       | OOF => th_total C -> fuel = 0
       | Ok k => exists s1, k = s1 :: s :: r /\ dlevel s1 = 0 /\ nv s1 = nv s /\ prop_q s1 = [] /\ settled C s1 /\ (forall p, value s1 p = value s p) /\
           (forall M, smodels C s1 M <-> smodels C s M /\ forall p, value s p = LTrue -> mlit M p = true)
       end)) /\
  (dlevel s = 0 -> forall p r', r = p :: r' -> exists p', stack_pop ops (s :: r) = Ok (p' :: r') /\ same_but_th p p' /\ prop_q p' = [] /\ settled C p' /\ same_ths C p p' /\ (forall M, smodels C p' M <-> smodels C p M)).
Proof.
  intros PL HA G0 HH. destruct (hist_ok s0 _ PL HA G0 HH) as ((s1 & r1 & D & E1 & HC & Hab & HG & Hg) & _). cbn [fst snd] in *. injection E1 as <- <-. pose proof (chain_like _ _ HC) as HL. split.
  - intros ->. specialize (Hg eq_refl). split; [exists D; auto|]. split.
    + intros c fuel Hc. pose proof (step_ok D fuel s c Hg (proj2 (like_legal C D s c HL) Hc)) as H. destruct (step fuel s c) as [[s' x]| |]; [|exact H|intros HT; apply H, (chain_total _ _ HT HC)].
      destruct H as (_ & _ & H1 & H2). split; [intros M HM; rewrite <- (like_smodels C D s M HL); apply H1, (like_smodels C D s' M HL), HM|intros Hx M HM Hs; apply (like_smodels C D s' M HL), H2; [exact Hx|apply (like_smodels C D s M HL), HM|exact Hs]].
    + intros Hq Hs fuel. assert (Q : quiet D s) by (apply quiet_of; [exact Hg|exact Hq|apply (like_settled C D s HL), Hs]).
      pose proof (push_fam D (chain_plain _ _ PL HC) fuel s r (chain_again _ _ HA HC) Q (g_cache _ _ Hg)) as H. destruct (stack_push ops fuel (s :: r)) as [k| |]; [|exact H|intros HT; apply H, (chain_total _ _ HT HC)].
      destruct H as (s1 & -> & K1 & K2 & K3 & K4 & _ & _ & K5). exists s1. split; [reflexivity|]. split; [exact K1|]. split; [exact K2|]. split; [apply K5|]. split; [apply (like_settled C D s1 HL); apply (qu_set _ _ K5)|]. split; [exact K3|].
      intros M. rewrite <- (like_smodels C D s1 M HL), <- (like_smodels C D s M HL). apply K4.
  - intros Hd p r' ->. destruct (pop_top s p r' D PL HC Hab Hd HG) as (D' & p' & A1 & _ & A2 & (lg & ths & Ep) & A3 & A4 & A5 & A6). pose proof (chain_like _ _ A1) as HL'. exists p'. split; [exact A2|]. split; [rewrite Ep; constructor; reflexivity|]. split; [apply A5|]. split; [apply (like_settled C D' p' HL'), (qu_set _ _ A5)|]. auto.
Qed.

Lemma tinner_base n x y base : tinner n x y -> length base = n -> (exists pre, snd x = pre ++ base /\ pre <> []) -> exists pre, snd y = pre ++ base /\ pre <> [].
Proof.
  intros H En. induction H as [|y z HI IH HS Hl]; intros Hk; [exact Hk|]. destruct (IH Hk) as (pre & Ey & Hp). clear IH Hk. destruct pre as [|t pre]; [congruence|]. cbn [app] in Ey.
  destruct HS as [fuel s r c s' x' Hc E Ha|fuel s r c s' Hc E|fuel s r k Hq Hs E|o s r k Hd E]; cbn [snd] in *; injection Ey as -> ->.
  - exists (s' :: pre). split; [reflexivity|discriminate].
  - exists (s' :: pre). split; [reflexivity|discriminate].
  - cbn [stack_push] in E. destruct (copy_ctor ops fuel t) as [s1| |]; cbn [rbind] in E; try discriminate. injection E as <-. eexists (_ :: t :: pre). split; [reflexivity|discriminate].
  - destruct pre as [|t2 pre].
    + exfalso. cbn [app] in E. destruct base as [|b base]; [discriminate|]. cbn [stack_pop] in E. injection E as <-. cbn in Hl, En. lia.
    + cbn [app stack_pop] in E. injection E as <-. eexists (_ :: pre). split; [reflexivity|discriminate].
Qed.
Lemma thist_inner s0 n x y : THist s0 x -> tinner n x y -> THist s0 y.
Proof. intros H. induction 1 as [|y z HI IH HS Hl]; [exact H|]. econstructor; eassumption. Qed.
(** Whatever is done between a push and the matching pop, the core below is found as it was. *)
Theorem inner_restored s0 s r k1 o k2 fuel : plain C -> th_again C -> good C s0 -> THist s0 (false, s :: r) -> prop_q s = [] -> settled C s -> stack_push ops fuel (s :: r) = Ok k1 ->
  tinner (S (length r)) (false, k1) (o, k2) -> length k2 = length k1 -> (forall t, hd_error k2 = Some t -> dlevel t = 0) ->
  exists s', stack_pop ops k2 = Ok (s' :: r) /\ same_but_th s s' /\ prop_q s' = [] /\ settled C s' /\ same_ths C s s' /\ (forall M, smodels C s' M <-> smodels C s M).
Proof.
  intros PL HA G0 HH Hq Hs E HI Hl Hd.
  assert (Hk1 : exists t, k1 = t :: s :: r) by (cbn [stack_push] in E; destruct (copy_ctor ops fuel s) as [s1| |]; cbn [rbind] in E; try discriminate; injection E as <-; eauto). destruct Hk1 as (t & ->).
  assert (H1 : THist s0 (false, t :: s :: r)) by (econstructor; [exact HH|econstructor; eassumption]).
  pose proof (thist_inner s0 _ _ _ H1 HI) as H2. destruct (tinner_base _ _ _ (s :: r) HI eq_refl) as (pre & Ek & Hp); [exists [t]; split; [reflexivity|discriminate]|]. cbn [snd] in Ek. subst k2.
  rewrite app_length in Hl. cbn in Hl. destruct pre as [|a [|b pre]]; [congruence| |cbn in Hl; lia]. cbn [app] in *. destruct (stack_history s0 o a (s :: r) PL HA G0 H2) as [_ H3]. apply (H3 (Hd a eq_refl) s r eq_refl).
Qed.
End Hist.
