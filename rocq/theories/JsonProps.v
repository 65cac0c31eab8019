(** Proofs about the documents. *)
From Coq Require Import String Ascii QArith Lqa.
From Verif Require Import Base Keys Sat SatSpec SatInv SatImp SatMain SatApi SatNext Reify Amo Run SatFacts.
From Verif Require Import Lin Qe Lra LraTab LraVal LraInv LraCmp LraApi LraRun LraEnd LraKeys Json JsonSpec.
Local Open Scope string_scope.
Local Open Scope nat_scope.
Section Srt.
Context {sr : sorter}.

Lemma dec_text v w : Some (dec v) = Some (dec w) -> v = w.
Proof. intros E. inversion E as [H]. apply dec_inj, H. Qed.
Lemma lit_text p q : Some (lit_str p) = Some (lit_str q) -> p = q.
Proof. intros E. inversion E as [H]. apply (lit_str_inj p q "" ""); [reflexivity|reflexivity|]. rewrite H. reflexivity. Qed.
Lemma lit_inj p q : lit_str p = lit_str q -> p = q.
Proof. intros H. apply lit_text. rewrite H. reflexivity. Qed.
Lemma name_inj a b : lb_name a = lb_name b -> a = b.
Proof. destruct a, b; cbn; congruence. Qed.
Lemma map_inj {A B} (f : A -> B) : (forall a b, f a = f b -> a = b) -> forall l l', map f l = map f l' -> l = l'.
Proof. intros H. induction l as [|a l IH]; intros [|b l'] E; try discriminate; [reflexivity|]. inversion E. f_equal; auto. Qed.
Lemma map_seq_eq {B} (f g : nat -> B) n m : map f (seq 0 n) = map g (seq 0 m) -> n = m /\ forall v, v < n -> f v = g v.
Proof.
  intros E. assert (Hn : n = m). { apply (f_equal (@length B)) in E. rewrite !map_length, !seq_length in E. exact E. } subst m. split; [reflexivity|].
  intros v Hv. assert (K : nth_error (map f (seq 0 n)) v = nth_error (map g (seq 0 n)) v) by (rewrite E; reflexivity).
  rewrite !nth_error_map in K. assert (Hs : nth_error (seq 0 n) v = Some v) by (rewrite (nth_error_nth' _ 0) by (rewrite seq_length; lia); rewrite seq_nth by lia; reflexivity).
  rewrite Hs in K. cbn in K. congruence.
Qed.

Section Sat.
Context {T : Type}.
(** The document determines the variables, their values and the clauses. *)
Theorem sat_json_iff (s s' : st T) : sat_json s = sat_json s' <->
  nv s = nv s' /\ (forall v, v < nv s -> assigns s v = assigns s' v) /\ map (fun c => clause_json (value s) (cls s c)) (constrs s) = map (fun c => clause_json (value s') (cls s' c)) (constrs s').
Proof.
  unfold sat_json. split.
  - intros E. injection E as E1 E2. apply map_seq_eq in E1 as [A B]. split; [exact A|]. split; [|exact E2]. intros v Hv. specialize (B v Hv). unfold var_json in B. injection B as B1. apply name_inj, B1.
  - intros (A & B & D). rewrite D, <- A. f_equal. f_equal. f_equal. f_equal. apply map_ext_in. intros v Hv. apply in_seq in Hv. unfold var_json. rewrite B by lia. reflexivity.
Qed.
Lemma clause_json_lits val val' c c' : clause_json val c = clause_json val' c' -> c = c'.
Proof.
  unfold clause_json. intros E. injection E as E1. revert c' E1. induction c as [|p c IH]; intros [|q c'] E; try discriminate; [reflexivity|].
  cbn [map] in E. injection E as E1 E2 E3. apply lit_inj in E1. subst q. f_equal. apply IH, E3.
Qed.
Lemma clause_json_map val val' : forall l l', map (clause_json val) l = map (clause_json val') l' -> l = l'.
Proof. induction l as [|c l IH]; intros [|c' l'] E; try discriminate; [reflexivity|]. cbn [map] in E. injection E as E1 E2. f_equal; [|apply IH, E2]. apply (clause_json_lits val val'). unfold clause_json. rewrite E1. reflexivity. Qed.
Theorem sat_json_inj (s s' : st T) : sat_json s = sat_json s' -> nv s = nv s' /\ (forall v, v < nv s -> assigns s v = assigns s' v) /\ map (cls s) (constrs s) = map (cls s') (constrs s').
Proof.
  intros E. apply sat_json_iff in E as (A & B & D). split; [exact A|]. split; [exact B|]. apply (clause_json_map (value s) (value s')). rewrite !map_map. exact D.
Qed.
Theorem sat_json_eq (s s' : st T) : nv s = nv s' -> (forall v, v < nv s -> assigns s v = assigns s' v) -> map (cls s) (constrs s) = map (cls s') (constrs s') ->
  (forall c p, In c (constrs s) -> In p (cls s c) -> lvar p < nv s) -> sat_json s = sat_json s'.
Proof.
  intros A B D R. apply sat_json_iff. split; [exact A|]. split; [exact B|]. transitivity (map (clause_json (value s)) (map (cls s) (constrs s))); [rewrite map_map; reflexivity|].
  transitivity (map (clause_json (value s')) (map (cls s) (constrs s))); [|rewrite D, map_map; reflexivity]. apply map_ext_in. intros l Hl. apply in_map_iff in Hl as (c & <- & Hc).
  unfold clause_json. f_equal. f_equal. f_equal. f_equal. apply map_ext_in. intros p Hp. unfold lit_json. f_equal. f_equal. f_equal. f_equal. f_equal. f_equal. unfold value, vlit. rewrite B by (apply (R c); assumption). reflexivity.
Qed.

(** What the document of [s] allows. *)
Lemma allows_iff (s : st T) M : allows (sat_json s) M <->
  (forall v, v < nv s -> (assigns s v = LTrue -> M v = true) /\ (assigns s v = LFalse -> M v = false)) /\ (forall c, In c (constrs s) -> mcl M (cls s c)).
Proof.
  unfold allows, sat_json, items. cbn [field member String.eqb Ascii.eqb Bool.eqb]. split.
  - intros [A B]. split.
    + intros v Hv. destruct (A (var_json (assigns s) v)) as (w & E & H1 & H2); [apply in_map, in_seq; lia|]. cbn in E. apply dec_text in E. subst w. cbn in H1, H2. split; intros E; rewrite E in *; [apply H1|apply H2]; reflexivity.
    + intros c Hc. destruct (B (clause_json (value s) (cls s c))) as (e & p & He & E & Hp); [apply in_map_iff; eauto|]. cbn in He. apply in_map_iff in He as (q & <- & Hq). cbn in E. apply lit_text in E. subst q. exists p. auto.
  - intros [A B]. split.
    + intros e He. apply in_map_iff in He as (v & <- & Hv). apply in_seq in Hv. exists v. cbn. split; [reflexivity|]. destruct (A v ltac:(lia)) as [H1 H2].
      split; intros E; [apply H1|apply H2]; destruct (assigns s v); cbn in E; congruence.
    + intros c Hc. apply in_map_iff in Hc as (i & <- & Hi). destruct (B i Hi) as (p & Hp & Hv). exists (lit_json (value s) p), p. split; [cbn; apply in_map, Hp|]. split; [reflexivity|exact Hv].
Qed.
End Sat.

Section Net.
Context {T : Type} {ops : theory_ops T} (C : contract ops).
Lemma allows_values (s : st T) M p : Inv C s -> allows (sat_json s) M -> value s p = LTrue -> mlit M p = true.
Proof.
  intros HI HA Hp. apply allows_iff in HA as [A _]. unfold value, vlit in Hp. unfold mlit. assert (Hv : lvar p < nv s). { destruct (Nat.lt_ge_cases (lvar p) (nv s)) as [H|H]; [exact H|]. rewrite (t_out _ (i_t _ _ HI) _ H) in Hp. discriminate. }
  destruct (A _ Hv) as [A1 A2]. destruct (assigns s (lvar p)) eqn:E, (lsgn p); try discriminate; [rewrite A2 by reflexivity|rewrite A1 by reflexivity]; reflexivity.
Qed.
Lemma allows_models (s : st T) M : Inv C s -> allows (sat_json s) M -> (forall t, In t (theories s) -> th_model C t M) -> smodels C s M.
Proof.
  intros HI HA Ht. pose proof (allows_values s M) as K. constructor.
  - apply allows_iff in HA as [A _]. apply (A 0 (t_nv _ (i_t _ _ HI))), (t_a0 _ (i_t _ _ HI)).
  - apply allows_iff in HA as [_ B]. exact B.
  - intros p Hp _. apply K; assumption.
  - exact Ht.
Qed.
Lemma models_allows (s : st T) M : Inv C s -> smodels C s M -> (forall p, value s p = LTrue -> mlit M p = true) -> allows (sat_json s) M.
Proof.
  intros HI HM HV. apply allows_iff. split; [|apply HM]. intros v Hv. split; intros E.
  - specialize (HV (mk_lit v true)). unfold value, vlit, mlit in HV. cbn in HV. rewrite E in HV. specialize (HV eq_refl). destruct (M v); [reflexivity|discriminate].
  - specialize (HV (mk_lit v false)). unfold value, vlit, mlit in HV. cbn in HV. rewrite E in HV. specialize (HV eq_refl). destruct (M v); [discriminate|reflexivity].
Qed.
Lemma decisions_values (s : st T) M : Inv C s -> smodels C s M -> (forall d, In d (decisions s) -> mlit M d = true) -> forall p, value s p = LTrue -> mlit M p = true.
Proof. intros HI HM Hd p Hp. apply (SatImp.implied C s (i_t _ _ HI) (i_r _ _ HI) M HM p Hp). intros k d Hk _. apply Hd. eapply nth_error_In, Hk. Qed.
End Net.

(** From creation: what the client has stated, and the decisions. *)
Theorem client_document tr s : Trace pureC pinit tr s -> simple tr -> forall M,
  (allows (sat_json s) M -> stated tr M) /\ (stated tr M -> (forall d, In d (decisions s) -> mlit M d = true) -> allows (sat_json s) M).
Proof.
  intros HT Hx M. pose proof (g_inv _ _ (reach_good pureC _ _ pinit_good (trace_reach _ _ _ _ HT))) as HI. split.
  - intros HA. apply (stated_models tr s HT Hx). apply (allows_models pureC s M HI HA). intros t. destruct t.
  - intros HS Hd. apply (stated_models tr s HT Hx) in HS. apply (models_allows pureC s M HI HS), (decisions_values pureC s M HI HS Hd).
Qed.
Theorem client_unit tr s fuel s' : Trace pureC pinit tr s -> propagate pure_ops fuel s = Ok (s', true) -> forall c, In c (items "constrs" (sat_json s')) ->
  (exists e, In e (items "lits" c) /\ text "val" e = Some "T") \/
  (exists e e', In e (items "lits" c) /\ In e' (items "lits" c) /\ text "val" e = Some "U" /\ text "val" e' = Some "U" /\ text "lit" e <> text "lit" e').
Proof.
  intros HT E c Hc. pose proof (reach_good pureC _ _ pinit_good (trace_reach _ _ _ _ HT)) as G. pose proof (propagate_ok pureC (dlevel s) fuel s (g_inv _ _ G) (le_n _)) as H. rewrite E in H.
  destruct (pp_true _ _ _ _ H eq_refl) as (HI & Hq & _). unfold items in Hc. cbn in Hc. apply in_map_iff in Hc as (i & <- & Hi).
  destruct (no_unit pureC s' HI Hq i Hi) as [(q & Hq' & Hv)|(a & b & Ha & Hb & Hab & _ & Va & Vb)].
  - left. exists (lit_json (value s') q). split; [cbn; apply in_map, Hq'|]. cbn. rewrite Hv. reflexivity.
  - right. exists (lit_json (value s') a), (lit_json (value s') b). split; [cbn; apply in_map, Ha|]. split; [cbn; apply in_map, Hb|]. cbn. rewrite Va, Vb. repeat split. intros K. apply Hab, lit_text, K.
Qed.

(** ** The arithmetic theory. *)
Section Lra.
Context (P : printer) (es : qe -> string) (Hes : forall a b, (fst a == fst b /\ snd a == snd b)%Q <-> es a = es b).
Context (oa : list (nat * asrt) -> list (nat * asrt)) (Hoa : forall l, Permutation l (oa l)).

Lemma asrt_text sd x c sd' x' c' : Some (asrt_str es sd x c) = Some (asrt_str es sd' x' c') -> sd = sd' /\ x = x' /\ (fst c == fst c' /\ snd c == snd c')%Q.
Proof. intros E. apply (asrt_str_iff es Hes). congruence. Qed.
Lemma bhold_eqv s a b q : (fst a == fst b /\ snd a == snd b)%Q -> bhold s (Some a) q <-> bhold s (Some b) q.
Proof. destruct a as [r e], b as [r' e']. cbn. intros [H1 H2]. destruct s; lra. Qed.
Lemma lval_same y l l' : same_lin l l' -> (lval y l == lval y l')%Q.
Proof.
  intros [H K]. unfold lval. rewrite K. apply Qplus_inj_r. clear K. induction H as [|[v c] [w d] m m' [H1 H2] H IH]; cbn in *; [reflexivity|]. subst w. rewrite IH, H2. reflexivity.
Qed.
Lemma var_text x x' : Some ("x" ++ dec x) = Some ("x" ++ dec x') -> x = x'.
Proof. cbn. intros E. inversion E as [E1]. apply dec_inj, E1. Qed.
Lemma bnd_text k b (m : list (string * json)) c : member k (bnd_json es k b ++ m) = Some (JS (es c)) -> member k m = None -> exists c', b = Some c' /\ (fst c' == fst c /\ snd c' == snd c)%Q.
Proof.
  destruct b as [c'|]; cbn [bnd_json app member].
  - rewrite String.eqb_refl. intros E _. exists c'. split; [reflexivity|]. apply Hes. congruence.
  - intros E K. congruence.
Qed.

Lemma lallows_iff val t M y : lallows P es (lra_json P es oa val t) M y <->
  (forall s x, x < nx t -> bhold s (bound t s x) (y x)) /\ (forall v a, In (v, a) (v_asrts t) -> (mlit M (a_b a) = true <-> ahold y a)) /\ tsol (tab t) y.
Proof.
  unfold lallows, lra_json, items. cbn [field member String.eqb Ascii.eqb Bool.eqb]. split.
  - intros (A & B & D). split; [|split].
    + intros s x Hx. destruct (A (num_json es t x)) as (w & E & H1 & H2); [apply in_map, in_seq; lia|]. cbn in E. apply dec_text in E. subst w.
      destruct (bound t s x) as [c|] eqn:Eb; [|exact Logic.I]. destruct s; [apply H1|apply H2]; unfold text; cbn [num_json field app member String.eqb Ascii.eqb Bool.eqb]; rewrite Eb.
      * reflexivity.
      * destruct (bound t Lo x); reflexivity.
    + intros v a Ha. destruct (B (asrt_json es val a)) as (p & sd & x & c & E1 & E2 & H); [apply in_map_iff; exists (v, a); split; [reflexivity|]; eapply Permutation_in; [apply Hoa|exact Ha]|].
      cbn in E1. apply lit_text in E1. subst p. change (text "constr" (asrt_json es val a)) with (Some (asrt_str es (a_op a) (a_x a) (a_v a))) in E2. apply asrt_text in E2 as (<- & <- & E3).
      rewrite H. unfold ahold. symmetry. apply bhold_eqv, E3.
    + intros x l Hr. destruct (D (row_json P (x, l))) as (x' & l' & E1 & E2 & H); [apply in_map, Hr|]. change (text "var" (row_json P (x, l))) with (Some ("x" ++ dec x)) in E1. apply var_text in E1. subst x'.
      change (text "expr" (row_json P (x, l))) with (Some (lin_str P l)) in E2. assert (E3 : same_lin l l') by (apply (lin_str_inj P); congruence). rewrite H. symmetry. apply lval_same, E3.
  - intros (A & B & D). split; [|split].
    + intros e He. apply in_map_iff in He as (x & <- & Hx). apply in_seq in Hx. exists x. split; [reflexivity|]. pose proof (A Lo x ltac:(lia)) as A1. pose proof (A Up x ltac:(lia)) as A2.
      unfold text, num_json. cbn [field app member String.eqb Ascii.eqb Bool.eqb]. split; intros c E.
      * destruct (bound t Lo x) as [c'|] eqn:Eb; cbn [bnd_json app member String.eqb Ascii.eqb Bool.eqb] in E.
        -- apply (bhold_eqv Lo c' c); [apply Hes; congruence|exact A1].
        -- destruct (bound t Up x); cbn in E; discriminate.
      * destruct (bound t Lo x) as [c'|] eqn:Eb; destruct (bound t Up x) as [d|] eqn:Eb'; cbn [bnd_json app member String.eqb Ascii.eqb Bool.eqb] in E; try discriminate;
          (apply (bhold_eqv Up d c); [apply Hes; congruence|exact A2]).
    + intros e He. apply in_map_iff in He as ([v a] & <- & Ha). exists (a_b a), (a_op a), (a_x a), (a_v a). split; [reflexivity|]. split; [reflexivity|]. apply (B v). eapply Permutation_in; [apply Permutation_sym, Hoa|exact Ha].
    + intros e He. apply in_map_iff in He as ([x l] & <- & Hr). exists x, l. split; [reflexivity|]. split; [reflexivity|]. apply D, Hr.
Qed.
End Lra.

Section LNet.
Context (ord : nat -> list nat -> list nat) (Hord : forall k l, Permutation l (ord k l)) (fuel : lra -> nat).
Notation C := (lraT ord Hord fuel).
Notation LTrace := (LTrace ord Hord fuel).
Context (P : printer) (es : qe -> string) (Hes : forall a b, (fst a == fst b /\ snd a == snd b)%Q <-> es a = es b).
Context (oa : list (nat * asrt) -> list (nat * asrt)) (Hoa : forall l, Permutation l (oa l)).
Notation doc s t := (lra_json P es oa (value s) t).

Lemma root_facts (s : st lra) t vs : th_views C True (fun l => In l (prop_q s)) s t vs -> forall p, In p (last vs []) -> value s p = LTrue.
Proof.
  intros (_ & HL & HV & _) p Hp. assert (E : exists v, nth_error vs (dlevel s) = Some v /\ v = last vs []).
  { destruct (nth_error vs (dlevel s)) as [v|] eqn:E; [|apply nth_error_None in E; lia]. exists v. split; [reflexivity|]. apply nth_error_split in E as (a & b & -> & Ha). destruct b; [rewrite last_last; reflexivity|]. rewrite app_length in HL. cbn in HL. lia. }
  destruct E as (v & E & ->). apply (HV _ _ p E (or_introl Logic.I) Hp).
Qed.
Lemma doc_nsol (s : st lra) t M y : good C s -> theories s = [t] -> allows (sat_json s) M -> lallows P es (doc s t) M y -> nsol ord Hord fuel s 0 M y.
Proof.
  intros G Et HA HL. pose proof (g_inv _ _ G) as HI. destruct (h_views _ _ _ _ (i_h _ _ HI) 0 t) as (vs & HV); [rewrite Et; reflexivity|]. assert (HT : TInv t vs) by (destruct HV as [[HT _] _]; exact HT).
  apply (lallows_iff P es Hes oa Hoa) in HL as (L1 & L2 & L3).
  assert (J : joint t M y).
  { split; [exact L3|]. split.
    - intros v a Ha. rewrite <- (L2 v a Ha). destruct (ti_atom _ _ HT v a Ha) as (-> & _). symmetry. unfold mlit. cbn. destruct (M v); cbn; tauto.
    - intros l Hl _. apply (allows_values C s M l HI HA). apply (root_facts s t vs HV), (ti_facts _ _ HT), Hl. }
  split; [|exists t; rewrite Et; split; [reflexivity|exact J]]. apply (allows_models C s M HI HA). rewrite Et. intros u [<-|[]]. exists y. split; [exact Logic.I|exact J].
Qed.
Lemma nsol_doc (s : st lra) t M y : good C s -> theories s = [t] -> nsol ord Hord fuel s 0 M y -> (forall d, In d (decisions s) -> mlit M d = true) ->
  allows (sat_json s) M /\ lallows P es (doc s t) M y.
Proof.
  intros G Et [HM (u & Eu & J)] Hd. rewrite Et in Eu. injection Eu as <-. pose proof (g_inv _ _ G) as HI. destruct (h_views _ _ _ _ (i_h _ _ HI) 0 t) as (vs & HV); [rewrite Et; reflexivity|]. assert (HT : TInv t vs) by (destruct HV as [[HT _] _]; exact HT).
  pose proof (decisions_values C s M HI HM Hd) as HA. split; [apply (models_allows C s M HI HM HA)|]. apply (lallows_iff P es Hes oa Hoa). split; [|split; [|apply J]].
  - intros sd x _. apply (bound_holds t vs HT (cb t) vs (ti_b _ _ HT) sd x M y (sm_false _ _ _ HM) J).
    destruct (fst (cb t sd x)) as [b|] eqn:E.
    + destruct (b_why _ _ _ (ti_b _ _ HT) sd x b E) as [[-> _]|[Hc _]]; [unfold mlit; cbn; rewrite (sm_false _ _ _ HM); reflexivity|]. apply HA.
      apply in_concat in Hc as (v & Hv & Hp). apply In_nth_error in Hv as (j & Ej). destruct HV as (_ & _ & HV & _). apply (HV j v _ Ej (or_introl Logic.I) Hp).
    + rewrite (b_none _ _ _ (ti_b _ _ HT) sd x E). unfold mlit. cbn. rewrite (sm_false _ _ _ HM). reflexivity.
  - intros v a Ha. destruct J as (_ & J & _). rewrite <- (J v a Ha). destruct (ti_atom _ _ HT v a Ha) as (-> & _). unfold mlit. cbn. destruct (M v); cbn; tauto.
Qed.
Theorem lra_document tr s : LTrace tr s -> exists t, theories s = [t] /\
  (forall M y, allows (sat_json s) M -> lallows P es (doc s t) M y -> M 0 = false /\ told tr M y) /\
  (mindful tr -> forall M y, M 0 = false -> told tr M y -> (forall d, In d (decisions s) -> mlit M d = true) ->
     exists y', (forall x, In x (known tr) -> (y' x == y x)%Q) /\ allows (sat_json s) M /\ lallows P es (doc s t) M y').
Proof.
  intros HT. destruct (ltrace_good _ _ _ _ _ HT) as [G (t & Et)]. exists t. split; [exact Et|]. split.
  - intros M y H1 H2. apply (told_all ord Hord fuel tr s HT). apply (doc_nsol s t M y G Et H1 H2).
  - intros Hm M y H0 Ht Hd. destruct (told_enough ord Hord fuel tr s HT Hm M y H0 Ht) as (y' & Hy & HN). exists y'. split; [exact Hy|]. apply (nsol_doc s t M y' G Et HN Hd).
Qed.
(** After a successful propagation with everything assigned, the values that the documents show are a solution of the documents. *)
Theorem lra_document_solved tr s fl s' : LTrace tr s -> propagate (lra_ops ord fuel) fl s = Ok (s', true) -> total s' ->
  exists t d0, theories s' = [t] /\ (0 < d0)%Q /\ allows (sat_json s') (values s') /\ forall d, (0 < d)%Q -> (d <= d0)%Q -> lallows P es (doc s' t) (values s') (fun x => at_eps d (vals t x)).
Proof.
  intros HT E Htot. destruct (propagate_good ord Hord fuel fl s s' (ltrace_good _ _ _ _ _ HT) E) as ([G' _] & Hq & t & t' & Et & Et' & Gw).
  assert (Ei : nth_error (theories s') 0 = Some t') by (rewrite Et'; reflexivity). destruct (h_views _ _ _ _ (i_h _ _ (g_inv _ _ G')) 0%nat t' Ei) as (vs & [HI _] & _).
  assert (HW := propagate_within ord fuel fl s s' E t' vs ltac:(rewrite Et'; left; reflexivity) HI). destruct (vals_real t' vs HI HW) as (d0 & Hp & H).
  exists t', d0. split; [exact Et'|]. split; [exact Hp|]. split.
  - apply allows_iff. split; [|apply (total_cls C s' (g_inv _ _ G') Hq Htot)]. intros v _. unfold values. split; intros ->; reflexivity.
  - intros d Hd Hle. destruct (H d Hd Hle) as [A B]. apply (lallows_iff P es Hes oa Hoa). split; [intros sd x _; apply B|]. split; [|exact A].
    intros v a Ha. destruct (ti_atom _ _ HI v a Ha) as (Eb & _ & _ & _). assert (Hr : lvar (a_b a) < nv s') by (rewrite Eb; cbn; apply (h_range _ _ _ _ (i_h _ _ (g_inv _ _ G')) 0 t' v Ei); cbn; change v with (fst (v, a)); apply in_map, Ha).
    assert (An : answers t' (a_b a) (fun x => at_eps d (vals t' x)) (ahold (fun x => at_eps d (vals t' x)) a)).
    { right. right. exists a. rewrite Eb. cbn. split; [exact Ha|]. split; [reflexivity|reflexivity]. }
    destruct (answer_hold ord Hord fuel s' 0 t' _ _ _ G' Hq Ei B An) as [K1 K2]. assert (Hu : value s' (a_b a) <> LUndef) by (unfold value, vlit; specialize (Htot _ Hr); destruct (assigns s' (lvar (a_b a))), (lsgn (a_b a)); congruence).
    rewrite (values_lit s' _ Hu). destruct (value s' (a_b a)) eqn:Ev; [|tauto|congruence]. split; [discriminate|]. intros Hh. exfalso. apply (K2 eq_refl Hh).
Qed.
End LNet.

(** The document determines the state of the theory that a client can observe. *)
Section Inj.
Context (P : printer) (es : qe -> string) (Hes : forall a b, (fst a == fst b /\ snd a == snd b)%Q <-> es a = es b).
Definition same_qe (a b : qe) : Prop := (fst a == fst b /\ snd a == snd b)%Q.
Definition same_bnd (a b : bnd) : Prop := match a, b with None, None => True | Some a, Some b => same_qe a b | _, _ => False end.
Definition same_asrt (a a' : asrt) : Prop := a_b a = a_b a' /\ a_op a = a_op a' /\ a_x a = a_x a' /\ same_qe (a_v a) (a_v a').
Lemma num_json_iff t t' x : num_json es t x = num_json es t' x <-> same_qe (vals t x) (vals t' x) /\ forall s, same_bnd (bound t s x) (bound t' s x).
Proof.
  unfold num_json. split.
  - intros E. cbn [app] in E. injection E as E1 E2. apply Hes in E1. split; [exact E1|].
    assert (K : same_bnd (bound t Lo x) (bound t' Lo x) /\ same_bnd (bound t Up x) (bound t' Up x)).
    { unfold same_bnd. destruct (bound t Lo x) as [a|], (bound t Up x) as [b|], (bound t' Lo x) as [a'|], (bound t' Up x) as [b'|]; cbn [bnd_json app] in E2; try discriminate; split; try exact Logic.I; apply Hes; congruence. }
    intros []; apply K.
  - intros [E1 E2]. apply Hes in E1. cbn [app]. rewrite E1. f_equal. f_equal. f_equal. pose proof (E2 Lo) as A. pose proof (E2 Up) as B. unfold same_bnd in A, B. f_equal.
    + destruct (bound t Lo x), (bound t' Lo x); try contradiction; [|reflexivity]. apply Hes in A. cbn. rewrite A. reflexivity.
    + destruct (bound t Up x), (bound t' Up x); try contradiction; [|reflexivity]. apply Hes in B. cbn. rewrite B. reflexivity.
Qed.
Lemma asrt_json_iff val val' a a' : asrt_json es val a = asrt_json es val' a' <-> same_asrt a a' /\ val (a_b a) = val' (a_b a').
Proof.
  unfold asrt_json, same_asrt. split.
  - intros E. assert (E1 : lit_str (a_b a) = lit_str (a_b a')) by congruence. assert (E2 : lb_char (val (a_b a)) = lb_char (val' (a_b a'))) by congruence.
    assert (E3 : asrt_str es (a_op a) (a_x a) (a_v a) = asrt_str es (a_op a') (a_x a') (a_v a')) by congruence. apply lit_inj in E1. apply (asrt_str_iff es Hes) in E3 as (A & B & D).
    split; [repeat split; try assumption; apply D|]. destruct (val (a_b a)), (val' (a_b a')); cbn in E2; congruence.
  - intros [(A & B & D & F) V]. assert (E3 : asrt_str es (a_op a) (a_x a) (a_v a) = asrt_str es (a_op a') (a_x a') (a_v a')) by (apply (asrt_str_iff es Hes); auto). rewrite E3, V, A. reflexivity.
Qed.
Lemma row_json_iff r r' : row_json P r = row_json P r' <-> fst r = fst r' /\ same_lin (snd r) (snd r').
Proof.
  unfold row_json. split.
  - intros E. split; [apply var_text; congruence|apply (lin_str_inj P); congruence].
  - intros [A B]. apply (lin_str_proper P) in B. rewrite A, B. reflexivity.
Qed.
Lemma map_forall2 {A B B'} (f : A -> B') (g : B -> B') (R : A -> B -> Prop) : (forall a b, f a = g b <-> R a b) -> forall l l', map f l = map g l' <-> Forall2 R l l'.
Proof.
  intros H. induction l as [|a l IH]; intros [|b l']; cbn; split; intros E; try discriminate; try solve [inversion E]; try constructor; auto.
  - apply H. congruence.
  - apply IH. congruence.
  - inversion E; subst. f_equal; [apply H|apply IH]; assumption.
Qed.
Theorem lra_json_iff oa oa' val val' t t' : lra_json P es oa val t = lra_json P es oa' val' t' <->
  nx t = nx t' /\ (forall x, x < nx t -> same_qe (vals t x) (vals t' x) /\ forall s, same_bnd (bound t s x) (bound t' s x)) /\
  Forall2 (fun e e' => same_asrt (snd e) (snd e') /\ val (a_b (snd e)) = val' (a_b (snd e'))) (oa (v_asrts t)) (oa' (v_asrts t')) /\
  Forall2 (fun r r' => fst r = fst r' /\ same_lin (snd r) (snd r')) (tab t) (tab t').
Proof.
  unfold lra_json. split.
  - intros E. injection E as E1 E2 E3. apply map_seq_eq in E1 as [A B]. split; [exact A|]. split; [intros x Hx; apply num_json_iff, B, Hx|].
    split; [apply (map_forall2 (fun e => asrt_json es val (snd e)) (fun e => asrt_json es val' (snd e))); [intros; apply asrt_json_iff|exact E2]|apply (map_forall2 (row_json P) (row_json P)); [apply row_json_iff|exact E3]].
  - intros (A & B & D & F). apply (map_forall2 (row_json P) (row_json P)) in F; [|apply row_json_iff]. rewrite F.
    apply (map_forall2 (fun e => asrt_json es val (snd e)) (fun e => asrt_json es val' (snd e))) in D; [|intros; apply asrt_json_iff]. rewrite D.
    replace (map (num_json es t') (seq 0 (nx t'))) with (map (num_json es t) (seq 0 (nx t))); [reflexivity|]. rewrite <- A. apply map_ext_in. intros x Hx. apply in_seq in Hx. apply num_json_iff, B. lia.
Qed.
End Inj.
End Srt.
