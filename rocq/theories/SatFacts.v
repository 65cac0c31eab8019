(** Consequences of the invariants, in the form in which a client uses them. *)
From Verif Require Import Base Keys Sat SatSpec SatInv SatPop SatImp SatRec SatAn SatProp SatLoop SatMain SatApi SatApi2 SatNext SatSimp Stack Reify Amo Run Learn.
Section Srt.
Context {sr : sorter}.

Section Facts.
Context {T : Type} {ops : theory_ops T} (C : contract ops).
Notation st := (st T).

(** More fuel never changes an answer. *)
Lemma propagate_fuel : forall f (s : st) r, propagate ops f s = Ok r -> forall f', f <= f' -> propagate ops f' s = Ok r.
Proof.
  induction f as [|f IH]; intros s r E f' Hf; [discriminate|]. destruct f' as [|f']; [lia|]. assert (Hff : f <= f') by lia. cbn [propagate] in *.
  destruct (prop_q s) as [|p q].
  - destruct (th_check_all ops s _ 0) as [[s1 o]| |]; cbn [rbind] in *; try discriminate. destruct o as [c|]; [|exact E].
    destruct (root_level s1); [exact E|]. destruct (theory_resolve ops s1 c) as [s2| |]; cbn [rbind] in *; try discriminate. apply (IH _ _ E _ Hff).
  - destruct (prop_clauses _ p _) as [[s2 cf]| |]; cbn [rbind] in *; try discriminate. destruct cf as [c|].
    + destruct (root_level (set_prop_q [] s2)); [exact E|]. destruct (resolve ops _ _) as [s4| |]; cbn [rbind] in *; try discriminate. apply (IH _ _ E _ Hff).
    + destruct (th_prop_all ops s2 _ p) as [[s3 tcf]| |]; cbn [rbind] in *; try discriminate. destruct tcf as [c|].
      * destruct (root_level (set_prop_q [] s3)); [exact E|]. destruct (theory_resolve ops _ _) as [s4| |]; cbn [rbind] in *; try discriminate. apply (IH _ _ E _ Hff).
      * apply (IH _ _ E _ Hff).
Qed.

(** No clause is falsified or unit once nothing is pending. *)
Lemma no_unit (s : st) : Inv C s -> prop_q s = [] -> forall c, In c (constrs s) ->
  (exists q, In q (cls s c) /\ value s q = LTrue) \/
  (exists a b, In a (cls s c) /\ In b (cls s c) /\ a <> b /\ lvar a <> lvar b /\ value s a = LUndef /\ value s b = LUndef).
Proof.
  intros HI Hq c Hc. destruct (c_shape _ (i_c _ _ HI) c Hc) as (a & b & r & E & Hab).
  destruct (i_w _ _ HI c Hc a b r E) as [H1 H2]. unfold half in H1, H2. rewrite Hq in H1, H2.
  assert (Ha : In a (cls s c)) by (rewrite E; left; reflexivity). assert (Hb : In b (cls s c)) by (rewrite E; right; left; reflexivity).
  destruct (value s a) eqn:Va.
  - left. exists b. split; [exact Hb|]. destruct (H1 eq_refl) as [[]|[X _]]. exact X.
  - left. exists a. auto.
  - destruct (value s b) eqn:Vb.
    + destruct (H2 eq_refl) as [[]|[X _]]. congruence.
    + left. exists b. auto.
    + right. exists a, b. repeat split; auto. intros El. apply Hab. apply (c_compl _ (i_c _ _ HI) c Hc); auto.
Qed.

Definition total (s : st) : Prop := forall v, v < nv s -> assigns s v <> LUndef.
Definition values (s : st) : nat -> bool := fun v => match assigns s v with LTrue => true | _ => false end.
Lemma values_lit (s : st) p : value s p <> LUndef -> mlit (values s) p = true <-> value s p = LTrue.
Proof. unfold mlit, values, value, vlit. destruct (assigns s (lvar p)), (lsgn p); cbn; intros H; split; congruence. Qed.
Lemma total_cls (s : st) : Inv C s -> prop_q s = [] -> total s -> forall c, In c (constrs s) -> mcl (values s) (cls s c).
Proof.
  intros HI Hq Ht c Hc. destruct (no_unit s HI Hq c Hc) as [(q & Hi & Hv)|(a & _ & Ha & _ & _ & _ & Hu & _)].
  - exists q. split; [exact Hi|]. apply values_lit; congruence.
  - exfalso. apply (Ht (lvar a)); [apply (c_range _ (i_c _ _ HI) c Hc a Ha)|]. apply value_undef, Hu.
Qed.

Context (s0 : st) (G0 : good C s0).

Lemma implied_all (s : st) M q : Reach C s0 s -> smodels C s M -> value s q = LTrue ->
  (forall k d, nth_error (decisions s) k = Some d -> dlevel s - k <= level s (lvar q) -> mlit M d = true) -> mlit M q = true.
Proof.
  intros HR HM Hq Hd. pose proof (g_inv _ _ (reach_good C _ _ G0 HR)) as HI.
  apply (implied C s (i_t _ _ HI) (i_r _ _ HI) M HM q Hq). intros k d Hk Hl. apply (Hd k d Hk Hl).
Qed.
End Facts.

(** ** A core without theories, from its creation: what a history has stated. *)
Definition stated (tr : list event) (M : nat -> bool) : Prop :=
  M 0 = false /\ forall e, In e tr -> said (ev_call e) (ev_decs e) (ev_ret e) M.
Definition simple (tr : list event) : Prop := forall e, In e tr -> exact (ev_call e).

Lemma pinit_models M : smodels pureC pinit M <-> M 0 = false.
Proof.
  destruct (init_good pureC [] ltac:(intros t [])) as (_ & _ & H). unfold pinit. rewrite H. split; [intros [A _]; exact A|]. intros A. split; [exact A|intros t []].
Qed.
Lemma stated_models tr s : Trace pureC pinit tr s -> simple tr -> forall M, smodels pureC s M <-> stated tr M.
Proof. intros HT Hx M. rewrite (trace_models pureC pinit tr s pinit_good HT Hx M), pinit_models. reflexivity. Qed.

Theorem client_false tr s fuel s' : Trace pureC pinit tr s -> simple tr -> propagate pure_ops fuel s = Ok (s', false) -> forall M, ~ stated tr M.
Proof.
  intros HT Hx E M HM. pose proof (reach_good pureC _ _ pinit_good (trace_reach _ _ _ _ HT)) as G.
  pose proof (propagate_ok pureC (dlevel s) fuel s (g_inv _ _ G) (le_n _)) as H. rewrite E in H.
  destruct (pp_false _ _ _ _ H eq_refl) as [_ Hu _]. apply (Hu M). apply (pp_models _ _ _ _ H), (stated_models tr s HT Hx), HM.
Qed.
Theorem client_model tr s fuel s' : Trace pureC pinit tr s -> simple tr -> propagate pure_ops fuel s = Ok (s', true) -> total s' -> stated tr (values s').
Proof.
  intros HT Hx E Ht. pose proof (reach_good pureC _ _ pinit_good (trace_reach _ _ _ _ HT)) as G.
  pose proof (propagate_ok pureC (dlevel s) fuel s (g_inv _ _ G) (le_n _)) as H. rewrite E in H.
  destruct (pp_true _ _ _ _ H eq_refl) as (HI & Hq & _).
  apply (stated_models tr s HT Hx), (pp_models _ _ _ _ H). constructor.
  - unfold values. rewrite (t_a0 _ (i_t _ _ HI)). reflexivity.
  - apply (total_cls pureC s' HI Hq Ht).
  - intros p Hp _. apply values_lit; congruence.
  - intros t. destruct t.
Qed.
Theorem client_implied tr s q M : Trace pureC pinit tr s -> simple tr -> value s q = LTrue -> stated tr M ->
  (forall k d, nth_error (decisions s) k = Some d -> dlevel s - k <= level s (lvar q) -> mlit M d = true) -> mlit M q = true.
Proof.
  intros HT Hx Hq HM. apply (implied_all pureC pinit pinit_good s M q (trace_reach _ _ _ _ HT)); [|exact Hq].
  apply (stated_models tr s HT Hx), HM.
Qed.
Theorem client_total tr s c fuel : Trace pureC pinit tr s -> legal pureC s c -> fuel_bound s c < fuel -> exists s' r, step (ops := pure_ops) fuel s c = Ok (s', r).
Proof.
  intros HT HL Hf. pose proof (step_ok pureC fuel s c (reach_good pureC _ _ pinit_good (trace_reach _ _ _ _ HT)) HL) as H.
  destruct (step fuel s c) as [[s' r]| |]; [eauto|destruct H|specialize (H pure_total); lia].
Qed.
End Srt.
