(** C69: conflicts reported and clauses recorded by a theory from outside of the search.  Nothing but statements, closed by lemmas, and concrete cases. *)
From Verif Require Import Base Keys Sat SatSpec SatInv SatPop SatLoop SatMain SatApi SatNext Reify Amo Run Exec Report.
#[local] Existing Instance stable_sort | 100.

(** ** C69: after any history of calls of clients and theories, a theory reports a conflict: a clause whose literals are all false and that no
    model violates.  It ends without undefined behaviour; the models stay the same; the answer [false] is given only when there is none;
    otherwise the decision level is below every level ... at which the conflict was complete (its highest level), the decisions that remain are
    the oldest ones, what was known at their levels is kept, nothing is pending, and the conflict of the theory has been cleared. *)
Theorem C69_reported_conflict : forall T (ops : theory_ops T) (C : contract ops) (s0 : st T) tr s fuel c,
  good C s0 -> XTrace C s0 tr s ->
  (forall q, In q c -> value s q = LFalse) -> (forall M, smodels C s M -> exists q, In q c /\ mlit M q = true) ->
  ((exists q, In q c /\ level s (lvar q) <> 0) -> 2 <= length c) ->
  match report (ops := ops) fuel s c with
  | UB => False
  | OOF => th_total C -> fuel <= S (2 * (nv s * nv s ^ dlevel s) + nv s)
  | Ok (s', b, rest) =>
      (forall M, smodels C s' M <-> smodels C s M) /\
      (b = false -> forall M, ~ smodels C s M) /\
      (b = true -> (exists q, In q c /\ dlevel s' < level s (lvar q)) /\ prop_q s' = [] /\ settled C s' /\ rest = []) /\
      dlevel s' <= dlevel s /\ decisions s' = skipn (dlevel s - dlevel s') (decisions s) /\
      (forall q, value s q = LTrue -> level s (lvar q) <= dlevel s' -> value s' q = LTrue /\ level s' (lvar q) = level s (lvar q))
  end.
Proof.
  intros T ops C s0 tr s fuel c G HX Hf He Hl. pose proof (report_ok C fuel s c (xtrace_good C s0 tr s G HX)) as H.
  destruct (report fuel s c) as [[[s' b] rest]| |]; [|apply H; constructor; assumption|apply H; constructor; assumption].
  destruct H as (HM & Hd & _ & _ & Hle & Hdec & Hk & Ht & Hfa); [constructor; assumption|].
  split; [exact HM|]. split; [intros -> M HM0; apply (de_unsat _ _ (Hfa eq_refl) M), HM, HM0|].
  split; [|split; [exact Hle|split; [exact Hdec|exact Hk]]].
  intros ->. destruct (Ht eq_refl) as [[_ Hq Hs] ->]. destruct Hd as [Hd|Hd]; [|discriminate Hd].
  destruct (cnfl_level_in s c ltac:(lia)) as (q & Hq1 & Hq2). split; [exists q; split; [exact Hq1|lia]|]. auto.
Qed.
Print Assumptions C69_reported_conflict.

(** A clause recorded by a theory, its first literal unassigned and the others false, one of them at the current level: the models become those
    that satisfy the clause. *)
Theorem C69_recorded_clause : forall T (ops : theory_ops T) (C : contract ops) (s0 : st T) tr s fuel p tl,
  good C s0 -> XTrace C s0 tr s ->
  lvar p < nv s -> value s p = LUndef -> (forall q, In q tl -> value s q = LFalse) -> NoDup tl ->
  (tl = [] -> dlevel s = 0) -> (tl <> [] -> exists q, In q tl /\ level s (lvar q) = dlevel s) ->
  match tell (ops := ops) fuel s (p :: tl) with
  | UB => False
  | OOF => th_total C -> fuel <= S (2 * (nv s * nv s ^ dlevel s) + nv s)
  | Ok (s', b) =>
      (forall M, smodels C s' M <-> smodels C s M /\ exists q, In q (p :: tl) /\ mlit M q = true) /\
      (b = false -> forall M, ~ smodels C s' M) /\
      (b = true -> prop_q s' = [] /\ settled C s') /\
      dlevel s' <= dlevel s /\ decisions s' = skipn (dlevel s - dlevel s') (decisions s) /\
      (forall q, value s q = LTrue -> level s (lvar q) <= dlevel s' -> value s' q = LTrue /\ level s' (lvar q) = level s (lvar q))
  end.
Proof.
  intros T ops C s0 tr s fuel p tl G HX Hp Hu Hf Hn Hr Hl. pose proof (xtrace_good C s0 tr s G HX) as Gs.
  assert (L : tellable s (p :: tl)).
  { constructor; [|exists p, tl; repeat (split; [solve [auto]|]); auto]. intros q [<-|Hq]; [exact Hp|]. apply trail_range; [apply (i_t _ _ (g_inv _ _ Gs))|rewrite (Hf q Hq); discriminate]. }
  pose proof (tell_ok C fuel s (p :: tl) Gs L) as H. destruct (tell fuel s (p :: tl)) as [[s' b]| |]; [|exact H|exact H].
  destruct H as (HM & _ & _ & Hle & Hdec & Hk & Ht & Hfa). split; [exact HM|]. split; [intros ->; apply (de_unsat _ _ (Hfa eq_refl))|].
  split; [intros ->; destruct (Ht eq_refl) as [_ Hq Hs]; auto|]. auto.
Qed.
Print Assumptions C69_recorded_clause.

(** Whole histories: every call is safe and ends, and the models are those of the start that satisfy everything that was stated. *)
Theorem C69_histories : forall T (ops : theory_ops T) (C : contract ops) (s0 : st T) tr s,
  good C s0 -> XTrace C s0 tr s ->
  (forall fuel c, xlegal C s c -> xstep (ops := ops) fuel s c <> UB /\ (th_total C -> xfuel s c < fuel -> xstep (ops := ops) fuel s c <> OOF)) /\
  ((forall e, In e tr -> xexact (xe_call e)) -> forall M, smodels C s M <-> smodels C s0 M /\ forall e, In e tr -> xsaid (xe_call e) (xe_decs e) (xe_ret e) M).
Proof.
  intros T ops C s0 tr s G HX. pose proof (xtrace_good C s0 tr s G HX) as Gs. split; [|apply xtrace_models; assumption].
  intros fuel c L. pose proof (xstep_ok C fuel s c Gs L) as H. destruct (xstep fuel s c) as [[s' r]| |]; [split; intros; discriminate|destruct H|].
  split; [discriminate|]. intros Ht Hf _. specialize (H Ht). lia.
Qed.
Print Assumptions C69_histories.

Definition b (v : nat) : lit := mk_lit v true.
Definition nb (v : nat) : lit := mk_lit v false.
(** b1 and b2 cannot both hold, which no unit propagation sees; b1, b5, b2 and b6 are assumed. *)
Definition c69 : list call :=
  [CVar; CVar; CVar; CVar; CVar; CVar;
   CClause [nb 1; nb 2; b 3; b 4]; CClause [nb 1; nb 2; b 3; nb 4]; CClause [nb 1; nb 2; nb 3; b 4]; CClause [nb 1; nb 2; nb 3; nb 4];
   CPropagate; CAssume (b 1); CAssume (b 5); CAssume (b 2); CAssume (b 6)].
Lemma c69_models M : smodels pureC (after c69) M -> exists q, In q [nb 2; nb 1] /\ mlit M q = true.
Proof.
  intros H. assert (H0 := sm_cls _ _ _ H 0). assert (H1 := sm_cls _ _ _ H 1). assert (H2 := sm_cls _ _ _ H 2). assert (H3 := sm_cls _ _ _ H 3).
  assert (Hi : forall c, In c [0; 1; 2; 3] -> In c (constrs (after c69))) by (vm_compute; auto).
  specialize (H0 (Hi 0 ltac:(cbn; auto))). specialize (H1 (Hi 1 ltac:(cbn; auto))). specialize (H2 (Hi 2 ltac:(cbn; auto))). specialize (H3 (Hi 3 ltac:(cbn; auto))).
  clear Hi. vm_compute in H0, H1, H2, H3.
  destruct (M 1) eqn:E1; [destruct (M 2) eqn:E2|].
  - exfalso. destruct (M 3) eqn:E3, (M 4) eqn:E4.
    + destruct H3 as (q & [<-|[<-|[<-|[<-|[]]]]] & E); rewrite ?E1, ?E2, ?E3, ?E4 in E; discriminate.
    + destruct H2 as (q & [<-|[<-|[<-|[<-|[]]]]] & E); rewrite ?E1, ?E2, ?E3, ?E4 in E; discriminate.
    + destruct H1 as (q & [<-|[<-|[<-|[<-|[]]]]] & E); rewrite ?E1, ?E2, ?E3, ?E4 in E; discriminate.
    + destruct H0 as (q & [<-|[<-|[<-|[<-|[]]]]] & E); rewrite ?E1, ?E2, ?E3, ?E4 in E; discriminate.
  - exists (nb 2). split; [left; reflexivity|]. unfold mlit; cbn. rewrite E2. reflexivity.
  - exists (nb 1). split; [right; left; reflexivity|]. unfold mlit; cbn. rewrite E1. reflexivity.
Qed.
Lemma c69_trace : exists tr, XTrace pureC pinit tr (after c69).
Proof.
  unfold after. destruct (exec c69) as [[tr s]|] eqn:E; [|vm_compute in E; discriminate E].
  eexists. apply trace_xtrace. exact (exec_trace c69 tr s E).
Qed.
(** The conflict "not b2 or not b1" meets the hypotheses; it is complete at level 3 of 4 and reporting it leads to level 1, where b2 is known
    to be false because of b1. *)
Example C69_case : good pureC pinit /\ (exists tr, XTrace pureC pinit tr (after c69)) /\ dlevel (after c69) = 4 /\
  (forall q, In q [nb 2; nb 1] -> value (after c69) q = LFalse) /\
  (forall M, smodels pureC (after c69) M -> exists q, In q [nb 2; nb 1] /\ mlit M q = true) /\
  match report (ops := pure_ops) 200 (after c69) [nb 2; nb 1] with
  | Ok (s', r, rest) => r = true /\ rest = [] /\ decisions s' = [b 1] /\ value s' (b 2) = LFalse /\ level s' 2 = 1
  | _ => False
  end.
Proof.
  split; [apply pinit_good|]. split; [apply c69_trace|]. split; [vm_compute; reflexivity|].
  split; [intros q [<-|[<-|[]]]; vm_compute; reflexivity|]. split; [apply c69_models|]. vm_compute. auto.
Qed.
(** At the same point the clause "b3 or not b6" can be recorded. *)
Example C69_record_case : lvar (b 3) < nv (after c69) /\ value (after c69) (b 3) = LUndef /\ (forall q, In q [nb 6] -> value (after c69) q = LFalse) /\ NoDup [nb 6] /\
  (exists q, In q [nb 6] /\ level (after c69) (lvar q) = dlevel (after c69)) /\
  match tell (ops := pure_ops) 200 (after c69) [b 3; nb 6] with
  | Ok (s', r) => r = true /\ dlevel s' = 1 /\ value s' (b 2) = LFalse
  | _ => False
  end.
Proof.
  split; [vm_compute; lia|]. split; [vm_compute; reflexivity|]. split; [intros q [<-|[]]; vm_compute; reflexivity|].
  split; [constructor; [intros []|constructor]|]. split; [exists (nb 6); split; [left; reflexivity|vm_compute; reflexivity]|]. vm_compute. auto.
Qed.

(** ** What does not hold.  A conflict with one literal, reported above root level, fails an assertion of the code (clause.cpp:10; with assertions
    disabled it reads beyond the end of the conflict).  Here b1 is impossible, which no unit propagation sees, and b1 is assumed. *)
Definition c69u : list call :=
  [CVar; CVar; CVar; CVar; CClause [nb 1; b 3; b 4]; CClause [nb 1; b 3; nb 4]; CClause [nb 1; nb 3; b 4]; CClause [nb 1; nb 3; nb 4]; CPropagate; CAssume (b 1)].
Theorem C69_single_literal_refuted : exists s, Reach pureC pinit s /\ prop_q s = [] /\ value s (nb 1) = LFalse /\
  (forall M, smodels pureC s M -> mlit M (nb 1) = true) /\ forall fuel, report (ops := pure_ops) fuel s [nb 1] = UB.
Proof.
  exists (after c69u). split; [apply after_reach; vm_compute; reflexivity|]. split; [vm_compute; reflexivity|]. split; [vm_compute; reflexivity|]. split.
  - intros M H. assert (H0 := sm_cls _ _ _ H 0). assert (H1 := sm_cls _ _ _ H 1). assert (H2 := sm_cls _ _ _ H 2). assert (H3 := sm_cls _ _ _ H 3).
    assert (Hi : forall c, In c [0; 1; 2; 3] -> In c (constrs (after c69u))) by (vm_compute; auto).
    specialize (H0 (Hi 0 ltac:(cbn; auto))). specialize (H1 (Hi 1 ltac:(cbn; auto))). specialize (H2 (Hi 2 ltac:(cbn; auto))). specialize (H3 (Hi 3 ltac:(cbn; auto))).
    clear Hi. vm_compute in H0, H1, H2, H3. unfold mlit; cbn. destruct (M 1) eqn:E1; [exfalso|reflexivity]. destruct (M 3) eqn:E3, (M 4) eqn:E4.
    + destruct H3 as (q & [<-|[<-|[<-|[]]]] & E); rewrite ?E1, ?E3, ?E4 in E; discriminate.
    + destruct H2 as (q & [<-|[<-|[<-|[]]]] & E); rewrite ?E1, ?E3, ?E4 in E; discriminate.
    + destruct H1 as (q & [<-|[<-|[<-|[]]]] & E); rewrite ?E1, ?E3, ?E4 in E; discriminate.
    + destruct H0 as (q & [<-|[<-|[<-|[]]]] & E); rewrite ?E1, ?E3, ?E4 in E; discriminate.
  - intros fuel. vm_compute. reflexivity.
Qed.
Print Assumptions C69_single_literal_refuted.
(** The clause that is reported is not recorded, only what was learned from it: the answer can be [true] while all its literals are false.  Here b5
    and b6 follow from b1 and from its negation; the clauses on b3 and b4 have no model, so that every clause is a consequence. *)
Definition c69f : list call :=
  [CVar; CVar; CVar; CVar; CVar; CVar; CClause [b 3; b 4]; CClause [b 3; nb 4]; CClause [nb 3; b 4]; CClause [nb 3; nb 4];
   CClause [nb 1; b 5]; CClause [nb 1; b 6]; CClause [b 1; b 5]; CClause [b 1; b 6]; CPropagate; CAssume (b 1)].
Theorem C69_reported_clause_holds_refuted : exists s s', Reach pureC pinit s /\ (forall q, In q [nb 5; nb 6] -> value s q = LFalse) /\
  (forall M, smodels pureC s M -> exists q, In q [nb 5; nb 6] /\ mlit M q = true) /\
  report (ops := pure_ops) 200 s [nb 5; nb 6] = Ok (s', true, []) /\ forall q, In q [nb 5; nb 6] -> value s' q = LFalse.
Proof.
  destruct (report (ops := pure_ops) 200 (after c69f) [nb 5; nb 6]) as [[[s' r] rest]| |] eqn:E.
  2,3: exfalso; vm_compute in E; discriminate E.
  exists (after c69f), s'. split; [apply after_reach; vm_compute; reflexivity|]. split; [intros q [<-|[<-|[]]]; vm_compute; reflexivity|]. split.
  - intros M H. exfalso. assert (H0 := sm_cls _ _ _ H 0). assert (H1 := sm_cls _ _ _ H 1). assert (H2 := sm_cls _ _ _ H 2). assert (H3 := sm_cls _ _ _ H 3).
    assert (Hi : forall c, In c [0; 1; 2; 3] -> In c (constrs (after c69f))) by (vm_compute; tauto).
    specialize (H0 (Hi 0 ltac:(cbn; auto))). specialize (H1 (Hi 1 ltac:(cbn; auto))). specialize (H2 (Hi 2 ltac:(cbn; auto))). specialize (H3 (Hi 3 ltac:(cbn; auto))).
    clear Hi. vm_compute in H0, H1, H2, H3. destruct (M 3) eqn:E3, (M 4) eqn:E4.
    + destruct H3 as (q & [<-|[<-|[]]] & E5); rewrite ?E3, ?E4 in E5; discriminate.
    + destruct H2 as (q & [<-|[<-|[]]] & E5); rewrite ?E3, ?E4 in E5; discriminate.
    + destruct H1 as (q & [<-|[<-|[]]] & E5); rewrite ?E3, ?E4 in E5; discriminate.
    + destruct H0 as (q & [<-|[<-|[]]] & E5); rewrite ?E3, ?E4 in E5; discriminate.
  - assert (HV : match report (ops := pure_ops) 200 (after c69f) [nb 5; nb 6] with Ok (s', r, rest) => r = true /\ rest = [] /\ value s' (nb 5) = LFalse /\ value s' (nb 6) = LFalse | _ => False end) by (vm_compute; auto).
    rewrite E in HV. destruct HV as (-> & -> & V1 & V2). split; [exact E|]. intros q [<-|[<-|[]]]; assumption.
Qed.
Print Assumptions C69_reported_clause_holds_refuted.
