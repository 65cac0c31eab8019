(** Consequences for a client whose history may contain equalities, at-most-one and exactly-one
    constraints; executable histories. *)
From Verif Require Import Base Keys Sat SatSpec SatInv SatLoop SatMain SatApi SatApi2 SatNext SatSimp Reify Amo Run SatFacts SatProps Exec Full.
Section Srt.
Context {sr : sorter}.

Section Ends.
Context {T : Type} {ops : theory_ops T} (C : contract ops).
Notation st := (st T).
(** [M] is a model of the initial network and of everything the client was told since. *)
Definition respects (s0 : st) (tr : list event) (M : nat -> bool) : Prop := smodels C s0 M /\ forall e, In e tr -> told e M.


Lemma full_false s0 tr s fuel s' : good C s0 -> CTrace C s0 tr s -> propagate ops fuel s = Ok (s', false) -> forall M, ~ respects s0 tr M.
Proof.
  intros G HT E M [HM Ht]. destruct (full_complete C s0 tr s G HT) as [_ H]. destruct (H M HM Ht) as (M' & S' & _).
  exact (false_final T ops C s0 s fuel s' G (trace_reach _ _ _ _ (ctrace_trace _ _ _ _ HT)) E M' S').
Qed.
Lemma full_clause s0 tr s ls s' : good C s0 -> CTrace C s0 tr s -> dlevel s = 0 -> in_scope s ls -> (forall q, In q ls -> seen s0 tr (lvar q)) ->
  new_clause s ls = Ok (s', false) -> forall M, respects s0 tr M -> forall q, In q ls -> mlit M q = false.
Proof.
  intros G HT Hd Hr Hv E M [HM Ht] q Hq. destruct (full_complete C s0 tr s G HT) as [_ H]. destruct (H M HM Ht) as (M' & S' & Ag).
  destruct (clause_meaning T ops C s0 s ls G (trace_reach _ _ _ _ (ctrace_trace _ _ _ _ HT)) Hd Hr) as (s1 & b & E1 & _ & Hf).
  rewrite E in E1. injection E1 as <- <-. destruct (Hf eq_refl) as [_ Hn].
  destruct (mlit M q) eqn:Eq; [|reflexivity]. exfalso. apply (Hn M'). split; [exact S'|]. exists q. split; [exact Hq|].
  unfold mlit. rewrite (Ag _ (Hv q Hq)). exact Eq.
Qed.
Lemma full_check s0 tr s fuel ls s' : good C s0 -> CTrace C s0 tr s -> legal C s (CCheck ls) -> (forall q, In q (decisions s ++ ls) -> seen s0 tr (lvar q)) ->
  check ops fuel s ls = Ok (s', false) -> forall M, respects s0 tr M -> exists d, In d (decisions s ++ ls) /\ mlit M d = false.
Proof.
  intros G HT HL Hv E M [HM Ht]. destruct (full_complete C s0 tr s G HT) as [_ H]. destruct (H M HM Ht) as (M' & S' & Ag).
  destruct (check_sound T ops C s0 s fuel ls s' false G (trace_reach _ _ _ _ (ctrace_trace _ _ _ _ HT)) HL E) as [Hf _].
  destruct (Hf eq_refl M' S') as (d & Hd & Ed). exists d. split; [exact Hd|]. unfold mlit in *. rewrite <- (Ag _ (Hv d Hd)). exact Ed.
Qed.
Lemma full_values s0 tr s q : good C s0 -> CTrace C s0 tr s -> value s q = LTrue -> seen s0 tr (lvar q) -> (forall d, In d (decisions s) -> seen s0 tr (lvar d)) ->
  forall M, respects s0 tr M -> (forall k d, nth_error (decisions s) k = Some d -> dlevel s - k <= level s (lvar q) -> mlit M d = true) -> mlit M q = true.
Proof.
  intros G HT Hq Hv Hds M [HM Ht] Hd. destruct (full_complete C s0 tr s G HT) as [_ H]. destruct (H M HM Ht) as (M' & S' & Ag).
  assert (E : mlit M' q = true).
  { apply (values_implied T ops C s0 s M' q G (trace_reach _ _ _ _ (ctrace_trace _ _ _ _ HT)) S' Hq). intros k d Hk Hl.
    unfold mlit. rewrite (Ag (lvar d)) by (apply Hds; eapply nth_error_In, Hk). apply (Hd k d Hk Hl). }
  unfold mlit in *. rewrite <- (Ag _ Hv). exact E.
Qed.
End Ends.

(** Without theories, from creation: a total assignment found by propagation respects everything. *)
Lemma full_model tr s fuel s' : CTrace pureC pinit tr s -> propagate pure_ops fuel s = Ok (s', true) -> total s' -> respects pureC pinit tr (values s').
Proof.
  intros HT E Ht. pose proof (ctrace_good pureC _ _ _ pinit_good HT) as G.
  pose proof (propagate_ok pureC (dlevel s) fuel s (g_inv _ _ G) (le_n _)) as H. rewrite E in H.
  destruct (pp_true _ _ _ _ H eq_refl) as (HI & Hq & _).
  apply (full_sound pureC pinit tr s pinit_good HT), (pp_models _ _ _ _ H). constructor.
  - unfold values. rewrite (t_a0 _ (i_t _ _ HI)). reflexivity.
  - apply (total_cls pureC s' HI Hq Ht).
  - intros p Hp _. apply values_lit; congruence.
  - intros t. destruct t.
Qed.

(** ** Executable careful histories *)
Fixpoint nodupl (ls : list lit) : bool := match ls with [] => true | p :: r => negb (existsb (lit_eqb p) r) && nodupl r end.
Definition knownb (ws : list nat) (ls : list lit) : bool := forallb (fun q => existsb (Nat.eqb (lvar q)) ws) ls.
Definition carefulb {T} (ws : list nat) (s : st T) (c : call) : bool :=
  match c with
  | CClause ls | CConj ls | CDisj ls => knownb ws ls
  | CEq l r => knownb ws [l; r] && (lit_eqb l r || Bool.eqb (is_undef s l) (is_undef s r) || Bool.eqb (lsgn l) (lsgn r))
  | CAmo ls | CExct ls => knownb ws ls && nodupl ls && forallb (fun q => negb (is_true s q)) ls
  | CNext => knownb ws (decisions s)
  | _ => true
  end.
Definition learn (ws : list nat) (r : ret) : list nat := match r with RVar v => v :: ws | RLit p => lvar p :: ws | _ => ws end.
Fixpoint crun (fuel : nat) (s : st Empty_set) (ws : list nat) (tr : list event) (cs : list call) : option (list event * st Empty_set) :=
  match cs with
  | [] => Some (tr, s)
  | c :: r =>
    if legalb s c && carefulb ws s c then
      match step (ops := pure_ops) fuel s c with
      | Ok (s', x) => if not_false x then crun fuel s' (learn ws x) (mk_ev c (decisions s) x :: tr) r else None
      | _ => None
      end
    else None
  end.
Definition cevs (cs : list call) : list event := match crun 200 pinit [0] [] cs with Some (tr, _) => tr | None => [] end.
Definition cafter (cs : list call) : st Empty_set := match crun 200 pinit [0] [] cs with Some (_, s) => s | None => pinit end.
Definition cruns (cs : list call) : bool := match crun 200 pinit [0] [] cs with Some _ => true | None => false end.

Lemma nodupl_ok ls : nodupl ls = true -> NoDup ls.
Proof.
  induction ls as [|p r IH]; cbn; [constructor|]. intros H. apply andb_prop in H as [H1 H2]. constructor; [|apply IH, H2].
  intros Hi. apply negb_true_iff in H1. assert (E : existsb (lit_eqb p) r = true); [|congruence].
  apply existsb_exists. exists p. split; [exact Hi|]. destruct (lit_eqb_spec p p); congruence.
Qed.
Lemma knownb_ok ws (V : nat -> Prop) ls : (forall w, In w ws -> V w) -> knownb ws ls = true -> forall q, In q ls -> V (lvar q).
Proof.
  intros HV H q Hq. unfold knownb in H. rewrite forallb_forall in H. specialize (H q Hq). apply existsb_exists in H as (w & Hw & E).
  apply Nat.eqb_eq in E. rewrite E. apply HV, Hw.
Qed.
Lemma carefulb_ok {T} ws (V : nat -> Prop) (s : st T) c : (forall w, In w ws -> V w) -> carefulb ws s c = true -> careful V s c.
Proof.
  intros HV. assert (Hd : forall q, is_undef s q = true <-> value s q = LUndef).
  { intros q. unfold is_undef. destruct (value s q); cbn; split; congruence. }
  destruct c; cbn [carefulb careful]; auto.
  - apply knownb_ok, HV.
  - apply knownb_ok, HV.
  - intros H. apply andb_prop in H as [H1 H2]. pose proof (knownb_ok ws V _ HV H1) as H. split; [apply H; left; reflexivity|]. split; [apply H; right; left; reflexivity|].
    apply orb_prop in H2 as [H2|H2]; [apply orb_prop in H2 as [H2|H2]|].
    + left. destruct (lit_eqb_spec l r); congruence.
    + right; left. apply eqb_prop in H2. rewrite <- !Hd, H2. reflexivity.
    + right; right. apply eqb_prop, H2.
  - apply knownb_ok, HV.
  - apply knownb_ok, HV.
  - intros H. apply andb_prop in H as [H H3]. apply andb_prop in H as [H1 H2]. split; [apply (knownb_ok ws V _ HV H1)|]. split; [apply nodupl_ok, H2|].
    intros q Hq E. rewrite forallb_forall in H3. specialize (H3 q Hq). unfold is_true in H3. rewrite E in H3. discriminate.
  - intros H. apply andb_prop in H as [H H3]. apply andb_prop in H as [H1 H2]. split; [apply (knownb_ok ws V _ HV H1)|]. split; [apply nodupl_ok, H2|].
    intros q Hq E. rewrite forallb_forall in H3. specialize (H3 q Hq). unfold is_true in H3. rewrite E in H3. discriminate.
Qed.
Lemma crun_trace fuel s0 : forall cs ws tr s tr' s', (forall w, In w ws -> seen s0 tr w) -> CTrace pureC s0 tr s -> crun fuel s ws tr cs = Some (tr', s') -> CTrace pureC s0 tr' s'.
Proof.
  induction cs as [|c r IH]; intros ws tr s tr' s' HV HT; cbn [crun]; [intros E; injection E as <- <-; exact HT|].
  destruct (legalb s c && carefulb ws s c) eqn:El; [|discriminate]. apply andb_prop in El as [E1 E2].
  destruct (step fuel s c) as [[s1 x]| |] eqn:Es; try discriminate.
  destruct (not_false x) eqn:Ex; [|discriminate]. apply IH.
  - intros w Hw. apply seen_event. destruct x; cbn in Hw; try (left; apply HV, Hw); destruct Hw as [<-|Hw]; auto.
  - eapply CT_step; [exact HT|apply legalb_ok, E1|apply (carefulb_ok ws); assumption|exact Es|]. intros ->. discriminate.
Qed.
Lemma cruns_trace cs : cruns cs = true -> CTrace pureC pinit (cevs cs) (cafter cs).
Proof.
  unfold cruns, cevs, cafter. destruct (crun 200 pinit [0] [] cs) as [[tr s]|] eqn:E; [|discriminate]. intros _.
  eapply (crun_trace 200 pinit cs [0] []); [|constructor|exact E]. intros w [<-|[]]. left. cbn. lia.
Qed.
End Srt.
