(** The property lemmas of the SAT core, derived from the invariants (statements in PropSat.v). *)
From Coq Require Import NArith.
From Verif Require Import Base Lit Keys Sat SatSpec SatInv SatPop SatImp SatRec SatAn SatProp SatLoop SatMain SatApi SatApi2 SatNext SatSimp Stack Reify Amo Run Listen StackRun Learn SatFacts.
Section Srt.
Context {sr : sorter}.

Lemma literal_encoding : forall v w b c, (v < max_word / 2)%N -> (w < max_word / 2)%N ->
  unpack_var (pack v b) = v /\ unpack_sign (pack v b) = b /\ (pack v b = pack w c <-> v = w /\ b = c) /\
  is_undefined (pack v b) = false /\
  wneg (pack v b) = pack v (negb b) /\ wneg (wneg (pack v b)) = pack v b /\ wneg (pack v b) <> pack v b /\
  is_undefined pack_default = true /\ W_TRUE = wneg W_FALSE /\ W_TRUE <> W_FALSE.
Proof.
  intros v w b c Hv Hw. assert (E : (max_word / 2 <= W / 2)%N) by (vm_compute; discriminate).
  assert (Hv' : (v < W / 2)%N) by (eapply N.lt_le_trans; eassumption). assert (Hw' : (w < W / 2)%N) by (eapply N.lt_le_trans; eassumption).
  split; [apply unpack_var_pack, Hv'|]. split; [apply unpack_sign_pack, Hv'|].
  split; [split; [intros H; apply (pack_inj _ _ _ _ Hv' Hw' H)|intros [-> ->]; reflexivity]|].
  split; [apply pack_defined, Hv|]. split; [apply wneg_pack, Hv'|].
  split; [rewrite !wneg_pack by exact Hv'; rewrite Bool.negb_involutive; reflexivity|].
  split; [rewrite wneg_pack by exact Hv'; intros H; apply (pack_inj _ _ _ _ Hv' Hv') in H as [_ H]; destruct b; discriminate|].
  split; [vm_compute; reflexivity|]. split; [reflexivity|vm_compute; discriminate].
Qed.
Lemma value_negation : forall T (s : st T) p, value s (negl p) = lneg (value s p).
Proof. intros. unfold value, vlit; cbn. destruct (assigns s (lvar p)), (lsgn p); reflexivity. Qed.
Lemma keys_injective : forall o1 o2, key_of o1 = key_of o2 -> op_same o1 o2.
Proof. exact key_of_inj. Qed.

(** The calls that search, as opposed to those that state something. *)
Definition search_call (c : call) : Prop :=
  match c with CPropagate | CAssume _ | CPop | CCheck _ | CSimplify => True | _ => False end.

Section P.
Context (T : Type) (ops : theory_ops T) (C : contract ops).
Context (s0 s : st T) (G0 : good C s0) (HR : Reach C s0 s).
Let G : good C s := reach_good C s0 s G0 HR.

Lemma clause_meaning' ls : dlevel s = 0 -> in_scope s ls ->
  exists s' b, new_clause s ls = Ok (s', b) /\
    (b = true -> forall M, smodels C s' M <-> smodels C s M /\ mcl M ls) /\
    (b = false -> s' = s /\ forall M, ~ (smodels C s M /\ mcl M ls)).
Proof.
  intros Hd Hs. destruct (new_clause_ok C s ls (g_inv _ _ G) Hd Hs) as (s' & b & E & P). exists s', b. split; [exact E|].
  split; [apply (cp_true _ _ _ _ _ P)|]. intros Hb. destruct (cp_false _ _ _ _ _ P Hb) as [H1 H2]. split; [exact H1|]. intros M [A B]. exact (H2 M A B).
Qed.
Lemma search_models' fuel c s' r : search_call c -> legal C s c -> step (ops := ops) fuel s c = Ok (s', r) -> forall M, smodels C s' M <-> smodels C s M.
Proof.
  intros Hc HL HE M. pose proof (step_ok C fuel s c G HL) as H. rewrite HE in H. destruct H as (_ & _ & H1 & H2).
  split; [intros HM; apply H1, HM|]. intros HM. apply H2; [destruct c; try exact I; destruct Hc|exact HM|destruct c; try exact I; destruct Hc].
Qed.
Lemma false_final' fuel s' : propagate ops fuel s = Ok (s', false) -> forall M, ~ smodels C s M.
Proof.
  intros E M HM. pose proof (propagate_ok C (dlevel s) fuel s (g_inv _ _ G) (le_n _)) as H. rewrite E in H.
  destruct (pp_false _ _ _ _ H eq_refl) as [_ Hu _]. apply (Hu M). apply (pp_models _ _ _ _ H), HM.
Qed.
Lemma terminates' : th_total C ->
  exists s' b, forall fuel, 2 * (nv s * nv s ^ dlevel s) + nv s < fuel -> propagate ops fuel s = Ok (s', b).
Proof.
  intros Ht. destruct (propagate_total C s (enough s) (g_inv _ _ G) Ht (le_n _)) as (s' & b & E & _). exists s', b.
  intros fuel Hf. apply (propagate_fuel _ _ _ E). unfold enough. lia.
Qed.
Lemma unit_complete' fuel s' : propagate ops fuel s = Ok (s', true) -> forall c, In c (constrs s') ->
  (exists q, In q (cls s' c) /\ value s' q = LTrue) \/
  (exists x y, In x (cls s' c) /\ In y (cls s' c) /\ x <> y /\ lvar x <> lvar y /\ value s' x = LUndef /\ value s' y = LUndef).
Proof.
  intros E. pose proof (propagate_ok C (dlevel s) fuel s (g_inv _ _ G) (le_n _)) as H. rewrite E in H.
  destruct (pp_true _ _ _ _ H eq_refl) as (A & B & _). apply (no_unit C s' A B).
Qed.
Lemma learned_propagate' fuel x lits : In (x, lits) (conflicts (ops := ops) fuel s) -> asserting C x lits.
Proof. apply (conflicts_ok C fuel s (g_inv _ _ G)). Qed.
Lemma learned_assume' fuel p x lits : legal C s (CAssume p) -> In (x, lits) (conflicts (ops := ops) fuel (@assumed T ops s p)) -> asserting C x lits.
Proof.
  intros (Hq & Hs & Hr). destruct (assumed_ok C s p (quiet_of C s G Hq Hs) (Hr p (or_introl eq_refl))) as (HIa & _ & _).
  apply (conflicts_ok C fuel _ HIa).
Qed.
Lemma pop_assume' s' p fuel : legal C s (CAssume p) -> assume ops fuel s p = Ok (s', true) -> dlevel s' = S (dlevel s) ->
  exists s'', pop ops s' = Ok s'' /\ same_state s s'' /\ (forall M, smodels C s'' M <-> smodels C s M).
Proof.
  intros (Hq & Hs & Hr) E Hd. destruct (assume_pop C s s' p fuel (quiet_of C s G Hq Hs) (Hr p (or_introl eq_refl)) E Hd) as (s'' & A & _ & B & D). eauto.
Qed.
Lemma no_ub' fuel c : legal C s c -> step (ops := ops) fuel s c <> UB.
Proof. intros HL E. pose proof (step_ok C fuel s c G HL) as H. rewrite E in H. exact H. Qed.
Lemma check_sound' fuel ls s' r : legal C s (CCheck ls) -> check ops fuel s ls = Ok (s', r) ->
  (r = false -> forall M, smodels C s M -> exists d, In d (decisions s ++ ls) /\ mlit M d = false) /\
  (r = true -> same_state s s') /\ (forall M, smodels C s' M <-> smodels C s M).
Proof.
  intros (Hq & Hs & Hr) E. pose proof (check_ok C fuel s ls (quiet_of C s G Hq Hs) Hr) as H. rewrite E in H.
  destruct H as (HM & _ & _ & _ & _ & Hb). split; [intros ->; apply Hb|]. split; [intros ->; apply Hb|exact HM].
Qed.
Lemma failed_check' fuel ls s' : legal C s (CCheck ls) -> check ops fuel s ls = Ok (s', false) ->
  dlevel s' <= dlevel s /\ decisions s' = skipn (dlevel s - dlevel s') (decisions s) /\
  (forall q, value s q = LTrue -> level s (lvar q) <= dlevel s' -> value s' q = LTrue /\ level s' (lvar q) = level s (lvar q)).
Proof.
  intros (Hq & Hs & Hr) E. pose proof (check_ok C fuel s ls (quiet_of C s G Hq Hs) Hr) as H. rewrite E in H.
  destruct H as (_ & Hd & _ & _ & _ & _ & Hb & Hk). auto.
Qed.
Lemma next_excludes' fuel s' r : legal C s CNext -> next ops fuel s = Ok (s', r) ->
  (dlevel s = 0 -> s' = s /\ r = false) /\
  (dlevel s <> 0 -> (forall M, smodels C s' M <-> smodels C s M /\ exists d, In d (decisions s) /\ mlit M d = false) /\
     (r = false -> forall M, ~ smodels C s' M) /\ dlevel s' < dlevel s).
Proof.
  intros HL E. split.
  - intros Hd. rewrite (next_root fuel s Hd) in E. inversion E; subst. auto.
  - intros Hd. destruct (g_up _ _ G Hd) as [Hq Hs]. pose proof (next_ok C fuel s (quiet_of C s G Hq Hs) HL Hd) as H. rewrite E in H.
    destruct H as (HM & Hl & _ & _ & _ & _ & _ & _ & Hf). split; [exact HM|]. split; [intros Hr; apply Hf, Hr|exact Hl].
Qed.
Lemma simplify_ok' fuel s' r : dlevel s = 0 -> simplify_db ops fuel s = Ok (s', r) ->
  (forall M, smodels C s' M <-> smodels C s M) /\
  (r = false -> forall M, ~ smodels C s' M) /\
  (r = true -> forall c, In c (constrs s') -> 2 <= length (cls s' c) /\ NoDup (cls s' c) /\ (forall q, In q (cls s' c) -> value s' q = LUndef) /\
     exists x y t, cls s' c = x :: y :: t /\ In c (watches s' (negl x)) /\ In c (watches s' (negl y))).
Proof.
  intros Hd E. pose proof (simplify_db_ok C fuel s (g_inv _ _ G) Hd) as H. rewrite E in H.
  destruct H as (HM & _ & _ & _ & _ & _ & _ & Hb). split; [exact HM|]. split; [intros ->; exact (de_unsat _ _ Hb)|]. intros -> c Hc.
  destruct Hb as [[HI _ _] Hcl]. pose proof (i_c _ _ HI) as HC. destruct (c_shape _ HC c Hc) as (x & y & t & Ec & Hxy).
  destruct (Hcl c Hc) as (Hl & Hn & Hu). split; [exact Hl|]. split; [exact Hn|]. split; [exact Hu|]. exists x, y, t. split; [exact Ec|].
  assert (Hw : forall p, 0 < wcount (cls s' c) p -> In c (watches s' p)).
  { intros p Hp. rewrite <- (c_watch _ HC c Hc) in Hp. apply (count_occ_In Nat.eq_dec). exact Hp. }
  split; apply Hw; rewrite Ec; cbn [wcount].
  - destruct (lit_eqb_spec (negl x) (negl x)); [cbn; lia|congruence].
  - destruct (lit_eqb_spec (negl y) (negl y)); [cbn; lia|congruence].
Qed.
Lemma simplify_safe' fuel : dlevel s = 0 -> simplify_db ops fuel s <> UB.
Proof. intros Hd E. pose proof (simplify_db_ok C fuel s (g_inv _ _ G) Hd) as H. rewrite E in H. exact H. Qed.
End P.

Lemma clause_meaning : forall T ops (C : contract ops) (s0 s : st T) ls, good C s0 -> Reach C s0 s ->
  dlevel s = 0 -> in_scope s ls ->
  exists s' b, new_clause s ls = Ok (s', b) /\
    (b = true -> forall M, smodels C s' M <-> smodels C s M /\ mcl M ls) /\
    (b = false -> s' = s /\ forall M, ~ (smodels C s M /\ mcl M ls)).
Proof. intros. eapply clause_meaning'; eassumption. Qed.
Lemma search_models : forall T ops (C : contract ops) (s0 s : st T) fuel c s' r, good C s0 -> Reach C s0 s ->
  search_call c -> legal C s c -> step (ops := ops) fuel s c = Ok (s', r) -> forall M, smodels C s' M <-> smodels C s M.
Proof. intros. eapply search_models'; eassumption. Qed.
Lemma false_final : forall T ops (C : contract ops) (s0 s : st T) fuel s', good C s0 -> Reach C s0 s ->
  propagate ops fuel s = Ok (s', false) -> forall M, ~ smodels C s M.
Proof. intros. eapply false_final'; eassumption. Qed.
Lemma terminates : forall T ops (C : contract ops) (s0 s : st T), good C s0 -> Reach C s0 s -> th_total C ->
  exists s' b, forall fuel, 2 * (nv s * nv s ^ dlevel s) + nv s < fuel -> propagate ops fuel s = Ok (s', b).
Proof. intros. eapply terminates'; eassumption. Qed.
Lemma terminates_pure : forall s, Reach pureC pinit s ->
  exists s' b, forall fuel, 2 * (nv s * nv s ^ dlevel s) + nv s < fuel -> propagate pure_ops fuel s = Ok (s', b).
Proof. intros s H. exact (terminates _ _ pureC pinit s pinit_good H pure_total). Qed.
Lemma unit_complete : forall T ops (C : contract ops) (s0 s : st T) fuel s', good C s0 -> Reach C s0 s ->
  propagate ops fuel s = Ok (s', true) -> forall c, In c (constrs s') ->
  (exists q, In q (cls s' c) /\ value s' q = LTrue) \/
  (exists x y, In x (cls s' c) /\ In y (cls s' c) /\ x <> y /\ lvar x <> lvar y /\ value s' x = LUndef /\ value s' y = LUndef).
Proof. intros until 2. eapply unit_complete'; eassumption. Qed.
Lemma values_implied : forall T ops (C : contract ops) (s0 s : st T) M q, good C s0 -> Reach C s0 s ->
  smodels C s M -> value s q = LTrue ->
  (forall k d, nth_error (decisions s) k = Some d -> dlevel s - k <= level s (lvar q) -> mlit M d = true) -> mlit M q = true.
Proof. intros. eapply implied_all; eassumption. Qed.
Lemma learned_propagate : forall T ops (C : contract ops) (s0 s : st T) fuel x lits, good C s0 -> Reach C s0 s ->
  In (x, lits) (conflicts (ops := ops) fuel s) -> asserting C x lits.
Proof. intros. eapply learned_propagate'; eassumption. Qed.
Lemma learned_assume : forall T ops (C : contract ops) (s0 s : st T) fuel p x lits, good C s0 -> Reach C s0 s ->
  legal C s (CAssume p) -> In (x, lits) (conflicts (ops := ops) fuel (@assumed T ops s p)) -> asserting C x lits.
Proof. intros. eapply learned_assume'; eassumption. Qed.
Lemma pop_assume : forall T ops (C : contract ops) (s0 s s' : st T) p fuel, good C s0 -> Reach C s0 s -> legal C s (CAssume p) ->
  assume ops fuel s p = Ok (s', true) -> dlevel s' = S (dlevel s) ->
  exists s'', pop ops s' = Ok s'' /\ same_state s s'' /\ (forall M, smodels C s'' M <-> smodels C s M).
Proof. intros. eapply pop_assume'; eassumption. Qed.
Lemma no_ub : forall T ops (C : contract ops) (s0 s : st T) fuel c, good C s0 -> Reach C s0 s ->
  legal C s c -> step (ops := ops) fuel s c <> UB.
Proof. intros. eapply no_ub'; eassumption. Qed.
Lemma check_sound : forall T ops (C : contract ops) (s0 s : st T) fuel ls s' r, good C s0 -> Reach C s0 s -> legal C s (CCheck ls) ->
  check ops fuel s ls = Ok (s', r) ->
  (r = false -> forall M, smodels C s M -> exists d, In d (decisions s ++ ls) /\ mlit M d = false) /\
  (r = true -> same_state s s') /\ (forall M, smodels C s' M <-> smodels C s M).
Proof. intros. eapply check_sound'; eassumption. Qed.
Lemma failed_check : forall T ops (C : contract ops) (s0 s : st T) fuel ls s', good C s0 -> Reach C s0 s -> legal C s (CCheck ls) ->
  check ops fuel s ls = Ok (s', false) ->
  dlevel s' <= dlevel s /\ decisions s' = skipn (dlevel s - dlevel s') (decisions s) /\
  (forall q, value s q = LTrue -> level s (lvar q) <= dlevel s' -> value s' q = LTrue /\ level s' (lvar q) = level s (lvar q)).
Proof. intros. eapply failed_check'; eassumption. Qed.
Lemma next_excludes : forall T ops (C : contract ops) (s0 s : st T) fuel s' r, good C s0 -> Reach C s0 s -> legal C s CNext ->
  next ops fuel s = Ok (s', r) ->
  (dlevel s = 0 -> s' = s /\ r = false) /\
  (dlevel s <> 0 -> (forall M, smodels C s' M <-> smodels C s M /\ exists d, In d (decisions s) /\ mlit M d = false) /\
     (r = false -> forall M, ~ smodels C s' M) /\ dlevel s' < dlevel s).
Proof. intros. eapply next_excludes'; eassumption. Qed.
Lemma simplify_ok : forall T ops (C : contract ops) (s0 s : st T) fuel s' r, good C s0 -> Reach C s0 s -> dlevel s = 0 ->
  simplify_db ops fuel s = Ok (s', r) ->
  (forall M, smodels C s' M <-> smodels C s M) /\
  (r = false -> forall M, ~ smodels C s' M) /\
  (r = true -> forall c, In c (constrs s') -> 2 <= length (cls s' c) /\ NoDup (cls s' c) /\ (forall q, In q (cls s' c) -> value s' q = LUndef) /\
     exists x y t, cls s' c = x :: y :: t /\ In c (watches s' (negl x)) /\ In c (watches s' (negl y))).
Proof. intros. eapply simplify_ok'; eassumption. Qed.
Lemma simplify_safe : forall T ops (C : contract ops) (s0 s : st T) fuel, good C s0 -> Reach C s0 s -> dlevel s = 0 -> simplify_db ops fuel s <> UB.
Proof. intros. eapply simplify_safe'; eassumption. Qed.
Lemma stack_push_ok : forall k s r fuel, SReach k -> k = s :: r -> prop_q s = [] -> 0 < fuel ->
  exists s', stack_push pure_ops fuel k = Ok (s' :: k) /\ dlevel s' = 0 /\ (forall p, value s' p = value s p) /\
    (forall M, smodels pureC s' M <-> smodels pureC s M /\ forall p, value s p = LTrue -> mlit M p = true).
Proof.
  intros k s r fuel HK -> Hq Hf. destruct (sreach_good _ HK) as [_ Hg].
  destruct (push_ok fuel s r (Hg s (or_introl eq_refl)) Hq Hf) as (s' & E & _ & D & _ & _ & V & M). exists s'. auto.
Qed.
End Srt.
