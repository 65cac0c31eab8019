(** Destroying a theory while the core lives on (src/theory.cpp:9).  [~theory] takes the theory out of [sat->theories] only: the lists of
    [bounds] (include/sat_core.h:175) still hold its address, and [propagate] calls through them (sat_core.cpp:428-447). *)
From Verif Require Import Base Keys Sat SatSpec SatInv SatMain SatNext Reify Amo Run MapTh ThSum.
Local Arguments Nat.ltb : simpl never.
Local Arguments Nat.eqb : simpl never.
Section Srt.
Context {sr : sorter}.

(** src/theory.cpp:9: what is left of a destroyed theory.  Calling [propagate] through its address is undefined; the loops over
    [sat->theories] (check, push, pop: sat_core.cpp:363,376,453) no longer meet it. *)
Definition gone_ops {sr : sorter} : theory_ops unit :=
  mk_ops (fun _ _ _ => UB) (fun t _ => Ok (t, None)) (fun t => t) (fun t => t) sr.
(** It has no atoms and restricts nothing; in particular it may be bound to no variable. *)
Definition goneC : contract gone_ops.
Proof.
  refine (mk_contract unit gone_ops (fun _ _ => True) (fun _ _ => False) (fun _ _ => True) (fun _ => True) no_fixed (no_fixed_rules _ _ _) _ _ _ _ _).
  - auto.
  - intros t vs _ _. cbn. tauto.
  - intros t v w vs _. cbn. tauto.
  - intros t v vs val p _ [].
  - intros t v vs val _ _ _ _. cbn. split; [exact I|]. split; [auto|]. split; [tauto|]. split; [tauto|]. intros c E. discriminate E.
Defined.

Section Destroy.
Context {T : Type} (ops : theory_ops T) (C : contract ops).
Notation st := (st (T + unit)).
(** A network some of whose theories have been destroyed. *)
Definition dying_ops := sum_ops ops gone_ops.
Definition dyingC : contract dying_ops := sumC ops gone_ops C goneC.
Definition living (s : Sat.st T) : st := mp inl s.
(** src/theory.cpp:9, the destructor of the theory [i] (its place in the list is kept, so that the other theories keep their number). *)
Definition kill (i : nat) (s : st) : st := set_theories (set_nth (theories s) i (inr tt)) s.

Lemma living_models s M : smodels dyingC (living s) M <-> smodels C s M.
Proof.
  split; intros [A B D E]; constructor; auto.
  - intros t Ht. apply (E (inl t)). cbn. apply in_map, Ht.
  - intros t Ht. cbn in Ht. apply in_map_iff in Ht as (u & <- & Hu). apply E, Hu.
Qed.
Lemma living_good s : good C s -> good dyingC (living s).
Proof.
  intros [[A B D E F H] K1 K2]. constructor.
  - constructor.
    + destruct A; constructor; assumption.
    + destruct B; constructor; assumption.
    + destruct D; constructor; assumption.
    + exact E.
    + destruct F; constructor; assumption.
    + assert (Hn : forall i u, nth_error (theories (living s)) i = Some u -> exists t, u = inl t /\ nth_error (theories s) i = Some t).
      { intros i u Hu. cbn in Hu. rewrite nth_error_map in Hu. destruct (nth_error (theories s) i) as [t|]; [|discriminate Hu]. cbn in Hu. injection Hu as <-. eauto. }
      destruct H as [J1 J2 J3 J4 J5 J6]. constructor.
      * intros i u Hu. destruct (Hn i u Hu) as (t & -> & Et). exact (J1 i t Et).
      * intros i u v Hu. destruct (Hn i u Hu) as (t & -> & Et). exact (J2 i t v Et).
      * intros i u v Hu. destruct (Hn i u Hu) as (t & -> & Et). exact (J3 i t v Et).
      * intros i v Hv. destruct (J4 i v Hv) as (t & Et & Ha). exists (inl t). split; [cbn; rewrite nth_error_map, Et; reflexivity|exact Ha].
      * exact J5.
      * intros i u n v Hu. destruct (Hn i u Hu) as (t & -> & Et). exact (J6 i t n v Et).
  - intros k p Hk. destruct (K1 k p Hk) as (o & O1 & O2 & O3 & O4). exists o. split; [exact O1|]. split; [exact O2|]. split; [exact O3|]. intros M HM. apply O4, living_models, HM.
  - intros Hd. destruct (K2 Hd) as [Q1 Q2]. split; [exact Q1|]. intros u Hu. cbn in Hu. apply in_map_iff in Hu as (t & <- & Ht). exact (Q2 t Ht).
Qed.

(** A theory bound to no variable any more says nothing beyond the facts of the network. *)
Lemma unbound_facts (s : st) i t : good dyingC s -> nth_error (theories s) i = Some t -> (forall v, ~ In i (bounds s v)) ->
  forall v, th_atom dyingC t v -> assigns s v <> LUndef /\ level s v = 0.
Proof.
  intros G Ei Hb v Hv. pose proof (h_bound _ _ _ _ (i_h _ _ (g_inv _ _ G)) i t v Ei Hv) as H. split.
  - intros E. apply (Hb v), H. auto.
  - destruct (Nat.eq_dec (level s v) 0) as [E|E]; [exact E|]. destruct (Hb v). apply H. auto.
Qed.
Lemma fact_fixed (s : st) M M' v : smodels dyingC s M -> (forall p, value s p = LTrue -> level s (lvar p) = 0 -> mlit M' p = true) ->
  assigns s v <> LUndef -> level s v = 0 -> M v = M' v.
Proof.
  intros HM HM' Ha Hl. destruct (assigns s v) eqn:E; [| |congruence].
  - pose proof (sm_facts _ _ _ HM (mk_lit v false)) as A. pose proof (HM' (mk_lit v false)) as B. unfold value, vlit in A, B. cbn in A, B. rewrite E in A, B. specialize (A eq_refl Hl). specialize (B eq_refl Hl).
    unfold mlit in A, B. cbn in A, B. destruct (M v), (M' v); try discriminate; reflexivity.
  - pose proof (sm_facts _ _ _ HM (mk_lit v true)) as A. pose proof (HM' (mk_lit v true)) as B. unfold value, vlit in A, B. cbn in A, B. rewrite E in A, B. specialize (A eq_refl Hl). specialize (B eq_refl Hl).
    unfold mlit in A, B. cbn in A, B. destruct (M v), (M' v); try discriminate; reflexivity.
Qed.
Lemma nth_set_nth {A} (l : list A) i x j : i < length l -> nth_error (set_nth l i x) j = if j =? i then Some x else nth_error l j.
Proof.
  revert l j. unfold set_nth. induction i as [|i IH]; intros [|y l] j Hi; cbn in Hi; try lia.
  - destruct j; reflexivity.
  - destruct j as [|j]; [reflexivity|]. cbn [firstn skipn app nth_error]. apply (IH l j). lia.
Qed.
Theorem kill_ok (s : st) i : good dyingC s -> i < length (theories s) -> (forall v, ~ In i (bounds s v)) -> (exists M, smodels dyingC s M) ->
  good dyingC (kill i s) /\ forall M, smodels dyingC (kill i s) M <-> smodels dyingC s M.
Proof.
  intros G Hi Hb (M0 & HM0). pose proof (nth_set_nth (theories s) i (inr tt : T + unit)) as Hn.
  destruct (nth_error (theories s) i) as [t|] eqn:Ei; [|apply nth_error_None in Ei; lia].
  assert (HM : forall M, smodels dyingC (kill i s) M <-> smodels dyingC s M).
  { intros M. split; intros [A B D E].
    - constructor; auto. intros u Hu. apply In_nth_error in Hu as (j & Ej). destruct (Nat.eq_dec j i) as [->|Hj].
      + rewrite Ei in Ej. injection Ej as <-. apply (c_model_ext _ dyingC t M0 M); [|apply (sm_th _ _ _ HM0 t), (nth_error_In _ _ Ei)].
        intros v Hv. destruct (unbound_facts s i t G Ei Hb v Hv) as [X Y]. apply (fact_fixed s M0 M v HM0 D X Y).
      + apply E. cbn. apply (nth_error_In _ j). rewrite Hn by exact Hi. destruct (Nat.eqb_spec j i); [contradiction|exact Ej].
    - constructor; auto. intros u Hu. cbn in Hu. apply In_nth_error in Hu as (j & Ej). rewrite Hn in Ej by exact Hi. destruct (Nat.eqb_spec j i); [injection Ej as <-; exact I|]. apply E, (nth_error_In _ _ Ej). }
  split; [|exact HM]. destruct G as [[A B D E F H] K1 K2]. constructor.
  - constructor.
    + destruct A; constructor; assumption.
    + destruct B; constructor; assumption.
    + destruct D; constructor; assumption.
    + exact E.
    + destruct F; constructor; assumption.
    + destruct H as [J1 J2 J3 J4 J5 J6]. constructor.
      * intros j u Hu. cbn in Hu. rewrite Hn in Hu by exact Hi. destruct (Nat.eqb_spec j i) as [->|Hj].
        -- injection Hu as <-. exists (map (fun k => []) (seq 0 (S (dlevel s)))). split; [exact I|]. split; [rewrite map_length, seq_length; reflexivity|].
           split; [intros k v l Hk _ Hl; apply nth_error_In, in_map_iff in Hk as (x & <- & _); destruct Hl|intros l []].
        -- exact (J1 j u Hu).
      * intros j u v Hu. cbn in Hu. rewrite Hn in Hu by exact Hi. destruct (Nat.eqb_spec j i) as [->|Hj]; [injection Hu as <-; intros []|exact (J2 j u v Hu)].
      * intros j u v Hu. cbn in Hu. rewrite Hn in Hu by exact Hi. destruct (Nat.eqb_spec j i) as [->|Hj]; [injection Hu as <-; intros []|exact (J3 j u v Hu)].
      * intros j v Hv. destruct (J4 j v Hv) as (u & Eu & Ha). exists u. split; [|exact Ha]. cbn. rewrite Hn by exact Hi. destruct (Nat.eqb_spec j i) as [->|Hj]; [destruct (Hb v Hv)|exact Eu].
      * exact J5.
      * intros j u n v Hu. cbn in Hu. rewrite Hn in Hu by exact Hi. destruct (Nat.eqb_spec j i) as [->|Hj]; [injection Hu as <-; intros []|exact (J6 j u n v Hu)].
  - apply (cache_mono dyingC s); [exact K1|reflexivity|reflexivity|intros M X; apply HM, X].
  - intros Hd. destruct (K2 Hd) as [Q1 Q2]. split; [exact Q1|]. intros u Hu. cbn in Hu. apply In_nth_error in Hu as (j & Ej). rewrite Hn in Ej by exact Hi.
    destruct (Nat.eqb_spec j i); [injection Ej as <-; exact I|]. apply Q2, (nth_error_In _ _ Ej).
Qed.

(** ** Histories in which theories are destroyed, each when it is bound to no variable. *)
Inductive DHist (s0 : st) : st -> Prop :=
| DH_init : DHist s0 s0
| DH_step fuel s c s' r : DHist s0 s -> legal dyingC s c -> step (ops := dying_ops) fuel s c = Ok (s', r) -> alive dyingC s' r -> DHist s0 s'
| DH_kill s i : DHist s0 s -> i < length (theories s) -> (forall v, ~ In i (bounds s v)) -> (exists M, smodels dyingC s M) -> DHist s0 (kill i s).
Theorem dhist_good s0 s : good dyingC s0 -> DHist s0 s -> good dyingC s.
Proof.
  intros G. induction 1 as [|fuel s c s' r H IH L E HA|s i H IH Hi Hb HM]; [exact G| |apply kill_ok; assumption].
  pose proof (step_ok dyingC fuel s c IH L) as K. rewrite E in K. destruct K as [[K|[-> K]] _]; [exact K|].
  exfalso. destruct (HA eq_refl) as (M & HM). exact (de_unsat _ _ K M HM).
Qed.
End Destroy.
End Srt.
