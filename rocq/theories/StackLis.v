(** Listeners and [sat_stack] (src/sat_stack.cpp:10-39): what is notified when a core is dropped. *)
From Coq Require Import Sorted.
From Verif Require Import Base Keys Sat SatSpec SatInv Run Listen Stack.

Definition pair_dec (a b : nat * nat) : {a = b} + {a <> b} := ltac:(decide equality; apply Nat.eq_dec).
Definition has (rg : list (nat * nat)) (l v : nat) : Prop := In (l, v) rg.

Section StackLis.
Context {T : Type} {ops : theory_ops T}.
Notation st := (st T).
Notation stack := (stack (T := T)).

Lemma J_drop R L0 (Dr Dr' : nat -> nat -> Prop) A0 (s : st) : (forall l v, Dr l v -> Dr' l v) -> J R L0 Dr A0 s -> J R L0 Dr' A0 s.
Proof.
  intros H [A B D F G Hs I K L M N O P Q Z W]. constructor; try assumption.
  - intros l v Hl. destruct (A l v Hl); auto.
  - intros l v b Hl. destruct (Hs l v b Hl); auto.
Qed.

(** The copy of a core knows the same listeners. *)
Lemma J_copy fuel R Dr A0 (s s' : st) : J R [] Dr A0 s -> copy_ctor ops fuel s = Ok s' -> J R [] Dr (assigns s) s'.
Proof.
  intros HJ. unfold copy_ctor, copy_core. intros E.
  destruct (prop_q s); cbn [guard rbind] in E; [|discriminate E].
  destruct (forallb _ (constrs s)); cbn [guard rbind] in E; [|discriminate E].
  destruct (forallb _ (seq 0 (nv s))); cbn [guard rbind] in E; [|discriminate E].
  match type of E with (rbind (simplify_db _ _ ?x) _) = _ => set (s1 := x) in * end.
  destruct (simplify_db ops fuel s1) as [[s2 b]| |] eqn:E2; cbn [rbind] in E; try discriminate E. injection E as <-.
  refine (J_simplify R [] Dr (assigns s) fuel s1 s2 b _ E2). clear E2.
  assert (Hnil : forall (pre post : list lit) p, [] <> pre ++ p :: post).
  { intros pre post p E. apply (f_equal (@length lit)) in E. rewrite app_length in E. cbn in E. lia. }
  destruct HJ as [A B D F G Hs I K L M N O P Q Z W]. constructor; cbn -[notified last_told]; try assumption.
  - intros l v Hr. destruct (D l v Hr) as [X|[X _]]; auto.
  - intros v Hv. split; [apply K, Hv|reflexivity].
  - intros p [].
  - constructor.
  - intros pre p post E. destruct (Hnil _ _ _ E).
  - intros n [].
  - constructor.
  - intros v. split; [intros []|reflexivity].
Qed.

(** What is logged by a pop. *)
Definition back (s0 : st) (ps : list lit) (lg : list (nat * nat * lbool)) :=
  fold_left (fun lg p => notify (listening s0 (lvar p)) (lvar p) (assigns s0 (lvar p)) lg) ps lg.
Lemma back_told (s0 : st) l v : (forall x, NoDup (listening s0 x)) -> forall ps lg, NoDup (map lvar ps) ->
  notified (back s0 ps lg) l v = if memn v (map lvar ps) && memn l (listening s0 v) then assigns s0 v :: notified lg l v else notified lg l v.
Proof.
  intros Hnd. induction ps as [|p ps IH]; intros lg HN; [reflexivity|]. cbn [back fold_left map]. inversion HN as [|? ? Hp HN' E]; subst.
  fold (back s0 ps (notify (listening s0 (lvar p)) (lvar p) (assigns s0 (lvar p)) lg)). rewrite IH by exact HN'.
  replace (memn v (lvar p :: map lvar ps)) with ((v =? lvar p) || memn v (map lvar ps)) by reflexivity.
  destruct (Nat.eqb_spec v (lvar p)) as [->|Hn].
  - destruct (memn_spec (lvar p) (map lvar ps)) as [Hi|_]; [contradiction|]. cbn [orb andb].
    destruct (memn_spec l (listening s0 (lvar p))) as [Hi|Hi]; [apply notify_same; [apply Hnd|exact Hi]|apply notify_other; right; exact Hi].
  - cbn [orb]. rewrite notify_other by (left; exact Hn). reflexivity.
Qed.
Lemma back_in (s0 : st) e : forall ps lg, In e (back s0 ps lg) -> In e lg \/ exists p, In (fst (fst e)) (listening s0 (lvar p)) /\ snd (fst e) = lvar p.
Proof.
  induction ps as [|p ps IH]; intros lg He; [left; exact He|]. cbn [back fold_left] in He. apply IH in He as [He|He]; [|right; exact He].
  unfold notify in He. apply in_app_iff in He as [He|He]; [|left; exact He]. apply in_rev, in_map_iff in He as (k & <- & Hk). right. exists p. auto.
Qed.

(** The core found again after a pop. *)
Lemma J_back (R R0 Dr : nat -> nat -> Prop) A0 (s s0 : st) ths : (forall l v, R0 l v -> R l v) -> (forall l v, R0 l v \/ ~ R0 l v) ->
  J R [] Dr (assigns s0) s -> J R0 [] Dr A0 s0 ->
  J R0 [] (fun l v => Dr l v \/ (R l v /\ ~ R0 l v)) A0 (set_log (back s0 (rev (trail s)) (log s)) (set_theories ths s0)).
Proof.
  intros Hin Hdec HJ HJ0. pose proof HJ as [A B D F G Hs I K L M N O P Q Z W]. destruct HJ0 as [A0' B0 D0 F0 G0 H0 I0 K0 L0 M0 N0 O0 P0 Q0 Z0 W0].
  assert (HN : NoDup (map lvar (rev (trail s)))) by (rewrite map_rev; apply NoDup_rev, M).
  assert (Ht : forall l v, R0 l v -> notified (back s0 (rev (trail s)) (log s)) l v =
     if memn v (map lvar (trail s)) then assigns s0 v :: notified (log s) l v else notified (log s) l v).
  { intros l v Hr. rewrite (back_told s0 l v G0 _ _ HN). replace (memn v (map lvar (rev (trail s)))) with (memn v (map lvar (trail s))).
    - destruct (memn_spec v (map lvar (trail s))) as [Hv|Hv]; cbn [andb]; [|reflexivity].
      destruct (memn_spec l (listening s0 v)) as [Hl|Hl]; [reflexivity|]. exfalso. destruct (D0 l v Hr) as [X|[X _]]; [contradiction|]. apply X, (proj1 (W v)), Hv.
    - rewrite map_rev. destruct (memn_spec v (map lvar (trail s))) as [X|X], (memn_spec v (rev (map lvar (trail s)))) as [Y|Y]; try reflexivity; exfalso; [apply Y|apply X]; [apply -> in_rev|apply in_rev]; assumption. }
  constructor; cbn -[notified last_told back]; try assumption.
  - intros l v Hl. destruct (A0' l v Hl); auto.
  - intros l v Hr. unfold last_told. rewrite (Ht l v Hr). destruct (memn_spec v (map lvar (trail s))) as [Hv|Hv]; [reflexivity|].
    fold (last_told (log s) l v). rewrite (B l v (Hin l v Hr)). apply (W v), Hv.
  - intros l v Hr. rewrite (Ht l v Hr). destruct (memn_spec v (map lvar (trail s))) as [Hv|Hv]; [|apply F, Hin, Hr].
    cbn. split; [|apply F, Hin, Hr]. fold (last_told (log s) l v). rewrite (B l v (Hin l v Hr)), (proj1 (W v) Hv).
    apply in_map_iff in Hv as (p & <- & Hp). split; [intros _; apply L, Hp|reflexivity].
  - intros l v b Hi. apply back_in in Hi as [Hi|(p & Hp & Ep)].
    + destruct (Hs l v b Hi) as [X|X]; [|auto]. destruct (Hdec l v); auto.
    + cbn in Hp, Ep. subst v. destruct (A0' l _ Hp); auto.
  - exists (back s0 (rev (trail s)) (log s)). rewrite app_nil_r. reflexivity.
Qed.

(** ** Histories of a stack of cores with listeners.  For each core, top first, the registrations it
    knows of: those it made, and those of the core it was copied from.  [dr]: those of the cores that
    have been dropped and that the core below did not know of. *)
Inductive SLHist : list (list (nat * nat)) -> list (nat * nat) -> stack -> Prop :=
| SL_init ths : SLHist [[]] [] (stack_init ths)
| SL_call fuel rgs dr s k c s' r : SLHist rgs dr (s :: k) -> (forall v l, c <> CListen v l) -> step (ops := ops) fuel s c = Ok (s', r) -> SLHist rgs dr (s' :: k)
| SL_listen rg rgs dr s k v l s' : SLHist (rg :: rgs) dr (s :: k) -> listen s v l = Ok s' -> assigns s v = LUndef -> ~ In (l, v) dr -> SLHist (((l, v) :: rg) :: rgs) dr (s' :: k)
| SL_again rgs dr s k v l s' : SLHist rgs dr (s :: k) -> listen s v l = Ok s' -> In (l, v) dr -> SLHist rgs dr (s' :: k)
| SL_late rgs dr s k v l s' : SLHist rgs dr (s :: k) -> listen s v l = Ok s' -> assigns s v <> LUndef -> SLHist rgs dr (s' :: k)
| SL_push fuel rg rgs dr k k' : SLHist (rg :: rgs) dr k -> stack_push ops fuel k = Ok k' -> SLHist (rg :: rg :: rgs) dr k'
| SL_pop rg rg0 rgs dr k k' : SLHist (rg :: rg0 :: rgs) dr k -> stack_pop ops k = Ok k' ->
    SLHist (rg0 :: rgs) (filter (fun e => if in_dec pair_dec e rg0 then false else true) rg ++ dr) k'.

Inductive chain (dr : list (nat * nat)) : list (list (nat * nat)) -> stack -> Prop :=
| ch_one rg s A0 : J (has rg) [] (has dr) A0 s -> chain dr [rg] [s]
| ch_cons rg rg0 rgs s s0 k : J (has rg) [] (has dr) (assigns s0) s -> incl rg0 rg -> chain dr (rg0 :: rgs) (s0 :: k) -> chain dr (rg :: rg0 :: rgs) (s :: s0 :: k).

Lemma chain_drop dr dr' : incl dr dr' -> forall rgs k, chain dr rgs k -> chain dr' rgs k.
Proof.
  intros Hi rgs k H. assert (Hm : forall l v, has dr l v -> has dr' l v) by (intros l v; apply Hi).
  induction H as [rg s A0 HJ|rg rg0 rgs s s0 k HJ Hin H IH].
  - eapply ch_one, J_drop; [exact Hm|exact HJ].
  - eapply ch_cons; [eapply J_drop; [exact Hm|exact HJ]|exact Hin|exact IH].
Qed.
Lemma chain_top dr rg rgs s k : chain dr (rg :: rgs) (s :: k) -> exists A0, J (has rg) [] (has dr) A0 s /\
  (forall rg' s', incl rg rg' -> J (has rg') [] (has dr) A0 s' -> chain dr (rg' :: rgs) (s' :: k)).
Proof.
  intros H. inversion H as [rg1 s1 A0 HJ|rg1 rg0 rgs1 s1 s0 k1 HJ Hin HC]; subst.
  - exists A0. split; [exact HJ|]. intros rg' s' _ HJ'. eapply ch_one, HJ'.
  - exists (assigns s0). split; [exact HJ|]. intros rg' s' Hi HJ'. apply ch_cons; [exact HJ'| |exact HC]. intros e He. apply Hi, Hin, He.
Qed.
Theorem slhist_chain rgs dr k : SLHist rgs dr k -> chain dr rgs k.
Proof.
  induction 1 as [ths|fuel rgs dr s k c s' r H IH Hc E|rg rgs dr s k v l s' H IH E Hu Hd|rgs dr s k v l s' H IH E Hd|rgs dr s k v l s' H IH E Hu|fuel rg rgs dr k k' H IH E|rg rg0 rgs dr k k' H IH E].
  - apply ch_one with (A0 := assigns (init ths)). eapply J_drop; [|eapply J_ext; [|apply J_init]]; [intros l v []|intros l v; unfold has, none; cbn; tauto].
  - destruct rgs as [|rg rgs]; [inversion IH|]. destruct (chain_top _ _ _ _ _ IH) as (A0 & HJ & HC). apply HC; [intros e He; exact He|]. eapply J_step; eassumption.
  - destruct (chain_top _ _ _ _ _ IH) as (A0 & HJ & HC). apply HC; [intros e He; right; exact He|]. eapply J_ext; [|eapply J_listen; [exact Hd|exact HJ|exact E]].
    intros a x. unfold has. cbn. split; [intros [X|(-> & -> & _)]; auto|intros [X|X]; [inversion X; subst; auto|auto]].
  - destruct rgs as [|rg rgs]; [inversion IH|]. destruct (chain_top _ _ _ _ _ IH) as (A0 & HJ & HC). apply HC; [intros e He; exact He|]. eapply J_listen_again; eassumption.
  - destruct rgs as [|rg rgs]; [inversion IH|]. destruct (chain_top _ _ _ _ _ IH) as (A0 & HJ & HC). apply HC; [intros e He; exact He|].
    destruct (in_dec pair_dec (l, v) dr) as [Hd|Hd]; [eapply J_listen_again; eassumption|]. eapply J_ext; [|eapply J_listen; [exact Hd|exact HJ|exact E]].
    intros a x. unfold has. cbn. split; [intros [X|(_ & _ & X)]; [auto|contradiction]|auto].
  - destruct k as [|s k]; [discriminate E|]. cbn [stack_push] in E. destruct (copy_ctor ops fuel s) as [s1| |] eqn:E1; cbn [rbind] in E; try discriminate E. injection E as <-.
    destruct (chain_top _ _ _ _ _ IH) as (A0 & HJ & HC). apply ch_cons; [|intros e He; exact He|exact IH].
    pose proof (J_copy _ _ _ _ _ _ HJ E1) as H1. eapply (J_frame _ _ _ _ s1); [reflexivity..|exact H1].
  - destruct k as [|s [|s0 k]]; try discriminate E. cbn [stack_pop] in E. injection E as <-. inversion IH as [|rg1 rg2 rgs1 s1 s2 k1 HJ Hin HC]; subst.
    set (dr' := filter _ rg ++ dr).
    assert (Hi : incl dr dr') by (intros e He; apply in_or_app; right; exact He).
    destruct (chain_top _ _ _ _ _ (chain_drop _ _ Hi _ _ HC)) as (A0 & HJ0 & HC0). apply HC0; [intros e He; exact He|].
    eapply J_drop; [|apply (J_back (has rg) (has rg0) (has dr') A0 s s0); [intros l v; apply Hin| |eapply J_drop; [|exact HJ]; intros l v; apply Hi|exact HJ0]].
    + intros l v [X|[X Y]]; unfold has, dr'; [exact X|apply in_or_app; left]. apply filter_In. split; [exact X|]. destruct (in_dec pair_dec (l, v) rg0); [contradiction|reflexivity].
    + intros l v. unfold has. destruct (in_dec pair_dec (l, v) rg0); auto.
Qed.

(** What a client of the stack may rely on. *)
Theorem stack_listen rg rgs dr s k : SLHist (rg :: rgs) dr (s :: k) ->
  (forall l v, In (l, v) rg -> last_told (log s) l v = assigns s v /\ alternate (notified (log s) l v)) /\
  (forall l v b, In (l, v, b) (log s) -> In (l, v) rg \/ In (l, v) dr).
Proof.
  intros H. destruct (chain_top _ _ _ _ _ (slhist_chain _ _ _ H)) as (A0 & HJ & _). split.
  - intros l v Hr. split; [apply (j_val _ _ _ _ _ HJ l v Hr)|apply (j_alt _ _ _ _ _ HJ l v Hr)].
  - intros l v b. apply (j_spur _ _ _ _ _ HJ).
Qed.
End StackLis.
