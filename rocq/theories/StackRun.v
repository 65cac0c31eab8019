(** Histories of a [sat_stack] (without theories): calls on the top core, push, pop. *)
From Verif Require Import Base Keys Sat SatSpec SatInv SatPop SatImp SatRec SatAn SatProp SatLoop SatMain SatApi SatApi2 SatNext SatSimp Stack Reify Amo Run.

Notation pst := (st Empty_set).
Notation pstack := (stack (T := Empty_set)).
Section Srt.
Context {sr : sorter}.

Inductive sop := SPush | SPop | SCall (c : call).

(** One operation; a call goes to [top()]. *)
Definition sstep (fuel : nat) (k : pstack) (o : sop) : res pstack :=
  match o with
  | SPush => stack_push pure_ops fuel k
  | SPop => stack_pop pure_ops k
  | SCall c => match k with
               | [] => UB
               | s :: r => '(s1, _) <- step (ops := pure_ops) fuel s c ;; Ok (s1 :: r)
               end
  end.

(** Preconditions: nothing pending in the top core when it is copied (the assert at
    sat_core.cpp:20); something to pop; a legal call whose answer is not a final inconsistency. *)
Inductive sok : pstack -> sop -> nat -> pstack -> Prop :=
| sok_push fuel s r k' : prop_q s = [] -> 0 < fuel -> stack_push pure_ops fuel (s :: r) = Ok k' -> sok (s :: r) SPush fuel k'
| sok_pop fuel k k' : stack_pop pure_ops k = Ok k' -> sok k SPop fuel k'
| sok_call fuel s r c s1 x : legal pureC s c -> step (ops := pure_ops) fuel s c = Ok (s1, x) -> alive pureC s1 x -> sok (s :: r) (SCall c) fuel (s1 :: r).

Inductive SReach : pstack -> Prop :=
| SR_init : SReach (stack_init [])
| SR_step k o fuel k' : SReach k -> sok k o fuel k' -> SReach k'.

(** Runs during which the cores of [base] stay covered. *)
Inductive inner (base : pstack) : pstack -> pstack -> Prop :=
| in_refl k : inner base k k
| in_step k k1 o fuel k2 : inner base k k1 -> sok k1 o fuel k2 -> length base < length k2 -> inner base k k2.

(** Two cores with the same content; only the record of the notifications may differ. *)
Record same_core (s s' : pst) : Prop := {
  sc_nv : nv s' = nv s; sc_cls : cls s' = cls s; sc_ncid : ncid s' = ncid s; sc_constrs : constrs s' = constrs s;
  sc_watches : watches s' = watches s; sc_assigns : assigns s' = assigns s; sc_level : level s' = level s;
  sc_reason : reason s' = reason s; sc_q : prop_q s' = prop_q s; sc_trail : trail s' = trail s; sc_lim : trail_lim s' = trail_lim s;
  sc_dec : decisions s' = decisions s; sc_exprs : exprs s' = exprs s; sc_bounds : bounds s' = bounds s; sc_listening : listening s' = listening s }.

Lemma no_theories (s : pst) : theories s = [].
Proof. destruct (theories s) as [|t r]; [reflexivity|destruct t]. Qed.

Lemma same_log (s s' : pst) : same_core s s' -> exists l, s' = set_log l s.
Proof.
  intros H. exists (log s'). pose proof (no_theories s) as T1. pose proof (no_theories s') as T2. destruct H. destruct s, s'; cbn in *. subst. reflexivity.
Qed.
Lemma same_good (s s' : pst) : same_core s s' -> good pureC s -> good pureC s'.
Proof.
  intros H G. destruct (same_log s s' H) as (l & ->). clear H.
  assert (HM : forall M, smodels pureC (set_log l s) M <-> smodels pureC s M) by (intros M; split; intros [A B D F]; constructor; assumption).
  destruct G as [[A B D F H J] K1 K2]. constructor.
  - constructor.
    + destruct A; constructor; assumption.
    + destruct B; constructor; assumption.
    + destruct D; constructor; assumption.
    + exact F.
    + destruct H; constructor; assumption.
    + destruct J; constructor; assumption.
  - apply (cache_mono pureC s); [exact K1|reflexivity|cbn; lia|intros M; apply HM].
  - exact K2.
Qed.
Lemma same_models (s s' : pst) : same_core s s' -> forall M, smodels pureC s' M <-> smodels pureC s M.
Proof.
  intros H M. destruct (same_log s s' H) as (l & ->). split; intros [A B D F]; constructor; assumption.
Qed.

(** The core above a push. *)
Lemma push_ok fuel (s : pst) r : good pureC s -> prop_q s = [] -> 0 < fuel ->
  exists s', stack_push pure_ops fuel (s :: r) = Ok (s' :: s :: r) /\ good pureC s' /\ dlevel s' = 0 /\ prop_q s' = [] /\ nv s' = nv s /\
    (forall p, value s' p = value s p) /\
    (forall M, smodels pureC s' M <-> smodels pureC s M /\ forall p, value s p = LTrue -> mlit M p = true).
Proof.
  intros G Hq Hf. pose proof (quiet_of pureC s G Hq (pure_settled s)) as Q.
  destruct (copy_ctor_plain pureC fuel s Q (no_theories s) Hf) as (s1 & E & Q1 & Cl & D1 & N1 & T1 & De & Tr & V & M1).
  pose proof (copy_ctor_ok pureC fuel s Q (no_theories s)) as H. rewrite E in H. destruct H as (_ & _ & X1 & _).
  cbn [stack_push]. rewrite E. cbn [rbind]. set (s2 := set_theories _ s1).
  assert (HS : same_core s1 s2) by (constructor; reflexivity).
  exists s2. split; [reflexivity|]. split.
  - apply (same_good s1); [exact HS|]. constructor; [apply Q1| |intros Hd; congruence].
    apply (cache_mono pureC s); [apply (g_cache _ _ G)|exact X1|lia|intros M HM; apply M1, HM].
  - split; [exact D1|]. split; [apply Q1|]. split; [exact N1|]. split; [exact V|]. intros M. rewrite (same_models s1 s2 HS). apply M1.
Qed.
Lemma pop_same (s s0 : pst) r : exists s1, stack_pop pure_ops (s :: s0 :: r) = Ok (s1 :: r) /\ same_core s0 s1.
Proof. eexists. split; [reflexivity|]. constructor; reflexivity. Qed.

Theorem sreach_good k : SReach k -> k <> [] /\ forall s, In s k -> good pureC s.
Proof.
  induction 1 as [|k o fuel k' HR [Hn IH] HS].
  - split; [discriminate|]. intros s [<-|[]]. apply pinit_good.
  - destruct HS as [fuel s r k' Hq Hf E|fuel k k' E|fuel s r c s1 x HL E HA].
    + destruct (push_ok fuel s r (IH s (or_introl eq_refl)) Hq Hf) as (s' & E' & G & _). rewrite E in E'. inversion E'; subst.
      split; [discriminate|]. intros t [<-|Ht]; [exact G|apply IH, Ht].
    + destruct k as [|s [|s0 r]]; try discriminate. destruct (pop_same s s0 r) as (s1 & E' & HS). rewrite E in E'. inversion E'; subst.
      split; [discriminate|]. intros t [<-|Ht]; [apply (same_good s0 _ HS), IH; right; left; reflexivity|apply IH; right; right; exact Ht].
    + split; [discriminate|]. intros t [<-|Ht]; [|apply IH; right; exact Ht].
      pose proof (step_ok pureC fuel s c (IH s (or_introl eq_refl)) HL) as H. rewrite E in H. destruct H as ([G|[-> Hu]] & _); [exact G|].
      exfalso. destruct (HA eq_refl) as (M & HM). exact (de_unsat _ _ Hu M HM).
Qed.

Lemma inner_base base k k' : inner base k k' -> (exists pre, k = pre ++ base /\ pre <> []) -> exists pre, k' = pre ++ base /\ pre <> [].
Proof.
  induction 1 as [|k k1 o fuel k2 HI IH HS Hl]; intros Hk; [exact Hk|]. destruct (IH Hk) as (pre & -> & Hp). clear IH Hk.
  destruct pre as [|t pre]; [congruence|]. cbn [app] in HS. inversion HS as [fu s r k' Hq Hf E|fu k0 k' E|fu s r c s1 x HL E HA]; subst.
  - cbn [stack_push] in E. destruct (copy_ctor pure_ops fuel t) as [s1| |]; cbn [rbind] in E; try discriminate. inversion E; subst.
    exists (set_theories (map (th_push pure_ops) (theories s1)) s1 :: t :: pre). split; [reflexivity|discriminate].
  - destruct pre as [|t2 pre].
    + exfalso. cbn [app] in E. destruct base as [|b base]; [discriminate|]. cbn [stack_pop] in E. inversion E; subst. cbn in Hl. lia.
    + cbn [app stack_pop] in E. inversion E; subst. eexists (_ :: pre). split; [reflexivity|discriminate].
  - exists (s1 :: pre). split; [reflexivity|discriminate].
Qed.

(** Whatever happens between a push and the matching pop, the core below is found as it was. *)
Theorem push_pop fuel s r k1 k2 fuel' k3 : sok (s :: r) SPush fuel k1 -> inner (s :: r) k1 k2 -> length k2 = length k1 ->
  sok k2 SPop fuel' k3 -> exists s', k3 = s' :: r /\ same_core s s'.
Proof.
  intros H1 H2 Hl H3.
  assert (Hk1 : exists t, k1 = t :: s :: r).
  { inversion H1 as [fu s0 r0 k' Hq Hf E| |]; subst. cbn [stack_push] in E. destruct (copy_ctor pure_ops fuel s) as [s1| |]; cbn [rbind] in E; try discriminate. inversion E. eauto. }
  destruct Hk1 as (t & ->). destruct (inner_base _ _ _ H2) as (pre & -> & Hp); [exists [t]; split; [reflexivity|discriminate]|].
  rewrite app_length in Hl. cbn in Hl. destruct pre as [|a [|b pre]]; [congruence| |cbn in Hl; lia]. cbn [app] in H3.
  inversion H3 as [|fu k0 k' E|]; subst. destruct (pop_same a s r) as (s1 & E' & HS). rewrite E in E'. inversion E'; subst. eauto.
Qed.
End Srt.
