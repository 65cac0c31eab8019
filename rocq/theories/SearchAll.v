(** All the solutions in terms of the answers of the calls, and the verdict as a function of what was stated. *)
From Verif Require Import Base Keys Sat SatSpec SatInv SatPop SatImp SatRec SatAn SatProp SatLoop SatMain SatApi SatApi2 SatNext Reify Amo Run SatFacts SatProps Exec Full FullEnd ThSum Search.
From Verif Require Import Lin Qe Lra LraTab LraVal LraInv LraPro LraCon LraNew LraCmp LraApi LraRun LraEnd LraFacts LraExec LraFull SearchLra Ov OvInv OvEq OvRun OvStep Mix MixApi MixRun MixEnd SearchMix.
From Coq Require Import Lqa.
Open Scope nat_scope.
Section Srt.
Context {sr : sorter}.

Section Gen.
Context {T : Type} {ops : theory_ops T} (C : contract ops).
Notation st := (st T).
Context (pick : @chooser T) (HP : chooses pick).
Theorem all_answers (s0 s : st) tr : good C s0 -> CTrace C s0 tr s -> decs_ok s -> th_decides C -> forall fuel n m l,
  all_solutions (ops := ops) pick fuel n m s = Ok l ->
  (forall M, In M l -> respects C s0 tr M) /\
  (forall M, respects C s0 tr M -> exists M', In M' l /\ forall v, Full.seen s0 tr v -> M' v = M v) /\
  distinct (nv s) l.
Proof.
  intros G HT HO HD fuel n m l E. destruct (all_solutions_ok C pick HP s0 s G (trace_reach _ _ _ _ (ctrace_trace _ _ _ _ HT)) HO HD fuel n m) as (_ & H1 & _).
  destruct (H1 l E) as [A B D]. destruct (full_complete C s0 tr s G HT) as [[Hs _] HC]. split; [|split; [|exact D]].
  - intros M Hi. exact (full_sound C s0 tr s G HT M (B M Hi)).
  - intros M [HM Ht]. destruct (HC M HM Ht) as (M1 & S1 & A1). destruct (A M1 S1) as (M2 & I2 & A2). exists M2. split; [exact I2|].
    intros v Hv. rewrite <- (A2 v (Hs v Hv)). apply A1, Hv.
Qed.
End Gen.

Section Lra.
Context (ord : nat -> list nat -> list nat) (Hord : forall k l, Permutation l (ord k l)) (fuel : lra -> nat).
Notation C := (lraT ord Hord fuel).
Context (pick : @chooser lra) (HP : chooses pick).
Theorem lra_answers tr s : FTrace ord Hord fuel tr s -> decs_ok s -> forall fl n m l,
  all_solutions (ops := lra_ops ord fuel) pick fl n m s = Ok l ->
  (forall M, In M l -> exists y, lrespects tr M y) /\
  (forall M y, lrespects tr M y -> exists M', In M' l /\ forall v, lseen tr v -> M' v = M v) /\
  distinct (nv s) l.
Proof.
  intros HT HO fl n m l E. destruct (ftrace_good _ _ _ _ _ HT) as [G (t0 & Et0)].
  destruct (all_solutions_ok C pick HP s s G (R_init _ s) HO (lra_decides ord Hord fuel) fl n m) as (_ & H1 & _).
  destruct (H1 l E) as [A B D]. destruct (ffull_complete ord Hord fuel tr s HT) as ([Hs _] & _ & HC). split; [|split; [|exact D]].
  - intros M Hi. pose proof (B M Hi) as HM. destruct (sm_th _ _ _ HM t0 ltac:(rewrite Et0; left; reflexivity)) as (y & _ & HJ). exists y.
    apply (ffull_sound ord Hord fuel tr s HT M y). split; [exact HM|]. exists t0. split; [rewrite Et0; reflexivity|exact HJ].
  - intros M y HM. destruct (HC M y HM) as (M1 & y1 & A1 & _ & S1). destruct (A M1 (proj1 S1)) as (M2 & I2 & A2). exists M2. split; [exact I2|].
    intros v Hv. rewrite <- (A2 v (Hs v Hv)). apply A1, Hv.
Qed.
End Lra.

Section Mix.
Context (om : list (nat * lit) -> list (nat * lit)) (oi : list nat -> list nat) (Hom : forall m, Permutation m (om m)) (Hoi : forall l, Permutation l (oi l)).
Context (ord : nat -> list nat -> list nat) (Hord : forall k l, Permutation l (ord k l)) (fuel : lra -> nat).
Notation C := (sumC ov_ops (lra_ops ord fuel) ovC (lraT ord Hord fuel)).
Notation ops := (sum_ops ov_ops (lra_ops ord fuel)).
Context (pick : @chooser (ovs + lra)) (HP : chooses pick).
Theorem mix_answers tr s : MTrace om oi ord Hord fuel tr s -> mmindful tr -> decs_ok s -> forall fl n m l,
  all_solutions (ops := ops) pick fl n m s = Ok l ->
  (forall M, In M l -> exists y, mtold tr M y) /\
  (forall M y, mtold tr M y -> exists M', In M' l /\ forall v, In v (mvis tr) -> M' v = M v) /\
  distinct (nv s) l.
Proof.
  intros HT Hm HO fl n m l E. destruct (mtrace_good om oi Hom Hoi ord Hord fuel tr s HT) as (o & t & MG). pose proof (gk_good _ _ _ (mg_ok _ _ _ _ _ _ _ MG)) as G.
  pose proof (mg_th _ _ _ _ _ _ _ MG) as Et.
  destruct (all_solutions_ok C pick HP s s G (R_init _ s) HO (sum_decides _ _ _ _ ov_decides (lra_decides ord Hord fuel)) fl n m) as (_ & H1 & _).
  destruct (H1 l E) as [A B D]. split; [|split; [|exact D]].
  - intros M Hi. pose proof (B M Hi) as HM. destruct (sm_th _ _ _ HM (inr t) ltac:(rewrite Et; right; left; reflexivity)) as (y & _ & HJ). exists y.
    apply (mtold_all om oi Hom Hoi ord Hord fuel tr s HT M y). split; [exact HM|]. exists t. split; [rewrite Et; reflexivity|exact HJ].
  - intros M y HM. destruct (mtold_enough om oi Hom Hoi ord Hord fuel tr s HT Hm M y HM) as (M1 & y1 & A1 & _ & S1). destruct (A M1 (proj1 S1)) as (M2 & I2 & A2). exists M2. split; [exact I2|].
    intros v Hv. rewrite <- (A2 v (se_lt _ _ _ (mg_seen _ _ _ _ _ _ _ MG) v Hv)). apply A1, Hv.
Qed.
End Mix.

(** ** The verdict depends on what was stated only. *)
(** The calls which say something about the solutions. *)
Definition says (c : call) (r : ret) : bool :=
  match c, r with CClause _, RBool true | CNext, RBool _ | CConj _, RLit _ | CDisj _, RLit _ | CEq _ _, RLit _ | CAmo _, RLit _ | CExct _, RLit _ => true | _, _ => false end.
Definition lsays (c : lcall) (r : lret) : bool := match c, r with LSat c, LR r => says c r | LSlack _, LX _ | LCmp _ _ _ _, LP _ => true | _, _ => false end.
(** The same statements, in any order, any number of times, with any other calls in between. *)
Definition alike (tr1 tr2 : list event) : Prop := forall e, says (ev_call e) (ev_ret e) = true -> (In e tr1 <-> In e tr2).
Definition lalike (tr1 tr2 : list levent) : Prop := forall e, lsays (lev_call e) (lev_ret e) = true -> (In e tr1 <-> In e tr2).
Lemma told_silent e M : says (ev_call e) (ev_ret e) = false -> Full.told e M.
Proof. unfold Full.told. destruct (ev_call e), (ev_ret e); cbn; try exact (fun _ => I); try discriminate. destruct b; [discriminate|]. intros _. exact I. Qed.
Lemma ltold_silent e M y : lsays (lev_call e) (lev_ret e) = false -> ltold e M y.
Proof.
  unfold ltold. destruct e as [c ds r]. cbn [lev_call lev_ret lev_decs]. destruct c as [c| | |]; destruct r as [r| |]; cbn [lsays]; try exact (fun _ => I); try discriminate.
  intros H. apply told_silent. exact H.
Qed.
Lemma alike_respects {T} {ops : theory_ops T} (C : contract ops) s0 tr1 tr2 M : alike tr1 tr2 -> respects C s0 tr1 M -> respects C s0 tr2 M.
Proof.
  intros HA [H1 H2]. split; [exact H1|]. intros e He. destruct (says (ev_call e) (ev_ret e)) eqn:Es; [apply H2, (HA e Es), He|apply told_silent, Es].
Qed.
Lemma lalike_respects tr1 tr2 M y : lalike tr1 tr2 -> lrespects tr1 M y -> lrespects tr2 M y.
Proof.
  intros HA [H1 H2]. split; [exact H1|]. intros e He. destruct (lsays (lev_call e) (lev_ret e)) eqn:Es; [apply H2, (HA e Es), He|apply ltold_silent, Es].
Qed.
Lemma alike_sym tr1 tr2 : alike tr1 tr2 -> alike tr2 tr1.
Proof. intros H e He. specialize (H e He). tauto. Qed.
Lemma lalike_sym tr1 tr2 : lalike tr1 tr2 -> lalike tr2 tr1.
Proof. intros H e He. specialize (H e He). tauto. Qed.
End Srt.
