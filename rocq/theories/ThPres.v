(** What every operation of the theories preserves is preserved by every call. *)
From Verif Require Import Base Keys Sat SatLoop Run Listen ThRel.

Section Pres.
Context {T : Type} (ops : theory_ops T) (P : T -> Prop).
Notation st := (st T).
Notation record := (Sat.record ops).
Context (Hprop : forall t val p t' ls cf, P t -> th_prop ops t val p = Ok (t', ls, cf) -> P t')
  (Hcheck : forall t val t' cf, P t -> th_check ops t val = Ok (t', cf) -> P t')
  (Hpush : forall t, P t -> P (th_push ops t)) (Hpop : forall t, P t -> P (th_pop ops t)).
Definition PT (s : st) : Prop := forall t, In t (theories s) -> P t.

Lemma PT_eq (s s' : st) : theories s' = theories s -> PT s -> PT s'.
Proof. intros E H t. rewrite E. apply H. Qed.
Lemma PT_map (s s' : st) g : (forall t, P t -> P (g t)) -> theories s' = map g (theories s) -> PT s -> PT s'.
Proof. intros Hg E H t. rewrite E, in_map_iff. intros (x & <- & Hx). apply Hg, H, Hx. Qed.
Lemma PT_set (s s' : st) i t t' : nth_error (theories s) i = Some t -> (P t -> P t') -> theories s' = set_nth (theories s) i t' -> PT s -> PT s'.
Proof.
  intros Ei Ht E H u. rewrite E. intros Hu. apply In_nth_error in Hu as (j & Ej). rewrite nth_set_nth in Ej by (apply nth_error_Some; congruence).
  revert Ej. destruct (Nat.eqb_spec j i) as [->|Hj]; intros Ej; [injection Ej as <-; apply Ht, H, (nth_error_In _ i), Ei|apply H, (nth_error_In _ j), Ej].
Qed.
Lemma P_pop (s s' : st) : PT s -> pop ops s = Ok s' -> PT s'.
Proof.
  intros H. unfold pop. destruct (trail_lim s) as [|n tl]; [discriminate|].
  destruct (pop_until (length (trail s)) s n) as [s1| |] eqn:E1; cbn [rbind]; try discriminate. apply K_pop_until in E1.
  destruct (decisions s1) as [|d ds]; [discriminate|]. intros E; inversion E; subst; clear E. eapply (PT_map s1); [exact Hpop|reflexivity|]. eapply PT_eq; eassumption.
Qed.
Lemma P_pop_to n : forall (s s' : st) lvl, PT s -> pop_to ops n s lvl = Ok s' -> PT s'.
Proof.
  induction n as [|n IH]; intros s s' lvl H; cbn [pop_to]; destruct (lvl <? dlevel s); try discriminate; try (intros E; injection E as <-; exact H).
  destruct (pop ops s) as [s1| |] eqn:E1; cbn [rbind]; try discriminate. apply IH. eapply P_pop; eassumption.
Qed.
Lemma P_resolve (s s' : st) ls : PT s -> resolve ops s ls = Ok s' -> PT s'.
Proof.
  intros H. unfold resolve, analyze. destruct (get_reason_all s ls) as [pr| |]; cbn [rbind]; try discriminate.
  destruct (an_loop _ s _ pr) as [[[s1 a] p]| |] eqn:E1; cbn [rbind]; try discriminate. apply K_an_loop in E1.
  destruct (is_undef s1 p); cbn [guard rbind]; [|discriminate]. destruct (forallb _ _); cbn [guard rbind]; [|discriminate].
  unfold backjump. destruct (pop_to ops _ s1 _) as [s2| |] eqn:E2; cbn [rbind]; try discriminate. intros E. apply K_record in E.
  eapply PT_eq; [exact E|]. eapply P_pop_to; [|exact E2]. eapply PT_eq; eassumption.
Qed.
Lemma P_th_prop_all p : forall is (s s' : st) o, PT s -> th_prop_all ops s is p = Ok (s', o) -> PT s'.
Proof.
  induction is as [|i r IH]; intros s s' o H; cbn [th_prop_all]; [intros E; injection E as <- _; exact H|].
  unfold th_prop_at. destruct (nth_error (theories s) i) as [t|] eqn:Et; cbn [rbind]; [|discriminate].
  destruct (th_prop ops t (value s) p) as [[[t1 lm] cf]| |] eqn:Ep; cbn [rbind]; try discriminate.
  destruct (rfold record lm _) as [s1| |] eqn:E1; cbn [rbind]; try discriminate.
  assert (H1 : PT s1). { apply K_records in E1. eapply (PT_set s); [exact Et| |exact E1|exact H]. intros Ht. eapply Hprop; eassumption. }
  destruct cf; [intros E; injection E as <- _; exact H1|]. apply IH, H1.
Qed.
Lemma P_th_check_all n : forall (s s' : st) i o, PT s -> th_check_all ops s n i = Ok (s', o) -> PT s'.
Proof.
  induction n as [|n IH]; intros s s' i o H; cbn [th_check_all]; [intros E; injection E as <- _; exact H|].
  destruct (nth_error (theories s) i) as [t|] eqn:Et; [|intros E; injection E as <- _; exact H].
  destruct (th_check ops t (value s)) as [[t1 cf]| |] eqn:Ep; cbn [rbind]; try discriminate.
  assert (H1 : PT (set_theories (set_nth (theories s) i t1) s)) by (eapply (PT_set s); [exact Et|intros Ht; eapply Hcheck; eassumption|reflexivity|exact H]).
  destruct cf; [intros E; injection E as <- _; exact H1|]. apply IH, H1.
Qed.
Lemma P_tresolve (s s' : st) c : PT s -> theory_resolve ops s c = Ok s' -> PT s'.
Proof. intros H. unfold theory_resolve. intros E. do 2 apply guard_ok in E as [_ E]. eapply P_resolve; eassumption. Qed.
Lemma P_propagate fuel : forall (s s' : st) b, PT s -> propagate ops fuel s = Ok (s', b) -> PT s'.
Proof.
  induction fuel as [|n IH]; intros s s' b H; cbn [propagate]; [discriminate|].
  destruct (prop_q s) as [|p q].
  - destruct (th_check_all ops s _ 0) as [[s1 o]| |] eqn:E1; cbn [rbind]; try discriminate. pose proof (P_th_check_all _ _ _ _ _ H E1) as H1.
    destruct o as [c|]; [|intros E; injection E as <- _; exact H1]. destruct (root_level s1); [intros E; injection E as <- _; exact H1|].
    destruct (theory_resolve ops s1 c) as [s2| |] eqn:E2; cbn [rbind]; try discriminate. apply IH. eapply P_tresolve; eassumption.
  - set (s0 := set_watches (updl (watches s) p []) (set_prop_q q s)).
    destruct (prop_clauses s0 p (watches s p)) as [[s2 cf]| |] eqn:E1; cbn [rbind]; try discriminate. apply K_prop_clauses in E1.
    assert (H2 : PT s2) by (eapply PT_eq; [exact E1|exact H]).
    destruct cf as [c|].
    + set (s3 := set_prop_q [] s2). assert (H3 : PT s3) by exact H2. destruct (root_level s3); [intros E; injection E as <- _; exact H3|].
      destruct (resolve ops s3 (cls s3 c)) as [s4| |] eqn:E2; cbn [rbind]; try discriminate. apply IH. eapply P_resolve; eassumption.
    + destruct (th_prop_all ops s2 _ p) as [[s3 tcf]| |] eqn:E3; cbn [rbind]; try discriminate. pose proof (P_th_prop_all _ _ _ _ _ H2 E3) as H3.
      destruct tcf as [c|].
      * set (s4 := set_prop_q [] s3). assert (H4 : PT s4) by exact H3. destruct (root_level s4); [intros E; injection E as <- _; exact H4|].
        destruct (theory_resolve ops s4 c) as [s5| |] eqn:E5; cbn [rbind]; try discriminate. apply IH. eapply P_tresolve; eassumption.
      * apply IH. destruct (root_level s3); exact H3.
Qed.
Lemma P_assume fuel (s s' : st) p b : PT s -> assume ops fuel s p = Ok (s', b) -> PT s'.
Proof.
  intros H. unfold assume. intros E. do 2 apply guard_ok in E as [_ E].
  match type of E with (let (_, _) := enqueue ?x _ _ in _) = _ => set (s1 := x) in * end.
  assert (H1 : PT s1) by (eapply (PT_map s); [exact Hpush|reflexivity|exact H]).
  destruct (enqueue s1 p None) as [s2 e] eqn:E2. apply K_enqueue in E2. assert (H2 : PT s2) by (eapply PT_eq; eassumption).
  destruct e; [eapply P_propagate; eassumption|injection E as <- _; exact H2].
Qed.
Lemma P_next fuel (s s' : st) b : PT s -> next ops fuel s = Ok (s', b) -> PT s'.
Proof.
  intros H. unfold next. destruct (root_level s); [intros E; injection E as <- _; exact H|].
  destruct (pop ops s) as [s1| |] eqn:E1; cbn [rbind]; try discriminate. pose proof (P_pop _ _ H E1) as H1.
  destruct (map negl (decisions s)) as [|p r]; [discriminate|]. intros E. apply guard_ok in E as [_ E].
  destruct (record s1 (p :: r)) as [s2| |] eqn:E2; cbn [rbind] in E; try discriminate. apply K_record in E2. eapply P_propagate; [|exact E]. eapply PT_eq; eassumption.
Qed.
Lemma P_check_loop fuel rl : forall ls (s s' : st) b, PT s -> check_loop ops fuel s rl ls = Ok (s', b) -> PT s'.
Proof.
  induction ls as [|p r IH]; intros s s' b H; cbn [check_loop]; [intros E; injection E as <- _; exact H|].
  destruct (assume ops fuel s p) as [[s1 b1]| |] eqn:E1; cbn [rbind]; try discriminate. pose proof (P_assume _ _ _ _ _ H E1) as H1.
  destruct b1.
  - destruct (propagate ops fuel s1) as [[s2 b2]| |] eqn:E2; cbn [rbind]; try discriminate. pose proof (P_propagate _ _ _ _ H1 E2) as H2.
    destruct (_ || _); [intros E; injection E as <- _; exact H2|apply IH, H2].
  - cbn [rbind negb orb]. intros E; injection E as <- _; exact H1.
Qed.
Lemma P_check fuel (s s' : st) ls b : PT s -> check ops fuel s ls = Ok (s', b) -> PT s'.
Proof.
  intros H. unfold check. destruct (check_loop ops fuel s _ ls) as [[s1 b1]| |] eqn:E1; cbn [rbind]; try discriminate. pose proof (P_check_loop _ _ _ _ _ _ H E1) as H1.
  destruct b1; [intros E; apply guard_ok in E as [_ E]|intros E]; destruct (backjump ops s1 _) as [s2| |] eqn:E2; cbn [rbind] in E; try discriminate; inversion E; subst; eapply P_pop_to; [exact H1|exact E2|exact H1|exact E2].
Qed.
Lemma P_simplify fuel (s s' : st) b : PT s -> simplify_db ops fuel s = Ok (s', b) -> PT s'.
Proof.
  intros H. unfold simplify_db. intros E. apply guard_ok in E as [_ E].
  destruct (propagate ops fuel s) as [[s1 b1]| |] eqn:E1; cbn [rbind] in E; try discriminate. pose proof (P_propagate _ _ _ _ H E1) as H1.
  destruct b1; [|injection E as <- _; exact H1]. destruct (simp_loop _ s1 [] _ []) as [[s2 k] o] eqn:E2. apply K_simp_loop in E2.
  assert (Hd : forall out (x x' : st), rfold destroy out x = Ok x' -> theories x' = theories x).
  { clear. induction out as [|c r IH]; intros x x'; cbn [rfold]; [intros E; injection E as <-; reflexivity|].
    unfold destroy at 1. destruct (cls x c) as [|l0 [|l1 t]] eqn:Ec; cbn [rbind]; try discriminate. destruct (remove_first c _); cbn [rbind]; [|discriminate].
    destruct (remove_first c _); cbn [rbind]; [|discriminate]. intros E. apply IH in E. exact E. }
  destruct (rfold destroy o _) as [s3| |] eqn:E3; cbn [rbind] in E; try discriminate. apply Hd in E3. inversion E; subst. eapply PT_eq; [|exact H1]. cbn in *. congruence.
Qed.
Theorem P_step fuel (s s' : st) c r : PT s -> step (ops := ops) fuel s c = Ok (s', r) -> PT s'.
Proof.
  intros H. destruct c; cbn [step]; intros E.
  - destruct (new_var s) as [s1 v] eqn:E1. inversion E; subst. eapply PT_eq; [eapply K_nv, E1|exact H].
  - destruct (new_clause s ls) as [[s1 x]| |] eqn:E1; cbn [rbind] in E; inversion E; subst. eapply PT_eq; [eapply K_new_clause, E1|exact H].
  - destruct (propagate ops fuel s) as [[s1 x]| |] eqn:E1; cbn [rbind] in E; inversion E; subst. eapply P_propagate; eassumption.
  - destruct (assume ops fuel s p) as [[s1 x]| |] eqn:E1; cbn [rbind] in E; inversion E; subst. eapply P_assume; eassumption.
  - destruct (pop ops s) as [s1| |] eqn:E1; cbn [rbind] in E; inversion E; subst. eapply P_pop; eassumption.
  - destruct (check ops fuel s ls) as [[s1 x]| |] eqn:E1; cbn [rbind] in E; inversion E; subst. eapply P_check; eassumption.
  - destruct (next ops fuel s) as [[s1 x]| |] eqn:E1; cbn [rbind] in E; inversion E; subst. eapply P_next; eassumption.
  - destruct (simplify_db ops fuel s) as [[s1 x]| |] eqn:E1; cbn [rbind] in E; inversion E; subst. eapply P_simplify; eassumption.
  - destruct (new_eq s l r0) as [[s1 x]| |] eqn:E1; cbn [rbind] in E; inversion E; subst. eapply PT_eq; [eapply K_new_eq, E1|exact H].
  - destruct (new_conj s ls) as [[s1 x]| |] eqn:E1; cbn [rbind] in E; inversion E; subst. eapply PT_eq; [eapply K_new_conj, E1|exact H].
  - destruct (new_disj s ls) as [[s1 x]| |] eqn:E1; cbn [rbind] in E; inversion E; subst. eapply PT_eq; [eapply K_new_disj, E1|exact H].
  - destruct (new_at_most_one s ls) as [[s1 x]| |] eqn:E1; cbn [rbind] in E; inversion E; subst. eapply PT_eq; [eapply K_amo, E1|exact H].
  - destruct (new_exct_one s ls) as [[s1 x]| |] eqn:E1; cbn [rbind] in E; inversion E; subst. eapply PT_eq; [eapply K_exct, E1|exact H].
  - destruct (listen s v l) as [s1| |] eqn:E1; cbn [rbind] in E; inversion E; subst. eapply PT_eq; [|exact H]. unfold listen in E1. apply guard_ok in E1 as [_ E1].
    destruct (is_undef s (mk_lit v true)); [destruct (memn l (listening s v))|]; inversion E1; reflexivity.
Qed.
End Pres.
