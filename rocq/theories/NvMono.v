(** No call removes a variable. *)
From Verif Require Import Base Keys Sat SatLoop Run Listen.

Section Rel.
Context {T : Type} (ops : theory_ops T).
Notation st := (st T).
Notation record := (Sat.record ops).

Local Ltac inv E := inversion E; subst; try reflexivity.
Lemma N_enqueue (s s' : st) p c b : enqueue s p c = (s', b) -> nv s' = nv s.
Proof. unfold enqueue. destruct (value s p); intros E; inv E. Qed.
Lemma N_new_constr (s s' : st) ls c : new_constr s ls = Ok (s', c) -> nv s' = nv s.
Proof. unfold new_constr. destruct ls as [|l0 [|l1 r]]; try discriminate. intros E; inv E. Qed.
Lemma N_new_clause (s s' : st) ls b : new_clause s ls = Ok (s', b) -> nv s' = nv s.
Proof.
  unfold new_clause. intros E. apply guard_ok in E as [_ E]. apply guard_ok in E as [_ E].
  destruct (clause_filter _ _ _) as [[|p [|p' r]]|]; try (inv E; fail).
  destruct (enqueue s p None) as [s1 b1] eqn:Ee. inversion E; subst. eapply N_enqueue, Ee.
Qed.
Lemma N_new_clauses : forall cs (s s' : st) b, new_clauses s cs = Ok (s', b) -> nv s' = nv s.
Proof.
  induction cs as [|c r IH]; intros s s' b; cbn [new_clauses]; [intros E; inv E|].
  destruct (new_clause s c) as [[s1 b1]| |] eqn:E; cbn [rbind]; try discriminate. rewrite <- (N_new_clause _ _ _ _ E).
  destruct b1; [apply IH|intros E'; inv E'].
Qed.
Lemma N_add_expr (s : st) k p : nv (add_expr s k p) = nv s.
Proof. unfold add_expr. destruct (find_expr s k); reflexivity. Qed.
Lemma N_reify (s s' : st) cs k p q : reify s cs k p = Ok (s', q) -> nv s' = nv s.
Proof.
  unfold reify. destruct (new_clauses s cs) as [[s1 b1]| |] eqn:E; cbn [rbind]; try discriminate. rewrite <- (N_new_clauses _ _ _ _ E).
  destruct b1; intros E'; inversion E'; subst; [apply N_add_expr|reflexivity].
Qed.
Lemma N_nv (s s1 : st) v : new_var s = (s1, v) -> nv s <= nv s1.
Proof. unfold new_var. intros E. injection E as <- _. cbn. lia. Qed.
Lemma N_new_vars n : forall (s : st), nv s <= nv (fst (new_vars s n)).
Proof.
  induction n as [|n IH]; intros s; cbn [new_vars]; [apply le_n|]. destruct (new_var s) as [s1 v] eqn:E. specialize (IH s1). apply N_nv in E. destruct (new_vars s1 n) as [s2 r]. cbn [fst] in *. lia.
Qed.
Local Ltac same E := inversion E; subst; lia.
Lemma N_new_eq (s s' : st) l r p : new_eq s l r = Ok (s', p) -> nv s <= nv s'.
Proof.
  unfold new_eq. intros E. apply guard_ok in E as [_ E]. apply guard_ok in E as [_ E].
  destruct (lit_eqb l r); [same E|]. destruct (value s l), (value s r); try (same E; fail).
  destruct (find_expr s (key_eq l r)); [same E|]. destruct (new_var s) as [s1 v] eqn:E1. apply N_nv in E1. apply N_reify in E. lia.
Qed.
Lemma N_new_conj (s s' : st) ls p : new_conj s ls = Ok (s', p) -> nv s <= nv s'.
Proof.
  unfold new_conj. intros E. apply guard_ok in E as [_ E]. apply guard_ok in E as [_ E].
  destruct (conj_filter _ _ _) as [[|x [|y k]]|]; try (same E; fail).
  destruct (find_expr s _); [same E|]. destruct (new_var s) as [s1 v] eqn:E1. apply N_nv in E1. apply N_reify in E. lia.
Qed.
Lemma N_new_disj (s s' : st) ls p : new_disj s ls = Ok (s', p) -> nv s <= nv s'.
Proof.
  unfold new_disj. intros E. apply guard_ok in E as [_ E]. apply guard_ok in E as [_ E].
  destruct (clause_filter _ _ _) as [[|x [|y k]]|]; try (same E; fail).
  destruct (find_expr s _); [same E|]. destruct (new_var s) as [s1 v] eqn:E1. apply N_nv in E1. apply N_reify in E. lia.
Qed.
Lemma N_amo fuel : forall (s s' : st) ls p, new_amo_f fuel s ls = Ok (s', p) -> nv s <= nv s'.
Proof.
  induction fuel as [|fuel IH]; intros s s' ls p; cbn [new_amo_f]; [discriminate|]. intros E. apply guard_ok in E as [_ E]. apply guard_ok in E as [_ E].
  destruct (amo_filter _ _ _) as [[|x [|y k]]|]; try (same E; fail).
  destruct (find_expr s _); [same E|]. destruct (_ <? 4).
  - destruct (new_var s) as [s1 v] eqn:E1. apply N_nv in E1. apply N_reify in E. lia.
  - pose proof (N_new_vars (ceil_sqrt (length (x :: y :: k))) s) as H1. destruct (new_vars s _) as [s1 u]. cbn [fst] in H1.
    match type of E with context [new_vars s1 ?n] => pose proof (N_new_vars n s1) as H2; destruct (new_vars s1 n) as [s2 v] end. cbn [fst] in H2.
    destruct (new_amo_f fuel s2 u) as [[s3 cu]| |] eqn:E3; cbn [rbind] in E; try discriminate. pose proof (IH _ _ _ _ E3) as H3.
    destruct (new_amo_f fuel s3 v) as [[s4 cv]| |] eqn:E4; cbn [rbind] in E; try discriminate. pose proof (IH _ _ _ _ E4) as H4.
    destruct (new_conj s4 [cu; cv]) as [[s5 ctr]| |] eqn:E5; cbn [rbind] in E; try discriminate. pose proof (N_new_conj _ _ _ _ E5) as H5.
    pose proof (N_reify _ _ _ _ _ _ E). lia.
Qed.
Lemma N_exct (s s' : st) ls p : new_exct_one s ls = Ok (s', p) -> nv s <= nv s'.
Proof.
  unfold new_exct_one. intros E. apply guard_ok in E as [_ E]. apply guard_ok in E as [_ E].
  destruct (amo_filter _ _ _) as [[|x k]|]; try (same E; fail).
  destruct (match k with [] => lsgn x | _ => false end); [same E|].
  destruct (find_expr s _); [same E|].
  destruct (new_at_most_one s (x :: k)) as [[s1 c]| |] eqn:E1; cbn [rbind] in E; try discriminate. pose proof (N_amo _ _ _ _ _ E1) as H1.
  destruct (new_clause s1 _) as [[s2 b]| |] eqn:E2; cbn [rbind] in E; try discriminate. pose proof (N_new_clause _ _ _ _ E2) as H2.
  destruct b; inversion E; subst; [rewrite N_add_expr|]; lia.
Qed.
Lemma N_clause_propagate (s s' : st) c p b : clause_propagate s c p = Ok (s', b) -> nv s' = nv s.
Proof.
  unfold clause_propagate. destruct (swap_watch p (cls s c)) as [|x0 [|x1 r]] eqn:Es; try discriminate.
  destruct (is_true s x0); [intros E; inv E|]. destruct (negb (is_false s x1)); [intros E; inv E|].
  destruct (find_split _ r) as [[[pre l] post]|] eqn:Ef; [intros E; inv E|]. intros E. injection E as E. apply (N_enqueue _ _ _ _ _ E).
Qed.
Lemma N_prop_clauses p : forall tmp (s s' : st) o, prop_clauses s p tmp = Ok (s', o) -> nv s' = nv s.
Proof.
  induction tmp as [|c r IH]; intros s s' o; cbn [prop_clauses]; [intros E; inv E|].
  destruct (clause_propagate s c p) as [[s1 b]| |] eqn:E1; cbn [rbind]; try discriminate. rewrite <- (N_clause_propagate _ _ _ _ _ E1).
  destruct b; [apply IH|]. intros E; inv E.
Qed.
Lemma N_pop_one (s s' : st) : pop_one s = Ok s' -> nv s' = nv s.
Proof. unfold pop_one. destruct (trail s); [discriminate|]. intros E; inv E. Qed.
Lemma N_an_select fuel : forall (s s' : st) seen pr p pr', an_select fuel s seen pr = Ok (s', p, pr') -> nv s' = nv s.
Proof.
  induction fuel as [|n IH]; intros s s' seen pr p pr'; cbn [an_select]; [discriminate|].
  destruct (trail s) as [|x tr] eqn:Et; [discriminate|]. intros E. apply guard_ok in E as [_ E].
  match type of E with rbind ?m _ = _ => destruct m as [pr1| |]; cbn [rbind] in E; try discriminate end.
  destruct (pop_one s) as [s1| |] eqn:E1; cbn [rbind] in E; try discriminate. rewrite <- (N_pop_one _ _ E1).
  destruct (memn (lvar x) seen); [inv E|]. eapply IH, E.
Qed.
Lemma N_an_loop fuel : forall (s s' : st) a a' pr p, an_loop fuel s a pr = Ok (s', a', p) -> nv s' = nv s.
Proof.
  induction fuel as [|n IH]; intros s s' a a' pr p; cbn [an_loop]; [discriminate|].
  destruct (rfold (an_visit s) pr a) as [a1| |]; cbn [rbind]; try discriminate.
  destruct (an_select _ s _ pr) as [[[s1 p1] pr1]| |] eqn:E1; cbn [rbind]; try discriminate. rewrite <- (N_an_select _ _ _ _ _ _ _ E1).
  cbn [an_counter]. destruct (0 <? _)%Z; [apply IH|intros E; inv E].
Qed.
Lemma N_pop_until fuel : forall (s s' : st) n, pop_until fuel s n = Ok s' -> nv s' = nv s.
Proof.
  induction fuel as [|k IH]; intros s s' n; cbn [pop_until]; [intros E; inv E|].
  destruct (Nat.ltb n (length (trail s))); [|intros E; inv E].
  destruct (pop_one s) as [s1| |] eqn:E1; cbn [rbind]; try discriminate. rewrite <- (N_pop_one _ _ E1). apply IH.
Qed.
Lemma N_pop (s s' : st) : pop ops s = Ok s' -> nv s' = nv s.
Proof.
  unfold pop. destruct (trail_lim s) as [|n tl] eqn:El; [discriminate|].
  destruct (pop_until (length (trail s)) s n) as [s1| |] eqn:E1; cbn [rbind]; try discriminate. apply N_pop_until in E1.
  destruct (decisions s1) as [|d ds]; [discriminate|]. intros E; inversion E; subst; clear E. cbn. congruence.
Qed.
Lemma N_pop_to n : forall (s s' : st) lvl, pop_to ops n s lvl = Ok s' -> nv s' = nv s.
Proof.
  induction n as [|n IH]; intros s s' lvl; cbn [pop_to]; destruct (lvl <? dlevel s); try discriminate; try (intros E; inv E; fail).
  destruct (pop ops s) as [s1| |] eqn:E1; cbn [rbind]; try discriminate. rewrite <- (N_pop _ _ E1). apply (IH s1 s' lvl).
Qed.
Lemma N_record (s s' : st) ls : record s ls = Ok s' -> nv s' = nv s.
Proof.
  unfold Sat.record. destruct ls as [|l0 tl]; [discriminate|]. intros E. do 5 apply guard_ok in E as [_ E].
  destruct tl as [|l1 tl].
  - apply guard_ok in E as [_ E]. destruct (enqueue s l0 None) as [s1 e] eqn:Ee. apply guard_ok in E as [_ E]. inversion E; subst. eapply N_enqueue, Ee.
  - destruct (new_constr s _) as [[s1 c]| |] eqn:E1; cbn [rbind] in E; try discriminate.
    destruct (enqueue s1 l0 (Some c)) as [s2 e] eqn:Ee. apply guard_ok in E as [_ E]. inversion E; subst. cbn. rewrite (N_enqueue _ _ _ _ _ Ee). eapply N_new_constr, E1.
Qed.
Lemma N_resolve (s s' : st) ls : resolve ops s ls = Ok s' -> nv s' = nv s.
Proof.
  unfold resolve, analyze. destruct (get_reason_all s ls) as [pr| |]; cbn [rbind]; try discriminate.
  destruct (an_loop _ s _ pr) as [[[s1 a] p]| |] eqn:E1; cbn [rbind]; try discriminate. apply N_an_loop in E1.
  destruct (is_undef s1 p); cbn [guard rbind]; [|discriminate]. destruct (forallb _ _); cbn [guard rbind]; [|discriminate].
  unfold backjump. destruct (pop_to ops _ s1 _) as [s2| |] eqn:E2; cbn [rbind]; try discriminate. intros E. apply N_record in E. apply N_pop_to in E2.
  congruence.
Qed.
Lemma N_records : forall lm (s s' : st), rfold record lm s = Ok s' -> nv s' = nv s.
Proof.
  induction lm as [|c r IH]; intros s s'; cbn [rfold]; [intros E; inv E|].
  destruct (record s c) as [s1| |] eqn:E1; cbn [rbind]; try discriminate. rewrite <- (N_record _ _ _ E1). apply IH.
Qed.
Lemma N_th_prop_all p : forall is (s s' : st) o, th_prop_all ops s is p = Ok (s', o) -> nv s' = nv s.
Proof.
  induction is as [|i r IH]; intros s s' o; cbn [th_prop_all]; [intros E; inv E|].
  unfold th_prop_at. destruct (nth_error (theories s) i) as [t|] eqn:Et; cbn [rbind]; [|discriminate].
  destruct (th_prop ops t (value s) p) as [[[t1 lm] cf]| |] eqn:Ep; cbn [rbind]; try discriminate.
  destruct (rfold record lm _) as [s1| |] eqn:E1; cbn [rbind]; try discriminate.
  assert (H1 : nv s1 = nv s). { apply N_records in E1. exact E1. }
  destruct cf; [intros E; inversion E; subst; exact H1|]. rewrite <- H1. apply IH.
Qed.
Lemma N_th_check_all n : forall (s s' : st) i o, th_check_all ops s n i = Ok (s', o) -> nv s' = nv s.
Proof.
  induction n as [|n IH]; intros s s' i o; cbn [th_check_all]; [intros E; inv E|].
  destruct (nth_error (theories s) i) as [t|] eqn:Et; [|intros E; inv E].
  destruct (th_check ops t (value s)) as [[t1 cf]| |] eqn:Ep; cbn [rbind]; try discriminate.
  change (nv s) with (nv (set_theories (set_nth (theories s) i t1) s)).
  destruct cf; [intros E; inversion E; subst; reflexivity|]. apply IH.
Qed.
Lemma N_tresolve (s s' : st) c : theory_resolve ops s c = Ok s' -> nv s' = nv s.
Proof. unfold theory_resolve. intros E. do 2 apply guard_ok in E as [_ E]. eapply N_resolve, E. Qed.
Lemma N_propagate fuel : forall (s s' : st) b, propagate ops fuel s = Ok (s', b) -> nv s' = nv s.
Proof.
  induction fuel as [|n IH]; intros s s' b; cbn [propagate]; [discriminate|].
  destruct (prop_q s) as [|p q].
  - destruct (th_check_all ops s _ 0) as [[s1 o]| |] eqn:E1; cbn [rbind]; try discriminate. pose proof (N_th_check_all _ _ _ _ _ E1) as H1. rewrite <- H1.
    destruct o as [c|]; [|intros E; inv E]. destruct (root_level s1) eqn:Er; [intros E; inv E|].
    destruct (theory_resolve ops s1 c) as [s2| |] eqn:E2; cbn [rbind]; try discriminate. rewrite <- (N_tresolve _ _ _ E2). apply IH.
  - set (s0 := set_watches (updl (watches s) p []) (set_prop_q q s)).
    destruct (prop_clauses s0 p (watches s p)) as [[s2 cf]| |] eqn:E1; cbn [rbind]; try discriminate. apply N_prop_clauses in E1.
    assert (H2 : nv s2 = nv s) by (rewrite E1; reflexivity). rewrite <- H2.
    destruct cf as [c|].
    + set (s3 := set_prop_q [] s2). change (nv s2) with (nv s3). destruct (root_level s3) eqn:Er; [intros E; inv E|].
      destruct (resolve ops s3 (cls s3 c)) as [s4| |] eqn:E2; cbn [rbind]; try discriminate. rewrite <- (N_resolve _ _ _ E2). apply IH.
    + destruct (th_prop_all ops s2 _ p) as [[s3 tcf]| |] eqn:E3; cbn [rbind]; try discriminate. rewrite <- (N_th_prop_all _ _ _ _ _ E3).
      destruct tcf as [c|].
      * set (s4 := set_prop_q [] s3). change (nv s3) with (nv s4). destruct (root_level s4) eqn:Er; [intros E; inv E|].
        destruct (theory_resolve ops s4 c) as [s5| |] eqn:E5; cbn [rbind]; try discriminate. rewrite <- (N_tresolve _ _ _ E5). apply IH.
      * intros E. apply IH in E. rewrite E. destruct (root_level s3); reflexivity.
Qed.
Lemma N_assume fuel (s s' : st) p b : assume ops fuel s p = Ok (s', b) -> nv s' = nv s.
Proof.
  unfold assume. intros E. do 2 apply guard_ok in E as [_ E].
  match type of E with (let (_, _) := enqueue ?x _ _ in _) = _ => set (s1 := x) in * end.
  assert (H1 : nv s1 = nv s) by (reflexivity).
  destruct (enqueue s1 p None) as [s2 e] eqn:E2. apply N_enqueue in E2. assert (H2 : nv s2 = nv s) by (congruence).
  destruct e; [apply N_propagate in E; congruence|inversion E; subst; exact H2].
Qed.
Lemma N_next fuel (s s' : st) b : next ops fuel s = Ok (s', b) -> nv s' = nv s.
Proof.
  unfold next. destruct (root_level s); [intros E; inv E|].
  destruct (pop ops s) as [s1| |] eqn:E1; cbn [rbind]; try discriminate. apply N_pop in E1.
  destruct (map negl (decisions s)) as [|p r]; [discriminate|]. intros E. apply guard_ok in E as [_ E].
  destruct (record s1 (p :: r)) as [s2| |] eqn:E2; cbn [rbind] in E; try discriminate. apply N_record in E2. apply N_propagate in E. congruence.
Qed.
Lemma N_check_loop fuel rl : forall ls (s s' : st) b, check_loop ops fuel s rl ls = Ok (s', b) -> nv s' = nv s.
Proof.
  induction ls as [|p r IH]; intros s s' b; cbn [check_loop]; [intros E; inv E|].
  destruct (assume ops fuel s p) as [[s1 b1]| |] eqn:E1; cbn [rbind]; try discriminate. rewrite <- (N_assume _ _ _ _ _ E1).
  destruct b1.
  - destruct (propagate ops fuel s1) as [[s2 b2]| |] eqn:E2; cbn [rbind]; try discriminate. rewrite <- (N_propagate _ _ _ _ E2).
    destruct (_ || _); [intros E; inv E|apply IH].
  - cbn [rbind negb orb]. intros E; inv E.
Qed.
Lemma N_check fuel (s s' : st) ls b : check ops fuel s ls = Ok (s', b) -> nv s' = nv s.
Proof.
  unfold check. destruct (check_loop ops fuel s _ ls) as [[s1 b1]| |] eqn:E1; cbn [rbind]; try discriminate. rewrite <- (N_check_loop _ _ _ _ _ _ E1).
  destruct b1; [intros E; apply guard_ok in E as [_ E]|intros E]; destruct (backjump ops s1 _) as [s2| |] eqn:E2; cbn [rbind] in E; try discriminate; inversion E; subst; eapply N_pop_to, E2.
Qed.
Lemma N_simp_loop n : forall (s s' : st) kept mid out k o, simp_loop n s kept mid out = (s', k, o) -> nv s' = nv s.
Proof.
  induction n as [|n IH]; intros s s' kept mid out k o; cbn [simp_loop]; [intros E; inv E|].
  destruct mid as [|c r]; [intros E; inv E|].
  assert (H1 : nv (fst (clause_simplify s c)) = nv s) by (unfold clause_simplify; destruct (existsb _ _); reflexivity).
  destruct (clause_simplify s c) as [s1 b]. cbn [fst] in H1. rewrite <- H1. destruct b; [destruct r|]; apply IH.
Qed.
Lemma N_simplify fuel (s s' : st) b : simplify_db ops fuel s = Ok (s', b) -> nv s' = nv s.
Proof.
  unfold simplify_db. intros E. apply guard_ok in E as [_ E].
  destruct (propagate ops fuel s) as [[s1 b1]| |] eqn:E1; cbn [rbind] in E; try discriminate. rewrite <- (N_propagate _ _ _ _ E1).
  destruct b1; [|inv E]. destruct (simp_loop _ s1 [] _ []) as [[s2 k] o] eqn:E2. apply N_simp_loop in E2.
  assert (Hd : forall out (x x' : st), rfold destroy out x = Ok x' -> nv x' = nv x).
  { clear. induction out as [|c r IH]; intros x x'; cbn [rfold]; [intros E; inv E|].
    unfold destroy at 1. destruct (cls x c) as [|l0 [|l1 t]] eqn:Ec; cbn [rbind]; try discriminate. destruct (remove_first c _); cbn [rbind]; [|discriminate].
    destruct (remove_first c _); cbn [rbind]; [|discriminate]. intros E. apply IH in E. exact E. }
  destruct (rfold destroy o _) as [s3| |] eqn:E3; cbn [rbind] in E; try discriminate. apply Hd in E3. inversion E; subst. cbn in *. congruence.
Qed.
Theorem nv_step fuel (s s' : st) c r : step (ops := ops) fuel s c = Ok (s', r) -> nv s <= nv s'.
Proof.
  assert (Q : forall a b : nat, b = a -> a <= b) by lia.
  destruct c; cbn [step]; intros E.
  - destruct (new_var s) as [s1 v] eqn:E1. inversion E; subst. eapply N_nv, E1.
  - destruct (new_clause s ls) as [[s1 x]| |] eqn:E1; cbn [rbind] in E; inversion E; subst. apply Q; eapply N_new_clause; eassumption.
  - destruct (propagate ops fuel s) as [[s1 x]| |] eqn:E1; cbn [rbind] in E; inversion E; subst. apply Q; eapply N_propagate; eassumption.
  - destruct (assume ops fuel s p) as [[s1 x]| |] eqn:E1; cbn [rbind] in E; inversion E; subst. apply Q; eapply N_assume; eassumption.
  - destruct (pop ops s) as [s1| |] eqn:E1; cbn [rbind] in E; inversion E; subst. apply Q; eapply N_pop; eassumption.
  - destruct (check ops fuel s ls) as [[s1 x]| |] eqn:E1; cbn [rbind] in E; inversion E; subst. apply Q; eapply N_check; eassumption.
  - destruct (next ops fuel s) as [[s1 x]| |] eqn:E1; cbn [rbind] in E; inversion E; subst. apply Q; eapply N_next; eassumption.
  - destruct (simplify_db ops fuel s) as [[s1 x]| |] eqn:E1; cbn [rbind] in E; inversion E; subst. apply Q; eapply N_simplify; eassumption.
  - destruct (new_eq s l r0) as [[s1 x]| |] eqn:E1; cbn [rbind] in E; inversion E; subst. eapply N_new_eq; eassumption.
  - destruct (new_conj s ls) as [[s1 x]| |] eqn:E1; cbn [rbind] in E; inversion E; subst. eapply N_new_conj; eassumption.
  - destruct (new_disj s ls) as [[s1 x]| |] eqn:E1; cbn [rbind] in E; inversion E; subst. eapply N_new_disj; eassumption.
  - destruct (new_at_most_one s ls) as [[s1 x]| |] eqn:E1; cbn [rbind] in E; inversion E; subst. eapply N_amo; eassumption.
  - destruct (new_exct_one s ls) as [[s1 x]| |] eqn:E1; cbn [rbind] in E; inversion E; subst. eapply N_exct; eassumption.
  - destruct (listen s v l) as [s1| |] eqn:E1; cbn [rbind] in E; inversion E; subst. unfold listen in E1. apply guard_ok in E1 as [_ E1].
    destruct (is_undef s (mk_lit v true)); [destruct (memn l (listening s v))|]; inversion E1; apply le_n.
Qed.
End Rel.
