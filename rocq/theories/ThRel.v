(** What the operations of the theories leave unchanged is left unchanged by every call. *)
From Verif Require Import Base Keys Sat SatLoop Run Listen.

Section Rel.
Context {T A : Type} (ops : theory_ops T) (f : T -> A).
Notation st := (st T).
Notation record := (Sat.record ops).
Context (Hprop : forall t val p t' ls cf, th_prop ops t val p = Ok (t', ls, cf) -> f t' = f t)
  (Hcheck : forall t val t' cf, th_check ops t val = Ok (t', cf) -> f t' = f t)
  (Hpush : forall t, f (th_push ops t) = f t) (Hpop : forall t, f (th_pop ops t) = f t).
Definition TH (s : st) : list A := map f (theories s).

Local Ltac inv E := inversion E; subst; try reflexivity.
Lemma K_enqueue (s s' : st) p c b : enqueue s p c = (s', b) -> theories s' = theories s.
Proof. unfold enqueue. destruct (value s p); intros E; inv E. Qed.
Lemma K_new_constr (s s' : st) ls c : new_constr s ls = Ok (s', c) -> theories s' = theories s.
Proof. unfold new_constr. destruct ls as [|l0 [|l1 r]]; try discriminate. intros E; inv E. Qed.
Lemma K_new_clause (s s' : st) ls b : new_clause s ls = Ok (s', b) -> theories s' = theories s.
Proof.
  unfold new_clause. intros E. apply guard_ok in E as [_ E]. apply guard_ok in E as [_ E].
  destruct (clause_filter _ _ _) as [[|p [|p' r]]|]; try (inv E; fail).
  destruct (enqueue s p None) as [s1 b1] eqn:Ee. inversion E; subst. eapply K_enqueue, Ee.
Qed.
Lemma K_new_clauses : forall cs (s s' : st) b, new_clauses s cs = Ok (s', b) -> theories s' = theories s.
Proof.
  induction cs as [|c r IH]; intros s s' b; cbn [new_clauses]; [intros E; inv E|].
  destruct (new_clause s c) as [[s1 b1]| |] eqn:E; cbn [rbind]; try discriminate. rewrite <- (K_new_clause _ _ _ _ E).
  destruct b1; [apply IH|intros E'; inv E'].
Qed.
Lemma K_add_expr (s : st) k p : theories (add_expr s k p) = theories s.
Proof. unfold add_expr. destruct (find_expr s k); reflexivity. Qed.
Lemma K_reify (s s' : st) cs k p q : reify s cs k p = Ok (s', q) -> theories s' = theories s.
Proof.
  unfold reify. destruct (new_clauses s cs) as [[s1 b1]| |] eqn:E; cbn [rbind]; try discriminate. rewrite <- (K_new_clauses _ _ _ _ E).
  destruct b1; intros E'; inversion E'; subst; [apply K_add_expr|reflexivity].
Qed.
Lemma K_new_vars n : forall (s : st), theories (fst (new_vars s n)) = theories s.
Proof.
  induction n as [|n IH]; intros s; cbn [new_vars]; [reflexivity|]. destruct (new_var s) as [s1 v] eqn:E. specialize (IH s1).
  assert (E1 : theories s1 = theories s) by (unfold new_var in E; inv E). destruct (new_vars s1 n) as [s2 r]. cbn [fst] in *. congruence.
Qed.
Lemma K_nv (s s1 : st) v : new_var s = (s1, v) -> theories s1 = theories s.
Proof. unfold new_var. intros E; inv E. Qed.
Lemma K_new_eq (s s' : st) l r p : new_eq s l r = Ok (s', p) -> theories s' = theories s.
Proof.
  unfold new_eq. intros E. apply guard_ok in E as [_ E]. apply guard_ok in E as [_ E].
  destruct (lit_eqb l r); [inv E|]. destruct (value s l), (value s r); try (inv E; fail).
  destruct (find_expr s (key_eq l r)); [inv E|]. destruct (new_var s) as [s1 v] eqn:E1. rewrite <- (K_nv _ _ _ E1). eapply K_reify, E.
Qed.
Lemma K_new_conj (s s' : st) ls p : new_conj s ls = Ok (s', p) -> theories s' = theories s.
Proof.
  unfold new_conj. intros E. apply guard_ok in E as [_ E]. apply guard_ok in E as [_ E].
  destruct (conj_filter _ _ _) as [[|x [|y k]]|]; try (inv E; fail).
  destruct (find_expr s _); [inv E|]. destruct (new_var s) as [s1 v] eqn:E1. rewrite <- (K_nv _ _ _ E1). eapply K_reify, E.
Qed.
Lemma K_new_disj (s s' : st) ls p : new_disj s ls = Ok (s', p) -> theories s' = theories s.
Proof.
  unfold new_disj. intros E. apply guard_ok in E as [_ E]. apply guard_ok in E as [_ E].
  destruct (clause_filter _ _ _) as [[|x [|y k]]|]; try (inv E; fail).
  destruct (find_expr s _); [inv E|]. destruct (new_var s) as [s1 v] eqn:E1. rewrite <- (K_nv _ _ _ E1). eapply K_reify, E.
Qed.
Lemma K_amo fuel : forall (s s' : st) ls p, new_amo_f fuel s ls = Ok (s', p) -> theories s' = theories s.
Proof.
  induction fuel as [|fuel IH]; intros s s' ls p; cbn [new_amo_f]; [discriminate|]. intros E. apply guard_ok in E as [_ E]. apply guard_ok in E as [_ E].
  destruct (amo_filter _ _ _) as [[|x [|y k]]|]; try (inv E; fail).
  destruct (find_expr s _); [inv E|]. destruct (_ <? 4).
  - destruct (new_var s) as [s1 v] eqn:E1. rewrite <- (K_nv _ _ _ E1). eapply K_reify, E.
  - pose proof (K_new_vars (ceil_sqrt (length (x :: y :: k))) s) as H1. destruct (new_vars s _) as [s1 u]. cbn [fst] in H1.
    match type of E with context [new_vars s1 ?n] => pose proof (K_new_vars n s1) as H2; destruct (new_vars s1 n) as [s2 v] end. cbn [fst] in H2.
    destruct (new_amo_f fuel s2 u) as [[s3 cu]| |] eqn:E3; cbn [rbind] in E; try discriminate. pose proof (IH _ _ _ _ E3) as H3.
    destruct (new_amo_f fuel s3 v) as [[s4 cv]| |] eqn:E4; cbn [rbind] in E; try discriminate. pose proof (IH _ _ _ _ E4) as H4.
    destruct (new_conj s4 [cu; cv]) as [[s5 ctr]| |] eqn:E5; cbn [rbind] in E; try discriminate. pose proof (K_new_conj _ _ _ _ E5) as H5.
    pose proof (K_reify _ _ _ _ _ _ E). congruence.
Qed.
Lemma K_exct (s s' : st) ls p : new_exct_one s ls = Ok (s', p) -> theories s' = theories s.
Proof.
  unfold new_exct_one. intros E. apply guard_ok in E as [_ E]. apply guard_ok in E as [_ E].
  destruct (amo_filter _ _ _) as [[|x k]|]; try (inv E; fail).
  destruct (match k with [] => lsgn x | _ => false end); [inv E|].
  destruct (find_expr s _); [inv E|].
  destruct (new_at_most_one s (x :: k)) as [[s1 c]| |] eqn:E1; cbn [rbind] in E; try discriminate. pose proof (K_amo _ _ _ _ _ E1) as H1.
  destruct (new_clause s1 _) as [[s2 b]| |] eqn:E2; cbn [rbind] in E; try discriminate. pose proof (K_new_clause _ _ _ _ E2) as H2.
  destruct b; inversion E; subst; [rewrite K_add_expr|]; congruence.
Qed.
Lemma K_clause_propagate (s s' : st) c p b : clause_propagate s c p = Ok (s', b) -> theories s' = theories s.
Proof.
  unfold clause_propagate. destruct (swap_watch p (cls s c)) as [|x0 [|x1 r]] eqn:Es; try discriminate.
  destruct (is_true s x0); [intros E; inv E|]. destruct (negb (is_false s x1)); [intros E; inv E|].
  destruct (find_split _ r) as [[[pre l] post]|] eqn:Ef; [intros E; inv E|]. intros E. injection E as E. apply (K_enqueue _ _ _ _ _ E).
Qed.
Lemma K_prop_clauses p : forall tmp (s s' : st) o, prop_clauses s p tmp = Ok (s', o) -> theories s' = theories s.
Proof.
  induction tmp as [|c r IH]; intros s s' o; cbn [prop_clauses]; [intros E; inv E|].
  destruct (clause_propagate s c p) as [[s1 b]| |] eqn:E1; cbn [rbind]; try discriminate. rewrite <- (K_clause_propagate _ _ _ _ _ E1).
  destruct b; [apply IH|]. intros E; inv E.
Qed.
Lemma K_pop_one (s s' : st) : pop_one s = Ok s' -> theories s' = theories s.
Proof. unfold pop_one. destruct (trail s); [discriminate|]. intros E; inv E. Qed.
Lemma K_an_select fuel : forall (s s' : st) seen pr p pr', an_select fuel s seen pr = Ok (s', p, pr') -> theories s' = theories s.
Proof.
  induction fuel as [|n IH]; intros s s' seen pr p pr'; cbn [an_select]; [discriminate|].
  destruct (trail s) as [|x tr] eqn:Et; [discriminate|]. intros E. apply guard_ok in E as [_ E].
  match type of E with rbind ?m _ = _ => destruct m as [pr1| |]; cbn [rbind] in E; try discriminate end.
  destruct (pop_one s) as [s1| |] eqn:E1; cbn [rbind] in E; try discriminate. rewrite <- (K_pop_one _ _ E1).
  destruct (memn (lvar x) seen); [inv E|]. eapply IH, E.
Qed.
Lemma K_an_loop fuel : forall (s s' : st) a a' pr p, an_loop fuel s a pr = Ok (s', a', p) -> theories s' = theories s.
Proof.
  induction fuel as [|n IH]; intros s s' a a' pr p; cbn [an_loop]; [discriminate|].
  destruct (rfold (an_visit s) pr a) as [a1| |]; cbn [rbind]; try discriminate.
  destruct (an_select _ s _ pr) as [[[s1 p1] pr1]| |] eqn:E1; cbn [rbind]; try discriminate. rewrite <- (K_an_select _ _ _ _ _ _ _ E1).
  cbn [an_counter]. destruct (0 <? _)%Z; [apply IH|intros E; inv E].
Qed.
Lemma K_pop_until fuel : forall (s s' : st) n, pop_until fuel s n = Ok s' -> theories s' = theories s.
Proof.
  induction fuel as [|k IH]; intros s s' n; cbn [pop_until]; [intros E; inv E|].
  destruct (Nat.ltb n (length (trail s))); [|intros E; inv E].
  destruct (pop_one s) as [s1| |] eqn:E1; cbn [rbind]; try discriminate. rewrite <- (K_pop_one _ _ E1). apply IH.
Qed.
Lemma map_th (g : T -> T) l : (forall t, f (g t) = f t) -> map f (map g l) = map f l.
Proof. intros H. rewrite map_map. apply map_ext, H. Qed.
Lemma K_pop (s s' : st) : pop ops s = Ok s' -> TH s' = TH s.
Proof.
  unfold pop. destruct (trail_lim s) as [|n tl] eqn:El; [discriminate|].
  destruct (pop_until (length (trail s)) s n) as [s1| |] eqn:E1; cbn [rbind]; try discriminate. apply K_pop_until in E1.
  destruct (decisions s1) as [|d ds]; [discriminate|]. intros E; inversion E; subst; clear E. unfold TH; cbn. rewrite map_th by exact Hpop. congruence.
Qed.
Lemma K_pop_to n : forall (s s' : st) lvl, pop_to ops n s lvl = Ok s' -> TH s' = TH s.
Proof.
  induction n as [|n IH]; intros s s' lvl; cbn [pop_to]; destruct (lvl <? dlevel s); try discriminate; try (intros E; inv E; fail).
  destruct (pop ops s) as [s1| |] eqn:E1; cbn [rbind]; try discriminate. rewrite <- (K_pop _ _ E1). apply (IH s1 s' lvl).
Qed.
Lemma K_record (s s' : st) ls : record s ls = Ok s' -> theories s' = theories s.
Proof.
  unfold Sat.record. destruct ls as [|l0 tl]; [discriminate|]. intros E. do 5 apply guard_ok in E as [_ E].
  destruct tl as [|l1 tl].
  - apply guard_ok in E as [_ E]. destruct (enqueue s l0 None) as [s1 e] eqn:Ee. apply guard_ok in E as [_ E]. inversion E; subst. eapply K_enqueue, Ee.
  - destruct (new_constr s _) as [[s1 c]| |] eqn:E1; cbn [rbind] in E; try discriminate.
    destruct (enqueue s1 l0 (Some c)) as [s2 e] eqn:Ee. apply guard_ok in E as [_ E]. inversion E; subst. cbn. rewrite (K_enqueue _ _ _ _ _ Ee). eapply K_new_constr, E1.
Qed.
Lemma K_resolve (s s' : st) ls : resolve ops s ls = Ok s' -> TH s' = TH s.
Proof.
  unfold resolve, analyze. destruct (get_reason_all s ls) as [pr| |]; cbn [rbind]; try discriminate.
  destruct (an_loop _ s _ pr) as [[[s1 a] p]| |] eqn:E1; cbn [rbind]; try discriminate. apply K_an_loop in E1.
  destruct (is_undef s1 p); cbn [guard rbind]; [|discriminate]. destruct (forallb _ _); cbn [guard rbind]; [|discriminate].
  unfold backjump. destruct (pop_to ops _ s1 _) as [s2| |] eqn:E2; cbn [rbind]; try discriminate. intros E. apply K_record in E. apply K_pop_to in E2.
  unfold TH in *. congruence.
Qed.
Lemma K_records : forall lm (s s' : st), rfold record lm s = Ok s' -> theories s' = theories s.
Proof.
  induction lm as [|c r IH]; intros s s'; cbn [rfold]; [intros E; inv E|].
  destruct (record s c) as [s1| |] eqn:E1; cbn [rbind]; try discriminate. rewrite <- (K_record _ _ _ E1). apply IH.
Qed.
Lemma set_nth_map (l : list T) i t t' : nth_error l i = Some t -> f t' = f t -> map f (set_nth l i t') = map f l.
Proof.
  revert i. induction l as [|x l IH]; intros [|i] E H; cbn in E; try discriminate.
  - inversion E; subst. cbn. f_equal. exact H.
  - unfold set_nth. cbn. f_equal. exact (IH i E H).
Qed.
Lemma K_th_prop_all p : forall is (s s' : st) o, th_prop_all ops s is p = Ok (s', o) -> TH s' = TH s.
Proof.
  induction is as [|i r IH]; intros s s' o; cbn [th_prop_all]; [intros E; inv E|].
  unfold th_prop_at. destruct (nth_error (theories s) i) as [t|] eqn:Et; cbn [rbind]; [|discriminate].
  destruct (th_prop ops t (value s) p) as [[[t1 lm] cf]| |] eqn:Ep; cbn [rbind]; try discriminate.
  destruct (rfold record lm _) as [s1| |] eqn:E1; cbn [rbind]; try discriminate.
  assert (H1 : TH s1 = TH s). { apply K_records in E1. unfold TH. rewrite E1. cbn. apply (set_nth_map _ _ t); [exact Et|]. eapply Hprop, Ep. }
  destruct cf; [intros E; inversion E; subst; exact H1|]. rewrite <- H1. apply IH.
Qed.
Lemma K_th_check_all n : forall (s s' : st) i o, th_check_all ops s n i = Ok (s', o) -> TH s' = TH s.
Proof.
  induction n as [|n IH]; intros s s' i o; cbn [th_check_all]; [intros E; inv E|].
  destruct (nth_error (theories s) i) as [t|] eqn:Et; [|intros E; inv E].
  destruct (th_check ops t (value s)) as [[t1 cf]| |] eqn:Ep; cbn [rbind]; try discriminate.
  assert (H1 : TH (set_theories (set_nth (theories s) i t1) s) = TH s) by (unfold TH; cbn; apply (set_nth_map _ _ t); [exact Et|eapply Hcheck, Ep]).
  destruct cf; [intros E; inversion E; subst; exact H1|]. rewrite <- H1. apply IH.
Qed.
Lemma K_tresolve (s s' : st) c : theory_resolve ops s c = Ok s' -> TH s' = TH s.
Proof. unfold theory_resolve. intros E. do 2 apply guard_ok in E as [_ E]. eapply K_resolve, E. Qed.
Lemma K_propagate fuel : forall (s s' : st) b, propagate ops fuel s = Ok (s', b) -> TH s' = TH s.
Proof.
  induction fuel as [|n IH]; intros s s' b; cbn [propagate]; [discriminate|].
  destruct (prop_q s) as [|p q].
  - destruct (th_check_all ops s _ 0) as [[s1 o]| |] eqn:E1; cbn [rbind]; try discriminate. pose proof (K_th_check_all _ _ _ _ _ E1) as H1. rewrite <- H1.
    destruct o as [c|]; [|intros E; inv E]. destruct (root_level s1) eqn:Er; [intros E; inv E|].
    destruct (theory_resolve ops s1 c) as [s2| |] eqn:E2; cbn [rbind]; try discriminate. rewrite <- (K_tresolve _ _ _ E2). apply IH.
  - set (s0 := set_watches (updl (watches s) p []) (set_prop_q q s)).
    destruct (prop_clauses s0 p (watches s p)) as [[s2 cf]| |] eqn:E1; cbn [rbind]; try discriminate. apply K_prop_clauses in E1.
    assert (H2 : TH s2 = TH s) by (unfold TH; rewrite E1; reflexivity). rewrite <- H2.
    destruct cf as [c|].
    + set (s3 := set_prop_q [] s2). change (TH s2) with (TH s3). destruct (root_level s3) eqn:Er; [intros E; inv E|].
      destruct (resolve ops s3 (cls s3 c)) as [s4| |] eqn:E2; cbn [rbind]; try discriminate. rewrite <- (K_resolve _ _ _ E2). apply IH.
    + destruct (th_prop_all ops s2 _ p) as [[s3 tcf]| |] eqn:E3; cbn [rbind]; try discriminate. rewrite <- (K_th_prop_all _ _ _ _ _ E3).
      destruct tcf as [c|].
      * set (s4 := set_prop_q [] s3). change (TH s3) with (TH s4). destruct (root_level s4) eqn:Er; [intros E; inv E|].
        destruct (theory_resolve ops s4 c) as [s5| |] eqn:E5; cbn [rbind]; try discriminate. rewrite <- (K_tresolve _ _ _ E5). apply IH.
      * intros E. apply IH in E. rewrite E. destruct (root_level s3); reflexivity.
Qed.
Lemma K_assume fuel (s s' : st) p b : assume ops fuel s p = Ok (s', b) -> TH s' = TH s.
Proof.
  unfold assume. intros E. do 2 apply guard_ok in E as [_ E].
  match type of E with (let (_, _) := enqueue ?x _ _ in _) = _ => set (s1 := x) in * end.
  assert (H1 : TH s1 = TH s) by (unfold TH; cbn; apply map_th, Hpush).
  destruct (enqueue s1 p None) as [s2 e] eqn:E2. apply K_enqueue in E2. assert (H2 : TH s2 = TH s) by (rewrite <- H1; unfold TH; congruence).
  destruct e; [apply K_propagate in E; congruence|inversion E; subst; exact H2].
Qed.
Lemma K_next fuel (s s' : st) b : next ops fuel s = Ok (s', b) -> TH s' = TH s.
Proof.
  unfold next. destruct (root_level s); [intros E; inv E|].
  destruct (pop ops s) as [s1| |] eqn:E1; cbn [rbind]; try discriminate. apply K_pop in E1.
  destruct (map negl (decisions s)) as [|p r]; [discriminate|]. intros E. apply guard_ok in E as [_ E].
  destruct (record s1 (p :: r)) as [s2| |] eqn:E2; cbn [rbind] in E; try discriminate. apply K_record in E2. apply K_propagate in E. unfold TH in *. congruence.
Qed.
Lemma K_check_loop fuel rl : forall ls (s s' : st) b, check_loop ops fuel s rl ls = Ok (s', b) -> TH s' = TH s.
Proof.
  induction ls as [|p r IH]; intros s s' b; cbn [check_loop]; [intros E; inv E|].
  destruct (assume ops fuel s p) as [[s1 b1]| |] eqn:E1; cbn [rbind]; try discriminate. rewrite <- (K_assume _ _ _ _ _ E1).
  destruct b1.
  - destruct (propagate ops fuel s1) as [[s2 b2]| |] eqn:E2; cbn [rbind]; try discriminate. rewrite <- (K_propagate _ _ _ _ E2).
    destruct (_ || _); [intros E; inv E|apply IH].
  - cbn [rbind negb orb]. intros E; inv E.
Qed.
Lemma K_check fuel (s s' : st) ls b : check ops fuel s ls = Ok (s', b) -> TH s' = TH s.
Proof.
  unfold check. destruct (check_loop ops fuel s _ ls) as [[s1 b1]| |] eqn:E1; cbn [rbind]; try discriminate. rewrite <- (K_check_loop _ _ _ _ _ _ E1).
  destruct b1; [intros E; apply guard_ok in E as [_ E]|intros E]; destruct (backjump ops s1 _) as [s2| |] eqn:E2; cbn [rbind] in E; try discriminate; inversion E; subst; eapply K_pop_to, E2.
Qed.
Lemma K_simp_loop n : forall (s s' : st) kept mid out k o, simp_loop n s kept mid out = (s', k, o) -> theories s' = theories s.
Proof.
  induction n as [|n IH]; intros s s' kept mid out k o; cbn [simp_loop]; [intros E; inv E|].
  destruct mid as [|c r]; [intros E; inv E|].
  assert (H1 : theories (fst (clause_simplify s c)) = theories s) by (unfold clause_simplify; destruct (existsb _ _); reflexivity).
  destruct (clause_simplify s c) as [s1 b]. cbn [fst] in H1. rewrite <- H1. destruct b; [destruct r|]; apply IH.
Qed.
Lemma K_simplify fuel (s s' : st) b : simplify_db ops fuel s = Ok (s', b) -> TH s' = TH s.
Proof.
  unfold simplify_db. intros E. apply guard_ok in E as [_ E].
  destruct (propagate ops fuel s) as [[s1 b1]| |] eqn:E1; cbn [rbind] in E; try discriminate. rewrite <- (K_propagate _ _ _ _ E1).
  destruct b1; [|inv E]. destruct (simp_loop _ s1 [] _ []) as [[s2 k] o] eqn:E2. apply K_simp_loop in E2.
  assert (Hd : forall out (x x' : st), rfold destroy out x = Ok x' -> theories x' = theories x).
  { clear. induction out as [|c r IH]; intros x x'; cbn [rfold]; [intros E; inv E|].
    unfold destroy at 1. destruct (cls x c) as [|l0 [|l1 t]] eqn:Ec; cbn [rbind]; try discriminate. destruct (remove_first c _); cbn [rbind]; [|discriminate].
    destruct (remove_first c _); cbn [rbind]; [|discriminate]. intros E. apply IH in E. exact E. }
  destruct (rfold destroy o _) as [s3| |] eqn:E3; cbn [rbind] in E; try discriminate. apply Hd in E3. inversion E; subst. unfold TH. cbn in *. congruence.
Qed.
Theorem K_step fuel (s s' : st) c r : step (ops := ops) fuel s c = Ok (s', r) -> TH s' = TH s.
Proof.
  destruct c; cbn [step]; intros E.
  - destruct (new_var s) as [s1 v] eqn:E1. inversion E; subst. unfold TH. f_equal. eapply K_nv, E1.
  - destruct (new_clause s ls) as [[s1 x]| |] eqn:E1; cbn [rbind] in E; inversion E; subst. unfold TH. f_equal. eapply K_new_clause; eassumption.
  - destruct (propagate ops fuel s) as [[s1 x]| |] eqn:E1; cbn [rbind] in E; inversion E; subst. eapply K_propagate; eassumption.
  - destruct (assume ops fuel s p) as [[s1 x]| |] eqn:E1; cbn [rbind] in E; inversion E; subst. eapply K_assume; eassumption.
  - destruct (pop ops s) as [s1| |] eqn:E1; cbn [rbind] in E; inversion E; subst. eapply K_pop; eassumption.
  - destruct (check ops fuel s ls) as [[s1 x]| |] eqn:E1; cbn [rbind] in E; inversion E; subst. eapply K_check; eassumption.
  - destruct (next ops fuel s) as [[s1 x]| |] eqn:E1; cbn [rbind] in E; inversion E; subst. eapply K_next; eassumption.
  - destruct (simplify_db ops fuel s) as [[s1 x]| |] eqn:E1; cbn [rbind] in E; inversion E; subst. eapply K_simplify; eassumption.
  - destruct (new_eq s l r0) as [[s1 x]| |] eqn:E1; cbn [rbind] in E; inversion E; subst. unfold TH. f_equal. eapply K_new_eq; eassumption.
  - destruct (new_conj s ls) as [[s1 x]| |] eqn:E1; cbn [rbind] in E; inversion E; subst. unfold TH. f_equal. eapply K_new_conj; eassumption.
  - destruct (new_disj s ls) as [[s1 x]| |] eqn:E1; cbn [rbind] in E; inversion E; subst. unfold TH. f_equal. eapply K_new_disj; eassumption.
  - destruct (new_at_most_one s ls) as [[s1 x]| |] eqn:E1; cbn [rbind] in E; inversion E; subst. unfold TH. f_equal. eapply K_amo; eassumption.
  - destruct (new_exct_one s ls) as [[s1 x]| |] eqn:E1; cbn [rbind] in E; inversion E; subst. unfold TH. f_equal. eapply K_exct; eassumption.
  - destruct (listen s v l) as [s1| |] eqn:E1; cbn [rbind] in E; inversion E; subst. unfold listen in E1. apply guard_ok in E1 as [_ E1].
    destruct (is_undef s (mk_lit v true)); [destruct (memn l (listening s v))|]; inversion E1; reflexivity.
Qed.
End Rel.
