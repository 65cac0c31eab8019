(** Two representations of the theories of a network: if the operations commute with a translation [f], so does every
    function of the core. *)
From Verif Require Import Base Keys Sat SatSpec SatInv Run.
Local Arguments Nat.ltb : simpl never.
Local Arguments Nat.leb : simpl never.
Local Arguments Nat.eqb : simpl never.
Local Arguments Nat.sub : simpl never.

Section MapTh.
Context {T U : Type} (f : T -> U).
Definition mp (s : st T) : st U :=
  mk_st (nv s) (cls s) (ncid s) (constrs s) (watches s) (assigns s) (level s) (reason s) (prop_q s) (trail s) (trail_lim s) (decisions s) (exprs s) (map f (theories s)) (bounds s) (listening s) (log s).
Definition m1 {A} (x : st T * A) : st U * A := (mp (fst x), snd x).
Definition rmp {A B} (g : A -> B) (r : res A) : res B := match r with Ok a => Ok (g a) | UB => UB | OOF => OOF end.

Lemma mp_new_var s : new_var (mp s) = m1 (new_var s). Proof. reflexivity. Qed.
Lemma mp_new_vars n : forall s, new_vars (mp s) n = m1 (new_vars s n).
Proof.
  induction n as [|n IH]; intros s; cbn [new_vars]; [reflexivity|]. rewrite mp_new_var. destruct (new_var s) as [s1 v]. unfold m1; cbn [fst snd]. rewrite IH. destruct (new_vars s1 n); reflexivity.
Qed.
Lemma mp_enqueue s p c : enqueue (mp s) p c = m1 (enqueue s p c).
Proof. unfold enqueue. change (value (mp s) p) with (value s p). destruct (value s p); reflexivity. Qed.
Lemma mp_pop_one s : pop_one (mp s) = rmp mp (pop_one s).
Proof. unfold pop_one. cbn [trail mp]. destruct (trail s); reflexivity. Qed.
Lemma mp_new_constr s ls : new_constr (mp s) ls = rmp m1 (new_constr s ls).
Proof. destruct ls as [|a [|b r]]; reflexivity. Qed.
Lemma mp_new_clause s ls : new_clause (mp s) ls = rmp m1 (new_clause s ls).
Proof.
  unfold new_clause, guard. change (root_level (mp s)) with (root_level s). change (in_range (mp s) ls) with (in_range s ls). change (value (mp s)) with (value s).
  destruct (root_level s); [|reflexivity]. destruct (in_range s ls); [|reflexivity]. destruct (clause_filter (value s) None (sort_by lvar ls)) as [[|p [|q r]]|]; try reflexivity.
  cbn. rewrite mp_enqueue. reflexivity.
Qed.
Lemma mp_new_clauses cs : forall s, new_clauses (mp s) cs = rmp m1 (new_clauses s cs).
Proof. induction cs as [|c cs IH]; intros s; cbn; [reflexivity|]. rewrite mp_new_clause. destruct (new_clause s c) as [[s1 []]| |]; cbn; try reflexivity. apply IH. Qed.
Lemma mp_find s k : find_expr (mp s) k = find_expr s k. Proof. reflexivity. Qed.
Lemma mp_add s k p : add_expr (mp s) k p = mp (add_expr s k p).
Proof. unfold add_expr. rewrite mp_find. destruct (find_expr s k); reflexivity. Qed.
Lemma mp_reify s cs k ctr : reify (mp s) cs k ctr = rmp m1 (reify s cs k ctr).
Proof. unfold reify. rewrite mp_new_clauses. destruct (new_clauses s cs) as [[s1 []]| |]; cbn; try reflexivity. rewrite mp_add. reflexivity. Qed.
Lemma mp_new_eq s l r : new_eq (mp s) l r = rmp m1 (new_eq s l r).
Proof.
  unfold new_eq, guard. change (root_level (mp s)) with (root_level s). change (in_range (mp s) [l; r]) with (in_range s [l; r]). change (value (mp s)) with (value s). rewrite mp_find.
  destruct (root_level s); [|reflexivity]. destruct (in_range s _); [|reflexivity]. destruct (lit_eqb l r); [reflexivity|]. destruct (value s l), (value s r); try reflexivity.
  destruct (find_expr s (key_eq l r)); [reflexivity|]. rewrite mp_new_var. destruct (new_var s) as [s1 v]. apply mp_reify.
Qed.
Lemma mp_new_conj s ls : new_conj (mp s) ls = rmp m1 (new_conj s ls).
Proof.
  unfold new_conj, guard. change (root_level (mp s)) with (root_level s). change (in_range (mp s) ls) with (in_range s ls). change (value (mp s)) with (value s).
  destruct (root_level s); [|reflexivity]. destruct (in_range s ls); [|reflexivity]. destruct (conj_filter (value s) None (sort_by lvar ls)) as [[|p [|q r]]|]; try reflexivity.
  rewrite mp_find. destruct (find_expr s (key_conj (p :: q :: r))); [reflexivity|]. rewrite mp_new_var. destruct (new_var s) as [s1 v]. apply mp_reify.
Qed.
Lemma mp_new_disj s ls : new_disj (mp s) ls = rmp m1 (new_disj s ls).
Proof.
  unfold new_disj, guard. change (root_level (mp s)) with (root_level s). change (in_range (mp s) ls) with (in_range s ls). change (value (mp s)) with (value s).
  destruct (root_level s); [|reflexivity]. destruct (in_range s ls); [|reflexivity]. destruct (clause_filter (value s) None (sort_by lvar ls)) as [[|p [|q r]]|]; try reflexivity.
  rewrite mp_find. destruct (find_expr s (key_disj (p :: q :: r))); [reflexivity|]. rewrite mp_new_var. destruct (new_var s) as [s1 v]. apply mp_reify.
Qed.
Lemma mp_amo n : forall s ls, new_amo_f n (mp s) ls = rmp m1 (new_amo_f n s ls).
Proof.
  induction n as [|n IH]; intros s ls; cbn [new_amo_f]; [reflexivity|]. unfold guard. change (root_level (mp s)) with (root_level s). change (in_range (mp s) ls) with (in_range s ls). change (value (mp s)) with (value s).
  destruct (root_level s); [|reflexivity]. destruct (in_range s ls); [|reflexivity]. destruct (amo_filter (value s) None (sort_by lvar ls)) as [[|p [|q r]]|]; try reflexivity.
  rewrite mp_find. destruct (find_expr s (key_amo (p :: q :: r))); [reflexivity|]. destruct (length (p :: q :: r) <? 4).
  - rewrite mp_new_var. destruct (new_var s) as [s1 v]. apply mp_reify.
  - cbv zeta. rewrite mp_new_vars. destruct (new_vars s _) as [s1 u]. unfold m1 at 1; cbn [fst snd]. rewrite mp_new_vars. destruct (new_vars s1 _) as [s2 v]. unfold m1 at 1; cbn [fst snd].
    rewrite IH. destruct (new_amo_f n s2 u) as [[s3 cu]| |]; cbn [rbind rmp]; try reflexivity. unfold m1 at 1; cbn [fst snd]. rewrite IH. destruct (new_amo_f n s3 v) as [[s4 cv]| |]; cbn [rbind rmp]; try reflexivity.
    unfold m1 at 1; cbn [fst snd]. rewrite mp_new_conj. destruct (new_conj s4 [cu; cv]) as [[s5 ctr]| |]; cbn [rbind rmp]; try reflexivity. unfold m1 at 1; cbn [fst snd]. apply mp_reify.
Qed.
Lemma mp_exct s ls : new_exct_one (mp s) ls = rmp m1 (new_exct_one s ls).
Proof.
  unfold new_exct_one, guard. change (root_level (mp s)) with (root_level s). change (in_range (mp s) ls) with (in_range s ls). change (value (mp s)) with (value s).
  destruct (root_level s); [|reflexivity]. destruct (in_range s ls); [|reflexivity]. destruct (amo_filter (value s) None (sort_by lvar ls)) as [[|p r]|]; try reflexivity.
  destruct (match r with [] => lsgn p | _ :: _ => false end); [reflexivity|]. rewrite mp_find. destruct (find_expr s (key_exct (p :: r))); [reflexivity|].
  unfold new_at_most_one. rewrite mp_amo. destruct (new_amo_f _ s (p :: r)) as [[s1 ctr]| |]; cbn [rbind rmp]; try reflexivity. unfold m1 at 1; cbn [fst snd]. rewrite mp_new_clause.
  destruct (new_clause s1 _) as [[s2 []]| |]; cbn [rbind rmp]; try reflexivity. unfold m1; cbn [fst snd]. rewrite mp_add. reflexivity.
Qed.
Lemma mp_listen s v l : listen (mp s) v l = rmp mp (listen s v l).
Proof. unfold listen, guard. cbn [nv mp listening]. destruct (v <? nv s); [|reflexivity]. change (is_undef (mp s)) with (is_undef s). destruct (is_undef s _); [|reflexivity]. destruct (memn l (listening s v)); reflexivity. Qed.

Lemma mp_clause_propagate s c p : clause_propagate (mp s) c p = rmp m1 (clause_propagate s c p).
Proof.
  unfold clause_propagate. cbn [cls mp]. destruct (swap_watch p (cls s c)) as [|x0 [|x1 r]]; try reflexivity. change (is_true (mp s)) with (is_true s). change (is_false (mp s)) with (is_false s).
  destruct (is_true s x0); [reflexivity|]. destruct (negb (is_false s x1)); [reflexivity|]. change (fun l => negb (is_false (mp s) l)) with (fun l => negb (is_false s l)). destruct (find_split _ r) as [[[pre l] post]|]; [reflexivity|].
  cbn. rewrite <- mp_enqueue. reflexivity.
Qed.
Lemma mp_prop_clauses p : forall tmp s, prop_clauses (mp s) p tmp = rmp m1 (prop_clauses s p tmp).
Proof.
  induction tmp as [|c r IH]; intros s; cbn [prop_clauses]; [reflexivity|]. rewrite mp_clause_propagate. destruct (clause_propagate s c p) as [[s1 []]| |]; cbn [rbind rmp]; try reflexivity. unfold m1 at 1; cbn [fst snd]. apply IH.
Qed.
Lemma mp_an_select seen : forall n s pr, an_select n (mp s) seen pr = rmp (fun x => (mp (fst (fst x)), snd (fst x), snd x)) (an_select n s seen pr).
Proof.
  induction n as [|n IH]; intros s pr; cbn [an_select]; [reflexivity|]. cbn [trail mp]. destruct (trail s) as [|p tr] eqn:Et; [reflexivity|]. unfold guard. cbn [level mp reason cls]. change (dlevel (mp s)) with (dlevel s).
  destruct (level s (lvar p) =? dlevel s); [|reflexivity].
  match goal with |- rbind ?a _ = _ => change a with (match reason s (lvar p) with Some c => get_reason_of s (cls s c) p | None => Ok pr end) end.
  destruct (match reason s (lvar p) with Some c => get_reason_of s (cls s c) p | None => Ok pr end) as [pr'| |]; cbn [rbind rmp]; try reflexivity.
  rewrite mp_pop_one. destruct (pop_one s) as [s1| |]; cbn [rbind rmp]; try reflexivity. destruct (memn (lvar p) seen); [reflexivity|apply IH].
Qed.
Lemma mp_an_loop : forall n s a pr, an_loop n (mp s) a pr = rmp (fun x => (mp (fst (fst x)), snd (fst x), snd x)) (an_loop n s a pr).
Proof.
  induction n as [|n IH]; intros s a pr; cbn [an_loop]; [reflexivity|]. change (an_visit (mp s)) with (an_visit s). destruct (rfold (an_visit s) pr a) as [a1| |]; cbn [rbind rmp]; try reflexivity.
  cbn [trail mp]. rewrite mp_an_select. destruct (an_select _ s _ pr) as [[[s1 p] pr1]| |]; cbn [rbind rmp]; try reflexivity. cbn [fst snd]. destruct (0 <? _)%Z; [apply IH|reflexivity].
Qed.
Lemma mp_analyze s ls : analyze (mp s) ls = rmp (fun x => (mp (fst (fst x)), snd (fst x), snd x)) (analyze s ls).
Proof.
  unfold analyze. change (get_reason_all (mp s) ls) with (get_reason_all s ls). destruct (get_reason_all s ls) as [pr| |]; cbn [rbind rmp]; try reflexivity. cbn [trail mp]. rewrite mp_an_loop.
  destruct (an_loop _ s _ pr) as [[[s1 a] p]| |]; cbn [rbind rmp]; try reflexivity. cbn [fst snd]. unfold guard. change (is_undef (mp s1)) with (is_undef s1). change (is_false (mp s1)) with (is_false s1). destruct (is_undef s1 p); [|reflexivity]. destruct (forallb _ _); reflexivity.
Qed.
Lemma mp_pop_until n : forall k s, pop_until k (mp s) n = rmp mp (pop_until k s n).
Proof.
  induction k as [|k IH]; intros s; cbn [pop_until]; [reflexivity|]. cbn [trail mp]. destruct (n <? length (trail s)); [|reflexivity]. rewrite mp_pop_one. destruct (pop_one s) as [s1| |]; cbn [rbind rmp]; try reflexivity. apply IH.
Qed.
Context (opT : theory_ops T) (opU : theory_ops U).
Hypothesis Hsort : th_sort opU = th_sort opT.
Lemma mp_record s ls : record opU (mp s) ls = rmp mp (record opT s ls).
Proof.
  unfold record. rewrite Hsort. destruct ls as [|l0 tl]; [reflexivity|]. unfold guard. change (in_range (mp s)) with (in_range s). change (is_undef (mp s)) with (is_undef s). change (is_true (mp s)) with (is_true s). change (is_false (mp s)) with (is_false s). change (root_level (mp s)) with (root_level s).
  destruct (in_range s _); [|reflexivity]. destruct (is_undef s l0); [|reflexivity]. destruct (_ =? 0); [|reflexivity]. destruct (_ =? 1); [|reflexivity]. destruct (_ =? _); [|reflexivity].
  destruct tl as [|l1 tl].
  - destruct (root_level s); [|reflexivity]. rewrite mp_enqueue. destruct (enqueue s l0 None) as [s1 []]; reflexivity.
  - cbn [level mp]. rewrite mp_new_constr. destruct (new_constr s _) as [[s1 c]| |]; cbn [rbind rmp]; try reflexivity. unfold m1; cbn [fst snd]. rewrite mp_enqueue. destruct (enqueue s1 l0 (Some c)) as [s2 []]; reflexivity.
Qed.
Lemma mp_records : forall ls s, rfold (record opU) ls (mp s) = rmp mp (rfold (record opT) ls s).
Proof. induction ls as [|l ls IH]; intros s; cbn [rfold]; [reflexivity|]. rewrite mp_record. destruct (record opT s l) as [s1| |]; cbn [rbind rmp]; try reflexivity. apply IH. Qed.
Lemma mp_clause_simplify s c : clause_simplify (mp s) c = m1 (clause_simplify s c).
Proof.
  unfold clause_simplify. cbn [cls mp]. assert (E : forall ls, before_true (mp s) ls = before_true s ls) by (induction ls as [|l r IH]; cbn; [reflexivity|]; rewrite IH; reflexivity). rewrite E.
  change (is_undef (mp s)) with (is_undef s). change (is_true (mp s)) with (is_true s). destruct (existsb _ _); reflexivity.
Qed.
Lemma mp_simp_loop : forall n s k m o, simp_loop n (mp s) k m o = (mp (fst (fst (simp_loop n s k m o))), snd (fst (simp_loop n s k m o)), snd (simp_loop n s k m o)).
Proof.
  induction n as [|n IH]; intros s k m o; cbn [simp_loop]; [reflexivity|]. destruct m as [|c r]; [reflexivity|]. rewrite mp_clause_simplify. destruct (clause_simplify s c) as [s1 []]; unfold m1; cbn [fst snd]; [|apply IH]. destruct r; apply IH.
Qed.
Lemma mp_destroy s c : destroy (mp s) c = rmp mp (destroy s c).
Proof.
  unfold destroy. cbn [cls mp watches reason]. destruct (cls s c) as [|l0 [|l1 r]]; try reflexivity. destruct (remove_first c (watches s (negl l0))) as [w0|]; [|reflexivity]. cbv zeta. destruct (remove_first c _) as [w1|]; reflexivity.
Qed.
Lemma mp_destroys : forall ls s, rfold destroy ls (mp s) = rmp mp (rfold destroy ls s).
Proof. induction ls as [|l ls IH]; intros s; cbn [rfold]; [reflexivity|]. rewrite mp_destroy. destruct (destroy s l) as [s1| |]; cbn [rbind rmp]; try reflexivity. apply IH. Qed.

Hypothesis Hprop : forall t val p, th_prop opU (f t) val p = rmp (fun x => (f (fst (fst x)), snd (fst x), snd x)) (th_prop opT t val p).
Hypothesis Hcheck : forall t val, th_check opU (f t) val = rmp (fun x => (f (fst x), snd x)) (th_check opT t val).

Lemma map_set_nth : forall (l : list T) i t, map f (set_nth l i t) = set_nth (map f l) i (f t).
Proof. unfold set_nth. intros l i t. rewrite map_app, firstn_map, skipn_map. f_equal. destruct (skipn i l); reflexivity. Qed.
Lemma mp_set_th s i t : mp (set_theories (set_nth (theories s) i t) s) = set_theories (set_nth (theories (mp s)) i (f t)) (mp s).
Proof. unfold mp, set_theories; cbn. rewrite map_set_nth. reflexivity. Qed.
Lemma mp_th_prop_at s i p : th_prop_at opU (mp s) i p = rmp m1 (th_prop_at opT s i p).
Proof.
  unfold th_prop_at. cbn [theories mp]. rewrite nth_error_map. destruct (nth_error (theories s) i) as [t|]; cbn [option_map]; [|reflexivity].
  change (value (mp s)) with (value s). rewrite Hprop. destruct (th_prop opT t (value s) p) as [[[t1 ls] cf]| |]; cbn [rbind rmp]; try reflexivity. cbn [fst snd].
  change (map f (theories s)) with (theories (mp s)). rewrite <- mp_set_th, mp_records. destruct (rfold (record opT) ls _) as [s1| |]; reflexivity.
Qed.
Lemma mp_th_prop_all p : forall is s, th_prop_all opU (mp s) is p = rmp m1 (th_prop_all opT s is p).
Proof.
  induction is as [|i r IH]; intros s; cbn [th_prop_all]; [reflexivity|]. rewrite mp_th_prop_at. destruct (th_prop_at opT s i p) as [[s1 [c|]]| |]; cbn [rbind rmp]; try reflexivity. unfold m1 at 1; cbn [fst snd]. apply IH.
Qed.
Lemma mp_th_check_all : forall n i s, th_check_all opU (mp s) n i = rmp m1 (th_check_all opT s n i).
Proof.
  induction n as [|n IH]; intros i s; cbn [th_check_all]; [reflexivity|]. cbn [theories mp]. rewrite nth_error_map. destruct (nth_error (theories s) i) as [t|]; cbn [option_map]; [|reflexivity].
  change (value (mp s)) with (value s). rewrite Hcheck. destruct (th_check opT t (value s)) as [[t1 [c|]]| |]; cbn [rbind rmp]; try reflexivity; cbn [fst snd]; change (map f (theories s)) with (theories (mp s)); rewrite <- mp_set_th; [reflexivity|apply IH].
Qed.
(** Either the other two operations commute with [f] too, or nothing is ever pushed or popped. *)
Definition popc : Prop := forall t, f (th_pop opT t) = th_pop opU (f t).
Definition pops : Prop := (forall t, f (th_push opT t) = th_push opU (f t)) /\ popc.
Lemma mp_pop s : popc -> pop opU (mp s) = rmp mp (pop opT s).
Proof.
  intros Hp. unfold pop. cbn [trail_lim mp]. destruct (trail_lim s) as [|n tl]; [reflexivity|]. cbn [trail mp]. rewrite mp_pop_until. destruct (pop_until _ s n) as [s1| |]; cbn [rbind rmp]; try reflexivity.
  cbn [decisions mp]. destruct (decisions s1) as [|d ds]; [reflexivity|]. unfold mp; cbn. rewrite !map_map. rewrite (map_ext (fun x => th_pop opU (f x)) (fun x => f (th_pop opT x))); [reflexivity|]. intros t. symmetry. apply Hp.
Qed.
Lemma mp_pop_to lvl : popc -> forall n s, pop_to opU n (mp s) lvl = rmp mp (pop_to opT n s lvl).
Proof.
  intros Hp. induction n as [|n IH]; intros s; cbn [pop_to]; change (dlevel (mp s)) with (dlevel s); (destruct (lvl <? dlevel s); [|reflexivity]); [reflexivity|].
  rewrite (mp_pop s Hp). destruct (pop opT s) as [s1| |]; cbn [rbind rmp]; try reflexivity. apply IH.
Qed.
Lemma mp_resolve s ls : popc -> resolve opU (mp s) ls = rmp mp (resolve opT s ls).
Proof.
  intros Hp. unfold resolve, backjump. rewrite mp_analyze. destruct (analyze s ls) as [[[s1 ng] bt]| |]; cbn [rbind rmp]; try reflexivity. cbn [fst snd]. change (dlevel (mp s1)) with (dlevel s1).
  rewrite (mp_pop_to bt Hp). destruct (pop_to opT _ s1 bt) as [s2| |]; cbn [rbind rmp]; try reflexivity. apply mp_record.
Qed.
Lemma mp_theory_resolve s ls : popc -> theory_resolve opU (mp s) ls = rmp mp (theory_resolve opT s ls).
Proof. intros Hp. unfold theory_resolve, guard. change (in_range (mp s)) with (in_range s). destruct (2 <=? length ls); [|reflexivity]. destruct (in_range s ls); [|reflexivity]. apply mp_resolve, Hp. Qed.

(** The limits of the trail are kept by everything but push and pop. *)
Lemma tl_enqueue {X} (s : st X) p c : trail_lim (fst (enqueue s p c)) = trail_lim s.
Proof. unfold enqueue. destruct (value s p); reflexivity. Qed.
Lemma tl_clause_propagate {X} (s : st X) c p s1 b : clause_propagate s c p = Ok (s1, b) -> trail_lim s1 = trail_lim s.
Proof.
  unfold clause_propagate. destruct (swap_watch p (cls s c)) as [|x0 [|x1 r]]; try discriminate. destruct (is_true s x0); [intros E; injection E as <- _; reflexivity|]. destruct (negb (is_false s x1)); [intros E; injection E as <- _; reflexivity|].
  destruct (find_split _ r) as [[[pre l] post]|]; [intros E; injection E as <- _; reflexivity|]. intros E. injection E as E. change s1 with (fst (s1, b)). rewrite <- E, tl_enqueue. reflexivity.
Qed.
Lemma tl_prop_clauses {X} p : forall tmp (s : st X) s1 cf, prop_clauses s p tmp = Ok (s1, cf) -> trail_lim s1 = trail_lim s.
Proof.
  induction tmp as [|c r IH]; intros s s1 cf; cbn [prop_clauses]; [intros E; injection E as <- _; reflexivity|]. destruct (clause_propagate s c p) as [[s2 []]| |] eqn:E; cbn [rbind]; try discriminate.
  - intros K. rewrite (IH _ _ _ K). apply (tl_clause_propagate _ _ _ _ _ E).
  - intros K. injection K as <- _. apply (tl_clause_propagate _ _ _ _ _ E).
Qed.
Lemma tl_record {X} (op : theory_ops X) (s : st X) ls s1 : record op s ls = Ok s1 -> trail_lim s1 = trail_lim s.
Proof.
  unfold record, guard. destruct ls as [|l0 tl]; [discriminate|]. destruct (in_range s _); [|discriminate]. destruct (is_undef s l0); [|discriminate]. destruct (_ =? 0); [|discriminate]. destruct (_ =? 1); [|discriminate]. destruct (_ =? _); [|discriminate].
  destruct tl as [|l1 tl].
  - destruct (root_level s); [|discriminate]. pose proof (tl_enqueue s l0 None) as H. destruct (enqueue s l0 None) as [s2 []]; [|discriminate]. intros E. injection E as <-. exact H.
  - destruct (new_constr s _) as [[s2 c]| |] eqn:E; cbn [rbind]; try discriminate. pose proof (tl_enqueue s2 l0 (Some c)) as H. destruct (enqueue s2 l0 (Some c)) as [s3 []]; [|discriminate]. intros K. injection K as <-. cbn in H |- *. rewrite H.
    destruct (srt (sorter := th_sort op) (fun l => level s (lvar l)) (l1 :: tl)) as [|z zs]; [discriminate E|]. cbn in E. injection E as <- _. reflexivity.
Qed.
Lemma tl_records {X} (op : theory_ops X) : forall ls (s : st X) s1, rfold (record op) ls s = Ok s1 -> trail_lim s1 = trail_lim s.
Proof.
  induction ls as [|l ls IH]; intros s s1; cbn [rfold]; [intros E; injection E as <-; reflexivity|]. destruct (record op s l) as [s2| |] eqn:E; cbn [rbind]; try discriminate. intros K. rewrite (IH _ _ K). apply (tl_record _ _ _ _ E).
Qed.
Lemma tl_th_prop_all {X} (op : theory_ops X) p : forall is (s : st X) s1 cf, th_prop_all op s is p = Ok (s1, cf) -> trail_lim s1 = trail_lim s.
Proof.
  induction is as [|i r IH]; intros s s1 cf; cbn [th_prop_all]; [intros E; injection E as <- _; reflexivity|]. unfold th_prop_at. destruct (nth_error (theories s) i) as [t|]; [|discriminate].
  destruct (th_prop op t (value s) p) as [[[t1 ls] c1]| |]; cbn [rbind]; try discriminate. destruct (rfold (record op) ls _) as [s2| |] eqn:E; cbn [rbind]; try discriminate. apply tl_records in E. cbn in E.
  destruct c1 as [c|]; [intros K; injection K as <- _; exact E|]. intros K. rewrite (IH _ _ _ K). exact E.
Qed.
Lemma tl_th_check_all {X} (op : theory_ops X) : forall n i (s : st X) s1 cf, th_check_all op s n i = Ok (s1, cf) -> trail_lim s1 = trail_lim s.
Proof.
  induction n as [|n IH]; intros i s s1 cf; cbn [th_check_all]; [intros E; injection E as <- _; reflexivity|]. destruct (nth_error (theories s) i) as [t|]; [|intros E; injection E as <- _; reflexivity].
  destruct (th_check op t (value s)) as [[t1 c1]| |]; cbn [rbind]; try discriminate. destruct c1 as [c|]; [intros K; injection K as <- _; reflexivity|]. intros K. rewrite (IH _ _ _ _ K). reflexivity.
Qed.

Lemma mp_propagate : forall n s, popc \/ trail_lim s = [] -> propagate opU n (mp s) = rmp m1 (propagate opT n s).
Proof.
  induction n as [|n IH]; intros s Hp; cbn [propagate]; [reflexivity|]. cbn [prop_q mp]. destruct (prop_q s) as [|p q].
  - replace (length (theories (mp s))) with (length (theories s)) by (cbn; rewrite map_length; reflexivity). rewrite mp_th_check_all. destruct (th_check_all opT s _ 0) as [[s1 [c|]]| |] eqn:E; cbn [rbind rmp]; try reflexivity.
    unfold m1 at 1; cbn [fst snd]. change (root_level (mp s1)) with (root_level s1). destruct (root_level s1) eqn:Er; [reflexivity|].
    assert (H : popc) by (destruct Hp as [H|H]; [exact H|apply tl_th_check_all in E; rewrite H in E; unfold root_level in Er; rewrite E in Er; discriminate]).
    rewrite (mp_theory_resolve s1 c H). destruct (theory_resolve opT s1 c) as [s2| |]; cbn [rbind rmp]; try reflexivity. apply IH. left. exact H.
  - change (set_watches (updl (watches (mp s)) p []) (set_prop_q q (mp s))) with (mp (set_watches (updl (watches s) p []) (set_prop_q q s))). cbn [watches mp]. rewrite mp_prop_clauses.
    destruct (prop_clauses _ p (watches s p)) as [[s2 [c|]]| |] eqn:E; cbn [rbind rmp]; try reflexivity; unfold m1 at 1; cbn [fst snd]; apply tl_prop_clauses in E; cbn in E.
    + change (set_prop_q [] (mp s2)) with (mp (set_prop_q [] s2)). change (root_level (mp (set_prop_q [] s2))) with (root_level (set_prop_q [] s2)). destruct (root_level (set_prop_q [] s2)) eqn:Er; [reflexivity|].
      assert (H : popc) by (destruct Hp as [H|H]; [exact H|rewrite H in E; unfold root_level in Er; cbn in Er; rewrite E in Er; discriminate]).
      rewrite (mp_resolve _ _ H). cbn [cls mp]. destruct (resolve opT (set_prop_q [] s2) _) as [s4| |]; cbn [rbind rmp]; try reflexivity. apply IH. left. exact H.
    + cbn [bounds mp]. rewrite Hsort, mp_th_prop_all. destruct (th_prop_all opT s2 _ p) as [[s3 [c|]]| |] eqn:E3; cbn [rbind rmp]; try reflexivity; unfold m1 at 1; cbn [fst snd]; apply tl_th_prop_all in E3.
      * change (set_prop_q [] (mp s3)) with (mp (set_prop_q [] s3)). change (root_level (mp (set_prop_q [] s3))) with (root_level (set_prop_q [] s3)). destruct (root_level (set_prop_q [] s3)) eqn:Er; [reflexivity|].
        assert (H : popc) by (destruct Hp as [H|H]; [exact H|rewrite <- E3 in E; rewrite H in E; unfold root_level in Er; cbn in Er; rewrite E in Er; discriminate]).
        rewrite (mp_theory_resolve _ _ H). destruct (theory_resolve opT (set_prop_q [] s3) _) as [s4| |]; cbn [rbind rmp]; try reflexivity. apply IH. left. exact H.
      * change (root_level (mp s3)) with (root_level s3). rewrite <- IH; [destruct (root_level s3); reflexivity|]. destruct Hp as [H|H]; [left; exact H|right]. destruct (root_level s3); cbn; congruence.
Qed.
Lemma tl_propagate : forall n (s : st T) s1 b, trail_lim s = [] -> propagate opT n s = Ok (s1, b) -> trail_lim s1 = [].
Proof.
  induction n as [|n IH]; intros s s1 b Hs; cbn [propagate]; [discriminate|]. destruct (prop_q s) as [|p q].
  - destruct (th_check_all opT s _ 0) as [[s2 [c|]]| |] eqn:E; cbn [rbind]; try discriminate; apply tl_th_check_all in E; rewrite Hs in E.
    + unfold root_level. rewrite E. intros K. injection K as <- _. exact E.
    + intros K. injection K as <- _. exact E.
  - destruct (prop_clauses _ p (watches s p)) as [[s2 [c|]]| |] eqn:E; cbn [rbind]; try discriminate; apply tl_prop_clauses in E; cbn in E; rewrite Hs in E.
    + unfold root_level. cbn [trail_lim set_prop_q]. rewrite E. intros K. injection K as <- _. exact E.
    + destruct (th_prop_all opT s2 _ p) as [[s3 [c|]]| |] eqn:E3; cbn [rbind]; try discriminate; apply tl_th_prop_all in E3; rewrite E in E3; unfold root_level; cbn [trail_lim set_prop_q]; rewrite E3.
      * intros K. injection K as <- _. exact E3.
      * apply IH. exact E3.
Qed.
Lemma mp_simplify n s : popc \/ trail_lim s = [] -> simplify_db opU n (mp s) = rmp m1 (simplify_db opT n s).
Proof.
  intros Hp. unfold simplify_db, guard. change (root_level (mp s)) with (root_level s). destruct (root_level s); [|reflexivity]. rewrite (mp_propagate n s Hp).
  destruct (propagate opT n s) as [[s1 []]| |]; cbn [rbind rmp]; try reflexivity. unfold m1 at 1; cbn [fst snd]. cbn [constrs mp]. rewrite mp_simp_loop. destruct (simp_loop _ s1 [] _ []) as [[s2 k] o]. cbn [fst snd].
  change (set_constrs k (mp s2)) with (mp (set_constrs k s2)). rewrite mp_destroys. destruct (rfold destroy o _) as [s3| |]; reflexivity.
Qed.
Lemma mp_assume n s p : (forall t, In t (theories s) -> f (th_push opT t) = th_push opU (f t)) -> popc -> assume opU n (mp s) p = rmp m1 (assume opT n s p).
Proof.
  intros Hu Hp. unfold assume, guard. cbn [prop_q mp]. destruct (prop_q s) as [|? ?] eqn:Eq; [|reflexivity]. change (in_range (mp s)) with (in_range s). destruct (in_range s [p]); [|reflexivity].
  match goal with |- context [enqueue ?a p None] => match a with context [map (th_push opU) _] => replace a with (mp (mk_st (nv s) (cls s) (ncid s) (constrs s) (watches s) (assigns s) (level s) (reason s)
               [] (trail s) (length (trail s) :: trail_lim s) (p :: decisions s) (exprs s) (map (th_push opT) (theories s)) (bounds s) (listening s) (log s))) end end.
  2:{ unfold mp; cbn. f_equal. rewrite !map_map. apply map_ext_in. exact Hu. }
  rewrite mp_enqueue. match goal with |- context [enqueue ?a p None] => destruct (enqueue a p None) as [s2 []] end; unfold m1 at 1; cbn [fst snd]; [|reflexivity]. apply mp_propagate. left. exact Hp.
Qed.
Lemma mp_next n s : popc \/ trail_lim s = [] -> next opU n (mp s) = rmp m1 (next opT n s).
Proof.
  intros Hp. unfold next. change (root_level (mp s)) with (root_level s). destruct (root_level s) eqn:Er; [reflexivity|]. destruct Hp as [Hp|Hp]; [|unfold root_level in Er; rewrite Hp in Er; discriminate].
  rewrite (mp_pop s Hp). destruct (pop opT s) as [s1| |]; cbn [rbind rmp]; try reflexivity. cbn [decisions mp]. destruct (map negl (decisions s)) as [|p r]; [reflexivity|]. unfold guard. change (is_undef (mp s1)) with (is_undef s1). destruct (is_undef s1 p); [|reflexivity].
  rewrite mp_record. destruct (record opT s1 (p :: r)) as [s2| |]; cbn [rbind rmp]; try reflexivity. apply mp_propagate. left. exact Hp.
Qed.
Lemma mp_check_loop n rl : pops -> forall ls s, check_loop opU n (mp s) rl ls = rmp m1 (check_loop opT n s rl ls).
Proof.
  intros [Hu Hp]. induction ls as [|p r IH]; intros s; cbn [check_loop]; [reflexivity|]. change (dlevel (mp s)) with (dlevel s). rewrite (mp_assume n s p (fun t _ => Hu t) Hp). destruct (assume opT n s p) as [[s1 b1]| |]; cbn [rbind rmp]; try reflexivity. unfold m1 at 1; cbn [fst snd].
  assert (E : (if b1 then propagate opU n (mp s1) else Ok (mp s1, false)) = rmp m1 (if b1 then propagate opT n s1 else Ok (s1, false))) by (destruct b1; [apply mp_propagate; left; exact Hp|reflexivity]). rewrite E.
  destruct (if b1 then propagate opT n s1 else Ok (s1, false)) as [[s2 b2]| |]; cbn [rbind rmp]; try reflexivity. unfold m1 at 1; cbn [fst snd]. change (dlevel (mp s2)) with (dlevel s2). destruct (_ || _); [reflexivity|apply IH].
Qed.
Lemma mp_check_loop1 n rl s ls : length ls <= 1 -> (forall t, In t (theories s) -> f (th_push opT t) = th_push opU (f t)) -> popc -> check_loop opU n (mp s) rl ls = rmp m1 (check_loop opT n s rl ls).
Proof.
  intros Hl Hu Hp. destruct ls as [|p [|? ?]]; cbn [check_loop]; [reflexivity| |cbn in Hl; lia]. change (dlevel (mp s)) with (dlevel s). rewrite (mp_assume n s p Hu Hp). destruct (assume opT n s p) as [[s1 b1]| |]; cbn [rbind rmp]; try reflexivity. unfold m1 at 1; cbn [fst snd].
  assert (E : (if b1 then propagate opU n (mp s1) else Ok (mp s1, false)) = rmp m1 (if b1 then propagate opT n s1 else Ok (s1, false))) by (destruct b1; [apply mp_propagate; left; exact Hp|reflexivity]). rewrite E.
  destruct (if b1 then propagate opT n s1 else Ok (s1, false)) as [[s2 b2]| |]; cbn [rbind rmp]; try reflexivity. unfold m1 at 1; cbn [fst snd]. change (dlevel (mp s2)) with (dlevel s2). destruct (_ || _); reflexivity.
Qed.
Lemma mp_check n s ls : pops \/ (length ls <= 1 /\ popc /\ forall t, In t (theories s) -> f (th_push opT t) = th_push opU (f t)) -> check opU n (mp s) ls = rmp m1 (check opT n s ls).
Proof.
  intros H. assert (Hp : popc) by (destruct H as [[_ H]|(_ & H & _)]; exact H). unfold check, backjump. change (dlevel (mp s)) with (dlevel s).
  assert (El : check_loop opU n (mp s) (dlevel s) ls = rmp m1 (check_loop opT n s (dlevel s) ls)) by (destruct H as [H|(H1 & _ & H2)]; [apply mp_check_loop, H|apply mp_check_loop1; assumption]).
  rewrite El. destruct (check_loop opT n s _ ls) as [[s1 []]| |]; cbn [rbind rmp]; try reflexivity; unfold m1 at 1; cbn [fst snd]; change (dlevel (mp s1)) with (dlevel s1).
  - unfold guard. destruct (_ =? _); [|reflexivity]. rewrite (mp_pop_to _ Hp). destruct (pop_to opT _ s1 _) as [s2| |]; reflexivity.
  - rewrite (mp_pop_to _ Hp). destruct (pop_to opT _ s1 _) as [s2| |]; reflexivity.
Qed.

(** The calls that neither push nor pop when they are made at root level. *)
Definition rooted_call (c : call) : bool := match c with CAssume _ | CPop | CCheck _ => false | _ => true end.
Theorem mp_step n s c : pops \/ (trail_lim s = [] /\ rooted_call c = true) -> step (ops := opU) n (mp s) c = rmp m1 (step (ops := opT) n s c).
Proof.
  intros H. assert (Hp : popc \/ trail_lim s = []) by (destruct H as [[_ H]|[H _]]; auto). assert (Hq : rooted_call c = false -> pops) by (intros E; destruct H as [H|[_ H]]; [exact H|congruence]). destruct c; cbn [step].
  - reflexivity.
  - rewrite mp_new_clause. destruct (new_clause s ls) as [[? ?]| |]; reflexivity.
  - rewrite (mp_propagate n s Hp). destruct (propagate opT n s) as [[? ?]| |]; reflexivity.
  - rewrite (mp_assume n s p (fun t _ => proj1 (Hq eq_refl) t) (proj2 (Hq eq_refl))). destruct (assume opT n s p) as [[? ?]| |]; reflexivity.
  - rewrite (mp_pop s (proj2 (Hq eq_refl))). destruct (pop opT s) as [?| |]; reflexivity.
  - rewrite (mp_check n s ls (or_introl (Hq eq_refl))). destruct (check opT n s ls) as [[? ?]| |]; reflexivity.
  - rewrite (mp_next n s Hp). destruct (next opT n s) as [[? ?]| |]; reflexivity.
  - rewrite (mp_simplify n s Hp). destruct (simplify_db opT n s) as [[? ?]| |]; reflexivity.
  - rewrite mp_new_eq. destruct (new_eq s l r) as [[? ?]| |]; reflexivity.
  - rewrite mp_new_conj. destruct (new_conj s ls) as [[? ?]| |]; reflexivity.
  - rewrite mp_new_disj. destruct (new_disj s ls) as [[? ?]| |]; reflexivity.
  - unfold new_at_most_one. rewrite mp_amo. destruct (new_amo_f _ s ls) as [[? ?]| |]; reflexivity.
  - rewrite mp_exct. destruct (new_exct_one s ls) as [[? ?]| |]; reflexivity.
  - rewrite mp_listen. destruct (listen s v l) as [?| |]; reflexivity.
Qed.
End MapTh.
