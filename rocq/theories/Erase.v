(** The boolean part of a network: the same core without its theories. *)
From Verif Require Import Base Keys Sat SatSpec SatInv SatPop SatMain SatApi Reify Run ReifyProps.
Section Srt.
Context {sr : sorter}.

Section Erase.
Context {T : Type}.
Notation st := (st T).
Definition er (s : st) : Sat.st Empty_set :=
  mk_st (nv s) (cls s) (ncid s) (constrs s) (watches s) (assigns s) (level s) (reason s) (prop_q s) (trail s) (trail_lim s) (decisions s) (exprs s) [] (fun _ => []) (listening s) (log s).
Definition emap {A} (r : res (st * A)) : res (Sat.st Empty_set * A) := match r with Ok (s, a) => Ok (er s, a) | UB => UB | OOF => OOF end.
Lemma er_new_var (s : st) : new_var (er s) = (er (fst (new_var s)), snd (new_var s)).
Proof. reflexivity. Qed.
Lemma er_enqueue (s : st) p c : enqueue (er s) p c = (er (fst (enqueue s p c)), snd (enqueue s p c)).
Proof. unfold enqueue. change (value (er s) p) with (value s p). destruct (value s p); reflexivity. Qed.
Lemma er_new_clause (s : st) ls : new_clause (er s) ls = emap (new_clause s ls).
Proof.
  unfold new_clause, guard. change (root_level (er s)) with (root_level s). change (in_range (er s) ls) with (in_range s ls). change (value (er s)) with (value s).
  destruct (root_level s); [|reflexivity]. destruct (in_range s ls); [|reflexivity]. destruct (clause_filter (value s) None (sort_by lvar ls)) as [[|p [|q r]]|]; try reflexivity.
  cbn. rewrite er_enqueue. destruct (enqueue s p None). reflexivity.
Qed.
Lemma er_new_clauses cs : forall (s : st), new_clauses (er s) cs = emap (new_clauses s cs).
Proof.
  induction cs as [|c cs IH]; intros s; cbn; [reflexivity|]. rewrite er_new_clause. destruct (new_clause s c) as [[s1 []]| |]; cbn; try reflexivity. apply IH.
Qed.
Lemma er_reify (s : st) cs k ctr : reify (er s) cs k ctr = emap (reify s cs k ctr).
Proof.
  unfold reify. rewrite er_new_clauses. destruct (new_clauses s cs) as [[s1 []]| |]; cbn; try reflexivity. unfold add_expr. change (find_expr (er s1) k) with (find_expr s1 k). destruct (find_expr s1 k); reflexivity.
Qed.
Lemma er_new_conj (s : st) ls : new_conj (er s) ls = emap (new_conj s ls).
Proof.
  unfold new_conj, guard. change (root_level (er s)) with (root_level s). change (in_range (er s) ls) with (in_range s ls). change (value (er s)) with (value s).
  destruct (root_level s); [|reflexivity]. destruct (in_range s ls); [|reflexivity]. destruct (conj_filter (value s) None (sort_by lvar ls)) as [[|p [|q r]]|]; try reflexivity.
  change (find_expr (er s)) with (find_expr s). destruct (find_expr s (key_conj (p :: q :: r))); [reflexivity|]. rewrite er_new_var. destruct (new_var s) as [s1 v]. cbn [fst snd]. apply er_reify.
Qed.
(** Stating clauses leaves the theories alone. *)
Lemma enqueue_ths (s : st) p c : theories (fst (enqueue s p c)) = theories s /\ bounds (fst (enqueue s p c)) = bounds s.
Proof. unfold enqueue. destruct (value s p); split; reflexivity. Qed.
Lemma new_clause_ths (s : st) ls s' b : new_clause s ls = Ok (s', b) -> theories s' = theories s /\ bounds s' = bounds s.
Proof.
  unfold new_clause, guard. destruct (root_level s); [|discriminate]. destruct (in_range s ls); [|discriminate]. destruct (clause_filter (value s) None (sort_by lvar ls)) as [[|p [|q r]]|].
  - intros E. injection E as <- <-. auto.
  - intros E. pose proof (enqueue_ths s p None) as H. injection E as E. rewrite E in H. exact H.
  - cbn. intros E. injection E as <- <-. cbn. auto.
  - intros E. injection E as <- <-. auto.
Qed.
Lemma new_clauses_ths cs : forall (s : st) s' b, new_clauses s cs = Ok (s', b) -> theories s' = theories s /\ bounds s' = bounds s.
Proof.
  induction cs as [|c cs IH]; intros s s' b; cbn; [intros E; injection E as <- <-; auto|]. destruct (new_clause s c) as [[s1 b1]| |] eqn:E1; cbn; try discriminate. apply new_clause_ths in E1 as [A B].
  destruct b1; [|intros E; injection E as <- <-; auto]. intros E. destruct (IH s1 s' b E). split; congruence.
Qed.
Lemma new_conj_ths (s : st) ls s' p : new_conj s ls = Ok (s', p) -> theories s' = theories s /\ bounds s' = bounds s.
Proof.
  unfold new_conj, guard. destruct (root_level s); [|discriminate]. destruct (in_range s ls); [|discriminate].
  destruct (conj_filter (value s) None (sort_by lvar ls)) as [[|q [|q' r]]|]; try (intros E; injection E as <- <-; auto).
  destruct (find_expr s (key_conj (q :: q' :: r))); [intros E; injection E as <- <-; auto|]. unfold reify. cbn [new_var]. cbv beta iota zeta.
  destruct (new_clauses _ _) as [[s1 b]| |] eqn:E1; cbn [rbind]; try discriminate. apply new_clauses_ths in E1 as [A B]. cbn in A, B.
  destruct b; intros E; injection E as <- <-; [|auto]. unfold add_expr. destruct (find_expr s1 _); cbn; auto.
Qed.

Theorem conj_erased (s : st) ls : good pureC (er s) -> dlevel s = 0 -> (forall p, In p ls -> lvar p < nv s) ->
  exists s' p, new_conj s ls = Ok (s', p) /\ good pureC (er s') /\ theories s' = theories s /\ bounds s' = bounds s /\ nv s <= nv s' /\ lvar p < nv s' /\ dlevel s' = 0 /\
    (forall M, smodels pureC (er s') M <-> smodels pureC (er s) M /\ (mlit M p = true <-> forall q, In q ls -> mlit M q = true)) /\
    (forall M, smodels pureC (er s) M -> exists M', agree (nv s) M M' /\ smodels pureC (er s') M').
Proof.
  intros HG Hd Hs. destruct (new_conj_ok pureC (er s) ls (g_inv _ _ HG) (g_cache _ _ HG) Hd Hs) as (s1 & p & E & HE & Hcons & Hp & Hm & _).
  rewrite er_new_conj in E. destruct (new_conj s ls) as [[s' p']| |] eqn:E'; cbn in E; try discriminate. injection E as <- <-. destruct (new_conj_ths s ls s' p' E') as [E1 E2].
  exists s', p'. split; [reflexivity|]. split; [apply (ext_good pureC (er s)); assumption|]. split; [exact E1|]. split; [exact E2|]. split; [apply (e_nv _ _ _ HE)|]. split; [exact Hp|].
  split; [pose proof (e_dl _ _ _ HE) as K; change (dlevel s' = dlevel s) in K; congruence|]. split; [|exact Hcons].
  intros M. rewrite Hm, <- forallb_forall. destruct (mlit M p'), (forallb (mlit M) ls); intuition congruence.
Qed.
Lemma new_var_erased (s : st) : good pureC (er s) -> good pureC (er (fst (new_var s))) /\ (forall M, smodels pureC (er (fst (new_var s))) M <-> smodels pureC (er s) M).
Proof.
  intros HG. change (er (fst (new_var s))) with (fst (new_var (er s))). pose proof (step_ok pureC 1 (er s) CVar HG I) as H. pose proof (new_var_ok pureC (er s) (g_inv _ _ HG)) as [_ V].
  cbn [step] in H. destruct (new_var (er s)) as [s1 v]. destruct H as ([H|[H _]] & _); [|discriminate]. split; [exact H|]. intros M. apply (vp_models _ _ _ V).
Qed.
End Erase.
End Srt.
