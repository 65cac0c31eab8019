(** Two networks whose theories are related, whatever their listeners are and whatever these have been told: every function
    of the core keeps them so and answers the same.  What is undefined behaviour in the first network is left open. *)
From Verif Require Import Base Keys Sat SatSpec SatInv Run.
Local Arguments Nat.ltb : simpl never.
Local Arguments Nat.leb : simpl never.
Local Arguments Nat.eqb : simpl never.
Local Arguments Nat.sub : simpl never.

Definition rr {A B} (R : A -> B -> Prop) (r : res A) (q : res B) : Prop :=
  match r with Ok a => match q with Ok b => R a b | _ => False end | OOF => q = OOF | UB => True end.
Lemma rr_bind {A B C E} (R : A -> B -> Prop) (Q : C -> E -> Prop) r q k h : rr R r q -> (forall a b, R a b -> rr Q (k a) (h b)) -> rr Q (rbind r k) (rbind q h).
Proof. destruct r as [a| |], q as [b| |]; cbn; intros H K; try discriminate; try tauto; try (apply K, H). Qed.
Lemma rr_guard {A B} (R : A -> B -> Prop) b r q : (b = true -> rr R r q) -> rr R (guard b r) (guard b q).
Proof. destruct b; cbn; auto. Qed.
Lemma rr_refl {A} (r : res A) : rr eq r r.
Proof. destruct r; cbn; auto. Qed.
Lemma rr_ok {A B} (R : A -> B -> Prop) r q a : rr R r q -> r = Ok a -> exists b, q = Ok b /\ R a b.
Proof. intros H ->. cbn in H. destruct q as [b| |]; [eauto|destruct H|destruct H]. Qed.
Lemma rr_mono {A B} (R Q : A -> B -> Prop) r q : (forall a b, R a b -> Q a b) -> rr R r q -> rr Q r q.
Proof. destruct r, q; cbn; auto. Qed.
Lemma rr_rfold {A B C} (R : A -> B -> Prop) (f : A -> C -> res A) (g : B -> C -> res B) : (forall c a b, R a b -> rr R (f a c) (g b c)) -> forall l a b, R a b -> rr R (rfold f l a) (rfold g l b).
Proof. intros H. induction l as [|c l IH]; intros a b Hab; cbn [rfold]; [exact Hab|]. apply (rr_bind R); [apply H, Hab|exact IH]. Qed.

Section Para.
Context {T U : Type} (R : T -> U -> Prop).
Definition mpw (ths : list U) (L : nat -> list nat) (G : list (nat * nat * lbool)) (s : st T) : st U :=
  mk_st (nv s) (cls s) (ncid s) (constrs s) (watches s) (assigns s) (level s) (reason s) (prop_q s) (trail s) (trail_lim s) (decisions s) (exprs s) ths (bounds s) L G.
Definition rel (s : st T) (u : st U) : Prop := exists ths L G, u = mpw ths L G s /\ Forall2 R (theories s) ths.
Definition relp {A} (x : st T * A) (y : st U * A) : Prop := rel (fst x) (fst y) /\ snd x = snd y.
Definition rel3 {A B} (x : st T * A * B) (y : st U * A * B) : Prop := rel (fst (fst x)) (fst (fst y)) /\ snd (fst x) = snd (fst y) /\ snd x = snd y.

Ltac mw := repeat match goal with
  | |- context [value (mpw ?a ?b ?c ?s)] => change (value (mpw a b c s)) with (value s)
  | |- context [is_true (mpw ?a ?b ?c ?s)] => change (is_true (mpw a b c s)) with (is_true s)
  | |- context [is_false (mpw ?a ?b ?c ?s)] => change (is_false (mpw a b c s)) with (is_false s)
  | |- context [is_undef (mpw ?a ?b ?c ?s)] => change (is_undef (mpw a b c s)) with (is_undef s)
  | |- context [root_level (mpw ?a ?b ?c ?s)] => change (root_level (mpw a b c s)) with (root_level s)
  | |- context [in_range (mpw ?a ?b ?c ?s)] => change (in_range (mpw a b c s)) with (in_range s)
  | |- context [dlevel (mpw ?a ?b ?c ?s)] => change (dlevel (mpw a b c s)) with (dlevel s)
  | |- context [find_expr (mpw ?a ?b ?c ?s)] => change (find_expr (mpw a b c s)) with (find_expr s)
  | |- context [get_reason_all (mpw ?a ?b ?c ?s)] => change (get_reason_all (mpw a b c s)) with (get_reason_all s)
  | |- context [get_reason_of (mpw ?a ?b ?c ?s)] => change (get_reason_of (mpw a b c s)) with (get_reason_of s)
  | |- context [an_visit (mpw ?a ?b ?c ?s)] => change (an_visit (mpw a b c s)) with (an_visit s)
  | |- context [nv (mpw ?a ?b ?c ?s)] => change (nv (mpw a b c s)) with (nv s)
  | |- context [trail (mpw ?a ?b ?c ?s)] => change (trail (mpw a b c s)) with (trail s)
  | |- context [trail_lim (mpw ?a ?b ?c ?s)] => change (trail_lim (mpw a b c s)) with (trail_lim s)
  | |- context [prop_q (mpw ?a ?b ?c ?s)] => change (prop_q (mpw a b c s)) with (prop_q s)
  | |- context [level (mpw ?a ?b ?c ?s)] => change (level (mpw a b c s)) with (level s)
  | |- context [reason (mpw ?a ?b ?c ?s)] => change (reason (mpw a b c s)) with (reason s)
  | |- context [cls (mpw ?a ?b ?c ?s)] => change (cls (mpw a b c s)) with (cls s)
  | |- context [watches (mpw ?a ?b ?c ?s)] => change (watches (mpw a b c s)) with (watches s)
  | |- context [constrs (mpw ?a ?b ?c ?s)] => change (constrs (mpw a b c s)) with (constrs s)
  | |- context [bounds (mpw ?a ?b ?c ?s)] => change (bounds (mpw a b c s)) with (bounds s)
  | |- context [decisions (mpw ?a ?b ?c ?s)] => change (decisions (mpw a b c s)) with (decisions s)
  | |- context [theories (mpw ?a ?b ?c ?s)] => change (theories (mpw a b c s)) with a
  end.
Ltac ru := intros (ths & L & G & -> & F).
(** Both networks are the same record up to theories, listeners and log. *)
Ltac rl := match goal with F : Forall2 _ _ ?ths |- rel _ _ => exists ths; do 2 eexists; split; [reflexivity|exact F] end.
Ltac leaf := cbn [rr]; first [exact Logic.I | reflexivity | split; [rl|reflexivity] | rl].

Lemma pa_new_var s u : rel s u -> relp (new_var s) (new_var u).
Proof. ru. split; [rl|reflexivity]. Qed.
Lemma pa_new_vars n : forall s u, rel s u -> relp (new_vars s n) (new_vars u n).
Proof.
  induction n as [|n IH]; intros s u H; cbn [new_vars]; [split; auto|]. destruct (pa_new_var s u H) as [H1 E]. destruct (new_var s) as [s1 v], (new_var u) as [u1 v']. cbn [fst snd] in *. subst v'.
  destruct (IH _ _ H1) as [H2 E2]. destruct (new_vars s1 n) as [s2 r], (new_vars u1 n) as [u2 r']. cbn [fst snd] in *. subst r'. split; auto.
Qed.
Lemma pa_enqueue s u p c : rel s u -> relp (enqueue s p c) (enqueue u p c).
Proof. ru. unfold enqueue. mw. destruct (value s p); leaf. Qed.
Lemma pa_pop_one s u : rel s u -> rr rel (pop_one s) (pop_one u).
Proof. ru. unfold pop_one. mw. destruct (trail s); cbn; leaf. Qed.
Lemma pa_new_constr s u ls : rel s u -> rr relp (new_constr s ls) (new_constr u ls).
Proof. ru. destruct ls as [|a [|b r]]; cbn; leaf. Qed.
Lemma pa_new_clause s u ls : rel s u -> rr relp (new_clause s ls) (new_clause u ls).
Proof.
  intros H. pose proof H as (ths & L & G & -> & F). unfold new_clause. mw. apply rr_guard. intros _. apply rr_guard. intros _. destruct (clause_filter (value s) None (sort_by lvar ls)) as [[|p [|q r]]|]; cbn; try leaf.
  apply pa_enqueue, H.
Qed.
Lemma pa_new_clauses cs : forall s u, rel s u -> rr relp (new_clauses s cs) (new_clauses u cs).
Proof.
  induction cs as [|c cs IH]; intros s u H; cbn [new_clauses]; [split; auto|]. apply (rr_bind relp); [apply pa_new_clause, H|]. intros [s1 b] [u1 b'] [H1 E]. cbn [fst snd] in *. subst b'. destruct b; [apply IH, H1|split; auto].
Qed.
Lemma pa_add s u k p : rel s u -> rel (add_expr s k p) (add_expr u k p).
Proof. intros H. pose proof H as (ths & L & G & -> & F). unfold add_expr. mw. destruct (find_expr s k); [exact H|rl]. Qed.
Lemma pa_reify s u cs k ctr : rel s u -> rr relp (reify s cs k ctr) (reify u cs k ctr).
Proof. intros H. unfold reify. apply (rr_bind relp); [apply pa_new_clauses, H|]. intros [s1 b] [u1 b'] [H1 E]. cbn [fst snd] in *. subst b'. destruct b; split; cbn; auto. apply pa_add, H1. Qed.
Lemma pa_new_eq s u l r : rel s u -> rr relp (new_eq s l r) (new_eq u l r).
Proof.
  intros H. pose proof H as (ths & L & G & -> & F). unfold new_eq. mw. apply rr_guard. intros _. apply rr_guard. intros _. destruct (lit_eqb l r); [leaf|]. cbv zeta. destruct (value s l), (value s r); try leaf.
  destruct (find_expr s (key_eq l r)); [leaf|]. destruct (pa_new_var _ _ H) as [H1 E]. destruct (new_var s) as [s1 v], (new_var (mpw ths L G s)) as [u1 v']. cbn [fst snd] in *. subst v'. apply pa_reify, H1.
Qed.
Lemma pa_new_conj s u ls : rel s u -> rr relp (new_conj s ls) (new_conj u ls).
Proof.
  intros H. pose proof H as (ths & L & G & -> & F). unfold new_conj. mw. apply rr_guard. intros _. apply rr_guard. intros _. destruct (conj_filter (value s) None (sort_by lvar ls)) as [[|p [|q r]]|]; try leaf.
  destruct (find_expr s (key_conj (p :: q :: r))); [leaf|]. destruct (pa_new_var _ _ H) as [H1 E]. destruct (new_var s) as [s1 v], (new_var (mpw ths L G s)) as [u1 v']. cbn [fst snd] in *. subst v'. apply pa_reify, H1.
Qed.
Lemma pa_new_disj s u ls : rel s u -> rr relp (new_disj s ls) (new_disj u ls).
Proof.
  intros H. pose proof H as (ths & L & G & -> & F). unfold new_disj. mw. apply rr_guard. intros _. apply rr_guard. intros _. destruct (clause_filter (value s) None (sort_by lvar ls)) as [[|p [|q r]]|]; try leaf.
  destruct (find_expr s (key_disj (p :: q :: r))); [leaf|]. destruct (pa_new_var _ _ H) as [H1 E]. destruct (new_var s) as [s1 v], (new_var (mpw ths L G s)) as [u1 v']. cbn [fst snd] in *. subst v'. apply pa_reify, H1.
Qed.
Lemma pa_amo n : forall s u ls, rel s u -> rr relp (new_amo_f n s ls) (new_amo_f n u ls).
Proof.
  induction n as [|n IH]; intros s u ls H; cbn [new_amo_f]; [reflexivity|]. pose proof H as (ths & L & G & -> & F). mw. apply rr_guard. intros _. apply rr_guard. intros _. destruct (amo_filter (value s) None (sort_by lvar ls)) as [[|p [|q r]]|]; try leaf.
  destruct (find_expr s (key_amo (p :: q :: r))); [leaf|]. destruct (length (p :: q :: r) <? 4).
  - destruct (pa_new_var _ _ H) as [H1 E]. destruct (new_var s) as [s1 v], (new_var (mpw ths L G s)) as [u1 v']. cbn [fst snd] in *. subst v'. apply pa_reify, H1.
  - cbv zeta. destruct (pa_new_vars (ceil_sqrt (length (p :: q :: r))) _ _ H) as [H1 E1]. destruct (new_vars s _) as [s1 x], (new_vars (mpw ths L G s) _) as [u1 x']. cbn [fst snd] in *. subst x'.
    destruct (pa_new_vars (ceil_div (length (p :: q :: r)) (ceil_sqrt (length (p :: q :: r)))) _ _ H1) as [H2 E2]. destruct (new_vars s1 _) as [s2 y], (new_vars u1 _) as [u2 y']. cbn [fst snd] in *. subst y'.
    apply (rr_bind relp); [apply IH, H2|]. intros [s3 cu] [u3 cu'] [H3 E3]. cbn [fst snd] in *. subst cu'. apply (rr_bind relp); [apply IH, H3|]. intros [s4 cv] [u4 cv'] [H4 E4]. cbn [fst snd] in *. subst cv'.
    apply (rr_bind relp); [apply pa_new_conj, H4|]. intros [s5 ctr] [u5 ctr'] [H5 E5]. cbn [fst snd] in *. subst ctr'. apply pa_reify, H5.
Qed.
Lemma pa_exct s u ls : rel s u -> rr relp (new_exct_one s ls) (new_exct_one u ls).
Proof.
  intros H. pose proof H as (ths & L & G & -> & F). unfold new_exct_one. mw. apply rr_guard. intros _. apply rr_guard. intros _. destruct (amo_filter (value s) None (sort_by lvar ls)) as [[|p r]|]; try leaf.
  destruct (match r with [] => lsgn p | _ :: _ => false end); [leaf|]. destruct (find_expr s (key_exct (p :: r))); [leaf|].
  apply (rr_bind relp); [apply pa_amo, H|]. intros [s1 ctr] [u1 ctr'] [H1 E1]. cbn [fst snd] in *. subst ctr'. apply (rr_bind relp); [apply pa_new_clause, H1|]. intros [s2 b] [u2 b'] [H2 E2]. cbn [fst snd] in *. subst b'.
  destruct b; split; cbn; auto. apply pa_add, H2.
Qed.
Lemma pa_listen s u v l : rel s u -> rr rel (listen s v l) (listen u v l).
Proof. ru. unfold listen. mw. apply rr_guard. intros _. destruct (is_undef s _); [|leaf]. destruct (memn l (listening s v)), (memn l (listening (mpw ths L G s) v)); leaf. Qed.
(** A listener registered in the first network only. *)
Lemma pa_listen1 s u v l s' : rel s u -> listen s v l = Ok s' -> rel s' u.
Proof. ru. unfold listen, guard. destruct (v <? nv s); [|discriminate]. destruct (is_undef s _); [destruct (memn l _)|]; intros E; injection E as <-; rl. Qed.
Lemma pa_clause_propagate s u c p : rel s u -> rr relp (clause_propagate s c p) (clause_propagate u c p).
Proof.
  intros H. pose proof H as (ths & L & G & -> & F). unfold clause_propagate. mw. destruct (swap_watch p (cls s c)) as [|x0 [|x1 r]]; try leaf.
  destruct (is_true s x0); [leaf|]. destruct (negb (is_false s x1)); [leaf|]. destruct (find_split _ r) as [[[pre l] post]|]; [leaf|]. cbn. apply pa_enqueue. rl.
Qed.
Lemma pa_prop_clauses p : forall tmp s u, rel s u -> rr relp (prop_clauses s p tmp) (prop_clauses u p tmp).
Proof.
  induction tmp as [|c r IH]; intros s u H; cbn [prop_clauses]; [split; auto|]. apply (rr_bind relp); [apply pa_clause_propagate, H|]. intros [s1 b] [u1 b'] [H1 E]. cbn [fst snd] in *. subst b'.
  destruct b; [apply IH, H1|]. destruct H1 as (ths & L & G & -> & F). mw. leaf.
Qed.
Lemma pa_an_select seen : forall n s u pr, rel s u -> rr rel3 (an_select n s seen pr) (an_select n u seen pr).
Proof.
  induction n as [|n IH]; intros s u pr H; cbn [an_select]; [leaf|]. pose proof H as (ths & L & G & -> & F). mw. destruct (trail s) as [|p tr] eqn:Et; [leaf|]. apply rr_guard. intros _.
  apply (rr_bind eq); [apply rr_refl|]. intros pr' ? <-. apply (rr_bind rel); [apply pa_pop_one, H|]. intros s1 u1 H1. destruct (memn (lvar p) seen); [split; auto|apply IH, H1].
Qed.
Lemma pa_an_loop : forall n s u a pr, rel s u -> rr rel3 (an_loop n s a pr) (an_loop n u a pr).
Proof.
  induction n as [|n IH]; intros s u a pr H; cbn [an_loop]; [leaf|]. pose proof H as (ths & L & G & -> & F). mw. apply (rr_bind eq); [apply rr_refl|]. intros a1 ? <-.
  apply (rr_bind rel3); [apply pa_an_select, H|]. intros [[s1 p] pr1] [[u1 p'] pr1'] (H1 & E1 & E2). cbn [fst snd] in *. subst p' pr1'. cbv zeta. destruct (0 <? _)%Z; [apply IH, H1|split; auto].
Qed.
Lemma pa_analyze s u ls : rel s u -> rr rel3 (analyze s ls) (analyze u ls).
Proof.
  intros H. pose proof H as (ths & L & G & -> & F). unfold analyze. mw. apply (rr_bind eq); [apply rr_refl|]. intros pr ? <-. apply (rr_bind rel3); [apply pa_an_loop, H|].
  intros [[s1 a] p] [[u1 a'] p'] (H1 & E1 & E2). cbn [fst snd] in *. subst a' p'. pose proof H1 as (ths1 & L1 & G1 & -> & F1). mw. apply rr_guard. intros _. apply rr_guard. intros _. split; auto.
Qed.
Lemma pa_pop_until n : forall k s u, rel s u -> rr rel (pop_until k s n) (pop_until k u n).
Proof.
  induction k as [|k IH]; intros s u H; cbn [pop_until]; [exact H|]. pose proof H as (ths & L & G & -> & F). mw. destruct (n <? length (trail s)); [|exact H]. apply (rr_bind rel); [apply pa_pop_one, H|]. apply IH.
Qed.
Lemma pa_clause_simplify s u c : rel s u -> relp (clause_simplify s c) (clause_simplify u c).
Proof.
  ru. unfold clause_simplify. mw. assert (E : forall ls, before_true (mpw ths L G s) ls = before_true s ls) by (induction ls as [|l r IH]; cbn; [reflexivity|]; rewrite IH; reflexivity). rewrite E. destruct (existsb _ _); leaf.
Qed.
Lemma pa_simp_loop : forall n s u k m o, rel s u -> rel3 (simp_loop n s k m o) (simp_loop n u k m o).
Proof.
  induction n as [|n IH]; intros s u k m o H; cbn [simp_loop]; [split; auto|]. destruct m as [|c r]; [split; auto|]. destruct (pa_clause_simplify s u c H) as [H1 E]. destruct (clause_simplify s c) as [s1 b], (clause_simplify u c) as [u1 b']. cbn [fst snd] in *. subst b'.
  destruct b; [destruct r|]; apply IH, H1.
Qed.
Lemma pa_destroy c s u : rel s u -> rr rel (destroy s c) (destroy u c).
Proof.
  ru. unfold destroy. mw. destruct (cls s c) as [|l0 [|l1 r]]; try leaf. destruct (remove_first c (watches s (negl l0))) as [w0|]; [|leaf]. cbv zeta. destruct (remove_first c _) as [w1|]; leaf.
Qed.

Context (opT : theory_ops T) (opU : theory_ops U).
Hypothesis Hsort : th_sort opU = th_sort opT.
Lemma pa_record ls s u : rel s u -> rr rel (record opT s ls) (record opU u ls).
Proof.
  intros H. pose proof H as (ths & L & G & -> & F). unfold record. rewrite Hsort. destruct ls as [|l0 tl]; [leaf|]. mw. do 5 (apply rr_guard; intros _). destruct tl as [|l1 tl].
  - apply rr_guard. intros _. destruct (pa_enqueue _ _ l0 None H) as [H1 E]. destruct (enqueue s l0 None) as [s1 b], (enqueue (mpw ths L G s) l0 None) as [u1 b']. cbn [fst snd] in *. subst b'. apply rr_guard. intros _. exact H1.
  - cbv zeta. apply (rr_bind relp); [apply pa_new_constr, H|]. intros [s1 c] [u1 c'] [H1 E1]. cbn [fst snd] in *. subst c'.
    destruct (pa_enqueue _ _ l0 (Some c) H1) as [H2 E]. destruct (enqueue s1 l0 (Some c)) as [s2 b], (enqueue u1 l0 (Some c)) as [u2 b']. cbn [fst snd] in *. subst b'. apply rr_guard. intros _. destruct H2 as (ths2 & L2 & G2 & -> & F2). mw. leaf.
Qed.
Lemma pa_records ls s u : rel s u -> rr rel (rfold (record opT) ls s) (rfold (record opU) ls u).
Proof. apply (rr_rfold rel). intros c a b. apply pa_record. Qed.

Definition relt (x : T * list (list lit) * option (list lit)) (y : U * list (list lit) * option (list lit)) : Prop := R (fst (fst x)) (fst (fst y)) /\ snd (fst x) = snd (fst y) /\ snd x = snd y.
Definition relc (x : T * option (list lit)) (y : U * option (list lit)) : Prop := R (fst x) (fst y) /\ snd x = snd y.
Hypothesis Hprop : forall t u val p, R t u -> rr relt (th_prop opT t val p) (th_prop opU u val p).
Hypothesis Hcheck : forall t u val, R t u -> rr relc (th_check opT t val) (th_check opU u val).
Hypothesis Hpush : forall t u, R t u -> R (th_push opT t) (th_push opU u).
Hypothesis Hpop : forall t u, R t u -> R (th_pop opT t) (th_pop opU u).

Lemma F2_nth (l : list T) (m : list U) : Forall2 R l m -> forall i, match nth_error l i, nth_error m i with Some t, Some u => R t u | None, None => True | _, _ => False end.
Proof. induction 1 as [|t u l m H F IH]; intros [|i]; cbn; auto. apply IH. Qed.
Lemma F2_len (l : list T) (m : list U) : Forall2 R l m -> length l = length m.
Proof. induction 1; cbn; auto. Qed.
Lemma F2_set (l : list T) (m : list U) : Forall2 R l m -> forall i t u, R t u -> Forall2 R (set_nth l i t) (set_nth m i u).
Proof.
  unfold set_nth. induction 1 as [|x y l m H F IH]; intros [|i] t u Htu; cbn; auto.
Qed.
Lemma pa_set_th s ths L G i t u : Forall2 R (theories s) ths -> R t u -> rel (set_theories (set_nth (theories s) i t) s) (set_theories (set_nth ths i u) (mpw ths L G s)).
Proof. intros F H. exists (set_nth ths i u), L, G. split; [reflexivity|]. apply F2_set; assumption. Qed.
Lemma pa_th_prop_at p i s u : rel s u -> rr relp (th_prop_at opT s i p) (th_prop_at opU u i p).
Proof.
  ru. unfold th_prop_at. mw. pose proof (F2_nth _ _ F i) as Hi. destruct (nth_error (theories s) i) as [t|], (nth_error ths i) as [t'|]; try (destruct Hi; fail); [|leaf].
  apply (rr_bind relt); [apply Hprop, Hi|]. intros [[t1 ls] cf] [[u1 ls'] cf'] (H1 & E1 & E2). cbn [fst snd] in *. subst ls' cf'. apply (rr_bind rel); [apply pa_records, pa_set_th; assumption|]. intros s1 u2 H2. split; auto.
Qed.
Lemma pa_th_prop_all p : forall is s u, rel s u -> rr relp (th_prop_all opT s is p) (th_prop_all opU u is p).
Proof.
  induction is as [|i r IH]; intros s u H; cbn [th_prop_all]; [split; auto|]. apply (rr_bind relp); [apply pa_th_prop_at, H|]. intros [s1 cf] [u1 cf'] [H1 E]. cbn [fst snd] in *. subst cf'. destruct cf; [split; auto|apply IH, H1].
Qed.
Lemma pa_th_check_all : forall n i s u, rel s u -> rr relp (th_check_all opT s n i) (th_check_all opU u n i).
Proof.
  induction n as [|n IH]; intros i s u H; cbn [th_check_all]; [split; auto|]. pose proof H as (ths & L & G & -> & F). mw. pose proof (F2_nth _ _ F i) as Hi. destruct (nth_error (theories s) i) as [t|], (nth_error ths i) as [t'|]; try (destruct Hi; fail); [|split; auto].
  apply (rr_bind relc); [apply Hcheck, Hi|]. intros [t1 cf] [u1 cf'] [H1 E]. cbn [fst snd] in *. subst cf'. pose proof (pa_set_th s ths L G i t1 u1 F H1) as H2. destruct cf; [split; auto|apply IH, H2].
Qed.
Lemma pa_pop s u : rel s u -> rr rel (pop opT s) (pop opU u).
Proof.
  intros H. pose proof H as (ths & L & G & -> & F). unfold pop. mw. destruct (trail_lim s) as [|n tl]; [leaf|]. apply (rr_bind rel); [apply pa_pop_until, H|]. intros s1 u1 (ths1 & L1 & G1 & -> & F1). mw. destruct (decisions s1) as [|d ds]; [leaf|].
  exists (map (th_pop opU) ths1), L1, G1. split; [reflexivity|]. cbn. clear -F1 Hpop. induction F1; cbn; auto.
Qed.
Lemma pa_pop_to lvl : forall n s u, rel s u -> rr rel (pop_to opT n s lvl) (pop_to opU n u lvl).
Proof.
  induction n as [|n IH]; intros s u H; cbn [pop_to]; pose proof H as (ths & L & G & -> & F); mw; (destruct (lvl <? dlevel s); [|exact H]); [leaf|]. apply (rr_bind rel); [apply pa_pop, H|exact IH].
Qed.
Lemma pa_resolve ls s u : rel s u -> rr rel (resolve opT s ls) (resolve opU u ls).
Proof.
  intros H. unfold resolve, backjump. apply (rr_bind rel3); [apply pa_analyze, H|]. intros [[s1 ng] bt] [[u1 ng'] bt'] (H1 & E1 & E2). cbn [fst snd] in *. subst ng' bt'.
  apply (rr_bind rel); [|intros; apply pa_record; assumption]. replace (dlevel u1) with (dlevel s1) by (destruct H1 as (? & ? & ? & -> & _); reflexivity). apply pa_pop_to, H1.
Qed.
Lemma pa_theory_resolve ls s u : rel s u -> rr rel (theory_resolve opT s ls) (theory_resolve opU u ls).
Proof. intros H. pose proof H as (ths & L & G & -> & F). unfold theory_resolve. mw. apply rr_guard. intros _. apply rr_guard. intros _. apply pa_resolve, H. Qed.
Lemma pa_propagate : forall n s u, rel s u -> rr relp (propagate opT n s) (propagate opU n u).
Proof.
  induction n as [|n IH]; intros s u H; cbn [propagate]; [reflexivity|]. pose proof H as (ths & L & G & -> & F). mw. destruct (prop_q s) as [|p q].
  - rewrite <- (F2_len _ _ F). apply (rr_bind relp); [apply pa_th_check_all, H|]. intros [s1 cf] [u1 cf'] [H1 E]. cbn [fst snd] in *. subst cf'. destruct cf as [c|]; [|split; auto].
    replace (root_level u1) with (root_level s1) by (destruct H1 as (? & ? & ? & -> & _); reflexivity). destruct (root_level s1); [split; auto|]. apply (rr_bind rel); [apply pa_theory_resolve, H1|exact IH].
  - apply (rr_bind relp); [apply pa_prop_clauses; rl|]. intros [s2 cf] [u2 cf'] [H2 E]. cbn [fst snd] in *. subst cf'. pose proof H2 as (ths2 & L2 & G2 & -> & F2). destruct cf as [c|].
    + assert (H3 : rel (set_prop_q [] s2) (set_prop_q [] (mpw ths2 L2 G2 s2))) by rl. change (root_level (set_prop_q [] (mpw ths2 L2 G2 s2))) with (root_level (set_prop_q [] s2)). cbv zeta. destruct (root_level (set_prop_q [] s2)); [split; auto|].
      apply (rr_bind rel); [apply pa_resolve, H3|exact IH].
    + mw. rewrite Hsort. apply (rr_bind relp); [apply pa_th_prop_all, H2|]. intros [s3 cf] [u3 cf'] [H3 E]. cbn [fst snd] in *. subst cf'. pose proof H3 as (ths3 & L3 & G3 & -> & F3). destruct cf as [c|].
      * assert (H4 : rel (set_prop_q [] s3) (set_prop_q [] (mpw ths3 L3 G3 s3))) by rl. change (root_level (set_prop_q [] (mpw ths3 L3 G3 s3))) with (root_level (set_prop_q [] s3)). cbv zeta. destruct (root_level (set_prop_q [] s3)); [split; auto|].
        apply (rr_bind rel); [apply pa_theory_resolve, H4|exact IH].
      * mw. apply IH. destruct (root_level s3); [rl|exact H3].
Qed.
Lemma pa_simplify n s u : rel s u -> rr relp (simplify_db opT n s) (simplify_db opU n u).
Proof.
  intros H. pose proof H as (ths & L & G & -> & F). unfold simplify_db. mw. apply rr_guard. intros _. apply (rr_bind relp); [apply pa_propagate, H|]. intros [s1 b] [u1 b'] [H1 E]. cbn [fst snd] in *. subst b'. destruct b; [|split; auto].
  replace (constrs u1) with (constrs s1) by (destruct H1 as (? & ? & ? & -> & _); reflexivity). destruct (pa_simp_loop (length (constrs s1)) s1 u1 [] (constrs s1) [] H1) as (H2 & E1 & E2). destruct (simp_loop _ s1 [] _ []) as [[s2 k] o], (simp_loop _ u1 [] _ []) as [[u2 k'] o']. cbn [fst snd] in *. subst k' o'.
  apply (rr_bind rel); [|intros; split; auto]. apply (rr_rfold rel); [intros; apply pa_destroy; assumption|]. destruct H2 as (ths2 & L2 & G2 & -> & F2). rl.
Qed.
Lemma pa_assume n p s u : rel s u -> rr relp (assume opT n s p) (assume opU n u p).
Proof.
  ru. unfold assume. mw. apply rr_guard. intros _. apply rr_guard. intros _. cbv zeta.
  match goal with |- rr _ (let (_, _) := enqueue ?a p None in _) (let (_, _) := enqueue ?b p None in _) => assert (H : rel a b); [exists (map (th_push opU) ths), L, G; split; [reflexivity|]; cbn; clear -F Hpush; induction F; cbn; auto|];
    destruct (pa_enqueue a b p None H) as [H1 E]; destruct (enqueue a p None) as [s2 z], (enqueue b p None) as [u2 z'] end. cbn [fst snd] in *. subst z'. destruct z; [apply pa_propagate, H1|split; auto].
Qed.
Lemma pa_next n s u : rel s u -> rr relp (next opT n s) (next opU n u).
Proof.
  intros H. pose proof H as (ths & L & G & -> & F). unfold next. mw. destruct (root_level s); [split; auto|]. apply (rr_bind rel); [apply pa_pop, H|]. intros s1 u1 H1. destruct (map negl (decisions s)) as [|p r]; [leaf|].
  replace (is_undef u1 p) with (is_undef s1 p) by (destruct H1 as (? & ? & ? & -> & _); reflexivity). apply rr_guard. intros _. apply (rr_bind rel); [apply pa_record, H1|]. apply pa_propagate.
Qed.
Lemma pa_check_loop n rl : forall ls s u, rel s u -> rr relp (check_loop opT n s rl ls) (check_loop opU n u rl ls).
Proof.
  induction ls as [|p r IH]; intros s u H; cbn [check_loop]; [split; auto|]. pose proof H as (ths & L & G & -> & F). mw. cbv zeta. apply (rr_bind relp); [apply pa_assume, H|]. intros [s1 b] [u1 b'] [H1 E]. cbn [fst snd] in *. subst b'.
  apply (rr_bind relp); [destruct b; [apply pa_propagate, H1|split; auto]|]. intros [s2 b2] [u2 b2'] [H2 E2]. cbn [fst snd] in *. subst b2'. replace (dlevel u2) with (dlevel s2) by (destruct H2 as (? & ? & ? & -> & _); reflexivity). destruct (_ || _); [split; auto|apply IH, H2].
Qed.
Lemma pa_check n ls s u : rel s u -> rr relp (check opT n s ls) (check opU n u ls).
Proof.
  intros H. pose proof H as (ths & L & G & -> & F). unfold check, backjump. mw. cbv zeta. apply (rr_bind relp); [apply pa_check_loop, H|]. intros [s1 b] [u1 b'] [H1 E]. cbn [fst snd] in *. subst b'.
  replace (dlevel u1) with (dlevel s1) by (destruct H1 as (? & ? & ? & -> & _); reflexivity). destruct b; [apply rr_guard; intros _|]; (apply (rr_bind rel); [apply pa_pop_to, H1|]; intros; split; auto).
Qed.
Lemma pa_wrap {A} (k : A -> ret) (r : res (st T * A)) (q : res (st U * A)) : rr relp r q -> rr relp ('(s', a) <- r ;; Ok (s', k a)) ('(s', a) <- q ;; Ok (s', k a)).
Proof. intros H. apply (rr_bind relp); [exact H|]. intros [s1 a] [u1 b] [H1 E]. cbn [fst snd] in *. subst b. split; auto. Qed.
Theorem pa_step n c s u : rel s u -> rr relp (step (ops := opT) n s c) (step (ops := opU) n u c).
Proof.
  intros H. destruct c; cbn [step].
  - destruct (pa_new_var s u H) as [H1 E]. destruct (new_var s) as [s1 v], (new_var u) as [u1 v']. cbn [fst snd] in *. subst v'. split; auto.
  - apply (pa_wrap RBool), pa_new_clause, H.
  - apply (pa_wrap RBool), pa_propagate, H.
  - apply (pa_wrap RBool), pa_assume, H.
  - apply (rr_bind rel); [apply pa_pop, H|]. intros; split; auto.
  - apply (pa_wrap RBool), pa_check, H.
  - apply (pa_wrap RBool), pa_next, H.
  - apply (pa_wrap RBool), pa_simplify, H.
  - apply (pa_wrap RLit), pa_new_eq, H.
  - apply (pa_wrap RLit), pa_new_conj, H.
  - apply (pa_wrap RLit), pa_new_disj, H.
  - apply (pa_wrap RLit), pa_amo, H.
  - apply (pa_wrap RLit), pa_exct, H.
  - apply (rr_bind rel); [apply pa_listen, H|]. intros; split; auto.
Qed.
End Para.
