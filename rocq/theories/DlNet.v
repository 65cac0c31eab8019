(** A network with a difference logic theory, used at root level: the calls of sat_core.h that neither assume nor pop,
    new_var() and new_distance(from, to, dist) of idl_theory.h:35-37 / rdl_theory.h:34-36. *)
From Verif Require Import Base Keys Sat SatSpec SatInv SatPop SatLoop SatMain SatApi SatApi2 SatNext Reify Run ThRel ThGrow SatKept SatFacts Lin Qe Dw Dl DlClo DlTight DlEdge DlTh DlFacts DlApi MapTh DlRoot.
From Coq Require Import Lqa.
Open Scope nat_scope.
Local Arguments Nat.ltb : simpl never.
Local Arguments Nat.eqb : simpl never.
Local Arguments Nat.pow : simpl never.
Local Arguments Nat.mul : simpl never.
Section Srt.
Context {sr : sorter}.

(** ** The decision level is kept by the calls that neither assume nor pop. *)
Section Level.
Context {T : Type}.
Notation st := (st T).
Lemma tl_new_clause (s : st) ls s' b : new_clause s ls = Ok (s', b) -> trail_lim s' = trail_lim s.
Proof.
  unfold new_clause, guard. destruct (root_level s); [|discriminate]. destruct (in_range s ls); [|discriminate]. destruct (clause_filter (value s) None (sort_by lvar ls)) as [[|p [|q r]]|].
  - intros E. injection E as <- <-. auto.
  - intros E. pose proof (tl_enqueue s p None) as H. injection E as E. rewrite E in H. exact H.
  - cbn. intros E. injection E as <- <-. cbn. auto.
  - intros E. injection E as <- <-. auto.
Qed.
Lemma tl_new_clauses cs : forall (s : st) s' b, new_clauses s cs = Ok (s', b) -> trail_lim s' = trail_lim s.
Proof.
  induction cs as [|c cs IH]; intros s s' b; cbn; [intros E; injection E as <- <-; auto|]. destruct (new_clause s c) as [[s1 b1]| |] eqn:E1; cbn; try discriminate. apply tl_new_clause in E1.
  destruct b1; [|intros E; injection E as <- <-; auto]. intros E. rewrite (IH s1 s' b E). exact E1.
Qed.
Lemma tl_add (s : st) k p : trail_lim (add_expr s k p) = trail_lim s.
Proof. unfold add_expr. destruct (find_expr s k); reflexivity. Qed.
Lemma tl_reify (s : st) cs k ctr s' p : reify s cs k ctr = Ok (s', p) -> trail_lim s' = trail_lim s.
Proof.
  unfold reify. destruct (new_clauses s cs) as [[s1 b]| |] eqn:E; cbn; try discriminate. apply tl_new_clauses in E. destruct b; intros K; injection K as <- _; [rewrite tl_add|]; exact E.
Qed.
Lemma tl_new_vars n : forall (s : st), trail_lim (fst (new_vars s n)) = trail_lim s.
Proof. induction n as [|n IH]; intros s; cbn [new_vars]; [reflexivity|]. destruct (new_var s) as [s1 v] eqn:E. injection E as <- _. specialize (IH (fst (new_var s))). cbn [new_var fst] in IH. match goal with |- context [new_vars ?a n] => destruct (new_vars a n) as [s2 r] end. exact IH. Qed.
Ltac same := intros K; injection K as <- _; reflexivity.
Lemma tl_new_eq (s : st) l r s' p : new_eq s l r = Ok (s', p) -> trail_lim s' = trail_lim s.
Proof.
  unfold new_eq, guard. destruct (root_level s); [|discriminate]. destruct (in_range s _); [|discriminate]. destruct (lit_eqb l r); [same|]. cbv zeta. destruct (value s l), (value s r); try same.
  destruct (find_expr s _); [same|]. cbn [new_var]. cbv beta iota zeta. intros K. apply tl_reify in K. exact K.
Qed.
Lemma tl_new_conj (s : st) ls s' p : new_conj s ls = Ok (s', p) -> trail_lim s' = trail_lim s.
Proof.
  unfold new_conj, guard. destruct (root_level s); [|discriminate]. destruct (in_range s _); [|discriminate]. destruct (conj_filter (value s) None (sort_by lvar ls)) as [[|a [|b r]]|]; try same.
  destruct (find_expr s _); [same|]. cbn [new_var]. cbv beta iota zeta. intros K. apply tl_reify in K. exact K.
Qed.
Lemma tl_new_disj (s : st) ls s' p : new_disj s ls = Ok (s', p) -> trail_lim s' = trail_lim s.
Proof.
  unfold new_disj, guard. destruct (root_level s); [|discriminate]. destruct (in_range s _); [|discriminate]. destruct (clause_filter (value s) None (sort_by lvar ls)) as [[|a [|b r]]|]; try same.
  destruct (find_expr s _); [same|]. cbn [new_var]. cbv beta iota zeta. intros K. apply tl_reify in K. exact K.
Qed.
Lemma tl_amo n : forall (s : st) ls s' p, new_amo_f n s ls = Ok (s', p) -> trail_lim s' = trail_lim s.
Proof.
  induction n as [|n IH]; intros s ls s' p; cbn [new_amo_f]; [discriminate|]. unfold guard. destruct (root_level s); [|discriminate]. destruct (in_range s _); [|discriminate]. destruct (amo_filter (value s) None (sort_by lvar ls)) as [[|a [|b r]]|]; try same.
  destruct (find_expr s _); [same|]. destruct (length (a :: b :: r) <? 4).
  - cbn [new_var]. cbv beta iota zeta. intros K. apply tl_reify in K. exact K.
  - cbv zeta. pose proof (tl_new_vars (ceil_sqrt (length (a :: b :: r))) s) as H1. destruct (new_vars s _) as [s1 u]. pose proof (tl_new_vars (ceil_div (length (a :: b :: r)) (ceil_sqrt (length (a :: b :: r)))) s1) as H2. destruct (new_vars s1 _) as [s2 v]. cbn [fst] in H1, H2.
    destruct (new_amo_f n s2 u) as [[s3 cu]| |] eqn:E3; cbn [rbind]; try discriminate. destruct (new_amo_f n s3 v) as [[s4 cv]| |] eqn:E4; cbn [rbind]; try discriminate. destruct (new_conj s4 [cu; cv]) as [[s5 ctr]| |] eqn:E5; cbn [rbind]; try discriminate.
    intros K. apply tl_reify in K. apply IH in E3, E4. apply tl_new_conj in E5. congruence.
Qed.
Lemma tl_exct (s : st) ls s' p : new_exct_one s ls = Ok (s', p) -> trail_lim s' = trail_lim s.
Proof.
  unfold new_exct_one, guard. destruct (root_level s); [|discriminate]. destruct (in_range s _); [|discriminate]. destruct (amo_filter (value s) None (sort_by lvar ls)) as [[|a r]|]; try same.
  destruct (match r with [] => lsgn a | _ :: _ => false end); [same|]. destruct (find_expr s _); [same|]. unfold new_at_most_one.
  destruct (new_amo_f _ s _) as [[s1 ctr]| |] eqn:E1; cbn [rbind]; try discriminate. apply tl_amo in E1. destruct (new_clause s1 _) as [[s2 b]| |] eqn:E2; cbn [rbind]; try discriminate. apply tl_new_clause in E2.
  destruct b; intros K; injection K as <- _; rewrite ?tl_add; congruence.
Qed.
Lemma tl_simp : forall n (s : st) k m o, trail_lim (fst (fst (simp_loop n s k m o))) = trail_lim s.
Proof.
  induction n as [|n IH]; intros s k m o; cbn [simp_loop]; [reflexivity|]. destruct m as [|c r]; [reflexivity|]. unfold clause_simplify. destruct (existsb _ _); [destruct r|]; rewrite IH; reflexivity.
Qed.
Lemma tl_destroys : forall ls (s s' : st), rfold destroy ls s = Ok s' -> trail_lim s' = trail_lim s.
Proof.
  induction ls as [|c ls IH]; intros s s'; cbn [rfold]; [intros E; injection E as <-; reflexivity|]. destruct (destroy s c) as [s1| |] eqn:E; cbn [rbind]; try discriminate. intros K. rewrite (IH _ _ K).
  unfold destroy in E. destruct (cls s c) as [|l0 [|l1 r]]; try discriminate. destruct (remove_first c (watches s (negl l0))); [|discriminate]. cbv zeta in E. destruct (remove_first c _); [|discriminate]. injection E as <-. reflexivity.
Qed.
Theorem tl_step {ops : theory_ops T} n (s : st) c s' r : trail_lim s = [] -> rooted_call c = true -> step (ops := ops) n s c = Ok (s', r) -> trail_lim s' = [].
Proof.
  intros Hs Hc. destruct c; cbn [step rooted_call] in *; try discriminate Hc.
  - intros E. injection E as <- _. exact Hs.
  - destruct (new_clause s ls) as [[s1 b]| |] eqn:E; cbn [rbind]; try discriminate. intros K. injection K as <- _. rewrite (tl_new_clause _ _ _ _ E). exact Hs.
  - destruct (propagate ops n s) as [[s1 b]| |] eqn:E; cbn [rbind]; try discriminate. intros K. injection K as <- _. apply (tl_propagate ops n s s1 b Hs E).
  - unfold next, root_level. rewrite Hs. cbn [rbind]. intros K. injection K as <- _. exact Hs.
  - unfold simplify_db, guard, root_level. rewrite Hs. destruct (propagate ops n s) as [[s1 b]| |] eqn:E; cbn [rbind]; try discriminate. apply (tl_propagate ops n s s1 b Hs) in E. destruct b.
    + pose proof (tl_simp (length (constrs s1)) s1 [] (constrs s1) []) as H. destruct (simp_loop _ s1 [] _ []) as [[s2 k] o]. cbn [fst] in H. destruct (rfold destroy o _) as [s3| |] eqn:E3; cbn [rbind]; try discriminate.
      apply tl_destroys in E3. cbn in E3. intros K. injection K as <- _. congruence.
    + cbn [rbind]. intros K. injection K as <- _. exact E.
  - destruct (new_eq s l r0) as [[s1 p]| |] eqn:E; cbn [rbind]; try discriminate. intros K. injection K as <- _. rewrite (tl_new_eq _ _ _ _ _ E). exact Hs.
  - destruct (new_conj s ls) as [[s1 p]| |] eqn:E; cbn [rbind]; try discriminate. intros K. injection K as <- _. rewrite (tl_new_conj _ _ _ _ E). exact Hs.
  - destruct (new_disj s ls) as [[s1 p]| |] eqn:E; cbn [rbind]; try discriminate. intros K. injection K as <- _. rewrite (tl_new_disj _ _ _ _ E). exact Hs.
  - unfold new_at_most_one. destruct (new_amo_f _ s ls) as [[s1 p]| |] eqn:E; cbn [rbind]; try discriminate. intros K. injection K as <- _. rewrite (tl_amo _ _ _ _ _ E). exact Hs.
  - destruct (new_exct_one s ls) as [[s1 p]| |] eqn:E; cbn [rbind]; try discriminate. intros K. injection K as <- _. rewrite (tl_exct _ _ _ _ E). exact Hs.
  - unfold listen, guard. destruct (v <? nv s); cbn [rbind]; [|discriminate]. destruct (is_undef s _); [destruct (memn l _)|]; cbn [rbind]; intros K; injection K as <- _; exact Hs.
Qed.
End Level.

(** ** The operations of the theory create neither variables nor constraints. *)
Section Same.
Context {D : Type} (W : wops D).
Notation dl := (dl D).
Definition sh (t : dl) : nat * list (dcon D) := (nvars t, dcons t).
Lemma rfold_ind {A B} (P : A -> Prop) (f : A -> B -> res A) l : (forall a b a', P a -> f a b = Ok a' -> P a') -> forall a a', P a -> rfold f l a = Ok a' -> P a'.
Proof.
  intros H. induction l as [|b l IH]; intros a a' Ha; cbn [rfold]; [intros E; injection E as <-; exact Ha|]. destruct (f a b) as [a1| |] eqn:E; cbn [rbind]; try discriminate. apply IH, (H a b a1 Ha E).
Qed.
Lemma sh_both (t : dl) i j d p t' : set_both W t i j d p = Ok t' -> sh t' = sh t.
Proof. unfold set_both, set_dist, guard. destruct (dist_lt _ _ _); cbn [rbind]; [|discriminate]. intros E. injection E as <-. unfold sh, set_pred. cbn. destruct (dlayers t); reflexivity. Qed.
Lemma sh_close (t : dl) from to w t' us : close W t from to w = Ok (t', us) -> sh t' = sh t.
Proof.
  unfold close. destruct (set_both W t from to w (Some from)) as [t1| |] eqn:E1; cbn [rbind]; try discriminate. apply sh_both in E1.
  destruct (rfold (scan_step W from to w) _ _) as [a| |] eqn:E2; cbn [rbind]; try discriminate. intros E3.
  assert (H2 : sh (sc_t a) = sh t1).
  { refine (rfold_ind (fun x : @scan D => sh (sc_t x) = sh t1) _ _ _ _ _ _ E2); [|reflexivity]. intros x u x' Hx. unfold scan_step. destruct (scan_i W from to w x u) as [y| |] eqn:Ey; cbn [rbind]; try discriminate.
    assert (Hy : sh (sc_t y) = sh t1).
    { unfold scan_i in Ey. destruct (dists (sc_t x) u from); [|injection Ey as <-; exact Hx]. destruct (closer W _ _ _); [|injection Ey as <-; exact Hx]. destruct (set_both W _ _ _ _ _) as [z| |] eqn:Ez; cbn [rbind] in Ey; try discriminate. injection Ey as <-. cbn. rewrite (sh_both _ _ _ _ _ _ Ez). exact Hx. }
    unfold scan_j. destruct (dists (sc_t y) to u); [|intros E; injection E as <-; exact Hy]. destruct (closer W _ _ _); [|intros E; injection E as <-; exact Hy]. destruct (set_both W _ _ _ _ _) as [z| |] eqn:Ez; cbn [rbind]; try discriminate. intros E. injection E as <-. cbn. rewrite (sh_both _ _ _ _ _ _ Ez). exact Hy. }
  assert (H3 : sh (fst (t', us)) = sh t1).
  { refine (rfold_ind (fun x : dl * list key => sh (fst x) = sh t1) _ _ _ _ _ _ E3); [|exact H2]. intros [x ks] [i j] x' Hx. unfold cross_step. destruct (negb _ && _); [|intros E; injection E as <-; exact Hx]. destruct (dist_add W _ _); [|discriminate].
    destruct (set_both W _ _ _ _ _) as [z| |] eqn:Ez; cbn [rbind]; try discriminate. intros E. injection E as <-. cbn in *. rewrite (sh_both _ _ _ _ _ _ Ez). exact Hx. }
  cbn in H3. congruence.
Qed.
Lemma sh_edge (t : dl) val from to w t' ls : prop_edge W t val from to w = Ok (t', ls) -> sh t' = sh t.
Proof.
  unfold prop_edge. destruct (close W t from to w) as [[t1 us]| |] eqn:E1; cbn [rbind]; try discriminate. destruct (rfold _ _ _) as [[v l]| |]; cbn [rbind]; try discriminate. intros E. injection E as <- _. apply (sh_close _ _ _ _ _ _ E1).
Qed.
Lemma sh_enforce (t : dl) k c : sh (enforce t k c) = sh t.
Proof. unfold enforce, sh. cbn. destruct (dlayers t); reflexivity. Qed.
Lemma sh_prop (t : dl) val p t' ls cf : dl_prop W t val p = Ok (t', ls, cf) -> sh t' = sh t.
Proof.
  unfold dl_prop. destruct (find_con t (lvar p)) as [c|]; [|discriminate]. destruct (val (c_b c)).
  - destruct (dist_le W _ _); [destruct (explain t val _ _); cbn [rbind]; try discriminate; intros E; injection E as <- _ _; reflexivity|]. destruct (dist_le W _ _); [|intros E; injection E as <- _ _; reflexivity].
    destruct (prop_edge W _ _ _ _ _) as [[t1 l]| |] eqn:E1; cbn [rbind]; try discriminate. intros E. injection E as <- _ _. rewrite (sh_edge _ _ _ _ _ _ _ E1). apply sh_enforce.
  - destruct (dist_lt W _ _); [destruct (explain t val _ _); cbn [rbind]; try discriminate; intros E; injection E as <- _ _; reflexivity|]. destruct (dist_lt W _ _); [|intros E; injection E as <- _ _; reflexivity].
    destruct (prop_edge W _ _ _ _ _) as [[t1 l]| |] eqn:E1; cbn [rbind]; try discriminate. intros E. injection E as <- _ _. rewrite (sh_edge _ _ _ _ _ _ _ E1). apply sh_enforce.
  - intros E. injection E as <- _ _. reflexivity.
Qed.
Theorem sh_step fl (s s' : st dl) c r : step (ops := dl_ops W) fl s c = Ok (s', r) -> map sh (theories s') = map sh (theories s).
Proof.
  apply (K_step (dl_ops W) sh).
  - intros t val p t' ls cf. apply sh_prop.
  - intros t val t' cf E. cbn [th_check dl_ops] in E. unfold dl_check, guard in E. destruct (forallb _ _); [injection E as <- _; reflexivity|discriminate].
  - reflexivity.
  - intros t. unfold sh. cbn [th_pop dl_ops]. unfold dl_pop. destruct (dlayers t); reflexivity.
Qed.
End Same.

Section Net.
Context {D : Type} {W : wops D} (L : wlaws W) (WR : wreads L).
(** The last case of new_gt, on which the two theories differ (see Dl.v). *)
Context (last : Sat.st (dl D) -> nat -> nat -> nat -> D -> res (Sat.st (dl D) * lit)).
Notation "-' a" := (wneg W a) (at level 35).
Notation dl := (dl D).
Notation st := (st dl).
Notation ops := (dl_ops (sr := sr) W).
Notation mu := (mp (fun t : dl => (t, 0))).
Notation RC := (rootC L).
Definition anyy : (nat -> Q) -> Prop := fun _ => True.

(** ** The machine. *)
Inductive drel := DLt | DLeq | DEq | DGeq | DGt.
Inductive dcall := DSat (c : call) | DVar | DDist (from to : nat) (w : D) | DDist2 (from to : nat) (mn mx : D) | DCmp (r : drel) (e1 e2 : lin).
(** A result of the core, a new variable, a literal, or an exception. *)
Inductive dret := DR (r : ret) | DX (x : nat) | DP (p : lit) | DThrow.
Definition new_rel (r : drel) (s : st) (e1 e2 : lin) : res (option (st * lit)) :=
  match r with
  | DLt => dl_new_lt W s 0 e1 e2
  | DLeq => dl_new_leq W s 0 e1 e2
  | DEq => dl_new_eq W s 0 e1 e2
  | DGeq => dl_new_geq W s 0 e1 e2
  | DGt => new_gt_with W last s 0 e1 e2
  end.
Definition dcstep (fl : nat) (s : st) (c : dcall) : res (st * dret) :=
  match c with
  | DSat c => '(s1, r) <- step (ops := ops) fl s c ;; Ok (s1, DR r)
  | DVar => '(s1, x) <- dl_new_var W s 0 ;; Ok (s1, DX x)
  | DDist from to w => '(s1, p) <- new_distance W s 0 from to w ;; Ok (s1, DP p)
  | DDist2 from to mn mx => '(s1, p) <- new_distance2 W s 0 from to mn mx ;; Ok (s1, DP p)
  | DCmp r e1 e2 => o <- new_rel r s e1 e2 ;; Ok (match o with Some (s1, p) => (s1, DP p) | None => (s, DThrow) end)
  end.
Definition rel_holds (r : drel) (a b : Q) : Prop := match r with DLt => (a < b)%Q | DLeq => (a <= b)%Q | DEq => (a == b)%Q | DGeq => (b <= a)%Q | DGt => (b < a)%Q end.
(** Literals and variables exist; nothing is assumed or popped. *)
Definition rlegal (s : st) (c : call) : Prop :=
  match c with
  | CAssume _ | CPop | CCheck _ => False
  | CClause ls | CConj ls | CDisj ls | CAmo ls | CExct ls => in_scope s ls
  | CEq l r => in_scope s [l; r]
  | CListen v _ => v < nv s
  | CVar | CPropagate | CNext | CSimplify => True
  end.
(** The last case of new_gt is as it should be, or the call does not get there. *)
Definition gt_fine (e1 e2 : lin) : Prop :=
  (forall s v v1 k, last s 0 v v1 k = new_distance W s 0 v v1 (wadd W k (-' wunit W))) \/ forall v v1 k, dl_form W (lin_sub e1 e2) <> Some (DTwo false v v1 k).
Definition dlegal (s : st) (c : dcall) : Prop :=
  match c with
  | DSat c => rlegal s c
  | DVar => True
  | DDist from to w => wcon L w /\ exists t, theories s = [t] /\ from < nvars t /\ to < nvars t
  | DDist2 from to mn mx => wcon L (-' mn) /\ wcon L mx /\ exists t, theories s = [t] /\ from < nvars t /\ to < nvars t
  | DCmp r e1 e2 => lin_clean e1 /\ lin_clean e2 /\ (exists t, theories s = [t] /\ vars_in t e1 /\ vars_in t e2) /\ (r = DGt -> gt_fine e1 e2)
  end.
(** An assignment to the variables of the core and one to the variables of the theory, that satisfy the network. *)
Definition dsol (s : st) (M : nat -> bool) (y : nat -> Q) : Prop := smodels (RC (eq y)) (mu s) M.
Definition dsaid (c : dcall) (r : dret) (M : nat -> bool) (y : nat -> Q) : Prop :=
  match c, r with
  | DSat c, DR r => said c [] r M
  | DDist from to w, DP p => mlit M p = true <-> wsat L w (y to - y from)%Q
  | DDist2 from to mn mx, DP p => mlit M p = true <-> (wsat L (-' mn) (y from - y to)%Q /\ wsat L mx (y to - y from)%Q)
  | DCmp r e1 e2, DP p => mlit M p = true <-> rel_holds r (lval y e1) (lval y e2)
  | _, _ => True
  end.
(** Calls that create no variable besides that of the literal they return. *)
Definition dexact (c : dcall) : Prop := match c with DSat c => exact c | DDist2 _ _ _ _ | DCmp DEq _ _ => False | _ => True end.
Record dgood (s : st) : Prop := { dg_root : trail_lim s = []; dg_one : exists t, theories s = [t]; dg_good : good (RC anyy) (mu s) }.

Lemma mute_prop t val p : th_prop (mute_ops ops) (t, 0) val p = rmp (fun x => ((fst (fst x), 0), snd (fst x), snd x)) (th_prop ops t val p).
Proof. cbn [th_prop mute_ops fst snd]. change (0 =? 0) with true. cbn iota. match goal with |- rbind ?a _ = rmp _ ?b => change b with a; destruct a as [[[t' ls] cf]| |]; reflexivity end. Qed.
Lemma mute_check t val : th_check (mute_ops ops) (t, 0) val = rmp (fun x => ((fst x, 0), snd x)) (th_check ops t val).
Proof. cbn [th_check mute_ops fst snd]. change (0 =? 0) with true. cbn iota. match goal with |- rbind ?a _ = rmp _ ?b => change b with a; destruct a as [[t' cf]| |]; reflexivity end. Qed.
Lemma mu_step fl s c : trail_lim s = [] -> rooted_call c = true -> step (ops := mute_ops ops) fl (mu s) c = rmp (m1 (fun t : dl => (t, 0))) (step (ops := ops) fl s c).
Proof. intros H1 H2. apply (mp_step (fun t : dl => (t, 0)) ops (mute_ops ops) eq_refl mute_prop mute_check). right. auto. Qed.

Lemma model_any Y s M : smodels (RC Y) s M -> smodels (RC anyy) s M.
Proof. intros [A B C E]. constructor; auto. intros t Ht. destruct (E t Ht) as (y & [Hy _] & K). exists y. split; [split; [exact Hy|exact Logic.I]|exact K]. Qed.
Lemma good_y Y s : good (RC anyy) s -> good (RC Y) s.
Proof.
  intros [[A B E F H K] K1 K2]. constructor.
  - constructor.
    + destruct A; constructor; assumption.
    + destruct B; constructor; assumption.
    + destruct E; constructor; assumption.
    + exact F.
    + destruct H; constructor; assumption.
    + destruct K as [J1 J2 J3 J4 J5 J6]. constructor; [exact J1|exact J2|exact J3|exact J4|exact J5|exact J6].
  - intros k p Hk. destruct (K1 k p Hk) as (o & O1 & O2 & O3 & O4). exists o. split; [exact O1|]. split; [exact O2|]. split; [exact O3|]. intros M HM. apply O4. apply (model_any Y), HM.
  - exact K2.
Qed.
Lemma any_model s M t : theories s = [t] -> smodels (RC anyy) (mu s) M -> exists y, dsol s M y.
Proof.
  intros Et [A B C E]. destruct (E (t, 0)) as (y & [Hy _] & H0 & K); [cbn; rewrite Et; left; reflexivity|]. exists y. constructor; auto. intros u Hu. cbn in Hu. rewrite Et in Hu. destruct Hu as [<-|[]]. exists y. split; [auto|]. auto.
Qed.
Lemma rlegal_ok s c : dgood s -> rlegal s c -> rooted_call c = true /\ legal (RC anyy) (mu s) c.
Proof.
  intros G H. assert (Hd : dlevel (mu s) = 0) by (unfold dlevel; cbn; rewrite (dg_root _ G); reflexivity). destruct c; cbn [rlegal legal rooted_call] in *; try contradiction; auto.
  split; [reflexivity|]. pose proof (t_dec _ (i_t _ _ (g_inv _ _ (dg_good _ G)))) as E. unfold dlevel in Hd. unfold decs_ok. intros k d Hk. rewrite Hd in E. destruct (decisions (mu s)); [destruct k; discriminate|discriminate].
Qed.
Lemma root_decs s : dgood s -> decisions s = [].
Proof.
  intros G. pose proof (t_dec _ (i_t _ _ (g_inv _ _ (dg_good _ G)))) as E. cbn [decisions mp trail_lim] in E. rewrite (dg_root _ G) in E. destruct (decisions s); [reflexivity|discriminate].
Qed.
Lemma root_total Y : th_total (RC Y).
Proof.
  split.
  - intros [t n] vs val p HI Ha Hn HT HV HP. cbn [th_prop mute_ops fst snd]. destruct n as [|n]; [|discriminate]. change (0 =? 0) with true. cbn iota.
    destruct HI as (ups & v & -> & Hl & HR). destruct ups; [|discriminate]. cbn [fst app concat] in *. rewrite app_nil_r in HV. pose proof (reach_core L _ _ HR) as HC. cbn [concat] in HC. rewrite app_nil_r in HC. destruct Ha as (c & Hc & Ev).
    assert (Hrd : reads val (p :: v)) by (split; [exact Hn|intros q [<-|Hq]; auto]).
    cbn [th_prop dl_ops]. destruct (prop_core L t v p c val HC Hc Ev Hrd) as [(e & E & _)|[(E & _)|(t' & us & val' & ls & E & _)]]; rewrite E; discriminate.
  - intros [t n] vs val HI Hn HT HV. cbn [th_check mute_ops fst snd]. destruct n as [|n]; [|discriminate]. change (0 =? 0) with true. cbn iota. cbn [th_check dl_ops]. unfold dl_check, guard. destruct (forallb _ _); discriminate.
Qed.

(** What the theory has been told are the values of its literals. *)
Lemma root_told s t : dgood s -> theories s = [t] -> exists v, DReach L t [v] /\ (forall l, In l v -> value s l = LTrue /\ level s (lvar l) = 0) /\
  (forall l, atom t (lvar l) -> value s l = LTrue -> In l (prop_q s) \/ In l v).
Proof.
  intros G Et. destruct (h_views _ _ _ _ (i_h _ _ (g_inv _ _ (dg_good _ G))) 0 (t, 0)) as (vs & V1 & V2 & V3 & V4); [cbn; rewrite Et; reflexivity|].
  destruct V1 as (ups & v & -> & Hl & HR). destruct ups; [|discriminate]. cbn [fst app] in *. exists v. split; [exact HR|]. split.
  - intros l Hl'. destruct (V3 0 v l eq_refl (or_introl Logic.I) Hl') as [A B]. split; [exact A|]. cbn in B. rewrite (dg_root _ G) in B. exact B.
  - intros l Ha Hv. destruct (V4 l Ha Hv) as [H|H]; [left; exact H|right]. destruct H as (j & w & Ej & Hw & _). destruct j as [|[|]]; cbn in Ej; inversion Ej; subst. exact Hw.
Qed.
Lemma sol_told s t v M y : dsol s M y -> theories s = [t] -> DReach L t [v] -> (forall l, In l v -> value s l = LTrue /\ level s (lvar l) = 0) -> solves L t v y.
Proof.
  intros HM Et HR Hv. pose proof (reach_core L _ _ HR) as HC. cbn [concat] in HC. rewrite app_nil_r in HC.
  destruct (sm_th _ _ _ HM (t, 0)) as (z & [Hz Ez] & H0 & K); [cbn; rewrite Et; left; reflexivity|]. cbn in Ez. subst z. split; [exact Hz|].
  apply (model_hold L t v M y); [apply HC| |exact K]. intros p Hp. destruct (Hv p Hp). apply (sm_facts _ _ _ HM); assumption.
Qed.

(** [y] respects the constraints whose literal has a value. *)
Definition resp (s : st) (y : nat -> Q) : Prop :=
  forall t c, theories s = [t] -> In c (dcons t) -> (value s (c_b c) = LTrue -> con_sat L c y) /\ (value s (c_b c) = LFalse -> ~ con_sat L c y).
(** The literal [p] is that of a constraint that says [P], or a constant and [P] follows, or its negation, from the constraints whose literal has a value. *)
Definition means (s : st) (p : lit) (P : (nat -> Q) -> Prop) : Prop :=
  forall y, vals_ok L y -> (y O == 0)%Q -> resp s y -> (p = TRUE_lit /\ P y) \/ (p = FALSE_lit /\ ~ P y) \/ exists t c, theories s = [t] /\ In c (dcons t) /\ c_b c = p /\ (con_sat L c y <-> P y).
Lemma means_iff s p (P P' : (nat -> Q) -> Prop) : (forall y, vals_ok L y -> (y O == 0)%Q -> (P y <-> P' y)) -> means s p P -> means s p P'.
Proof.
  intros H K y H1 H2 H3. specialize (H y H1 H2). destruct (K y H1 H2 H3) as [[A B]|[[A B]|(t & c & A & B & C & E)]]; [left; tauto|right; left; tauto|right; right; exists t, c]. rewrite E. auto.
Qed.
Lemma resp_told s t v y : dgood s -> theories s = [t] -> DReach L t [v] -> (forall l, In l v -> value s l = LTrue /\ level s (lvar l) = 0) -> vals_ok L y -> resp s y -> solves L t v y.
Proof.
  intros G Et HR Hv Hy Hr. split; [exact Hy|]. intros p c Hp Hc Ev. pose proof (reach_core L _ _ HR) as HC. destruct (dc_cons L _ _ HC c Hc) as (_ & _ & _ & _ & Hs). destruct (Hr t c Et Hc) as [R1 R2]. destruct (Hv p Hp) as [V _].
  unfold value, vlit in *. rewrite Ev, Hs in R1, R2. destruct (lsgn p); [apply R1, V|]. apply R2. destruct (assigns s (lvar p)); cbn in *; congruence.
Qed.

Definition dbound (s : st) : nat := S (2 * nv s + nv s).
(** The effect of a call that states [P]. *)
Record eff (s : st) (P : (nat -> bool) -> (nat -> Q) -> Prop) (s' : st) : Prop := {
  ef_good : dgood s';
  ef_nv : nv s <= nv s';
  ef_only : forall M y, dsol s' M y -> dsol s M y /\ P M y;
  ef_cons : forall M y, dsol s M y -> exists M', agree (nv s) M M' /\ dsol s' M' y;
  ef_vars : forall t, theories s = [t] -> exists t', theories s' = [t'] /\ nvars t <= nvars t' /\ incl (dcons t) (dcons t');
  ef_val : forall q, value s q <> LUndef -> value s' q = value s q }.
Definition eff_all (s : st) (P : (nat -> bool) -> (nat -> Q) -> Prop) (s' : st) : Prop := forall M y, dsol s M y -> P M y -> dsol s' M y.
Lemma eff_same s (P : (nat -> bool) -> (nat -> Q) -> Prop) : dgood s -> (forall M y, dsol s M y -> P M y) -> eff s P s /\ eff_all s P s.
Proof.
  intros G H. split; [|intros M y HM _; exact HM]. constructor; auto.
  - intros M y HM. exists M. split; [intros v _; reflexivity|exact HM].
  - intros t Et. exists t. split; [exact Et|]. split; [lia|apply incl_refl].
Qed.
Lemma eff_iff s (P P' : (nat -> bool) -> (nat -> Q) -> Prop) s' : (forall M y, dsol s M y -> (P M y <-> P' M y)) -> eff s P s' /\ eff_all s P s' -> eff s P' s' /\ eff_all s P' s'.
Proof.
  intros H [[A B C E F F'] K]. split; [constructor; auto|].
  - intros M y HM. destruct (C M y HM) as [C1 C2]. split; [exact C1|]. apply H; assumption.
  - intros M y HM HP. apply K; [exact HM|]. apply H; assumption.
Qed.
Lemma dsol_agree s M M' y : dgood s -> agree (nv s) M M' -> dsol s M y -> dsol s M' y.
Proof. intros G Ha HM. apply (smodels_agree (RC (eq y)) (mu s) M M'); [apply (g_inv _ _ (good_y _ _ (dg_good _ G)))|exact Ha|exact HM]. Qed.
Lemma sol_vals s M y : dgood s -> dsol s M y -> vals_ok L y /\ (y O == 0)%Q.
Proof. intros G HM. destruct (dg_one _ G) as [t Et]. destruct (sm_th _ _ _ HM (t, 0)) as (z & [Hz Ez] & H0 & _); [cbn; rewrite Et; left; reflexivity|]. cbn in Ez. subst z. auto. Qed.

Theorem dsat_ok fl s c : dgood s -> rlegal s c ->
  match step (ops := ops) fl s c with
  | UB => False
  | OOF => fl <= dbound s
  | Ok (s', r) => (dgood s' \/ (r = RBool false /\ forall M y, ~ dsol s' M y)) /\ nv s <= nv s' /\
      (forall M y, dsol s' M y -> dsol s M y /\ said c [] r M) /\ (exact c -> forall M y, dsol s M y -> said c [] r M -> dsol s' M y)
  end.
Proof.
  intros G HL. pose proof G as [G1 [t Et] G3].
  destruct (rlegal_ok s c G HL) as [Hc Hl]. pose proof (step_ok (RC anyy) fl (mu s) c G3 Hl) as H.
  assert (Hy : forall y, match step (ops := mute_ops ops) fl (mu s) c with Ok (s', r) => (forall M, smodels (RC (eq y)) s' M -> smodels (RC (eq y)) (mu s) M /\ said c (decisions (mu s)) r M) /\
    (exact c -> forall M, smodels (RC (eq y)) (mu s) M -> said c (decisions (mu s)) r M -> smodels (RC (eq y)) s' M) | _ => True end).
  { intros y. pose proof (step_ok (RC (eq y)) fl (mu s) c (good_y _ _ G3) Hl) as K. destruct (step fl (mu s) c) as [[s' r]| |]; auto. destruct K as (_ & _ & K). exact K. }
  rewrite (mu_step fl s c G1 Hc) in H, Hy. destruct (step (ops := ops) fl s c) as [[s' r]| |] eqn:E; cbn [rbind rmp m1 fst snd] in *; [|exact H|].
  + cbn [decisions mp] in Hy, H. rewrite (root_decs s G) in Hy. destruct H as (H1 & H2 & _).
    assert (Et' : exists t', theories s' = [t']).
    { assert (Hlen : map (fun _ : dl => tt) (theories s') = map (fun _ : dl => tt) (theories s)) by (apply (ThRel.K_step ops (fun _ => tt)) with (fuel := fl) (c := c) (r := r); auto).
      rewrite Et in Hlen. destruct (theories s') as [|t' [|? ?]]; try discriminate Hlen. eauto. }
    split; [|split; [exact H2|split]].
    * destruct H1 as [H1|[-> Hu]]; [left|right].
      -- constructor; [apply (tl_step fl s c s' r G1 Hc E)|exact Et'|exact H1].
      -- split; [reflexivity|]. intros M y HM. apply (de_unsat _ _ Hu M). apply (model_any (eq y)), HM.
    * intros M y. apply (proj1 (Hy y)).
    * intros Hx M y. apply (proj2 (Hy y) Hx).
  + specialize (H (root_total _)). assert (Hd : dlevel (mu s) = 0) by (unfold dlevel; cbn; rewrite G1; reflexivity). unfold fuel_bound in H. unfold dbound.
    destruct c; try discriminate Hc; rewrite Hd, Nat.pow_0_r, Nat.mul_1_r in H; exact H.
Qed.
Theorem dvar_ok s : dgood s -> exists s' x, dl_new_var W s 0 = Ok (s', x) /\ eff s (fun _ _ => True) s' /\ eff_all s (fun _ _ => True) s'.
Proof.
  intros G. pose proof G as [G1 [t Et] G3].
  unfold dl_new_var, dl_th. rewrite Et. cbn [nth_error]. destruct (t_dl_var W t) as [t1 x] eqn:E1. cbn [rbind].
  assert (Et1 : t1 = fst (t_dl_var W t)) by (rewrite E1; reflexivity).
  assert (Ec : dcons t1 = dcons t) by (rewrite Et1; unfold t_dl_var; cbn [fst]; destruct (Nat.eqb _ _); reflexivity).
  assert (HG : forall Y, good (RC Y) (grow_st (mu s) 0 (t1, 0) None) /\ (forall M, smodels (RC Y) (grow_st (mu s) 0 (t1, 0) None) M <-> smodels (RC Y) (mu s) M)).
  { intros Y. destruct (grow_ok (RC Y) (mu s) 0 (t, 0) (t1, 0) None (good_y Y _ G3)) as (A & _ & B).
    - cbn. rewrite Et. reflexivity.
    - intros v. cbn. unfold atom. rewrite Ec. split; [auto|]. intros [H|H]; [exact H|discriminate].
    - discriminate.
    - intros vs _ (ups & v & -> & Hl & HR) _. exists ups, v. split; [reflexivity|]. split; [exact Hl|]. cbn [fst] in *. rewrite Et1. apply (DR_step L t [v]); [exact HR|constructor].
    - auto.
    - intros M _. cbn. unfold dlmodel. rewrite Ec. auto.
    - intros m v Hx. exact Hx.
    - split; [exact A|]. intros M. rewrite B. split; [tauto|]. intros H. split; [exact H|]. assert (K : dlmodel L Y t M) by (apply (sm_th _ _ _ H (t, 0)); cbn; rewrite Et; left; reflexivity). change (dlmodel L Y t1 M). unfold dlmodel in *. rewrite Ec. exact K. }
  assert (Eg : grow_st (mu s) 0 (t1, 0) None = mu (dl_put s 0 t1)) by (unfold grow_st, dl_put, mp, set_theories; cbn; rewrite Et; reflexivity). rewrite Eg in HG.
  eexists _, x. split; [reflexivity|]. split; [constructor|].
  + constructor; [exact G1|exists t1; unfold dl_put; cbn; rewrite Et; reflexivity|apply HG].
  + cbn. lia.
  + intros M y HM. split; [apply HG, HM|exact Logic.I].
  + intros M y HM. exists M. split; [intros v _; reflexivity|apply HG, HM].
  + intros u Eu. rewrite Et in Eu. injection Eu as <-. exists t1. split; [unfold dl_put; cbn; rewrite Et; reflexivity|]. split; [rewrite Et1; unfold t_dl_var; cbn [fst]; destruct (Nat.eqb _ _); cbn; lia|rewrite Ec; apply incl_refl].
  + auto.
  + intros M y HM _. apply HG, HM.
Qed.
Theorem ddist_ok s t from to w : dgood s -> theories s = [t] -> from < nvars t -> to < nvars t -> wcon L w ->
  exists s' p, new_distance W s 0 from to w = Ok (s', p) /\ eff s (fun M y => mlit M p = true <-> wsat L w (y to - y from)%Q) s' /\
    eff_all s (fun M y => mlit M p = true <-> wsat L w (y to - y from)%Q) s' /\ lvar p < nv s' /\ means s' p (fun y => wsat L w (y to - y from)%Q).
Proof.
  intros G Et Hf Ht Hw. pose proof G as [G1 _ G3].
  destruct (root_told s t G Et) as (v & HR & Hv1 & Hv2).
  pose proof (reach_core L _ _ HR) as HC. cbn [concat] in HC. rewrite app_nil_r in HC. pose proof (dc_n L _ _ HC) as Hcap.
  pose proof (dist_refutes L t _ from to w HC Hf Ht Hw) as HRe. pose proof (dist_entails L t _ from to w HC Hf Ht Hw) as HE.
  pose proof (i_t _ _ (g_inv _ _ G3)) as HT.
  unfold new_distance, dl_th. rewrite Et. cbn [nth_error]. unfold guard. destruct (Nat.ltb_spec from (cap t)); [|lia]. destruct (Nat.ltb_spec to (cap t)); [|lia]. cbn [andb].
  destruct (dist_lt W (dists t to from) (Some (-' w))) eqn:E1; [|destruct (dist_le W (dists t from to) (Some w)) eqn:E2]; cbn [rbind].
  + exists s, FALSE_lit. split; [reflexivity|]. apply and_assoc. split; [|split; [apply (t_nv _ HT)|intros y Hy Hy0 Hr; right; left; split; [reflexivity|]; apply HRe; [reflexivity|apply (resp_told s t v y G Et HR Hv1 Hy Hr)]]]. apply eff_same; [exact G|]. intros M y HM. cbn. pose proof (sol_told s t v M y HM Et HR Hv1) as K. pose proof (proj1 HRe eq_refl y K) as K'.
    unfold mlit. cbn. rewrite (sm_false _ _ _ HM). split; [discriminate|contradiction].
  + exists s, TRUE_lit. split; [reflexivity|]. apply and_assoc. split; [|split; [apply (t_nv _ HT)|intros y Hy Hy0 Hr; left; split; [reflexivity|]; apply HE; [reflexivity|apply (resp_told s t v y G Et HR Hv1 Hy Hr)]]]. apply eff_same; [exact G|]. intros M y HM. cbn. pose proof (sol_told s t v M y HM Et HR Hv1) as K. pose proof (proj1 HE eq_refl y K) as K'.
    unfold mlit. cbn. rewrite (sm_false _ _ _ HM). split; auto.
  + cbn [new_var]. cbv beta iota zeta. set (x := nv s). set (c := mk_dcon (mk_lit x true) from to w).
    assert (Hne : from <> to).
    { intros <-. rewrite (cl_diag L _ (dc_closed L _ _ HC)) in E1, E2. unfold dist_le in E2. cbn in E1, E2. apply negb_false_iff in E1. rewrite negb_involutive in E2. destruct (wle_or L (w0 W) w) as [K|K]; [pose proof (proj2 (wle_iff L _ _) K); congruence|].
      pose proof (proj1 (wle_iff L _ _) E1) as E3. clear E1. rename E3 into E1. unfold wlt, wle in *. destruct (evt_ex _ (evt_and _ _ K E1)) as (e & _ & A & B). rewrite (ev_neg _ L) in B. rewrite (ev_0 _ L) in *. lra. }
    assert (Hfresh : ~ atom t x).
    { intros K. destruct (h_range _ _ _ _ (i_h _ _ (g_inv _ _ G3)) 0 (t, 0) x) as [_ K2]; [cbn; rewrite Et; reflexivity|exact K|]. unfold x in K2. cbn in K2. lia. }
    assert (Hg : good_con L (nvars t) c) by (split; [exact Hw|]; cbn; auto).
    set (sn := fst (new_var s)). assert (Esn : mu sn = fst (new_var (mu s))) by reflexivity.
    assert (HN : forall Y, good (RC Y) (mu sn) /\ forall M, smodels (RC Y) (mu sn) M <-> smodels (RC Y) (mu s) M).
    { intros Y. pose proof (step_ok (RC Y) 1 (mu s) CVar (good_y Y _ G3) Logic.I) as K. cbn [step] in K. pose proof (new_var_ok (RC Y) (mu s) (g_inv _ _ (good_y Y _ G3))) as [_ V]. rewrite Esn.
      destruct (new_var (mu s)) as [s1 v1]. cbn [fst] in *. destruct K as ([K|[K _]] & _); [|discriminate]. split; [exact K|]. intros M. apply (vp_models _ _ _ V). }
    assert (HG : forall Y, good (RC Y) (grow_st (mu sn) 0 (add_con t c, 0) (Some x)) /\ (forall M, smodels (RC Y) (grow_st (mu sn) 0 (add_con t c, 0) (Some x)) M <-> smodels (RC Y) (mu s) M /\ dlmodel L Y (add_con t c) M)).
    { intros Y. destruct (HN Y) as [N1 N2]. destruct (grow_ok (RC Y) (mu sn) 0 (t, 0) (add_con t c, 0) (Some x) N1) as (A & _ & B).
      - cbn. rewrite Et. reflexivity.
      - intros z. cbn. unfold atom. cbn [dcons add_con]. split.
        + intros (c' & Hc' & Ex). apply in_app_or in Hc' as [Hc'|[<-|[]]]; [left; eauto|right; cbn in Ex; congruence].
        + intros [(c' & Hc' & Ex)|Ex]; [exists c'; split; [apply in_or_app; auto|exact Ex]|]. injection Ex as <-. exists c. split; [apply in_or_app; right; left; reflexivity|reflexivity].
      - intros z Ez. injection Ez as <-. split; [|split; [|exact Hfresh]].
        + pose proof (t_nv _ HT). cbn in *. unfold x. lia.
        + cbn. unfold upd, x. rewrite Nat.eqb_refl. reflexivity.
      - intros vs _ (ups & v' & -> & Hl & HR') _. exists ups, v'. split; [reflexivity|]. split; [exact Hl|]. cbn [fst] in *. apply (DR_step L t [v']); [exact HR'|constructor; assumption].
      - auto.
      - intros M _. cbn. intros (y & Hy & Hy0 & K). exists y. split; [exact Hy|]. split; [exact Hy0|]. intros c' Hc'. apply K. cbn. apply in_or_app. auto.
      - intros j u Hx. exact Hx.
      - split; [exact A|]. intros M. rewrite B, N2. reflexivity. }
    assert (Eg : grow_st (mu sn) 0 (add_con t c, 0) (Some x) = mu (dl_put (bind sn x 0) 0 (add_con t c))).
    { unfold grow_st, dl_put, bind. change (bounds (mu sn)) with (bounds sn). destruct (memn 0 (bounds sn x)); unfold mp, set_theories; cbn; rewrite Et; reflexivity. }
    rewrite Eg in HG. clear Eg.
    match goal with |- context [dl_put (bind ?a x 0) 0 _] => change a with sn end. set (s' := dl_put (bind sn x 0) 0 (add_con t c)) in *.
    assert (Es' : theories s' = [add_con t c]) by (unfold s', dl_put, bind; destruct (memn 0 (bounds sn x)); cbn; rewrite Et; reflexivity).
    assert (Etl : trail_lim s' = []) by (unfold s', dl_put, bind; destruct (memn 0 (bounds sn x)); cbn; exact G1).
    assert (Env : nv s' = S (nv s)) by (unfold s', dl_put, bind; destruct (memn 0 (bounds sn x)); reflexivity).
    assert (Hall : eff_all s (fun M y => mlit M (mk_lit x true) = true <-> wsat L w (y to - y from)%Q) s').
    { intros M y HM Hs. apply HG. split; [exact HM|]. destruct (sm_th _ _ _ HM (t, 0)) as (z & [Hz Ez] & Hz0 & K); [cbn; rewrite Et; left; reflexivity|]. cbn in Ez. subst z.
      exists y. split; [split; [exact Hz|reflexivity]|]. split; [exact Hz0|]. intros c' Hc'. cbn in Hc'. apply in_app_or in Hc' as [Hc'|[<-|[]]]; [apply K, Hc'|exact Hs]. }
    exists s', (mk_lit x true). split; [reflexivity|]. split; [constructor|split; [exact Hall|split; [rewrite Env; cbn; unfold x; lia|]]].
    7:{ intros y _ _ _. right. right. exists (add_con t c), c. split; [exact Es'|]. split; [cbn; apply in_or_app; right; left; reflexivity|]. split; reflexivity. }
    * constructor; [exact Etl|eauto|apply HG].
    * lia.
    * intros M y HM. apply HG in HM as [HM (z & [_ Ez] & _ & K)]. subst z. split; [exact HM|]. cbn. apply (K c). cbn. apply in_or_app. right. left. reflexivity.
    * intros M y HM. assert (HJ : forall b, (b = true <-> wsat L w (y to - y from)%Q) -> exists M', agree (nv s) M M' /\ dsol s' M' y).
      { intros b Hb. assert (Ha : agree (nv s) M (upd M x b)) by (intros u Hu; rewrite upd_neq; [reflexivity|unfold x; lia]). exists (upd M x b). split; [exact Ha|]. apply Hall; [apply (dsol_agree s M _ y G Ha HM)|]. unfold mlit. cbn. rewrite upd_eq. destruct b; exact Hb. }
      destruct (sat_dec _ L w (y to - y from)%Q) as [K|K]; [apply (HJ true)|apply (HJ false)]; unfold wsat; intuition congruence.
    * intros u Eu. rewrite Et in Eu. injection Eu as <-. exists (add_con t c). split; [exact Es'|]. split; [cbn; lia|]. intros c' Hc'. cbn. apply in_or_app. auto.
    * intros z Hz. assert (Hz' : lvar z <> x) by (intros Ex; apply Hz; unfold value, vlit; pose proof (t_out _ HT x) as K; cbn in K; rewrite Ex, K; [reflexivity|unfold x; lia]).
      assert (Ea : assigns s' (lvar z) = assigns s (lvar z)) by (unfold s', dl_put, bind; destruct (memn 0 (bounds sn x)); cbn; apply upd_neq, Hz'). unfold value, vlit. rewrite Ea. reflexivity.
Qed.
(** Two literals in sequence, then their conjunction. *)
Lemma dboth_ok s t from to w from' to' w' : dgood s -> theories s = [t] -> from < nvars t -> to < nvars t -> from' < nvars t -> to' < nvars t -> wcon L w -> wcon L w' ->
  exists s3 p, ('(s1, p) <- new_distance W s 0 from to w ;; '(s2, q) <- new_distance W s1 0 from' to' w' ;; new_conj s2 [p; q]) = Ok (s3, p) /\
    eff s (fun M y => mlit M p = true <-> (wsat L w (y to - y from)%Q /\ wsat L w' (y to' - y from')%Q)) s3.
Proof.
  intros G Et H1 H2 H3 H4 Hw Hw'. destruct (ddist_ok s t from to w G Et H1 H2 Hw) as (s1 & p & E1 & F1 & _ & P1 & _). rewrite E1. cbn [rbind].
  destruct (ef_vars _ _ _ F1 t Et) as (t1 & Et1 & N1 & I1). destruct (ddist_ok s1 t1 from' to' w' (ef_good _ _ _ F1) Et1) as (s2 & q & E2 & F2 & _ & P2 & _); [lia|lia|exact Hw'|]. rewrite E2. cbn [rbind].
  destruct (ef_vars _ _ _ F2 t1 Et1) as (t2 & Et2 & N2 & I2). pose proof (ef_good _ _ _ F2) as G2. pose proof (ef_nv _ _ _ F1) as V1. pose proof (ef_nv _ _ _ F2) as V2.
  assert (Hsc : in_scope s2 [p; q]) by (intros x [<-|[<-|[]]]; lia).
  pose proof (dsat_ok (S (dbound s2)) s2 (CConj [p; q]) G2 Hsc) as K. cbn [step] in K.
  assert (Hco : forall M y, dsol s2 M y -> match new_conj s2 [p; q] with Ok (s3, _) => exists M', agree (nv s2) M M' /\ dsol s3 M' y | _ => True end).
  { intros M y HM. pose proof (dg_good _ G2) as G2'. destruct (new_conj_ok (RC (eq y)) (mu s2) [p; q]) as (s3 & l & E & _ & C & _); [apply (g_inv _ _ (good_y _ _ G2'))|apply (g_cache _ _ (good_y _ _ G2'))|unfold dlevel; cbn; rewrite (dg_root _ G2); reflexivity|exact Hsc|].
    pose proof (mp_new_conj (fun t : dl => (t, 0)) s2 [p; q]) as Em. rewrite E in Em. destruct (new_conj s2 [p; q]) as [[s3' l']| |]; cbn in Em; try discriminate. injection Em as -> ->. apply C, HM. }
  assert (Hth : forall s3 l, new_conj s2 [p; q] = Ok (s3, l) -> theories s3 = theories s2) by (intros s3 l E; apply (Erase.new_conj_ths s2 [p; q] s3 l E)).
  destruct (new_conj s2 [p; q]) as [[s3 l]| |] eqn:E3; cbn [rbind] in K; [|contradiction|lia]. specialize (Hth s3 l eq_refl). destruct K as (K1 & K2 & K3 & _). destruct K1 as [K1|[K1 _]]; [|discriminate].
  exists s3, l. split; [reflexivity|]. constructor.
  - exact K1.
  - lia.
  - intros M y HM. apply K3 in HM as [HM Hl]. cbn [said] in Hl. apply (ef_only _ _ _ F2) in HM as [HM Hq]. apply (ef_only _ _ _ F1) in HM as [HM Hp]. split; [exact HM|]. cbn in Hl. rewrite Hl, <- Hp, <- Hq. destruct (mlit M p), (mlit M q); cbn; intuition congruence.
  - intros M y HM. destruct (ef_cons _ _ _ F1 M y HM) as (M1 & A1 & HM1). destruct (ef_cons _ _ _ F2 M1 y HM1) as (M2 & A2 & HM2). destruct (Hco M2 y HM2) as (M3 & A3 & HM3). exists M3. split; [|exact HM3].
    intros v Hv. rewrite (A1 v Hv), (A2 v), (A3 v); [reflexivity|lia|lia].
  - intros u Eu. rewrite Et in Eu. injection Eu as <-. exists t2. rewrite Hth. split; [exact Et2|]. split; [lia|]. apply (incl_tran I1 I2).
  - intros z Hz. pose proof (ef_val _ _ _ F1 z Hz) as Z1. rewrite <- Z1 in Hz. pose proof (ef_val _ _ _ F2 z Hz) as Z2. rewrite <- Z2 in Hz.
    pose proof (dg_good _ G2) as G2'. destruct (new_conj_ok (RC anyy) (mu s2) [p; q]) as (s3' & l' & E & X & _); [apply (g_inv _ _ G2')|apply (g_cache _ _ G2')|unfold dlevel; cbn; rewrite (dg_root _ G2); reflexivity|exact Hsc|].
    pose proof (mp_new_conj (fun t : dl => (t, 0)) s2 [p; q]) as Em. rewrite E, E3 in Em. cbn in Em. injection Em as -> ->. rewrite <- Z1, <- Z2. apply (e_val _ _ _ X z Hz).
Qed.
Definition rel_ret (s : st) (o : option (st * lit)) : st * dret := match o with Some (s1, p) => (s1, DP p) | None => (s, DThrow) end.
(** What a comparison gives. *)
Definition rel_ok (s : st) (r : drel) (e1 e2 : lin) (o : res (option (st * lit))) : Prop :=
  exists s' p, o = Ok (Some (s', p)) /\ eff s (fun M y => mlit M p = true <-> rel_holds r (lval y e1) (lval y e2)) s' /\ (r <> DEq -> eff_all s (fun M y => mlit M p = true <-> rel_holds r (lval y e1) (lval y e2)) s' /\ means s' p (fun y => rel_holds r (lval y e1) (lval y e2))).
Lemma rel_const s r e1 e2 b : dgood s -> (forall y, b = true <-> rel_holds r (lval y e1) (lval y e2)) -> rel_ok s r e1 e2 (Ok (Some (s, tf b))).
Proof.
  intros G H. exists s, (tf b). split; [reflexivity|].
  assert (K : forall M y, dsol s M y -> (mlit M (tf b) = true <-> rel_holds r (lval y e1) (lval y e2))) by (intros M y HM; rewrite <- (H y); unfold mlit, tf; destruct b; cbn; rewrite (sm_false _ _ _ HM); cbn; intuition congruence).
  destruct (eff_same s _ G K) as [K1 K2]. split; [exact K1|]. intros _. split; [exact K2|]. intros y _ _ _. specialize (H y). unfold tf. destruct b; [left|right; left]; (split; [reflexivity|]); intuition congruence.
Qed.
Lemma rel_may s t r e1 e2 from to w : dgood s -> theories s = [t] -> from < nvars t -> to < nvars t -> wcon L w ->
  (forall y, vals_ok L y -> (y O == 0)%Q -> (wsat L w (y to - y from)%Q <-> rel_holds r (lval y e1) (lval y e2))) -> rel_ok s r e1 e2 (may (new_distance W s 0 from to w)).
Proof.
  intros G Et Hf Ht Hw H. destruct (ddist_ok s t from to w G Et Hf Ht Hw) as (s' & p & E & F1 & F2 & _ & F3). exists s', p. split; [unfold may; rewrite E; reflexivity|].
  apply (means_iff s' p _ _ H) in F3. destruct (eff_iff s (fun M y => mlit M p = true <-> wsat L w (y to - y from)%Q) (fun M y => mlit M p = true <-> rel_holds r (lval y e1) (lval y e2)) s') as [K1 K2]; [|auto|auto].
  intros M y HM. destruct (sol_vals s M y G HM) as [A B]. rewrite (H y A B). reflexivity.
Qed.
Lemma form_some e f : dl_form W e = Some f -> diff_form (W := W) e.
Proof.
  unfold dl_form, diff_form. destruct (lvars e) as [|[x c] [|[x1 c1] [|]]]; try discriminate; [auto| |].
  - destruct (wofq W _) as [k|]; [eauto|discriminate].
  - destruct (Qeq_bool (c1 / c) (-1 # 1)) eqn:E; cbn [negb]; [|discriminate]. destruct (wofq W _) as [k|]; [|discriminate]. intros _. apply Qeq_bool_iff in E. eauto.
Qed.
Theorem drel_ok s t r e1 e2 : dgood s -> theories s = [t] -> lin_clean e1 -> lin_clean e2 -> vars_in t e1 -> vars_in t e2 -> (r = DGt -> gt_fine e1 e2) ->
  (diff_form (W := W) (lin_sub e1 e2) /\ rel_ok s r e1 e2 (new_rel r s e1 e2)) \/ (~ diff_form (W := W) (lin_sub e1 e2) /\ new_rel r s e1 e2 = Ok None).
Proof.
  intros G Et Hl Hr Vl Vr Hg. destruct (root_told s t G Et) as (v0 & HR & Hv1 & _). pose proof (reach_core L _ _ HR) as HC. pose proof (dc_n L _ _ HC) as Hcap. cbn [concat] in HC. rewrite app_nil_r in HC.
  destruct (dl_form W (lin_sub e1 e2)) as [f0|] eqn:Ef0; [|right; split; [apply form_none, Ef0|destruct (throws_iff (W := W) s 0 e1 e2 (proj1 (form_none _) Ef0)) as (A1 & A2 & A3 & A4 & A5); destruct r; cbn [new_rel]; auto]].
  left. split; [apply (form_some _ _ Ef0)|].
  destruct (cmp_cases (W := W) t e1 e2 (proj1 Hcap) Hl Hr Vl Vr (form_some _ _ Ef0)) as [(k & Ef & Hk)|(f & n & v & v1 & k & c & q & Ef & Ea & Hv & Hv1' & Hq & Hn & Hk)].
  - destruct r; cbn [new_rel]; unfold dl_new_lt, dl_new_leq, dl_new_eq, dl_new_geq, new_gt_with; rewrite Ef; apply rel_const; try exact G; intros y; cbn [rel_holds]; rewrite ?Qlt_bool_iff, ?Qle_bool_iff, ?Qeq_bool_iff; specialize (Hk y); lra.
  - destruct (rq_con L WR q k Hq) as (C1 & C2 & C3 & C4).
    assert (Hdi : r <> DEq -> rel_ok s r e1 e2 (new_rel r s e1 e2)).
    { intros Hne. destruct r; try congruence; cbn [new_rel]; unfold dl_new_lt, dl_new_leq, dl_new_geq, new_gt_with; rewrite Ef; (destruct f as [|[] x k'|[] x x1 k']; try discriminate; injection Ea as <- <- <- <-);
      try (destruct (Hg eq_refl) as [Hg'|Hg']; [rewrite Hg'|case (Hg' _ _ _ Ef)]);
      (apply (rel_may s t); [exact G|exact Et|assumption|assumption|assumption|]); intros y Hy Hy0; specialize (Hk y Hy0); rewrite ?(edge_lt L WR y q), ?(edge_gt L WR y q), ?(edge_le L WR y q), ?(edge_ge L WR y q) by assumption;
      match type of Hk with (_ == c * ?z)%Q => first [destruct (sign_neg c z Hn) as (S1 & S2 & S3 & S4 & S5)|destruct (sign_pos c z Hn) as (S1 & S2 & S3 & S4 & S5)] end; cbn [rel_holds]; first [rewrite <- S1; lra|rewrite <- S2; lra|rewrite <- S3; lra|rewrite <- S4; lra]. }
    destruct r; try (apply Hdi; discriminate). clear Hdi. cbn [new_rel]. unfold dl_new_eq. rewrite Ef.
    assert (HE : rel_ok s DEq e1 e2 (eq_at W s 0 v v1 k)); [|destruct f as [|n' x k'|n' x x1 k']; try discriminate; injection Ea as <- <- <- <-; exact HE].
    assert (Heq : forall y, vals_ok L y -> (y O == 0)%Q -> (wsat L k (y v1 - y v)%Q /\ wsat L (-' k) (y v - y v1)%Q <-> (lval y e1 == lval y e2)%Q)).
    { intros y Hy Hy0. specialize (Hk y Hy0). rewrite (edge_le L WR y q), (edge_ge L WR y q) by assumption. assert (S5 : (c * (y v - y v1 + q) == 0 <-> y v - y v1 + q == 0)%Q) by (destruct n; [apply (sign_neg c _ Hn)|apply (sign_pos c _ Hn)]).
      split; [intros [A B]; assert (K : (y v - y v1 + q == 0)%Q) by lra; apply S5 in K; lra|]. intros K. assert (K' : (y v - y v1 + q == 0)%Q) by (apply S5; lra). lra. }
    unfold eq_at, dl_th. rewrite Et. cbn [nth_error]. unfold guard. destruct (Nat.ltb_spec v (cap t)); [|lia]. destruct (Nat.ltb_spec v1 (cap t)); [|lia]. cbn [andb].
    destruct (within W (distance W t v v1) k) eqn:Ew.
    + destruct (dboth_ok s t v v1 k v1 v (-' k) G Et Hv Hv1' Hv1' Hv C1 C2) as (s3 & p & E & F). exists s3, p. split; [unfold may; rewrite E; reflexivity|]. split; [|congruence].
      destruct F as [F1 F2 F3 F4 F5 F6]. constructor; auto. intros M y HM. destruct (F3 M y HM) as [K1 K2]. split; [exact K1|]. destruct (sol_vals s M y G K1) as [A B]. cbn [rel_holds]. rewrite <- (Heq y A B). exact K2.
    + change FALSE_lit with (tf false). exists s, (tf false). split; [reflexivity|]. split; [|congruence]. apply eff_same; [exact G|]. intros M y HM. cbn [rel_holds]. unfold mlit. cbn. rewrite (sm_false _ _ _ HM).
      split; [discriminate|]. intros K. exfalso. destruct (sol_vals s M y G HM) as [A B]. apply (Heq y A B) in K as [K1 K2]. pose proof (sol_told s t v0 M y HM Et HR Hv1) as HS.
      unfold within, distance in Ew. cbn in Ew. apply andb_false_iff in Ew as [Ew|Ew].
      * destruct (dists t v1 v) as [x|] eqn:Ex; cbn in Ew; [|discriminate]. pose proof (proj1 (wlt_iff L _ _) Ew) as Hx. pose proof (dist_sound L t _ y v1 v x HC HS Ex) as Hs.
        unfold wlt, wsat in *. destruct (evt_ex _ (evt_and _ _ Hx (evt_and _ _ K1 Hs))) as (e & _ & A' & B' & C'). rewrite (ev_neg _ L) in A'. lra.
      * destruct (dists t v v1) as [x|] eqn:Ex; cbn in Ew; [|discriminate]. pose proof (proj1 (wlt_iff L _ _) Ew) as Hx. pose proof (dist_sound L t _ y v v1 x HC HS Ex) as Hs.
        unfold wlt, wsat in *. destruct (evt_ex _ (evt_and _ _ Hx (evt_and _ _ K2 Hs))) as (e & _ & A' & B' & C'). rewrite (ev_neg _ L) in B'. lra.
Qed.
Lemma drel_throws s t r e1 e2 : dgood s -> theories s = [t] -> lin_clean e1 -> lin_clean e2 -> vars_in t e1 -> vars_in t e2 -> (r = DGt -> gt_fine e1 e2) -> (new_rel r s e1 e2 = Ok None <-> ~ diff_form (W := W) (lin_sub e1 e2)).
Proof. intros H1 H2 H3 H4 H5 H6 H7. destruct (drel_ok s t r e1 e2 H1 H2 H3 H4 H5 H6 H7) as [[A (s' & p & E & _)]|[A E]]; rewrite E; split; try tauto; try discriminate. Qed.

Theorem dcstep_ok fl s c : dgood s -> dlegal s c ->
  match dcstep fl s c with
  | UB => False
  | OOF => fl <= dbound s
  | Ok (s', r) => (dgood s' \/ (r = DR (RBool false) /\ forall M y, ~ dsol s' M y)) /\ nv s <= nv s' /\
      (forall M y, dsol s' M y -> dsol s M y /\ dsaid c r M y) /\ (dexact c -> forall M y, dsol s M y -> dsaid c r M y -> dsol s' M y) /\
      (match c with DSat _ => True | _ => forall M y, dsol s M y -> exists M', agree (nv s) M M' /\ dsol s' M' y end)
  end.
Proof.
  intros G HL. destruct c as [c| |from to w|from to mn mx|r e1 e2]; cbn [dcstep dlegal] in *.
  - pose proof (dsat_ok fl s c G HL) as K. destruct (step fl s c) as [[s' r]| |]; cbn [rbind]; [|exact K|exact K]. destruct K as (K1 & K2 & K3 & K4). split; [destruct K1 as [K1|[-> K1]]; auto|]. split; [exact K2|]. split; [exact K3|]. split; [exact K4|exact Logic.I].
  - destruct (dvar_ok s G) as (s' & x & E & F1 & F2). rewrite E. cbn [rbind]. split; [left; apply F1|]. split; [apply F1|]. split; [apply F1|]. split; [intros _; apply F2|apply F1].
  - destruct HL as (Hw & t & Et & Hf & Ht). destruct (ddist_ok s t from to w G Et Hf Ht Hw) as (s' & p & E & F1 & F2 & _). rewrite E. cbn [rbind]. split; [left; apply F1|]. split; [apply F1|]. split; [apply F1|]. split; [intros _; apply F2|apply F1].
  - destruct HL as (Hw & Hw' & t & Et & Hf & Ht). unfold new_distance2. destruct (dboth_ok s t to from (-' mn) from to mx G Et Ht Hf Hf Ht Hw Hw') as (s' & p & E & F1). rewrite E. cbn [rbind]. split; [left; apply F1|]. split; [apply F1|]. split; [apply F1|]. split; [intros []|apply F1].
  - destruct HL as (H1 & H2 & (t & Et & H3 & H4) & H5). destruct (drel_ok s t r e1 e2 G Et H1 H2 H3 H4 H5) as [(Hd & s' & p & E & F1 & F2)|[Hd E]]; rewrite E; cbn [rbind].
    + split; [left; apply F1|]. split; [apply F1|]. split; [apply F1|]. split; [|apply F1]. intros Hx. apply F2. intros ->. exact Hx.
    + split; [left; exact G|]. split; [lia|]. split; [intros M y HM; split; [exact HM|exact Logic.I]|]. split; [intros _ M y HM _; exact HM|]. intros M y HM. exists M. split; [intros x _; reflexivity|exact HM].
Qed.
(** What comes later: values are kept, constraints and variables are added. *)
Definition later (s s' : st) : Prop :=
  (forall q, value s q <> LUndef -> value s' q = value s q) /\ forall t, theories s = [t] -> exists t', theories s' = [t'] /\ nvars t <= nvars t' /\ incl (dcons t) (dcons t').
Lemma later_resp s s' y t : theories s = [t] -> later s s' -> resp s' y -> resp s y.
Proof.
  intros Et [H1 H2] Hr t0 c Et0 Hc. destruct (H2 t0 Et0) as (t' & Et' & _ & Hi). destruct (Hr t' c Et' (Hi c Hc)) as [R1 R2].
  split; intros V; (assert (V' : value s (c_b c) <> LUndef) by congruence); pose proof (H1 _ V'); [apply R1|apply R2]; congruence.
Qed.
Lemma later_means s s' t p P : theories s = [t] -> later s s' -> means s p P -> means s' p P.
Proof.
  intros Et Hl H y H1 H2 H3. destruct (H y H1 H2 (later_resp s s' y t Et Hl H3)) as [A|[A|(t0 & c & A & B & C)]]; [auto|auto|]. right. right. destruct (proj2 Hl t0 A) as (t' & Et' & _ & Hi). exists t', c. split; [exact Et'|]. split; [apply Hi, B|exact C].
Qed.
Lemma eff_later s P s' : eff s P s' -> later s s'.
Proof. intros F. split; apply F. Qed.
Definition event_means (s : st) (c : dcall) (r : dret) : Prop :=
  match c, r with
  | DDist from to w, DP p => means s p (fun y => wsat L w (y to - y from)%Q)
  | DCmp r e1 e2, DP p => r <> DEq -> means s p (fun y => rel_holds r (lval y e1) (lval y e2))
  | _, _ => True
  end.
Theorem dcstep_later fl s c s' r : dgood s -> dlegal s c -> dcstep fl s c = Ok (s', r) -> later s s' /\ event_means s' c r.
Proof.
  intros G HL. destruct c as [c| |from to w|from to mn mx|r0 e1 e2]; cbn [dcstep dlegal] in *.
  - destruct (step (ops := ops) fl s c) as [[s1 r1]| |] eqn:E; cbn [rbind]; try discriminate. intros K. injection K as <- <-. destruct (rlegal_ok s c G HL) as [Hc Hl]. split; [|exact Logic.I]. split.
    + pose proof (mu_step fl s c (dg_root _ G) Hc) as Em. rewrite E in Em. cbn in Em. pose proof (kept_step (RC anyy) fl (mu s) (mu s1) c r1 (dg_good _ G) Hl Em) as K.
      intros q Hq. pose proof (i_t _ _ (g_inv _ _ (dg_good _ G))) as HT. assert (Hlv : forall v, level s v = 0).
      { intros v. destruct (Nat.eq_dec (level s v) 0) as [E0|E0]; [exact E0|]. pose proof (t_on _ HT v E0) as Ho. apply in_map_iff in Ho as (p & <- & Hp). apply in_split in Hp as (pre & post & Ep). pose proof (t_level _ HT pre p post Ep) as El. cbn in El. rewrite (dg_root _ G) in El. exact El. }
      destruct (value s q) eqn:Ev; [|exact (proj1 (K q Ev ltac:(cbn; rewrite Hlv; lia)))|congruence].
      assert (Ev' : value s (negl q) = LTrue) by (unfold value, vlit in *; cbn; destruct (assigns s (lvar q)), (lsgn q); cbn in *; congruence). destruct (K (negl q) Ev') as [K1 _]; [cbn; rewrite Hlv; lia|].
      unfold value, vlit in *. cbn in *. destruct (assigns s1 (lvar q)), (lsgn q); cbn in *; congruence.
    + intros t Et. pose proof (sh_step W fl s s1 c r1 E) as Es. rewrite Et in Es. destruct (theories s1) as [|t' [|? ?]]; try discriminate Es. injection Es as E1 E2. exists t'. split; [reflexivity|]. rewrite E1, E2. split; [lia|apply incl_refl].
  - destruct (dvar_ok s G) as (s1 & x & E & F1 & F2). rewrite E. cbn [rbind]. intros K. injection K as <- <-. split; [apply (eff_later _ _ _ F1)|exact Logic.I].
  - destruct HL as (Hw & t & Et & Hf & Ht). destruct (ddist_ok s t from to w G Et Hf Ht Hw) as (s1 & p & E & F1 & F2 & _ & F3). rewrite E. cbn [rbind]. intros K. injection K as <- <-. split; [apply (eff_later _ _ _ F1)|exact F3].
  - destruct HL as (Hw & Hw' & t & Et & Hf & Ht). unfold new_distance2. destruct (dboth_ok s t to from (-' mn) from to mx G Et Ht Hf Hf Ht Hw Hw') as (s1 & p & E & F1). rewrite E. cbn [rbind]. intros K. injection K as <- <-. split; [apply (eff_later _ _ _ F1)|exact Logic.I].
  - destruct HL as (H1 & H2 & (t & Et & H3 & H4) & H5). destruct (drel_ok s t r0 e1 e2 G Et H1 H2 H3 H4 H5) as [(Hd & s1 & p & E & F1 & F2)|[Hd E]]; rewrite E; cbn [rbind]; intros K; injection K as <- <-.
    + split; [apply (eff_later _ _ _ F1)|]. intros Hx. apply F2, Hx.
    + split; [|exact Logic.I]. split; [auto|]. intros t0 Et0. exists t0. split; [exact Et0|]. split; [lia|apply incl_refl].
Qed.
End Net.
End Srt.
