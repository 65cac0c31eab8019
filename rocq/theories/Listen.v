(** Listeners (include/sat_core.h:153-157, sat_core.cpp:585-618): what has been notified. *)
From Coq Require Import String Sorted.
From Verif Require Import Base Keys Sat SatSpec SatInv Run.

(** The values notified to the listener [l] about the variable [v], newest first. *)
Definition notified (lg : list (nat * nat * lbool)) (l v : nat) : list lbool :=
  map snd (filter (fun e => (fst (fst e) =? l) && (snd (fst e) =? v)) lg).
(** The last value notified; a listener takes an unmentioned variable to be unassigned. *)
Definition last_told lg l v : lbool := hd LUndef (notified lg l v).
(** Notifications (newest first) alternate: assignment, retraction, assignment, ...; the oldest is
    an assignment. *)
Fixpoint alternate (bs : list lbool) : Prop :=
  match bs with
  | [] => True
  | b :: r => (b = LUndef <-> hd LUndef r <> LUndef) /\ alternate r
  end.

Lemma notified_app a b l v : notified (a ++ b) l v = notified a l v ++ notified b l v.
Proof. unfold notified. rewrite filter_app, map_app. reflexivity. Qed.
Lemma notify_other ls x b lg l v : v <> x \/ ~ In l ls -> notified (notify ls x b lg) l v = notified lg l v.
Proof.
  intros H. unfold notify. rewrite notified_app. replace (notified _ l v) with (@nil lbool); [reflexivity|]. symmetry.
  unfold notified. replace (filter _ _) with (@nil (nat * nat * lbool)); [reflexivity|]. symmetry.
  destruct (filter _ (rev _)) as [|e r] eqn:E; [reflexivity|]. exfalso.
  assert (He : In e (e :: r)) by (left; reflexivity). rewrite <- E in He. apply filter_In in He as [He Hb].
  apply in_rev, in_map_iff in He as (k & <- & Hk). cbn in Hb. apply andb_true_iff in Hb as [B1 B2].
  apply Nat.eqb_eq in B1. apply Nat.eqb_eq in B2. subst. destruct H as [H|H]; [congruence|contradiction].
Qed.
Lemma notify_same ls v b lg l : NoDup ls -> In l ls -> notified (notify ls v b lg) l v = b :: notified lg l v.
Proof.
  intros HN Hi. unfold notify. rewrite notified_app. change (b :: notified lg l v) with ([b] ++ notified lg l v). f_equal.
  unfold notified.
  induction ls as [|x r IH]; [destruct Hi|]. inversion HN as [|? ? Hx HN' E1]; subst. cbn [map rev]. rewrite filter_app, map_app. cbn [filter fst snd].
  rewrite Nat.eqb_refl, andb_true_r. destruct Hi as [-> |Hi].
  - rewrite Nat.eqb_refl. cbn [map]. replace (filter _ _) with (@nil (nat * nat * lbool)); [reflexivity|]. symmetry.
    destruct (filter _ (rev _)) as [|e q] eqn:E; [reflexivity|]. exfalso.
    assert (He : In e (e :: q)) by (left; reflexivity). rewrite <- E in He. apply filter_In in He as [He Hb].
    apply in_rev, in_map_iff in He as (k & <- & Hk). cbn in Hb. apply andb_true_iff in Hb as [B1 _]. apply Nat.eqb_eq in B1. subst. contradiction.
  - destruct (Nat.eqb_spec x l) as [->|Hn]; [contradiction|]. cbn [map]. rewrite app_nil_r. apply IH; assumption.
Qed.

Lemma memn_spec x l : reflect (In x l) (memn x l).
Proof.
  apply iff_reflect. unfold memn. rewrite existsb_exists. split.
  - intros H. exists x. split; [exact H|apply Nat.eqb_refl].
  - intros (y & Hy & E). apply Nat.eqb_eq in E. subst. exact Hy.
Qed.

Section Listen.
Context {T : Type} {ops : theory_ops T}.
Notation st := (st T).
Notation record := (Sat.record ops).
(** [R l v]: [l] has been registered on [v] while [v] was unassigned. *)
Context (R : nat -> nat -> Prop).
(** [L0]: the notifications sent up to some moment. *)
Context (L0 : list (nat * nat * lbool)).
(** [Dr]: registrations made in cores that have been dropped since (sat_stack). [A0]: the values that do not come from the trail. *)
Context (Dr : nat -> nat -> Prop) (A0 : nat -> lbool).

Record J (s : st) : Prop := {
  j_reg : forall l v, In l (listening s v) -> R l v \/ Dr l v;
  j_val : forall l v, R l v -> last_told (log s) l v = assigns s v;
  j_in : forall l v, R l v -> In l (listening s v) \/ (assigns s v <> LUndef /\ level s v = 0);
  j_alt : forall l v, R l v -> alternate (notified (log s) l v);
  j_nd : forall v, NoDup (listening s v);
  j_spur : forall l v b, In (l, v, b) (log s) -> R l v \/ Dr l v;
  j_range : forall l v, R l v -> v < nv s;
  j_out : forall v, nv s <= v -> assigns s v = LUndef /\ level s v = 0;
  j_true : forall p, In p (trail s) -> assigns s (lvar p) <> LUndef;
  j_tnd : NoDup (map lvar (trail s));
  j_level : forall pre p post, trail s = pre ++ p :: post -> level s (lvar p) = lvl_at (trail_lim s) (length post);
  j_lim : forall n, In n (trail_lim s) -> n <= length (trail s);
  j_sort : StronglySorted desc (trail_lim s);
  j_cls : forall c p, In p (cls s c) -> lvar p < nv s;
  j_log : exists new, log s = new ++ L0;
  j_base : forall v, (In v (map lvar (trail s)) -> A0 v = LUndef) /\ (~ In v (map lvar (trail s)) -> assigns s v = A0 v) }.

Lemma J_enqueue (s s' : st) p c b : lvar p < nv s -> J s -> enqueue s p c = (s', b) -> J s'.
Proof.
  intros Hp HJ. unfold enqueue. destruct (value s p) eqn:Ev; intros E; inversion E; subst; clear E; try exact HJ.
  assert (Ha : assigns s (lvar p) = LUndef) by (unfold value, vlit in Ev; destruct (assigns s (lvar p)), (lsgn p); congruence).
  destruct HJ as [A B D F G H I K L M N O P Q Z W]. set (b0 := if lsgn p then LTrue else LFalse).
  assert (Hb : b0 <> LUndef) by (unfold b0; destruct (lsgn p); discriminate). clearbody b0.
  assert (Hl : forall l v, notified (notify (listening s (lvar p)) (lvar p) b0 (log s)) l v =
     if (v =? lvar p) && memn l (listening s (lvar p)) then b0 :: notified (log s) l v else notified (log s) l v).
  { intros l v. destruct (Nat.eqb_spec v (lvar p)) as [->|Hn]; cbn [andb]; [|apply notify_other; left; exact Hn].
    destruct (memn_spec l (listening s (lvar p))) as [Hi|Hi]; [apply notify_same; auto|apply notify_other; right; exact Hi]. }
  assert (HR : forall l, R l (lvar p) -> In l (listening s (lvar p))) by (intros l Hr; destruct (D l _ Hr) as [X|[X _]]; [exact X|congruence]).
  constructor; cbn -[notify notified].
  - intros l v. destruct (root_level s); [|apply A]. unfold upd. destruct (v =? lvar p); [intros []|apply A].
  - intros l v Hr. unfold last_told. rewrite Hl. unfold upd. destruct (Nat.eqb_spec v (lvar p)) as [->|Hn]; cbn [andb]; [|apply B, Hr].
    destruct (memn_spec l (listening s (lvar p))) as [Hi|Hi]; [reflexivity|destruct (Hi (HR l Hr))].
  - intros l v Hr. unfold upd. destruct (Nat.eqb_spec v (lvar p)) as [->|Hn].
    + unfold root_level, dlevel. destruct (trail_lim s); [right; split; [exact Hb|reflexivity]|left; apply HR, Hr].
    + destruct (D l v Hr) as [X|X]; [left|right; exact X]. destruct (root_level s); [|exact X]. destruct (Nat.eqb_spec v (lvar p)); [lia|exact X].
  - intros l v Hr. rewrite Hl. destruct (Nat.eqb_spec v (lvar p)) as [->|Hn]; cbn [andb]; [|apply F, Hr].
    destruct (memn_spec l (listening s (lvar p))) as [Hi|Hi]; [|apply F, Hr]. cbn. split; [|apply F, Hr].
    pose proof (B l (lvar p) Hr) as HB. unfold last_told in HB. rewrite Ha in HB. split; [congruence|intros X; contradiction].
  - intros v. destruct (root_level s); [|apply G]. unfold upd. destruct (v =? lvar p); [constructor|apply G].
  - intros l v x Hi. unfold notify in Hi. apply in_app_iff in Hi as [Hi|Hi]; [|apply (H _ _ _ Hi)].
    apply in_rev, in_map_iff in Hi as (k & Ek & Hk). inversion Ek; subst. apply A, Hk.
  - exact I.
  - intros v Hv. unfold upd. destruct (Nat.eqb_spec v (lvar p)); [lia|apply K, Hv].
  - intros q [<-|Hq]; unfold upd; [rewrite Nat.eqb_refl; exact Hb|]. destruct (Nat.eqb_spec (lvar q) (lvar p)); [exact Hb|apply L, Hq].
  - constructor; [|exact M]. intros Hi. apply in_map_iff in Hi as (q & Eq & Hq). apply (L q Hq). rewrite Eq. exact Ha.
  - intros pre q post E. unfold upd. destruct pre as [|x pre]; cbn in E; inversion E; subst.
    + rewrite Nat.eqb_refl. symmetry. apply lvl_at_top, O.
    + assert (Hq : In q (trail s)) by (rewrite H2; apply in_or_app; right; left; reflexivity).
      destruct (Nat.eqb_spec (lvar q) (lvar x)) as [Eq|Hn]; [exfalso; apply (L q Hq); rewrite Eq; exact Ha|]. apply (N pre q post H2).
  - intros n Hn. specialize (O n Hn). lia.
  - exact P.
  - exact Q.
  - destruct Z as (new & Z). rewrite Z. eexists. unfold notify. rewrite app_assoc. reflexivity.
  - intros v. destruct (W v) as [W1 W2]. unfold upd. destruct (Nat.eqb_spec v (lvar p)) as [->|Hn].
    + split; [intros _|intros X; exfalso; apply X; left; reflexivity]. rewrite <- W2; [exact Ha|]. intros X. apply in_map_iff in X as (q & Eq & Hq). apply (L q Hq). rewrite Eq. exact Ha.
    + split; [intros [X|X]; [lia|apply W1, X]|]. intros X. apply W2. intros Y. apply X. right. exact Y.
Qed.

Lemma J_pop_one (s s' : st) : (forall p r, trail s = p :: r -> level s (lvar p) <> 0) -> J s -> 
  (forall n, In n (trail_lim s) -> n < length (trail s)) -> pop_one s = Ok s' -> J s'.
Proof.
  intros Hlv HJ Hlim E. unfold pop_one in E. destruct (trail s) as [|p tr] eqn:Et; [discriminate|]. inversion E; subst; clear E.
  specialize (Hlv p tr eq_refl).
  destruct HJ as [A B D F G H I K L M N O P Q Z W]. rewrite Et in *.
  assert (HR : forall l, R l (lvar p) -> In l (listening s (lvar p))) by (intros l Hr; destruct (D l _ Hr) as [X|[_ X]]; [exact X|congruence]).
  assert (Ha : assigns s (lvar p) <> LUndef) by (apply L; left; reflexivity).
  assert (Hl : forall l v, notified (notify (listening s (lvar p)) (lvar p) LUndef (log s)) l v =
     if (v =? lvar p) && memn l (listening s (lvar p)) then LUndef :: notified (log s) l v else notified (log s) l v).
  { intros l v. destruct (Nat.eqb_spec v (lvar p)) as [->|Hn]; cbn [andb]; [|apply notify_other; left; exact Hn].
    destruct (memn_spec l (listening s (lvar p))) as [Hi|Hi]; [apply notify_same; auto|apply notify_other; right; exact Hi]. }
  inversion M as [|? ? Mx MN E1]; subst.
  constructor; cbn -[notify notified].
  - exact A.
  - intros l v Hr. unfold last_told. rewrite Hl. unfold upd. destruct (Nat.eqb_spec v (lvar p)) as [->|Hn]; cbn [andb]; [|apply B, Hr].
    destruct (memn_spec l (listening s (lvar p))) as [Hi|Hi]; [reflexivity|destruct (Hi (HR l Hr))].
  - intros l v Hr. unfold upd. destruct (Nat.eqb_spec v (lvar p)) as [->|Hn]; [left; apply HR, Hr|apply D, Hr].
  - intros l v Hr. rewrite Hl. destruct (Nat.eqb_spec v (lvar p)) as [->|Hn]; cbn [andb]; [|apply F, Hr].
    destruct (memn_spec l (listening s (lvar p))) as [Hi|Hi]; [|apply F, Hr]. cbn. split; [|apply F, Hr].
    pose proof (B l (lvar p) Hr) as HB. unfold last_told in HB. split; [intros _; congruence|auto].
  - exact G.
  - intros l v x Hi. unfold notify in Hi. apply in_app_iff in Hi as [Hi|Hi]; [|apply (H _ _ _ Hi)].
    apply in_rev, in_map_iff in Hi as (k & Ek & Hk). inversion Ek; subst. apply A, Hk.
  - exact I.
  - intros v Hv. unfold upd. destruct (Nat.eqb_spec v (lvar p)); [auto|apply K, Hv].
  - intros q Hq. unfold upd. destruct (Nat.eqb_spec (lvar q) (lvar p)) as [Eq|_]; [exfalso; apply Mx; rewrite <- Eq; apply in_map, Hq|apply L; right; exact Hq].
  - exact MN.
  - intros pre q post E. unfold upd. assert (Hq : In q tr) by (rewrite E; apply in_or_app; right; left; reflexivity).
    destruct (Nat.eqb_spec (lvar q) (lvar p)) as [Eq|_]; [exfalso; apply Mx; rewrite <- Eq; apply in_map, Hq|]. apply (N (p :: pre) q post). cbn. rewrite E. reflexivity.
  - intros n Hn. specialize (Hlim n Hn). cbn in Hlim. lia.
  - exact P.
  - exact Q.
  - destruct Z as (new & Z). rewrite Z. eexists. unfold notify. rewrite app_assoc. reflexivity.
  - intros v. destruct (W v) as [W1 W2]. cbn in W1, W2. unfold upd. destruct (Nat.eqb_spec v (lvar p)) as [->|Hn].
    + split; [intros X; contradiction|intros _]. symmetry. apply W1. left. reflexivity.
    + split; [intros X; apply W1; right; exact X|]. intros X. apply W2. intros [Y|Y]; [congruence|contradiction].
Qed.

(** States that agree on what matters here. *)
Lemma J_frame (s s' : st) : assigns s' = assigns s -> level s' = level s -> trail s' = trail s -> trail_lim s' = trail_lim s ->
  listening s' = listening s -> log s' = log s -> nv s' = nv s -> cls s' = cls s -> J s -> J s'.
Proof.
  intros E1 E2 E3 E4 E5 E6 E7 E8 [A B D F G H I K L M N O P Q Z W].
  constructor; rewrite ?E1, ?E2, ?E3, ?E4, ?E5, ?E6, ?E7, ?E8; assumption.
Qed.
Ltac jframe := match goal with H : J ?s |- J _ => apply (J_frame s); [reflexivity..|exact H] end.

Lemma J_set_cls (s : st) c ls : (forall p, In p ls -> lvar p < nv s) -> J s -> J (set_cls (upd (cls s) c ls) s).
Proof.
  intros Hl [A B D F G H I K L M N O P Q Z W]. constructor; cbn; try assumption.
  intros d p. unfold upd. destruct (d =? c); [apply Hl|apply Q].
Qed.
Lemma J_push_watch (s : st) p c : J s -> J (push_watch s p c).
Proof. intros H. jframe. Qed.

Lemma in_range_in (s : st) ls p : in_range s ls = true -> In p ls -> lvar p < nv s.
Proof. unfold in_range. rewrite forallb_forall. intros H Hp. apply Nat.ltb_lt, H, Hp. Qed.

Lemma J_new_constr (s s' : st) ls c : (forall p, In p ls -> lvar p < nv s) -> J s -> new_constr s ls = Ok (s', c) -> J s'.
Proof.
  intros Hl HJ. unfold new_constr. destruct ls as [|l0 [|l1 r]]; try discriminate. intros E; inversion E; subst; clear E.
  pose proof (J_set_cls s (ncid s) _ Hl HJ) as H1. apply (J_frame _ _) with (9 := H1); reflexivity.
Qed.
Lemma clause_filter_in v : forall ls p k, clause_filter v p ls = Some k -> forall q, In q k -> In q ls.
Proof.
  induction ls as [|x r IH]; intros p k; cbn [clause_filter]; [intros E; inversion E; subst; intros q []|].
  destruct (_ || _); [discriminate|]. destruct (_ && _).
  - destruct (clause_filter v (Some x) r) as [k'|] eqn:E; [|discriminate]. intros E'; inversion E'; subst. intros q [<-|Hq]; [left; reflexivity|right; apply (IH _ _ E), Hq].
  - intros E q Hq. right. apply (IH _ _ E), Hq.
Qed.
Lemma guard_ok {A} b (r : res A) x : guard b r = Ok x -> b = true /\ r = Ok x.
Proof. destruct b; cbn; [auto|discriminate]. Qed.

Lemma J_new_clause (s s' : st) ls b : J s -> new_clause s ls = Ok (s', b) -> J s'.
Proof.
  intros HJ. unfold new_clause. intros E. apply guard_ok in E as [_ E]. apply guard_ok in E as [Hr E].
  destruct (clause_filter (value s) None (sort_by lvar ls)) as [k|] eqn:Ek; [|inversion E; subst; exact HJ].
  assert (Hk : forall q, In q k -> lvar q < nv s).
  { intros q Hq. apply (in_range_in s ls); [exact Hr|]. apply (sort_by_In lvar), (clause_filter_in _ _ _ _ Ek), Hq. }
  destruct k as [|p [|p' r]]; [inversion E; subst; exact HJ| |].
  - destruct (enqueue s p None) as [s1 b1] eqn:Ee. inversion E; subst. eapply J_enqueue; [|exact HJ|exact Ee]. apply Hk; left; reflexivity.
  - destruct (new_constr s (p :: p' :: r)) as [[s1 c]| |] eqn:En; cbn [rbind] in E; try discriminate. inversion E; subst.
    pose proof (J_new_constr _ _ _ _ Hk HJ En) as H1. jframe.
Qed.
Lemma J_new_clauses : forall cs (s s' : st) b, J s -> new_clauses s cs = Ok (s', b) -> J s'.
Proof.
  induction cs as [|c r IH]; intros s s' b HJ; cbn [new_clauses]; [intros E; inversion E; subst; exact HJ|].
  destruct (new_clause s c) as [[s1 b1]| |] eqn:E; cbn [rbind]; try discriminate. pose proof (J_new_clause _ _ _ _ HJ E) as H1.
  destruct b1; [apply IH, H1|intros E'; inversion E'; subst; exact H1].
Qed.
Lemma J_add_expr (s : st) k p : J s -> J (add_expr s k p).
Proof. intros H. unfold add_expr. destruct (find_expr s k); [exact H|jframe]. Qed.
Lemma J_reify (s s' : st) cs k p q : J s -> reify s cs k p = Ok (s', q) -> J s'.
Proof.
  intros HJ. unfold reify. destruct (new_clauses s cs) as [[s1 b1]| |] eqn:E; cbn [rbind]; try discriminate. pose proof (J_new_clauses _ _ _ _ HJ E) as H1.
  destruct b1; intros E'; inversion E'; subst; [apply J_add_expr, H1|exact H1].
Qed.
Lemma J_new_var (s : st) : J s -> J (fst (new_var s)).
Proof.
  intros [A B D F G H I K L M N O P Q Z W]. set (n := nv s). destruct (K n (le_n _)) as [Ka Kl].
  assert (Ea : forall v, upd (assigns s) n LUndef v = assigns s v) by (intros v; unfold upd; destruct (Nat.eqb_spec v n) as [->|_]; congruence).
  assert (El : forall v, upd (level s) n 0 v = level s v) by (intros v; unfold upd; destruct (Nat.eqb_spec v n) as [->|_]; congruence).
  constructor; cbn; fold n; try assumption.
  - intros l v Hr. rewrite Ea. apply B, Hr.
  - intros l v Hr. rewrite Ea, El. apply D, Hr.
  - intros l v Hr. specialize (I l v Hr). fold n in I. lia.
  - intros v Hv. rewrite Ea, El. apply K. fold n. lia.
  - intros p Hp. rewrite Ea. apply L, Hp.
  - intros pre p post E. rewrite El. apply (N pre), E.
  - intros c p Hp. specialize (Q c p Hp). fold n in Q. lia.
  - intros v. rewrite Ea. apply W.
Qed.
Lemma J_new_vars n : forall (s : st), J s -> J (fst (new_vars s n)).
Proof.
  induction n as [|n IH]; intros s HJ; cbn [new_vars]; [exact HJ|]. pose proof (J_new_var s HJ) as H1.
  destruct (new_var s) as [s1 v]. cbn [fst] in H1. specialize (IH s1 H1). destruct (new_vars s1 n) as [s2 r]. exact IH.
Qed.
Lemma J_new_eq (s s' : st) l r p : J s -> new_eq s l r = Ok (s', p) -> J s'.
Proof.
  intros HJ. unfold new_eq. intros E. apply guard_ok in E as [_ E]. apply guard_ok in E as [_ E].
  destruct (lit_eqb l r); [inversion E; subst; exact HJ|]. pose proof (J_new_var s HJ) as H1.
  destruct (value s l), (value s r); try (inversion E; subst; exact HJ).
  destruct (find_expr s (key_eq l r)); [inversion E; subst; exact HJ|]. destruct (new_var s) as [s1 v]. cbn [fst] in H1. eapply J_reify; [exact H1|exact E].
Qed.
Lemma J_new_conj (s s' : st) ls p : J s -> new_conj s ls = Ok (s', p) -> J s'.
Proof.
  intros HJ. unfold new_conj. intros E. apply guard_ok in E as [_ E]. apply guard_ok in E as [_ E].
  destruct (conj_filter _ _ _) as [[|x [|y k]]|]; try (inversion E; subst; exact HJ). pose proof (J_new_var s HJ) as H1.
  destruct (find_expr s _); [inversion E; subst; exact HJ|]. destruct (new_var s) as [s1 v]. cbn [fst] in H1. eapply J_reify; [exact H1|exact E].
Qed.
Lemma J_new_disj (s s' : st) ls p : J s -> new_disj s ls = Ok (s', p) -> J s'.
Proof.
  intros HJ. unfold new_disj. intros E. apply guard_ok in E as [_ E]. apply guard_ok in E as [_ E].
  destruct (clause_filter _ _ _) as [[|x [|y k]]|]; try (inversion E; subst; exact HJ). pose proof (J_new_var s HJ) as H1.
  destruct (find_expr s _); [inversion E; subst; exact HJ|]. destruct (new_var s) as [s1 v]. cbn [fst] in H1. eapply J_reify; [exact H1|exact E].
Qed.
Lemma J_amo fuel : forall (s s' : st) ls p, J s -> new_amo_f fuel s ls = Ok (s', p) -> J s'.
Proof.
  induction fuel as [|fuel IH]; intros s s' ls p HJ; cbn [new_amo_f]; [discriminate|]. intros E. apply guard_ok in E as [_ E]. apply guard_ok in E as [_ E].
  destruct (amo_filter _ _ _) as [[|x [|y k]]|]; try (inversion E; subst; exact HJ).
  destruct (find_expr s _); [inversion E; subst; exact HJ|]. destruct (_ <? 4).
  - pose proof (J_new_var s HJ) as H1. destruct (new_var s) as [s1 v]. cbn [fst] in H1. eapply J_reify; [exact H1|exact E].
  - pose proof (J_new_vars (ceil_sqrt (length (x :: y :: k))) s HJ) as H1. destruct (new_vars s _) as [s1 u]. cbn [fst] in H1.
    match type of E with context [new_vars s1 ?n] => pose proof (J_new_vars n s1 H1) as H2; destruct (new_vars s1 n) as [s2 v] end. cbn [fst] in H2.
    destruct (new_amo_f fuel s2 u) as [[s3 cu]| |] eqn:E3; cbn [rbind] in E; try discriminate. pose proof (IH _ _ _ _ H2 E3) as H3.
    destruct (new_amo_f fuel s3 v) as [[s4 cv]| |] eqn:E4; cbn [rbind] in E; try discriminate. pose proof (IH _ _ _ _ H3 E4) as H4.
    destruct (new_conj s4 [cu; cv]) as [[s5 ctr]| |] eqn:E5; cbn [rbind] in E; try discriminate. pose proof (J_new_conj _ _ _ _ H4 E5) as H5.
    eapply J_reify; [exact H5|exact E].
Qed.
Lemma J_exct (s s' : st) ls p : J s -> new_exct_one s ls = Ok (s', p) -> J s'.
Proof.
  intros HJ. unfold new_exct_one. intros E. apply guard_ok in E as [_ E]. apply guard_ok in E as [_ E].
  destruct (amo_filter _ _ _) as [[|x k]|]; try (inversion E; subst; exact HJ).
  destruct (match k with [] => lsgn x | _ => false end); [inversion E; subst; exact HJ|].
  destruct (find_expr s _); [inversion E; subst; exact HJ|].
  destruct (new_at_most_one s (x :: k)) as [[s1 c]| |] eqn:E1; cbn [rbind] in E; try discriminate. pose proof (J_amo _ _ _ _ _ HJ E1) as H1.
  destruct (new_clause s1 _) as [[s2 b]| |] eqn:E2; cbn [rbind] in E; try discriminate. pose proof (J_new_clause _ _ _ _ H1 E2) as H2.
  destruct b; inversion E; subst; [apply J_add_expr, H2|exact H2].
Qed.

(** Propagation. *)
Lemma J_clause_propagate (s s' : st) c p b : J s -> clause_propagate s c p = Ok (s', b) -> J s'.
Proof.
  intros HJ. unfold clause_propagate. destruct (swap_watch p (cls s c)) as [|x0 [|x1 r]] eqn:Es; try discriminate.
  assert (Hr : forall q, In q (x0 :: x1 :: r) -> lvar q < nv s).
  { intros q Hq. apply (j_cls s HJ c). rewrite <- Es in Hq. unfold swap_watch in Hq. destruct (cls s c) as [|a [|b0 t]]; try exact Hq.
    destruct (lvar a =? lvar p); [|exact Hq]. destruct Hq as [<-|[<-|Hq]]; cbn; auto. }
  pose proof (J_set_cls s c (x0 :: x1 :: r) Hr HJ) as H1. set (s1 := set_cls (upd (cls s) c (x0 :: x1 :: r)) s) in *.
  destruct (is_true s x0); [intros E; inversion E; subst; apply J_push_watch, H1|].
  destruct (negb (is_false s x1)); [intros E; inversion E; subst; apply J_push_watch, H1|].
  destruct (find_split _ r) as [[[pre l] post]|] eqn:Ef.
  - intros E; inversion E; subst. apply J_push_watch. apply (J_set_cls s1); [|exact H1]. intros q Hq. apply Hr.
    assert (Er : r = pre ++ l :: post).
    { clear -Ef. revert pre l post Ef. induction r as [|y r IH]; intros pre l post; cbn [find_split]; [discriminate|].
      destruct (negb (is_false s y)); [intros E; inversion E; reflexivity|]. destruct (find_split _ r) as [[[a z] b]|]; [|discriminate].
      intros E; inversion E; subst. cbn. f_equal. apply IH. reflexivity. }
    rewrite Er. cbn in Hq. cbn. rewrite in_app_iff in *. cbn in *. tauto.
  - intros E. injection E as E. eapply J_enqueue; [|apply J_push_watch, H1|exact E]. apply Hr; left; reflexivity.
Qed.
Lemma J_prop_clauses p : forall tmp (s s' : st) o, J s -> prop_clauses s p tmp = Ok (s', o) -> J s'.
Proof.
  induction tmp as [|c r IH]; intros s s' o HJ; cbn [prop_clauses]; [intros E; inversion E; subst; exact HJ|].
  destruct (clause_propagate s c p) as [[s1 b]| |] eqn:E1; cbn [rbind]; try discriminate. pose proof (J_clause_propagate _ _ _ _ _ HJ E1) as H1.
  destruct b; [apply IH, H1|]. intros E; inversion E; subst. jframe.
Qed.
Lemma J_level_top (s : st) p tr : J s -> trail s = p :: tr -> level s (lvar p) = dlevel s -> forall n, In n (trail_lim s) -> n < length (trail s).
Proof.
  intros HJ Et Hl n Hn. rewrite (j_level s HJ [] p tr Et) in Hl. unfold lvl_at, dlevel in Hl. rewrite Et. cbn.
  assert (H : forall (f : nat -> bool) l, length (filter f l) = length l -> forall x, In x l -> f x = true).
  { clear. intros f. induction l as [|a l IH]; cbn; [intros _ x []|]. destruct (f a) eqn:Ef; cbn.
    - intros E x [<-|Hx]; [exact Ef|apply IH; [lia|exact Hx]].
    - intros E. pose proof (filter_len_le f l). lia. }
  specialize (H _ _ Hl n Hn). apply Nat.leb_le in H. lia.
Qed.
Lemma J_an_select fuel : forall (s s' : st) seen pr p pr', dlevel s <> 0 -> J s -> an_select fuel s seen pr = Ok (s', p, pr') -> J s' /\ dlevel s' = dlevel s.
Proof.
  induction fuel as [|f IH]; intros s s' seen pr p pr' Hd HJ; cbn [an_select]; [discriminate|].
  destruct (trail s) as [|x tr] eqn:Et; [discriminate|]. intros E. apply guard_ok in E as [Hl E]. apply Nat.eqb_eq in Hl.
  match type of E with rbind ?m _ = _ => destruct m as [pr1| |]; cbn [rbind] in E; try discriminate end.
  destruct (pop_one s) as [s1| |] eqn:E1; cbn [rbind] in E; try discriminate.
  assert (H1 : J s1). { eapply J_pop_one; [|exact HJ| |exact E1]; [|apply (J_level_top s x tr HJ Et Hl)]. intros q r E2. rewrite Et in E2. inversion E2; subst. lia. }
  assert (Hd1 : dlevel s1 = dlevel s) by (unfold pop_one in E1; rewrite Et in E1; inversion E1; reflexivity).
  destruct (memn (lvar x) seen); [inversion E; subst; auto|]. destruct (IH s1 s' seen pr1 p pr' ltac:(lia) H1 E) as [A B]. split; [exact A|lia].
Qed.
Lemma J_an_loop fuel : forall (s s' : st) a a' pr p, dlevel s <> 0 -> J s -> an_loop fuel s a pr = Ok (s', a', p) -> J s' /\ dlevel s' = dlevel s.
Proof.
  induction fuel as [|f IH]; intros s s' a a' pr p Hd HJ; cbn [an_loop]; [discriminate|].
  destruct (rfold (an_visit s) pr a) as [a1| |]; cbn [rbind]; try discriminate.
  destruct (an_select _ s _ pr) as [[[s1 p1] pr1]| |] eqn:E1; cbn [rbind]; try discriminate.
  destruct (J_an_select _ _ _ _ _ _ _ Hd HJ E1) as [H1 Hd1].
  cbn [an_counter]. destruct (0 <? _)%Z; [|intros E; inversion E; subst; auto]. intros E. destruct (IH s1 s' _ a' pr1 p ltac:(lia) H1 E) as [A B]. split; [exact A|lia].
Qed.
Lemma J_pop_until fuel : forall (s s' : st) n, J s -> (exists tl, trail_lim s = n :: tl) -> length (trail s) <= fuel -> pop_until fuel s n = Ok s' -> 
  J s' /\ trail_lim s' = trail_lim s /\ length (trail s') <= n.
Proof.
  induction fuel as [|f IH]; intros s s' n HJ (tl & Hn) Hf; cbn [pop_until]; [intros E; inversion E; subst; split; [exact HJ|split; [reflexivity|lia]]|].
  destruct (Nat.ltb_spec n (length (trail s))) as [Hlt|Hge]; [|intros E; inversion E; subst; split; [exact HJ|split; [reflexivity|lia]]].
  destruct (pop_one s) as [s1| |] eqn:E1; cbn [rbind]; try discriminate. intros E.
  assert (Hlims : forall m, In m (trail_lim s) -> m <= n).
  { pose proof (j_sort s HJ) as HS. rewrite Hn in HS. inversion HS as [|? ? HS' HF Ex]; subst. rewrite Hn. intros m [<-|Hm]; [lia|].
    rewrite Forall_forall in HF. specialize (HF m Hm). unfold desc in HF. lia. }
  assert (H1 : J s1).
  { eapply J_pop_one; [|exact HJ| |exact E1].
    - intros p r Et. rewrite (j_level s HJ [] p r Et). rewrite Et in Hlt. cbn in Hlt. rewrite Hn. unfold lvl_at. cbn [filter].
      destruct (Nat.leb_spec n (length r)); [cbn; lia|lia].
    - intros m Hm. specialize (Hlims m Hm). lia. }
  assert (Ht1 : trail_lim s1 = trail_lim s /\ S (length (trail s1)) = length (trail s)) by (unfold pop_one in E1; destruct (trail s); inversion E1; auto).
  destruct Ht1 as [Ht1 Hl1]. destruct (IH s1 s' n H1 ltac:(rewrite Ht1; eauto) ltac:(lia) E) as (A & B & D). split; [exact A|split; [congruence|exact D]].
Qed.
Lemma J_pop (s s' : st) : J s -> pop ops s = Ok s' -> J s'.
Proof.
  intros HJ. unfold pop. destruct (trail_lim s) as [|n tl] eqn:El; [discriminate|].
  destruct (pop_until (length (trail s)) s n) as [s1| |] eqn:E1; cbn [rbind]; try discriminate.
  destruct (J_pop_until _ _ _ _ HJ ltac:(eauto) (le_n _) E1) as ([A B D F G H I K L M N O P Q Z W] & Hl & Hle).
  destruct (decisions s1) as [|d ds]; [discriminate|]. intros E; inversion E; subst; clear E. rewrite Hl, El in *.
  inversion P as [|? ? P' PF Ex]; subst. rewrite Forall_forall in PF. constructor; cbn; try assumption.
  - intros pre p post E. rewrite (N pre p post E). unfold lvl_at. cbn [filter]. 
    assert (length post < n) by (rewrite E, app_length in Hle; cbn in Hle; lia).
    destruct (Nat.leb_spec n (length post)); [lia|reflexivity].
  - intros m Hm. apply O. right; exact Hm.
Qed.
Lemma J_pop_to n : forall (s s' : st) lvl, J s -> pop_to ops n s lvl = Ok s' -> J s'.
Proof.
  induction n as [|n IH]; intros s s' lvl HJ; cbn [pop_to]; destruct (lvl <? dlevel s); try discriminate; try (intros E; inversion E; subst; exact HJ).
  destruct (pop ops s) as [s1| |] eqn:E1; cbn [rbind]; try discriminate. apply IH. eapply J_pop; [exact HJ|exact E1].
Qed.
Lemma J_record (s s' : st) ls : J s -> record s ls = Ok s' -> J s'.
Proof.
  intros HJ. unfold Sat.record. destruct ls as [|l0 tl]; [discriminate|]. intros E. apply guard_ok in E as [Hr E]. do 4 apply guard_ok in E as [_ E].
  pose proof (in_range_in s _ l0 Hr (or_introl eq_refl)) as H0.
  destruct tl as [|l1 tl].
  - apply guard_ok in E as [_ E]. destruct (enqueue s l0 None) as [s1 e] eqn:Ee. apply guard_ok in E as [_ E]. inversion E; subst.
    eapply J_enqueue; [exact H0|exact HJ|exact Ee].
  - destruct (new_constr s _) as [[s1 c]| |] eqn:E1; cbn [rbind] in E; try discriminate.
    assert (H1 : J s1). { eapply J_new_constr; [|exact HJ|exact E1]. intros p [<-|Hp]; [exact H0|]. apply (in_range_in s _ p Hr). right. apply srt_in in Hp. exact Hp. }
    assert (Hn1 : nv s1 = nv s) by (unfold new_constr in E1; match type of E1 with match ?l with _ => _ end = _ => destruct l as [|a [|b t]]; try discriminate end; inversion E1; reflexivity).
    destruct (enqueue s1 l0 (Some c)) as [s2 e] eqn:Ee. apply guard_ok in E as [_ E]. inversion E; subst.
    assert (H2 : J s2) by (eapply J_enqueue; [|exact H1|exact Ee]; lia). jframe.
Qed.
Lemma J_resolve (s s' : st) ls : dlevel s <> 0 -> J s -> resolve ops s ls = Ok s' -> J s'.
Proof.
  intros Hd HJ. unfold resolve, analyze. destruct (get_reason_all s ls) as [pr| |]; cbn [rbind]; try discriminate.
  destruct (an_loop _ s _ pr) as [[[s1 a] p]| |] eqn:E1; cbn [rbind]; try discriminate. destruct (J_an_loop _ _ _ _ _ _ _ Hd HJ E1) as [H1 _].
  destruct (is_undef s1 p); cbn [guard rbind]; [|discriminate]. destruct (forallb _ _); cbn [guard rbind]; [|discriminate].
  unfold backjump. destruct (pop_to ops _ s1 _) as [s2| |] eqn:E2; cbn [rbind]; try discriminate. apply J_record. eapply J_pop_to; [exact H1|exact E2].
Qed.
Lemma J_records : forall lm (s s' : st), J s -> rfold record lm s = Ok s' -> J s'.
Proof.
  induction lm as [|c r IH]; intros s s' HJ; cbn [rfold]; [intros E; inversion E; subst; exact HJ|].
  destruct (record s c) as [s1| |] eqn:E1; cbn [rbind]; try discriminate. apply IH. eapply J_record; [exact HJ|exact E1].
Qed.
Lemma J_th_prop_all p : forall is (s s' : st) o, J s -> th_prop_all ops s is p = Ok (s', o) -> J s'.
Proof.
  induction is as [|i r IH]; intros s s' o HJ; cbn [th_prop_all]; [intros E; inversion E; subst; exact HJ|].
  unfold th_prop_at. destruct (nth_error (theories s) i) as [t|]; cbn [rbind]; [|discriminate].
  destruct (th_prop ops t (value s) p) as [[[t1 lm] cf]| |]; cbn [rbind]; try discriminate.
  destruct (rfold record lm _) as [s1| |] eqn:E1; cbn [rbind]; try discriminate.
  assert (H1 : J s1). { eapply J_records; [|exact E1]. jframe. }
  destruct cf; [intros E; inversion E; subst; exact H1|apply IH, H1].
Qed.
Lemma J_th_check_all n : forall (s s' : st) i o, J s -> th_check_all ops s n i = Ok (s', o) -> J s'.
Proof.
  induction n as [|n IH]; intros s s' i o HJ; cbn [th_check_all]; [intros E; inversion E; subst; exact HJ|].
  destruct (nth_error (theories s) i) as [t|]; [|intros E; inversion E; subst; exact HJ].
  destruct (th_check ops t (value s)) as [[t1 cf]| |]; cbn [rbind]; try discriminate.
  assert (H1 : J (set_theories (set_nth (theories s) i t1) s)) by jframe.
  destruct cf; [intros E; inversion E; subst; exact H1|apply IH, H1].
Qed.
Lemma root_dl (s : st) : root_level s = false -> dlevel s <> 0.
Proof. unfold root_level, dlevel. destruct (trail_lim s); [discriminate|cbn; lia]. Qed.
Lemma J_propagate fuel : forall (s s' : st) b, J s -> propagate ops fuel s = Ok (s', b) -> J s'.
Proof.
  induction fuel as [|f IH]; intros s s' b HJ; cbn [propagate]; [discriminate|].
  destruct (prop_q s) as [|p q].
  - destruct (th_check_all ops s _ 0) as [[s1 o]| |] eqn:E1; cbn [rbind]; try discriminate. pose proof (J_th_check_all _ _ _ _ _ HJ E1) as H1.
    destruct o as [c|]; [|intros E; inversion E; subst; exact H1]. destruct (root_level s1) eqn:Er; [intros E; inversion E; subst; exact H1|].
    unfold theory_resolve. destruct (2 <=? length c); cbn [guard rbind]; [|discriminate]. destruct (in_range s1 c); cbn [guard rbind]; [|discriminate].
    destruct (resolve ops s1 c) as [s2| |] eqn:E2; cbn [rbind]; try discriminate. apply IH. eapply J_resolve; [apply root_dl, Er|exact H1|exact E2].
  - set (s0 := set_watches (updl (watches s) p []) (set_prop_q q s)). assert (H0 : J s0) by jframe.
    destruct (prop_clauses s0 p (watches s p)) as [[s2 cf]| |] eqn:E1; cbn [rbind]; try discriminate. pose proof (J_prop_clauses _ _ _ _ _ H0 E1) as H2.
    destruct cf as [c|].
    + set (s3 := set_prop_q [] s2). assert (H3 : J s3) by jframe. destruct (root_level s3) eqn:Er; [intros E; inversion E; subst; exact H3|].
      destruct (resolve ops s3 (cls s3 c)) as [s4| |] eqn:E2; cbn [rbind]; try discriminate. apply IH. eapply J_resolve; [apply root_dl, Er|exact H3|exact E2].
    + destruct (th_prop_all ops s2 _ p) as [[s3 tcf]| |] eqn:E3; cbn [rbind]; try discriminate. pose proof (J_th_prop_all _ _ _ _ _ H2 E3) as H3.
      destruct tcf as [c|].
      * set (s4 := set_prop_q [] s3). assert (H4 : J s4) by jframe. destruct (root_level s4) eqn:Er; [intros E; inversion E; subst; exact H4|].
        unfold theory_resolve. destruct (2 <=? length c); cbn [guard rbind]; [|discriminate]. destruct (in_range s4 c); cbn [guard rbind]; [|discriminate].
        destruct (resolve ops s4 c) as [s5| |] eqn:E5; cbn [rbind]; try discriminate. apply IH. eapply J_resolve; [apply root_dl, Er|exact H4|exact E5].
      * apply IH. destruct (root_level s3); [jframe|exact H3].
Qed.
Lemma J_push (s : st) p : J s -> J (mk_st (nv s) (cls s) (ncid s) (constrs s) (watches s) (assigns s) (level s) (reason s)
               (prop_q s) (trail s) (length (trail s) :: trail_lim s) (p :: decisions s) (exprs s)
               (map (th_push ops) (theories s)) (bounds s) (listening s) (log s)).
Proof.
  intros [A B D F G H I K L M N O P Q Z W]. constructor; cbn; try assumption.
  - intros pre q post E. rewrite (N pre q post E). unfold lvl_at. cbn [filter].
    assert (length post < length (trail s)) by (rewrite E, app_length; cbn; lia). destruct (Nat.leb_spec (length (trail s)) (length post)); [lia|reflexivity].
  - intros n [<-|Hn]; [lia|apply O, Hn].
  - constructor; [exact P|]. apply Forall_forall. intros n Hn. unfold desc. apply O, Hn.
Qed.
Lemma J_assume fuel (s s' : st) p b : J s -> assume ops fuel s p = Ok (s', b) -> J s'.
Proof.
  intros HJ. unfold assume. intros E. apply guard_ok in E as [_ E]. apply guard_ok in E as [Hr E].
  pose proof (J_push s p HJ) as H1. match type of E with (let (_, _) := enqueue ?x _ _ in _) = _ => set (s1 := x) in * end.
  destruct (enqueue s1 p None) as [s2 e] eqn:E2. assert (H2 : J s2).
  { eapply J_enqueue; [|exact H1|exact E2]. apply (in_range_in s _ p Hr). left; reflexivity. }
  destruct e; [eapply J_propagate; [exact H2|exact E]|inversion E; subst; exact H2].
Qed.
Lemma J_next fuel (s s' : st) b : J s -> next ops fuel s = Ok (s', b) -> J s'.
Proof.
  intros HJ. unfold next. destruct (root_level s); [intros E; inversion E; subst; exact HJ|].
  destruct (pop ops s) as [s1| |] eqn:E1; cbn [rbind]; try discriminate. pose proof (J_pop _ _ HJ E1) as H1.
  destruct (map negl (decisions s)) as [|p r]; [discriminate|]. intros E. apply guard_ok in E as [_ E].
  destruct (record s1 (p :: r)) as [s2| |] eqn:E2; cbn [rbind] in E; try discriminate. eapply J_propagate; [|exact E]. eapply J_record; [exact H1|exact E2].
Qed.
Lemma J_check_loop fuel rl : forall ls (s s' : st) b, J s -> check_loop ops fuel s rl ls = Ok (s', b) -> J s'.
Proof.
  induction ls as [|p r IH]; intros s s' b HJ; cbn [check_loop]; [intros E; inversion E; subst; exact HJ|].
  destruct (assume ops fuel s p) as [[s1 b1]| |] eqn:E1; cbn [rbind]; try discriminate. pose proof (J_assume _ _ _ _ _ HJ E1) as H1.
  destruct b1.
  - destruct (propagate ops fuel s1) as [[s2 b2]| |] eqn:E2; cbn [rbind]; try discriminate. pose proof (J_propagate _ _ _ _ H1 E2) as H2.
    destruct (_ || _); [intros E; inversion E; subst; exact H2|apply IH, H2].
  - cbn [rbind negb orb]. intros E; inversion E; subst; exact H1.
Qed.
Lemma J_check fuel (s s' : st) ls b : J s -> check ops fuel s ls = Ok (s', b) -> J s'.
Proof.
  intros HJ. unfold check. destruct (check_loop ops fuel s _ ls) as [[s1 b1]| |] eqn:E1; cbn [rbind]; try discriminate. pose proof (J_check_loop _ _ _ _ _ _ HJ E1) as H1.
  destruct b1; [intros E; apply guard_ok in E as [_ E]|intros E]; destruct (backjump ops s1 _) as [s2| |] eqn:E2; cbn [rbind] in E; try discriminate; inversion E; subst; eapply J_pop_to; [exact H1|exact E2|exact H1|exact E2].
Qed.
Lemma J_simp_loop n : forall (s s' : st) kept mid out k o, J s -> simp_loop n s kept mid out = (s', k, o) -> J s'.
Proof.
  induction n as [|n IH]; intros s s' kept mid out k o HJ; cbn [simp_loop]; [intros E; inversion E; subst; exact HJ|].
  destruct mid as [|c r]; [intros E; inversion E; subst; exact HJ|].
  assert (H1 : J (fst (clause_simplify s c))).
  { assert (Hb : forall q ls, In q (filter (is_undef s) (before_true s ls)) -> In q ls).
    { intros q ls Hq. apply filter_In in Hq as [Hq _]. induction ls as [|x t IHl]; cbn [before_true] in Hq; [destruct Hq|]. destruct (is_true s x); [destruct Hq|]. destruct Hq as [<-|Hq]; [left; reflexivity|right; apply IHl, Hq]. }
    unfold clause_simplify. destruct (existsb _ _); cbn [fst]; apply J_set_cls; try exact HJ; intros q Hq; apply (j_cls s HJ c).
    - apply in_app_iff in Hq as [Hq|Hq]; [apply Hb, Hq|]. rewrite <- (firstn_skipn (length (filter (is_undef s) (before_true s (cls s c)))) (cls s c)). apply in_or_app. right. exact Hq.
    - apply Hb, Hq. }
  destruct (clause_simplify s c) as [s1 b]. cbn [fst] in H1. destruct b; [destruct r|]; apply IH; exact H1.
Qed.
Lemma J_simplify fuel (s s' : st) b : J s -> simplify_db ops fuel s = Ok (s', b) -> J s'.
Proof.
  intros HJ. unfold simplify_db. intros E. apply guard_ok in E as [_ E].
  destruct (propagate ops fuel s) as [[s1 b1]| |] eqn:E1; cbn [rbind] in E; try discriminate. pose proof (J_propagate _ _ _ _ HJ E1) as H1.
  destruct b1; [|inversion E; subst; exact H1]. destruct (simp_loop _ s1 [] _ []) as [[s2 k] o] eqn:E2. pose proof (J_simp_loop _ _ _ _ _ _ _ _ H1 E2) as H2.
  assert (Hd : forall out (x x' : st), J x -> rfold destroy out x = Ok x' -> J x').
  { clear. induction out as [|c r IH]; intros x x' HJ; cbn [rfold]; [intros E; inversion E; subst; exact HJ|].
    unfold destroy at 1. destruct (cls x c) as [|l0 [|l1 t]] eqn:Ec; cbn [rbind]; try discriminate. destruct (remove_first c _); cbn [rbind]; [|discriminate].
    destruct (remove_first c _); cbn [rbind]; [|discriminate]. apply IH. jframe. }
  destruct (rfold destroy o _) as [s3| |] eqn:E3; cbn [rbind] in E; try discriminate. inversion E; subst. eapply Hd; [|exact E3]. jframe.
Qed.

(** Every call but the registration of a listener. *)
Theorem J_step fuel (s s' : st) c r : (forall v l, c <> CListen v l) -> J s -> step (ops := ops) fuel s c = Ok (s', r) -> J s'.
Proof.
  intros Hc HJ. destruct c; cbn [step]; intros E.
  - destruct (new_var s) as [s1 v] eqn:E1. inversion E; subst. pose proof (J_new_var s HJ) as H1. rewrite E1 in H1. exact H1.
  - destruct (new_clause s ls) as [[s1 x]| |] eqn:E1; cbn [rbind] in E; inversion E; subst. eapply J_new_clause; eassumption.
  - destruct (propagate ops fuel s) as [[s1 x]| |] eqn:E1; cbn [rbind] in E; inversion E; subst. eapply J_propagate; eassumption.
  - destruct (assume ops fuel s p) as [[s1 x]| |] eqn:E1; cbn [rbind] in E; inversion E; subst. eapply J_assume; eassumption.
  - destruct (pop ops s) as [s1| |] eqn:E1; cbn [rbind] in E; inversion E; subst. eapply J_pop; eassumption.
  - destruct (check ops fuel s ls) as [[s1 x]| |] eqn:E1; cbn [rbind] in E; inversion E; subst. eapply J_check; eassumption.
  - destruct (next ops fuel s) as [[s1 x]| |] eqn:E1; cbn [rbind] in E; inversion E; subst. eapply J_next; eassumption.
  - destruct (simplify_db ops fuel s) as [[s1 x]| |] eqn:E1; cbn [rbind] in E; inversion E; subst. eapply J_simplify; eassumption.
  - destruct (new_eq s l r0) as [[s1 x]| |] eqn:E1; cbn [rbind] in E; inversion E; subst. eapply J_new_eq; eassumption.
  - destruct (new_conj s ls) as [[s1 x]| |] eqn:E1; cbn [rbind] in E; inversion E; subst. eapply J_new_conj; eassumption.
  - destruct (new_disj s ls) as [[s1 x]| |] eqn:E1; cbn [rbind] in E; inversion E; subst. eapply J_new_disj; eassumption.
  - destruct (new_at_most_one s ls) as [[s1 x]| |] eqn:E1; cbn [rbind] in E; inversion E; subst. eapply J_amo; eassumption.
  - destruct (new_exct_one s ls) as [[s1 x]| |] eqn:E1; cbn [rbind] in E; inversion E; subst. eapply J_exct; eassumption.
  - exfalso. eapply Hc. reflexivity.
Qed.
End Listen.

Section Hist.
Context {T : Type} {ops : theory_ops T}.
Notation st := (st T).

(** Registering a listener. *)
Lemma J_listen R L0 Dr A0 (s s' : st) v l : ~ Dr l v -> J R L0 Dr A0 s -> listen s v l = Ok s' ->
  J (fun k x => R k x \/ (k = l /\ x = v /\ assigns s v = LUndef)) L0 Dr A0 s'.
Proof.
  intros HD HJ. unfold listen. intros E. apply guard_ok in E as [Hv E]. apply Nat.ltb_lt in Hv.
  assert (Eu : is_undef s (mk_lit v true) = lbool_eqb (assigns s v) LUndef) by (unfold is_undef, value, vlit; cbn; destruct (assigns s v); reflexivity).
  rewrite Eu in E. destruct (lbool_eqb_spec (assigns s v) LUndef) as [Hu|Hu].
  - destruct (memn_spec l (listening s v)) as [Hi|Hi].
    + inversion E; subst. destruct HJ as [A B D F G H I K L M N O P Q Z W].
      assert (HR : R l v) by (destruct (A _ _ Hi); [assumption|contradiction]).
      constructor; try assumption.
      * intros k x Hk. destruct (A k x Hk); auto.
      * intros k x [Hr|(-> & -> & _)]; auto.
      * intros k x [Hr|(-> & -> & _)]; auto.
      * intros k x [Hr|(-> & -> & _)]; auto.
      * intros k x b Hk. destruct (H k x b Hk); auto.
      * intros k x [Hr|(-> & -> & _)]; eauto.
    + inversion E; subst; clear E. destruct HJ as [A B D F G H I K L M N O P Q Z W].
      assert (HR : ~ R l v) by (intros Hr; destruct (D l v Hr) as [X|[X _]]; contradiction).
      assert (Hno : notified (log s) l v = []).
      { unfold notified. destruct (filter _ (log s)) as [|e r] eqn:E; [reflexivity|]. exfalso. assert (He : In e (e :: r)) by (left; reflexivity).
        rewrite <- E in He. apply filter_In in He as [He Hb]. destruct e as [[a b] d]. cbn in Hb. apply andb_true_iff in Hb as [B1 B2].
        apply Nat.eqb_eq in B1. apply Nat.eqb_eq in B2. subst. destruct (H _ _ _ He); contradiction. }
      constructor; cbn -[notified last_told]; try assumption.
      * intros k x. unfold upd. destruct (Nat.eqb_spec x v) as [->|Hn]; [|intros Hk; destruct (A k x Hk); auto]. rewrite in_app_iff. intros [Hk|[<-|[]]]; [destruct (A k v Hk); auto|auto].
      * intros k x [Hr|(-> & -> & _)]; [auto|]. unfold last_told. rewrite Hno. symmetry. exact Hu.
      * intros k x Hr. unfold upd. destruct (Nat.eqb_spec x v) as [->|Hn].
        -- left. apply in_or_app. destruct Hr as [Hr|(-> & _)]; [left; destruct (D k v Hr) as [X|[X _]]; [exact X|contradiction]|right; left; reflexivity].
        -- destruct Hr as [Hr|(_ & X & _)]; [apply D, Hr|contradiction].
      * intros k x [Hr|(-> & -> & _)]; [auto|]. rewrite Hno. exact Logic.I.
      * intros x. unfold upd. destruct (Nat.eqb_spec x v) as [->|_]; [|apply G].
        specialize (G v). clear -G Hi. induction (listening s v) as [|a r IH]; cbn; [constructor; [intros []|constructor]|].
        inversion G as [|? ? G1 G2]; subst. constructor; [rewrite in_app_iff; intros [X|[X|[]]]; [exact (G1 X)|subst; apply Hi; left; reflexivity]|apply IH; [exact G2|intros X; apply Hi; right; exact X]].
      * intros k x b Hk. destruct (H k x b Hk); auto.
      * intros k x [Hr|(-> & -> & _)]; eauto.
  - inversion E; subst. destruct HJ as [A B D F G H I K L M N O P Q Z W]. constructor; try assumption.
    + intros k x Hk. destruct (A k x Hk); auto.
    + intros k x [Hr|(_ & _ & X)]; [auto|contradiction].
    + intros k x [Hr|(_ & _ & X)]; [auto|contradiction].
    + intros k x [Hr|(_ & _ & X)]; [auto|contradiction].
    + intros k x b Hk. destruct (H k x b Hk); auto.
    + intros k x [Hr|(_ & _ & X)]; [eauto|contradiction].
Qed.
(** Registering again what was registered in a dropped core: nothing is claimed about it. *)
Lemma J_listen_again R L0 (Dr : nat -> nat -> Prop) A0 (s s' : st) v l : Dr l v -> J R L0 Dr A0 s -> listen s v l = Ok s' -> J R L0 Dr A0 s'.
Proof.
  intros HD HJ. unfold listen. intros E. apply guard_ok in E as [Hv E].
  destruct (is_undef s (mk_lit v true)); [|inversion E; subst; exact HJ].
  destruct (memn_spec l (listening s v)) as [Hi|Hi]; inversion E; subst; clear E; [exact HJ|]. destruct HJ as [A B D F G H I K L M N O P Q Z W].
  constructor; cbn; try assumption.
  - intros k x. unfold upd. destruct (Nat.eqb_spec x v) as [->|Hn]; [|apply A]. rewrite in_app_iff. intros [Hk|[<-|[]]]; [apply A, Hk|auto].
  - intros k x Hr. unfold upd. destruct (Nat.eqb_spec x v) as [->|Hn]; [|apply D, Hr]. destruct (D k v Hr) as [X|X]; [left; apply in_or_app; auto|auto].
  - intros x. unfold upd. destruct (Nat.eqb_spec x v) as [->|_]; [|apply G].
    specialize (G v). clear -G Hi. induction (listening s v) as [|a r IH]; cbn; [constructor; [intros []|constructor]|].
    inversion G as [|? ? G1 G2]; subst. constructor; [rewrite in_app_iff; intros [X|[X|[]]]; [exact (G1 X)|subst; apply Hi; left; reflexivity]|apply IH; [exact G2|intros X; apply Hi; right; exact X]].
Qed.

(** Histories with the registrations made on a variable that was unassigned at that time. *)
Inductive LHist (s0 : st) : list (nat * nat) -> st -> Prop :=
| LH_init : LHist s0 [] s0
| LH_call fuel rg s c s' r : LHist s0 rg s -> (forall v l, c <> CListen v l) -> step (ops := ops) fuel s c = Ok (s', r) -> LHist s0 rg s'
| LH_listen rg s v l s' : LHist s0 rg s -> listen s v l = Ok s' -> assigns s v = LUndef -> LHist s0 ((l, v) :: rg) s'
| LH_late rg s v l s' : LHist s0 rg s -> listen s v l = Ok s' -> assigns s v <> LUndef -> LHist s0 rg s'.

Lemma J_ext R R' L0 Dr A0 (s : st) : (forall l v, R l v <-> R' l v) -> J R L0 Dr A0 s -> J R' L0 Dr A0 s.
Proof.
  intros HR [A B D F G H I K L M N O P Q Z W]. constructor; try assumption.
  - intros l v Hl. rewrite <- HR. apply A, Hl.
  - intros l v Hr. apply B, HR, Hr.
  - intros l v Hr. apply D, HR, Hr.
  - intros l v Hr. apply F, HR, Hr.
  - intros l v b Hl. rewrite <- HR. apply (H l v b), Hl.
  - intros l v Hr. apply (I l v), HR, Hr.
Qed.
Definition none : nat -> nat -> Prop := fun _ _ => False.
Lemma J_init (ths : list T) : J none [] none (assigns (init ths)) (init ths).
Proof.
  constructor; cbn; try (intros; unfold none in *; tauto).
  - intros v. constructor.
  - intros v Hv. unfold upd. destruct v; [lia|auto].
  - constructor.
  - intros pre p post E. destruct pre; discriminate.
  - constructor.
  - exists []. reflexivity.
Qed.
Theorem lhist_J ths rg (s : st) : LHist (init ths) rg s -> J (fun l v => In (l, v) rg) [] none (assigns (init ths)) s.
Proof.
  induction 1 as [|fuel rg s c s' r H IH Hc E|rg s v l s' H IH E Hu|rg s v l s' H IH E Hu].
  - eapply J_ext; [|apply J_init]. intros; cbn; tauto.
  - eapply J_step; eassumption.
  - eapply J_ext; [|eapply J_listen; [|exact IH|exact E]; intros []]. intros k x. cbn. split; [intros [X|(-> & -> & _)]; auto|intros [X|X]; [inversion X; subst; auto|auto]].
  - eapply J_ext; [|eapply J_listen; [|exact IH|exact E]; intros []]. intros k x. cbn. split; [intros [X|(_ & _ & X)]; [auto|contradiction]|auto].
Qed.
Lemma notified_none lg l v : (forall b, ~ In (l, v, b) lg) -> notified lg l v = [].
Proof.
  intros H. unfold notified. destruct (filter _ lg) as [|e r] eqn:E; [reflexivity|]. exfalso. assert (He : In e (e :: r)) by (left; reflexivity).
  rewrite <- E in He. apply filter_In in He as [He Hb]. destruct e as [[a b] d]. cbn in Hb. apply andb_true_iff in Hb as [B1 B2].
  apply Nat.eqb_eq in B1. apply Nat.eqb_eq in B2. subst. apply (H _ He).
Qed.
(** What a client may rely on. *)
Theorem listen_ok ths rg (s : st) : LHist (init ths) rg s ->
  (forall l v, In (l, v) rg -> last_told (log s) l v = assigns s v) /\
  (forall l v, alternate (notified (log s) l v)) /\
  (forall l v b, In (l, v, b) (log s) -> In (l, v) rg).
Proof.
  intros H. destruct (lhist_J _ _ _ H) as [A B D F G Hs I K L M N O P Q Z W]. split; [exact B|].
  assert (Hs' : forall l v b, In (l, v, b) (log s) -> In (l, v) rg) by (intros l v b Hi; destruct (Hs l v b Hi) as [X|[]]; exact X).
  split; [|exact Hs']. intros l v. destruct (in_dec (fun a b : nat * nat => ltac:(decide equality; apply Nat.eq_dec)) (l, v) rg) as [Hi|Hn]; [apply F, Hi|].
  rewrite notified_none; [exact Logic.I|]. intros b Hb. apply Hn, (Hs' l v b), Hb.
Qed.
End Hist.
