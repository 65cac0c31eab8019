(** Listeners of object variables (src/ov/ov_theory.cpp:126-134, include/ov/ov_value_listener.h). *)
From Verif Require Import Base Keys Sat SatSpec SatInv SatPop SatImp SatRec SatAn SatProp SatLoop SatMain SatApi SatApi2 SatNext SatSimp Reify Amo Run SatFacts Listen ThGrow ThRel ThSum Ov OvInv OvEq OvRun.
Local Arguments Nat.ltb : simpl never.
Local Arguments Nat.eqb : simpl never.
Section Srt.
Context {sr : sorter}.

(** Between two moments, a change of value of a variable is notified to its listeners. *)
Lemma J_news {T} R R' A0 A0' (s1 s2 : st T) l v : J R [] none A0 s1 -> J R' (log s1) none A0' s2 -> R l v -> R' l v -> assigns s1 v <> assigns s2 v ->
  exists new b, log s2 = new ++ log s1 /\ In (l, v, b) new.
Proof.
  intros J1 J2 H1 H2 Hn. destruct (j_log _ _ _ _ _ J2) as (new & E). exists new. pose proof (j_val _ _ _ _ _ J1 l v H1) as V1. pose proof (j_val _ _ _ _ _ J2 l v H2) as V2.
  unfold last_told in *. rewrite E, notified_app in V2. destruct (notified new l v) as [|b r] eqn:En; [cbn in V2; congruence|].
  exists b. split; [exact E|]. assert (Hb : In b (notified new l v)) by (rewrite En; left; reflexivity). unfold notified in Hb. apply in_map_iff in Hb as ([[a w] x] & <- & Hf). apply filter_In in Hf as [Hf Hc]. cbn in Hc.
  apply andb_prop in Hc as [C1 C2]. apply Nat.eqb_eq in C1, C2. subst. exact Hf.
Qed.

Section OvLis.
Context (om : list (nat * lit) -> list (nat * lit)) (oi : list nat -> list nat) (Hom : forall m, Permutation m (om m)) (Hoi : forall l, Permutation l (oi l)).
(** ** The notifications of the core. *)
Lemma J_put R L0 Dr A0 (s : ost) i o : J R L0 Dr A0 s -> J R L0 Dr A0 (ov_put s i o).
Proof. apply J_frame; reflexivity. Qed.
Lemma J_bind R L0 Dr A0 (s : ost) v i : J R L0 Dr A0 s -> J R L0 Dr A0 (bind s v i).
Proof. unfold bind. destruct (memn i (bounds s v)); [auto|]. apply J_frame; reflexivity. Qed.
Lemma J_items R L0 Dr A0 xs : forall (s : ost) i o id m s' o' m', J R L0 Dr A0 s -> ov_items s i o id xs m = (s', o', m') -> J R L0 Dr A0 s'.
Proof.
  induction xs as [|x xs IH]; intros s i o id m s' o' m' HJ E; cbn [ov_items] in E; [congruence|]. unfold ov_item in E.
  pose proof (J_new_var R L0 Dr A0 s HJ) as H1. destruct (new_var s) as [s1 v]. cbn [fst] in H1. refine (IH _ _ _ _ _ _ _ _ _ E). apply J_put, J_bind, H1.
Qed.
Lemma J_ov_new_var R L0 Dr A0 (s : ost) i items e s' x : J R L0 Dr A0 s -> ov_new_var s i items e = Ok (s', x) -> J R L0 Dr A0 s'.
Proof.
  intros HJ E. unfold ov_new_var, ov_th in E. destruct (nth_error (theories s) i) as [[o|[]]|]; try discriminate E.
  destruct items as [|x1 [|x2 xs]]; [discriminate E|injection E as <- _; apply J_put, HJ|].
  destruct (ov_items s i o (length (odom o)) (x1 :: x2 :: xs) []) as [[s1 o1] m] eqn:Ei. pose proof (J_items R L0 Dr A0 _ _ _ _ _ _ _ _ _ HJ Ei) as H1.
  destruct e; [|injection E as <- _; apply J_put, H1]. destruct (alooks m (x1 :: x2 :: xs)) as [lits|]; [|discriminate E].
  destruct (new_exct_one s1 lits) as [[s2 p]| |] eqn:E2; cbn [rbind] in E; try discriminate E. pose proof (J_exct R L0 Dr A0 _ _ _ _ H1 E2) as H2.
  destruct (new_clause s2 [p]) as [[s3 b]| |] eqn:E3; cbn [rbind] in E; try discriminate E. pose proof (J_new_clause R L0 Dr A0 _ _ _ _ H2 E3) as H3.
  apply guard_ok in E as [_ E]. injection E as <- _. apply J_put, H3.
Qed.
Lemma J_ov_lits R L0 Dr A0 (s : ost) i ls vals s' x : J R L0 Dr A0 s -> ov_new_var_lits s i ls vals = Ok (s', x) -> J R L0 Dr A0 s'.
Proof.
  intros HJ E. unfold ov_new_var_lits, ov_th in E. destruct (nth_error (theories s) i) as [[o|[]]|]; try discriminate E. apply guard_ok in E as [_ E]. injection E as <- _. apply J_put, HJ.
Qed.
Lemma J_ov_eq_lt R L0 Dr A0 (s : ost) i l r s' p : J R L0 Dr A0 s -> ov_new_eq_lt om oi s i l r = Ok (s', p) -> J R L0 Dr A0 s'.
Proof.
  intros HJ E. unfold ov_new_eq_lt, ov_th in E. destruct (nth_error (theories s) i) as [[o|[]]|]; try discriminate E. destruct (elook (l, r) (oexp o)) as [q|]; [injection E as <- _; exact HJ|].
  destruct (nth_error (odom o) l) as [dl|]; [|discriminate E]. destruct (nth_error (odom o) r) as [dr|]; [|discriminate E]. cbv zeta in E.
  destruct (filter _ _) as [|y ys] in E; [injection E as <- _; exact HJ|]. pose proof (J_new_var R L0 Dr A0 s HJ) as H1. destruct (new_var s) as [s1 v]. cbn [fst] in H1.
  destruct (new_clauses s1 _) as [[s2 b]| |] eqn:E2; cbn [rbind] in E; try discriminate E. pose proof (J_new_clauses R L0 Dr A0 _ _ _ _ H1 E2) as H2.
  apply guard_ok in E as [_ E]. injection E as <- _. apply J_put, H2.
Qed.
Lemma J_ocstep R L0 Dr A0 fl (s s' : ost) c r : (forall v l, c <> OSat (CListen v l)) -> J R L0 Dr A0 s -> ocstep om oi fl s c = Ok (s', r) -> J R L0 Dr A0 s'.
Proof.
  intros Hc HJ E. destruct c as [c|items e|ls vals|a b]; cbn [ocstep] in E.
  - destruct (step fl s c) as [[s1 r1]| |] eqn:E1; cbn [rbind] in E; try discriminate E. injection E as <- _. eapply J_step; [|exact HJ|exact E1]. intros v l ->. apply (Hc v l). reflexivity.
  - destruct (ov_new_var s 0 items e) as [[s1 x]| |] eqn:E1; cbn [rbind] in E; try discriminate E. injection E as <- _. eapply J_ov_new_var; eassumption.
  - destruct (ov_new_var_lits s 0 ls vals) as [[s1 x]| |] eqn:E1; cbn [rbind] in E; try discriminate E. injection E as <- _. eapply J_ov_lits; eassumption.
  - destruct (ov_new_eq om oi s 0 a b) as [[s1 p]| |] eqn:E1; cbn [rbind] in E; try discriminate E. injection E as <- _. unfold ov_new_eq in E1.
    destruct (Nat.eqb a b); [injection E1 as <- _; exact HJ|]. destruct (Nat.ltb b a); eapply J_ov_eq_lt; eassumption.
Qed.
Lemma J_ov_listens R L0 A0 l : forall es (s s' : ost), J R L0 none A0 s -> rfold (fun s e => listen s (lvar (snd e)) l) es s = Ok s' ->
  J (fun k x => R k x \/ (k = l /\ assigns s x = LUndef /\ exists e : nat * lit, In e es /\ x = lvar (snd e))) L0 none A0 s' /\ theories s' = theories s /\ assigns s' = assigns s.
Proof.
  intros es. revert R. induction es as [|e es IH]; intros R s s' HJ E; cbn [rfold] in E.
  - injection E as <-. split; [|auto]. eapply J_ext; [|exact HJ]. intros k x. split; [auto|]. intros [H|(_ & _ & e & [] & _)]; exact H.
  - destruct (listen s (lvar (snd e)) l) as [s1| |] eqn:E1; cbn [rbind] in E; try discriminate E. pose proof (J_listen R L0 none A0 s s1 _ l (fun H => H) HJ E1) as H1.
    assert (F1 : theories s1 = theories s /\ assigns s1 = assigns s).
    { unfold listen in E1. apply guard_ok in E1 as [_ E1]. destruct (is_undef s _); [|injection E1 as <-; auto]. destruct (memn l _); injection E1 as <-; auto. }
    destruct (IH _ s1 s' H1 E) as (H2 & T2 & A2). destruct F1 as [F1 F2]. split; [|split; congruence]. rewrite F2 in H2. eapply J_ext; [|exact H2]. intros k x. split.
    + intros [[H|(-> & -> & H)]|(-> & H & e' & He & ->)]; [auto|right; split; [reflexivity|split; [exact H|exists e; split; [left; reflexivity|reflexivity]]]|right; split; [reflexivity|split; [exact H|exists e'; split; [right; exact He|reflexivity]]]].
    + intros [H|(-> & H & e' & [<-|He] & ->)]; [auto|left; right; auto|right; split; [reflexivity|split; [exact H|eauto]]].
Qed.

(** ** Histories with registrations: [rg] holds the pairs (listener, Boolean variable) registered while the variable was unassigned. *)
Definition regs (s : ost) (o : ovs) (v l : nat) : list (nat * nat) :=
  match nth_error (odom o) v with
  | None => []
  | Some m => if Nat.ltb 1 (length (filter (fun e => negb (is_false s (snd e))) m)) then map (fun e => (l, lvar (snd e))) (filter (fun e => is_undef s (snd e)) m) else []
  end.
Inductive OHist : list (nat * nat) -> ost -> list (nat * nat) -> ost -> Prop :=
| OH_refl rg s : OHist rg s rg s
| OH_call fl rg0 s0 rg s c s' r : OHist rg0 s0 rg s -> (forall v l, c <> OSat (CListen v l)) -> olegal s c -> ocstep om oi fl s c = Ok (s', r) -> oalive s' r -> OHist rg0 s0 rg s'
| OH_listen rg0 s0 rg s v l o s' : OHist rg0 s0 rg s -> theories s = [inl o] -> ov_listen om s o v l = Ok s' -> OHist rg0 s0 (regs s o v l ++ rg) s'.
Lemma ohist_mono rg0 s0 rg s : OHist rg0 s0 rg s -> forall x, In x rg0 -> In x rg.
Proof. induction 1 as [|fl rg0 s0 rg s c s' r H IH Hc HL E HA|rg0 s0 rg s v l o s' H IH Et E]; intros x Hx; [exact Hx|apply IH, Hx|apply in_or_app; right; apply IH, Hx]. Qed.
Lemma ohist_trans rg0 s0 rg1 s1 rg2 s2 : OHist rg0 s0 rg1 s1 -> OHist rg1 s1 rg2 s2 -> OHist rg0 s0 rg2 s2.
Proof. intros H1 H2. revert H1. induction H2; intros K; [exact K|eapply OH_call; eauto|eapply OH_listen; eauto]. Qed.
Lemma ohist_J L0 A0 rg0 s0 rg s : OHist rg0 s0 rg s -> J (fun l v => In (l, v) rg0) L0 none A0 s0 -> J (fun l v => In (l, v) rg) L0 none A0 s.
Proof.
  induction 1 as [|fl rg0 s0 rg s c s' r H IH Hc HL E HA|rg0 s0 rg s v l o s' H IH Et E]; intros HJ; [exact HJ|eapply J_ocstep; eauto|]. specialize (IH HJ). unfold ov_listen in E. unfold regs.
  destruct (nth_error (odom o) v) as [m|]; [|discriminate E]. destruct (Nat.ltb 1 _); [|injection E as <-; exact IH].
  destruct (J_ov_listens _ L0 A0 l _ s s' IH E) as (HJ' & _). eapply J_ext; [|exact HJ']. intros k x. rewrite in_app_iff, in_map_iff. cbv beta.
  assert (Eu : forall p, is_undef s p = true <-> assigns s (lvar p) = LUndef).
  { intros p. unfold is_undef. rewrite <- value_undef. destruct (value s p); cbn; split; congruence. }
  split.
  - intros [H1|(-> & Hu & e & He & ->)]; [auto|]. left. apply (proj1 (om_in om Hom _ _)) in He. apply filter_In in He as [He _]. exists e. split; [reflexivity|]. apply filter_In. split; [exact He|apply Eu, Hu].
  - intros [(e & He & Hf)|H1]; [|auto]. injection He as <- <-. apply filter_In in Hf as [Hf Hu]. apply Eu in Hu. right. split; [reflexivity|]. split; [exact Hu|]. exists e. split; [|reflexivity]. apply (proj2 (om_in om Hom _ _)).
    apply filter_In. split; [exact Hf|]. unfold is_false. apply value_undef in Hu. rewrite Hu. reflexivity.
Qed.
Lemma oinit_J : J (fun l v => In (l, v) []) [] none (assigns oinit) oinit.
Proof. eapply J_ext; [|apply J_init]. intros; cbn; tauto. Qed.

(** ** What the object listener is told: the object variables that contain the Boolean variable. *)
Definition cont_ok (o : ovs) : Prop := forall id m x l, nth_error (odom o) id = Some m -> In (x, l) m -> l = TRUE_lit \/ In id (ocont o (lvar l)).
Definition ogrow (o o' : ovs) : Prop := (forall id m, nth_error (odom o) id = Some m -> nth_error (odom o') id = Some m) /\ forall v x, In x (ocont o v) -> In x (ocont o' v).
Lemma ogrow_refl o : ogrow o o.
Proof. split; auto. Qed.
Lemma ogrow_trans a b c : ogrow a b -> ogrow b c -> ogrow a c.
Proof. intros [A B] [D E]. split; auto. Qed.
Lemma insn_in x y l : In x (insn y l) <-> x = y \/ In x l.
Proof. unfold insn. destruct (memn y l) eqn:E; [apply memn_In in E; intuition congruence|]. rewrite in_app_iff. cbn. intuition congruence. Qed.
Lemma add_cont_in o v id w x : In x (ocont (add_cont o v id) w) <-> In x (ocont o w) \/ (x = id /\ w = v).
Proof. cbn. unfold upd. destruct (Nat.eqb_spec w v) as [->|Hn]; [rewrite insn_in; intuition congruence|intuition congruence]. Qed.
Lemma add_dom_grow o m : ogrow o (add_dom o m).
Proof. split; [|auto]. intros id m' H. cbn. rewrite nth_error_app1 by (apply nth_error_Some; congruence). exact H. Qed.
Lemma cont_dom o m : cont_ok o -> (forall x l, In (x, l) m -> l = TRUE_lit \/ In (length (odom o)) (ocont o (lvar l))) -> cont_ok (add_dom o m).
Proof.
  intros H K id m' x l E Hi. cbn in E |- *. destruct (le_lt_dec (length (odom o)) id) as [Hl|Hl].
  - rewrite nth_error_app2 in E by exact Hl. destruct (id - length (odom o)) as [|k] eqn:Ek; cbn in E; [|destruct k; discriminate E]. injection E as <-. replace id with (length (odom o)) by lia. apply (K x l Hi).
  - rewrite nth_error_app1 in E by exact Hl. apply (H id m' x l E Hi).
Qed.
Lemma items_cont xs : forall (s : ost) i o id m s' o' m', ov_items s i o id xs m = (s', o', m') -> (forall x l, In (x, l) m -> In id (ocont o (lvar l))) ->
  odom o' = odom o /\ (forall v x, In x (ocont o v) -> In x (ocont o' v)) /\ (forall x l, In (x, l) m' -> In id (ocont o' (lvar l))) /\
  (forall t, theories s = [t] -> i = 0 -> exists t', theories s' = [t'] /\ (xs = [] -> t' = t) /\ (xs <> [] -> t' = inl o')).
Proof.
  induction xs as [|x xs IH]; intros s i o id m s' o' m' E Hm; cbn [ov_items] in E.
  - injection E as <- <- <-. split; [reflexivity|]. split; [auto|]. split; [exact Hm|]. intros t Et _. exists t. split; [exact Et|]. split; [auto|intros K; case K; reflexivity].
  - unfold ov_item in E. destruct (new_var s) as [s1 v] eqn:En. pose proof (K_nv s s1 v En) as K1. set (o1 := add_cont (add_bound o v) v id) in *.
    destruct (IH _ _ _ _ _ _ _ _ E) as (A & B & D & F).
    + intros y l Hy. apply add_cont_in. unfold emplace in Hy. destruct (alook x m); [left; apply (Hm y l Hy)|]. apply in_app_or in Hy as [Hy|[Hy|[]]]; [left; apply (Hm y l Hy)|]. injection Hy as <- <-. right. auto.
    + split; [exact A|]. split; [intros w y Hy; apply B, add_cont_in; left; exact Hy|]. split; [exact D|]. intros t Et ->. destruct (F (inl o1)) as (t' & T1 & T2 & T3).
      { cbn. unfold bind. destruct (memn 0 (bounds s1 v)); cbn; rewrite K1, Et; reflexivity. } { reflexivity. }
      exists t'. split; [exact T1|]. split; [discriminate|]. intros _. destruct xs; [|apply T3; discriminate]. rewrite (T2 eq_refl). f_equal. cbn in E. congruence.
Qed.
Lemma lits_cont id ls : forall o v x, In x (ocont (fold_left (fun o l => add_cont o (lvar l) id) ls o) v) <-> In x (ocont o v) \/ (x = id /\ exists l, In l ls /\ v = lvar l).
Proof.
  induction ls as [|l ls IH]; intros o v x; cbn [fold_left]; [split; [auto|intros [H|(_ & l & [] & _)]; exact H]|]. rewrite IH, add_cont_in. split.
  - intros [[H|[-> ->]]|(-> & k & Hk & ->)]; [auto|right; split; [reflexivity|exists l; cbn; auto]|right; split; [reflexivity|exists k; cbn; auto]].
  - intros [H|(-> & k & [<-|Hk] & ->)]; [auto|auto|right; eauto].
Qed.
Lemma ocstep_cont fl (s s' : ost) o c r : theories s = [inl o] -> cont_ok o -> ocstep om oi fl s c = Ok (s', r) -> exists o', theories s' = [inl o'] /\ cont_ok o' /\ ogrow o o'.
Proof.
  intros Et HC E. destruct c as [c|items e|ls vals|a b]; cbn [ocstep] in E.
  - destruct (step fl s c) as [[s1 r1]| |] eqn:E1; cbn [rbind] in E; try discriminate E. injection E as <- _. apply theories_sat in E1. exists o. split; [congruence|]. split; [exact HC|apply ogrow_refl].
  - destruct (ov_new_var s 0 items e) as [[s1 x]| |] eqn:E1; cbn [rbind] in E; try discriminate E. injection E as <- _. unfold ov_new_var, ov_th in E1. rewrite Et in E1. cbn [nth_error] in E1.
    destruct items as [|x1 [|x2 xs]]; [discriminate E1| |].
    + injection E1 as <- _. exists (add_dom o [(x1, TRUE_lit)]). split; [cbn; rewrite Et; reflexivity|]. split; [|apply add_dom_grow]. apply cont_dom; [exact HC|]. intros y l [Hy|[]]. left. congruence.
    + destruct (ov_items s 0 o (length (odom o)) (x1 :: x2 :: xs) []) as [[s2 o1] m] eqn:Ei. destruct (items_cont _ _ _ _ _ _ _ _ _ Ei ltac:(intros y l [])) as (A & B & D & F). destruct (F _ Et eq_refl) as (t' & T1 & _ & T3). rewrite T3 in T1 by discriminate.
      assert (HC1 : cont_ok (add_dom o1 m) /\ ogrow o (add_dom o1 m)).
      { split.
        - apply cont_dom; [|intros y l Hy; right; rewrite A; apply (D y l Hy)]. intros id m' y l Hn Hi. rewrite A in Hn. destruct (HC id m' y l Hn Hi) as [H|H]; [auto|right; apply B, H].
        - apply (ogrow_trans o o1); [split; [rewrite A; auto|exact B]|apply add_dom_grow]. }
      destruct e.
      * destruct (alooks m (x1 :: x2 :: xs)) as [lits|]; [|discriminate E1].
        destruct (new_exct_one s2 lits) as [[s3 p]| |] eqn:E2; cbn [rbind] in E1; try discriminate E1. destruct (new_clause s3 [p]) as [[s4 bb]| |] eqn:E3; cbn [rbind] in E1; try discriminate E1.
        apply guard_ok in E1 as [_ E1]. injection E1 as <- _. apply K_exct in E2. apply K_new_clause in E3. exists (add_dom o1 m). split; [cbn; rewrite E3, E2, T1; reflexivity|exact HC1].
      * injection E1 as <- _. exists (add_dom o1 m). split; [cbn; rewrite T1; reflexivity|exact HC1].
  - destruct (ov_new_var_lits s 0 ls vals) as [[s1 x]| |] eqn:E1; cbn [rbind] in E; try discriminate E. injection E as <- _. unfold ov_new_var_lits, ov_th in E1. rewrite Et in E1. cbn [nth_error] in E1.
    apply guard_ok in E1 as [_ E1]. injection E1 as <- _. set (o1 := fold_left (fun o0 l => add_cont o0 (lvar l) (length (odom o))) ls o). destruct (cont_fold (length (odom o)) ls o) as (_ & A & _). fold o1 in A.
    eexists. split; [cbn; rewrite Et; reflexivity|]. fold o1. split.
    + apply cont_dom.
      * intros id m' y l Hn Hi. rewrite A in Hn. destruct (HC id m' y l Hn Hi) as [H|H]; [auto|]. right. apply lits_cont. auto.
      * intros y l Hy. right. rewrite A. apply lits_cont. right. split; [reflexivity|]. exists l. split; [|reflexivity].
        destruct (emplace_fold (combine ls vals) [] ltac:(constructor)) as [Hn Ha]. pose proof (proj1 (Ha y l) (alook_nodup y l _ Hn Hy)) as [H|(_ & es1 & es2 & H & _)]; [discriminate H|].
        assert (Hin : In (l, y) (combine ls vals)) by (rewrite H; apply in_or_app; right; left; reflexivity). apply in_combine_l in Hin. exact Hin.
    + apply (ogrow_trans o o1); [|apply add_dom_grow]. split; [rewrite A; auto|]. intros v y Hy. apply lits_cont. auto.
  - destruct (ov_new_eq om oi s 0 a b) as [[s1 p]| |] eqn:E1; cbn [rbind] in E; try discriminate E. injection E as <- _.
    assert (HL : forall l r, ov_new_eq_lt om oi s 0 l r = Ok (s1, p) -> exists o', theories s1 = [inl o'] /\ cont_ok o' /\ ogrow o o').
    { intros l r' E2. unfold ov_new_eq_lt, ov_th in E2. rewrite Et in E2. cbn [nth_error] in E2. destruct (elook (l, r') (oexp o)) as [q|]; [injection E2 as <- _; exists o; split; [exact Et|split; [exact HC|apply ogrow_refl]]|].
      destruct (nth_error (odom o) l) as [dl|]; [|discriminate E2]. destruct (nth_error (odom o) r') as [dr|]; [|discriminate E2]. cbv zeta in E2.
      destruct (filter _ _) as [|y ys] in E2; [injection E2 as <- _; exists o; split; [exact Et|split; [exact HC|apply ogrow_refl]]|]. destruct (new_var s) as [s2 v] eqn:En. apply K_nv in En.
      destruct (new_clauses s2 _) as [[s3 bb]| |] eqn:E3; cbn [rbind] in E2; try discriminate E2. apply K_new_clauses in E3. apply guard_ok in E2 as [_ E2]. injection E2 as <- _.
      eexists. split; [cbn; rewrite E3, En, Et; reflexivity|]. split; [exact HC|split; auto]. }
    unfold ov_new_eq in E1. destruct (Nat.eqb a b); [injection E1 as <- _; exists o; split; [exact Et|split; [exact HC|apply ogrow_refl]]|]. destruct (Nat.ltb b a); apply (HL _ _ E1).
Qed.
Lemma listen_ths l : forall (es : list (nat * lit)) (s s' : ost), rfold (fun s e => listen s (lvar (snd e)) l) es s = Ok s' -> theories s' = theories s.
Proof.
  induction es as [|e es IH]; intros s s' E; cbn [rfold] in E; [congruence|]. destruct (listen s (lvar (snd e)) l) as [s1| |] eqn:E1; cbn [rbind] in E; try discriminate E. rewrite (IH _ _ E).
  unfold listen in E1. apply guard_ok in E1 as [_ E1]. destruct (is_undef s _); [|injection E1 as <-; reflexivity]. destruct (memn l _); injection E1 as <-; reflexivity.
Qed.
Lemma ohist_cont rg0 s0 rg s : OHist rg0 s0 rg s -> forall o0, theories s0 = [inl o0] -> cont_ok o0 -> exists o, theories s = [inl o] /\ cont_ok o /\ ogrow o0 o.
Proof.
  induction 1 as [|fl rg0 s0 rg s c s' r H IH Hc HL E HA|rg0 s0 rg s v l o s' H IH Et E]; intros o0 E0 H0.
  - exists o0. split; [exact E0|split; [exact H0|apply ogrow_refl]].
  - destruct (IH o0 E0 H0) as (o & Eo & HC & HG). destruct (ocstep_cont fl s s' o c r Eo HC E) as (o' & Eo' & HC' & HG'). exists o'. split; [exact Eo'|]. split; [exact HC'|apply (ogrow_trans o0 o); assumption].
  - destruct (IH o0 E0 H0) as (o1 & Eo & HC & HG). exists o1. split; [|auto]. rewrite <- Eo. unfold ov_listen in E. destruct (nth_error (odom o) v); [|discriminate E]. destruct (Nat.ltb 1 _); [apply listen_ths in E; exact E|congruence].
Qed.
Lemma oinit_cont : cont_ok ov_empty.
Proof. intros [|id] m x l E; discriminate E. Qed.

(** The invariant of the calls is kept by registrations. *)
Lemma listens_good l tr o : forall (es : list (nat * lit)) (s s' : ost), ogood tr s o -> (forall e, In e es -> lvar (snd e) < nv s) -> rfold (fun s e => listen s (lvar (snd e)) l) es s = Ok s' -> exists tr', ogood tr' s' o.
Proof.
  intros es. revert tr. induction es as [|e es IH]; intros tr s s' HG Hr E; cbn [rfold] in E; [injection E as <-; eauto|].
  destruct (listen s (lvar (snd e)) l) as [s1| |] eqn:E1; cbn [rbind] in E; try discriminate E.
  assert (Es : ocstep om oi 0 s (OSat (CListen (lvar (snd e)) l)) = Ok (s1, OR RUnit)) by (cbn; rewrite E1; reflexivity).
  destruct (ocstep_ok om oi Hom Hoi 0 tr s s1 o (OSat (CListen (lvar (snd e)) l)) (OR RUnit) HG (Hr e (or_introl eq_refl)) Es) as (o' & HG' & _); [intros K; discriminate K|].
  assert (F1 : theories s1 = theories s /\ nv s1 = nv s).
  { unfold listen in E1. apply guard_ok in E1 as [_ E1]. destruct (is_undef s _); [|injection E1 as <-; auto]. destruct (memn l _); injection E1 as <-; auto. }
  destruct F1 as [F1 F2]. assert (o' = o) by (pose proof (og_th _ _ _ HG); pose proof (og_th _ _ _ HG'); congruence). subst o'.
  apply (IH _ s1 s' HG'); [|exact E]. intros e' He. rewrite F2. apply Hr. right. exact He.
Qed.
Lemma ohist_good rg0 s0 rg s : OHist rg0 s0 rg s -> (exists tr o, ogood tr s0 o) -> exists tr o, ogood tr s o.
Proof.
  induction 1 as [|fl rg0 s0 rg s c s' r H IH Hc HL E HA|rg0 s0 rg s v l o s' H IH Et E]; intros H0; [exact H0| |]; destruct (IH H0) as (tr & o1 & HG).
  - destruct (ocstep_ok om oi Hom Hoi fl tr s s' o1 c r HG HL E HA) as (o' & HG' & _). eauto.
  - assert (o1 = o) by (pose proof (og_th _ _ _ HG); congruence). subst o1. unfold ov_listen in E. destruct (nth_error (odom o) v) as [m|] eqn:Em; [|discriminate E].
    destruct (Nat.ltb 1 _); [|injection E as <-; eauto]. assert (Hr : forall e : nat * lit, In e (om (filter (fun e => negb (is_false s (snd e))) m)) -> lvar (snd e) < nv s);
      [|destruct (listens_good l tr o _ s s' HG Hr E) as (tr' & HG'); eauto].
    intros [y p] He. apply (proj1 (om_in om Hom _ _)) in He. apply filter_In in He as [He _]. apply (ok_rng _ _ _ (og_ok _ _ _ HG) m y p); [apply nth_error_In in Em; exact Em|exact He].
Qed.
Lemma ohist_zero rg s : OHist [] oinit rg s -> assigns s 0 = LFalse.
Proof. intros H. destruct (ohist_good _ _ _ _ H) as (tr & o & HG); [exists [], ov_empty; apply oinit_good|]. apply (t_a0 s (i_t _ _ (g_inv _ _ (og_good _ _ _ HG)))). Qed.

(** ** The theorem: a listener registered while the values of the variable were all open hears of every change of its domain. *)
Theorem ov_listen_hears rg1 s1 rg2 s2 o1 o2 l x m vals1 vals2 : OHist [] oinit rg1 s1 -> OHist rg1 s1 rg2 s2 -> theories s1 = [inl o1] -> theories s2 = [inl o2] ->
  nth_error (odom o1) x = Some m -> (forall y p, In (y, p) m -> In (l, lvar p) rg1) ->
  ov_value om s1 o1 x = Some vals1 -> ov_value om s2 o2 x = Some vals2 -> ~ (forall y, In y vals1 <-> In y vals2) ->
  exists new w b, log s2 = new ++ log s1 /\ In (l, w, b) new /\ In x (ocont o1 w).
Proof.
  intros H1 H2 E1 E2 Ex Hr V1 V2 Hne. pose proof (ohist_J [] _ _ _ _ _ H1 oinit_J) as J1.
  assert (J1' : J (fun l v => In (l, v) rg1) (log s1) none (assigns oinit) s1) by (destruct J1; constructor; auto; exists []; reflexivity). pose proof (ohist_J (log s1) _ _ _ _ _ H2 J1') as J2.
  destruct (ohist_cont _ _ _ _ H1 ov_empty eq_refl oinit_cont) as (o1' & K1 & C1 & _). assert (o1' = o1) by congruence. subst o1'.
  destruct (ohist_cont _ _ _ _ H2 o1 E1 C1) as (o2' & K2 & C2 & [G2 _]). assert (o2' = o2) by congruence. subst o2'.
  destruct (value_in om Hom s1 o1 x m Ex) as (u1 & U1 & W1). assert (u1 = vals1) by congruence. subst u1. destruct (value_in om Hom s2 o2 x m (G2 _ _ Ex)) as (u2 & U2 & W2). assert (u2 = vals2) by congruence. subst u2.
  assert (Hd : exists y p, In (y, p) m /\ assigns s1 (lvar p) <> assigns s2 (lvar p)).
  { destruct (existsb (fun e => negb (lbool_eqb (assigns s1 (lvar (snd e))) (assigns s2 (lvar (snd e))))) m) eqn:Eb.
    - apply existsb_exists in Eb as ([y p] & Hi & Hb). exists y, p. split; [exact Hi|]. cbn [snd] in Hb. destruct (lbool_eqb_spec (assigns s1 (lvar p)) (assigns s2 (lvar p))); [discriminate Hb|assumption].
    - exfalso. apply Hne. intros y. rewrite W1, W2. assert (Hs : forall p, In (y, p) m -> value s1 p = value s2 p).
      { intros p Hi. unfold value, vlit. destruct (lbool_eqb_spec (assigns s1 (lvar p)) (assigns s2 (lvar p))) as [->|Hn]; [reflexivity|]. exfalso.
        assert (K : existsb (fun e => negb (lbool_eqb (assigns s1 (lvar (snd e))) (assigns s2 (lvar (snd e))))) m = true).
        { apply existsb_exists. exists (y, p). split; [exact Hi|]. cbn [snd]. destruct (lbool_eqb_spec (assigns s1 (lvar p)) (assigns s2 (lvar p))); [contradiction|reflexivity]. }
        congruence. }
      split; intros (p & Hi & Hp); exists p; (split; [exact Hi|]); [rewrite <- (Hs p Hi)|rewrite (Hs p Hi)]; exact Hp. }
  destruct Hd as (y & p & Hi & Hp). specialize (Hr y p Hi). destruct (J_news _ _ _ _ s1 s2 l (lvar p) J1 J2 Hr (ohist_mono _ _ _ _ H2 _ Hr) Hp) as (new & b & El & Hin).
  exists new, (lvar p), b. split; [exact El|]. split; [exact Hin|]. destruct (C1 x m y p Ex Hi) as [Htl|H]; [|exact H].
  exfalso. subst p. apply Hp. cbn [TRUE_lit lvar]. rewrite (ohist_zero _ _ H1), (ohist_zero _ _ (ohist_trans _ _ _ _ _ _ H1 H2)). reflexivity.
Qed.
End OvLis.
End Srt.
