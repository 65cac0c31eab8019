(** Listeners of numeric variables (include/arith/lra/lra_value_listener.h, lra_theory.h:197-201, lra_theory.cpp:386-436): the
    functions of Lra.v that change values, with the notifications they send. *)
From Verif Require Import Base Keys Sat SatSpec SatLoop Run Listen Lin Qe Lra ThRel ThPres.
From Coq Require Import Lqa.
Open Scope nat_scope.
Local Arguments Nat.ltb : simpl never.
Local Arguments Nat.eqb : simpl never.
Section Srt.
Context {sr : sorter}.

(** [lsn]: [listening], as triples (variable, listener, value of the variable when it was registered); the value is a ghost.
    [ltold]: the calls of [lra_value_change], newest first, with the value that the listener reads. *)
Record lis := mk_lis { lsn : list (nat * nat * qe); ltold : list (nat * nat * qe) }.
Definition lis0 : lis := mk_lis [] [].
Definition lraL : Type := (lra * lis)%type.
(** The values told to [l] about [x], newest first; the value [l] knows. *)
Definition heard (w : lis) (l x : nat) : list qe := map snd (filter (fun e => (fst (fst e) =? l) && (snd (fst e) =? x)) (ltold w)).
Definition known (w : lis) (l x : nat) (v0 : qe) : qe := hd v0 (heard w l x).

(** lra_theory.cpp:393-395 and the like: [x] has got the value [v]. *)
Definition tellv (w : lis) (x : nat) (v : qe) : lis :=
  mk_lis (lsn w) (map (fun e => (snd (fst e), x, v)) (filter (fun e => fst (fst e) =? x) (lsn w)) ++ ltold w).
(** lra_theory.h:197-201; a set: registering twice has no effect. *)
Definition has_lis (w : lis) (x l : nat) : bool := existsb (fun e => (fst (fst e) =? x) && (snd (fst e) =? l)) (lsn w).
Definition lra_listen (a : lraL) (x l : nat) : lraL :=
  let (t, w) := a in
  if (match bound t Lo x, bound t Up x with Some b, Some u => negb (qe_leb u b) | _, _ => true end) && negb (has_lis w x l)
  then (t, mk_lis ((x, l, vals t x) :: lsn w) (ltold w)) else a.

(** lra_theory.cpp:390-396 *)
Definition shift_rowL (t : lra) (x : nat) (d : qe) (a : (nat -> qe) * lis) (r : nat) : res ((nat -> qe) * lis) :=
  c <- row_coef t r x ;; let v := qe_add (fst a r) (qe_scale c d) in Ok (upd (fst a) r v, tellv (snd a) r v).
(** lra_theory.cpp:386-402 *)
Definition updateL (a : lraL) (x : nat) (v : qe) : res lraL :=
  let (t, w) := a in
  guard (negb (is_basic t x))
  ('(vs, w1) <- rfold (shift_rowL t x (qe_sub v (vals t x))) (tw t x) (vals t, w) ;; Ok (set_vals (upd vs x v) t, tellv w1 x v)).
(** lra_theory.cpp:404-436 *)
Definition pivot_and_updateL (a : lraL) (xi xj : nat) (v : qe) : res lraL :=
  let (t, w) := a in
  guard (is_basic t xi) (guard (negb (is_basic t xj))
  (a <- row_coef t xi xj ;;
   guard (negb (qzero a))
   (let theta := qe_scale (1 / a) (qe_sub v (vals t xi)) in
    let vs := upd (vals t) xi v in
    let w := tellv w xi v in
    let vj := qe_add (vs xj) theta in
    let vs := upd vs xj vj in
    let w := tellv w xj vj in
    '(vs, w) <- rfold (shift_rowL t xj theta) (filter (fun r => negb (Nat.eqb r xi)) (tw t xj)) (vs, w) ;;
    t1 <- pivot (set_vals vs t) xi xj ;; Ok (t1, w)))).
(** lra_theory.cpp:272-304 *)
Definition fix_rowL (a : lraL) (s : side) (xi : nat) (l : lin) : res (lraL * option (list lit)) :=
  let t := fst a in
  match find (fun e => room t (other (tside s (snd e))) (fst e)) (lvars l) with
  | Some (xj, _) =>
    match bound t s xi with
    | Some b => a1 <- pivot_and_updateL a xi xj b ;; Ok (a1, None)
    | None => UB
    end
  | None =>
    Ok (a, Some (map (fun e => negl (breason t (other (tside s (snd e))) (fst e))) (lvars l) ++ [negl (breason t s xi)]))
  end.
(** lra_theory.cpp:258-306 *)
Fixpoint lra_checkL (fuel : nat) (a : lraL) : res (lraL * option (list lit)) :=
  match fuel with
  | O => OOF
  | S f =>
    match find (fun e => viol (fst a) Lo (fst e) || viol (fst a) Up (fst e)) (tab (fst a)) with
    | None => Ok (a, None)
    | Some (xi, l) =>
      '(a1, cf) <- fix_rowL a (if viol (fst a) Lo xi then Lo else Up) xi l ;;
      match cf with Some c => Ok (a1, Some c) | None => lra_checkL f a1 end
    end
  end.

Section Order.
Context (ord : nat -> list nat -> list nat).
(** lra_theory.cpp:318-384 *)
Definition assert_boundL (a : lraL) (s : side) (x : nat) (v : qe) (p : lit) (val : lv) : res (lraL * list (list lit) * option (list lit)) :=
  let (t, w) := a in
  if bsle s (Some v) (bound t s x) then Ok (a, [], None)
  else if (match bound t (other s) x with None => false | Some b => negb (sle s v b) end)
  then Ok (a, [], Some [negl p; negl (breason t (other s) x)])
  else
    let t1 := set_cb (updc (cb t) s x (Some v, p)) (set_layers (save t s x) t) in
    '(t2, w2) <- (if negb (sle s v (vals t1 x)) && negb (is_basic t1 x) then updateL (t1, w) x v else Ok (t1, w)) ;;
    let t2 := set_tick (S (tick t2)) t2 in
    let '(v1, l1, c1) := tell s (bound t2 s x) [negl (breason t2 s x)] (aw t2 x) val in
    match c1 with
    | Some c => Ok ((t2, w2), l1, Some c)
    | None => '(v2, l2, c2) <- rows_prop t2 s x (ord (tick t2) (tw t2 x)) v1 ;; Ok ((t2, w2), l1 ++ l2, c2)
    end.
(** lra_theory.cpp:239-256 *)
Definition lra_propL (a : lraL) (val : lv) (p : lit) : res (lraL * list (list lit) * option (list lit)) :=
  match gfind (lvar p) (v_asrts (fst a)) with
  | None => UB
  | Some x =>
    match val (a_b x) with
    | LTrue => assert_boundL a (a_op x) (a_x x) (a_v x) p val
    | LFalse => assert_boundL a (other (a_op x)) (a_x x) (neg_bound x) p val
    | LUndef => Ok (a, [], None)
    end
  end.
Definition lraL_ops {sr : sorter} (fuel : lra -> nat) : theory_ops lraL :=
  mk_ops lra_propL (fun a _ => lra_checkL (fuel (fst a)) a) (fun a => (lra_push (fst a), snd a)) (fun a => (lra_pop (fst a), snd a)) sr.

(** ** Without the notifications these are the functions of Lra.v. *)
Definition rmap {A B} (f : A -> B) (r : res A) : res B := x <- r ;; Ok (f x).
Lemma er_rows t x d : forall rs vs w, rmap fst (rfold (shift_rowL t x d) rs (vs, w)) = rfold (shift_row t x d) rs vs.
Proof.
  induction rs as [|r rs IH]; intros vs w; [reflexivity|]. cbn [rfold]. unfold shift_rowL at 1, shift_row at 1. destruct (row_coef t r x) as [c| |]; cbn [rbind]; try reflexivity. apply IH.
Qed.
Lemma er_update t w x v : rmap fst (updateL (t, w) x v) = update t x v.
Proof.
  unfold updateL, update. destruct (is_basic t x); cbn [guard negb]; [reflexivity|]. rewrite <- (er_rows t x (qe_sub v (vals t x)) (tw t x) (vals t) w).
  destruct (rfold _ (tw t x) (vals t, w)) as [[vs w1]| |]; reflexivity.
Qed.
Lemma er_pau t w xi xj v : rmap fst (pivot_and_updateL (t, w) xi xj v) = pivot_and_update t xi xj v.
Proof.
  unfold pivot_and_updateL, pivot_and_update. destruct (is_basic t xi); cbn [guard negb]; [|reflexivity]. destruct (is_basic t xj); cbn [guard negb]; [reflexivity|].
  destruct (row_coef t xi xj) as [a| |]; cbn [rbind]; try reflexivity. destruct (qzero a); cbn [guard negb]; [reflexivity|]. cbv zeta.
  match goal with |- context [rfold (shift_rowL t xj ?d) ?rs (?vs, ?w0)] => rewrite <- (er_rows t xj d rs vs w0); destruct (rfold (shift_rowL t xj d) rs (vs, w0)) as [[vs1 w1]| |] end; cbn; try reflexivity.
  destruct (pivot (set_vals vs1 t) xi xj); reflexivity.
Qed.
Definition e1 (x : lraL * option (list lit)) := (fst (fst x), snd x).
Lemma er_fix t w s xi l : rmap e1 (fix_rowL (t, w) s xi l) = fix_row t s xi l.
Proof.
  unfold fix_rowL, fix_row. cbn [fst]. destruct (find _ (lvars l)) as [[xj c]|]; [|reflexivity]. destruct (bound t s xi) as [b|]; [|reflexivity].
  rewrite <- (er_pau t w xi xj b). destruct (pivot_and_updateL (t, w) xi xj b) as [[t1 w1]| |]; reflexivity.
Qed.
Lemma er_check : forall f t w, rmap e1 (lra_checkL f (t, w)) = lra_check f t.
Proof.
  induction f as [|f IH]; intros t w; [reflexivity|]. cbn [lra_checkL lra_check fst]. destruct (find _ (tab t)) as [[xi l]|]; [|reflexivity].
  rewrite <- (er_fix t w _ xi l). destruct (fix_rowL (t, w) _ xi l) as [[[t1 w1] [c|]]| |]; cbn; try reflexivity. apply IH.
Qed.
Definition e2 (x : lraL * list (list lit) * option (list lit)) := (fst (fst (fst x)), snd (fst x), snd x).
Lemma er_assert t w s x v p val : rmap e2 (assert_boundL (t, w) s x v p val) = assert_bound ord t s x v p val.
Proof.
  unfold assert_boundL, assert_bound. destruct (bsle _ _ _); [reflexivity|]. destruct (match bound t (other s) x with None => false | Some b => negb (sle s v b) end); [reflexivity|]. cbv zeta.
  set (t1 := set_cb _ _). destruct (negb (sle s v (vals t1 x)) && negb (is_basic t1 x)).
  - rewrite <- (er_update t1 w x v). destruct (updateL (t1, w) x v) as [[t2 w2]| |]; unfold rmap; cbn [rbind fst]; try reflexivity.
    destruct (tell _ _ _ _ _) as [[v1 l1] [c|]]; [reflexivity|]. destruct (rows_prop _ _ _ _ _) as [[[v2 l2] c2]| |]; reflexivity.
  - unfold rmap; cbn [rbind fst]. destruct (tell _ _ _ _ _) as [[v1 l1] [c|]]; [reflexivity|]. destruct (rows_prop _ _ _ _ _) as [[[v2 l2] c2]| |]; reflexivity.
Qed.
(** Propagation and checks answer the same, with and without listeners. *)
Theorem er_ops fuel t w : 
  (forall val p, rmap e2 (th_prop (lraL_ops fuel) (t, w) val p) = th_prop (lra_ops ord fuel) t val p) /\
  (forall val, rmap e1 (th_check (lraL_ops fuel) (t, w) val) = th_check (lra_ops ord fuel) t val) /\
  fst (th_push (lraL_ops fuel) (t, w)) = th_push (lra_ops ord fuel) t /\ fst (th_pop (lraL_ops fuel) (t, w)) = th_pop (lra_ops ord fuel) t.
Proof.
  split; [|split; [|split; reflexivity]].
  - intros val p. cbn [th_prop lraL_ops lra_ops]. unfold lra_propL, lra_prop. cbn [fst]. destruct (gfind (lvar p) (v_asrts t)) as [x|]; [|reflexivity].
    destruct (val (a_b x)); try reflexivity; apply er_assert.
  - intros val. cbn [th_check lraL_ops lra_ops fst]. apply er_check.
Qed.

(** ** What the listeners know. *)
Definition up_to_date (vs : nat -> qe) (w : lis) : Prop :=
  (forall x l v0, In (x, l, v0) (lsn w) -> known w l x v0 = vs x) /\ (forall l x v, In (l, x, v) (ltold w) -> exists v0, In (x, l, v0) (lsn w)).
Lemma heard_tellv w x v l y : heard (tellv w x v) l y = (if y =? x then map (fun _ => v) (filter (fun e => (fst (fst e) =? x) && (snd (fst e) =? l)) (lsn w)) else []) ++ heard w l y.
Proof.
  unfold heard, tellv. cbn [ltold]. rewrite filter_app, map_app. f_equal. generalize (lsn w). intros ls. induction ls as [|[[a k] v0] ls IH]; cbn; [destruct (y =? x); reflexivity|].
  destruct (Nat.eqb_spec a x) as [->|Ha]; cbn [map filter fst snd]; [|exact IH]. destruct (Nat.eqb_spec k l) as [->|Hk]; cbn [andb].
  - rewrite Nat.eqb_sym. destruct (Nat.eqb_spec y x) as [->|Hy]; cbn; [f_equal; exact IH|exact IH].
  - exact IH.
Qed.
Lemma utd_tellv vs w x v : up_to_date vs w -> up_to_date (upd vs x v) (tellv w x v).
Proof.
  intros [H1 H2]. split.
  - intros y l v0 Hi. cbn in Hi. unfold known. rewrite heard_tellv. unfold upd. destruct (Nat.eqb_spec y x) as [->|Hn]; [|apply H1, Hi].
    destruct (filter _ (lsn w)) as [|e r] eqn:E; [|reflexivity]. exfalso. assert (X : In (x, l, v0) (filter (fun e => (fst (fst e) =? x) && (snd (fst e) =? l)) (lsn w))).
    { apply filter_In. split; [exact Hi|]. cbn. rewrite !Nat.eqb_refl. reflexivity. } rewrite E in X. destruct X.
  - intros l y u Hi. cbn in *. apply in_app_iff in Hi as [Hi|Hi]; [|apply (H2 _ _ _ Hi)]. apply in_map_iff in Hi as ([[a k] v0] & E & Hf). injection E as <- <- <-. apply filter_In in Hf as [Hf Ha]. cbn in Ha. apply Nat.eqb_eq in Ha. subst a. eauto.
Qed.
Lemma utd_rows t x d : forall rs vs w vs' w', up_to_date vs w -> rfold (shift_rowL t x d) rs (vs, w) = Ok (vs', w') -> up_to_date vs' w' /\ lsn w' = lsn w.
Proof.
  induction rs as [|r rs IH]; intros vs w vs' w' H; cbn [rfold]; [intros E; injection E as <- <-; auto|]. unfold shift_rowL at 1. destruct (row_coef t r x) as [c| |]; cbn [rbind]; try discriminate. cbv zeta. cbn [fst snd].
  intros E. destruct (IH _ _ _ _ (utd_tellv _ _ _ _ H) E) as [A B]. auto.
Qed.
Definition UP (a : lraL) : Prop := up_to_date (vals (fst a)) (snd a).
Lemma vals_pivot t xi xj t1 : pivot t xi xj = Ok t1 -> vals t1 = vals t.
Proof.
  unfold pivot. destruct (row_of t xi) as [l| |]; cbn [rbind]; try discriminate. destruct (lin_div_in _ _) as [e0| |]; cbn [rbind]; try discriminate.
  destruct (rfold _ _ _) as [[tb1 w1]| |]; cbn [rbind]; try discriminate. destruct (new_row _ _ _ _). intros E; injection E as <-. reflexivity.
Qed.
Lemma UP_update a x v a' : UP a -> updateL a x v = Ok a' -> UP a' /\ lsn (snd a') = lsn (snd a).
Proof.
  destruct a as [t w]. intros H. unfold updateL. intros E. apply guard_ok in E as [_ E]. destruct (rfold _ (tw t x) (vals t, w)) as [[vs w1]| |] eqn:E1; cbn [rbind] in E; try discriminate E. injection E as <-.
  destruct (utd_rows _ _ _ _ _ _ _ _ H E1) as [A B]. split; [|exact B]. apply utd_tellv, A.
Qed.
Lemma UP_pau a xi xj v a' : UP a -> pivot_and_updateL a xi xj v = Ok a' -> UP a' /\ lsn (snd a') = lsn (snd a).
Proof.
  destruct a as [t w]. intros H. unfold pivot_and_updateL. intros E. apply guard_ok in E as [_ E]. apply guard_ok in E as [_ E]. destruct (row_coef t xi xj) as [a| |]; cbn [rbind] in E; try discriminate E. apply guard_ok in E as [_ E]. cbv zeta in E.
  destruct (rfold _ _ _) as [[vs w1]| |] eqn:E1 in E; cbn [rbind] in E; try discriminate E. destruct (pivot (set_vals vs t) xi xj) as [t1| |] eqn:E2; cbn [rbind] in E; try discriminate E. injection E as <-.
  destruct (utd_rows _ _ _ _ _ _ _ _ (utd_tellv _ _ _ _ (utd_tellv _ _ _ _ H)) E1) as [A B]. split; [|exact B]. unfold UP. cbn [fst snd]. rewrite (vals_pivot _ _ _ _ E2). exact A.
Qed.
Lemma UP_check : forall f a a' cf, UP a -> lra_checkL f a = Ok (a', cf) -> UP a' /\ lsn (snd a') = lsn (snd a).
Proof.
  induction f as [|f IH]; intros a a' cf H; cbn [lra_checkL]; [discriminate|]. destruct (find _ (tab (fst a))) as [[xi l]|]; [|intros E; injection E as <- <-; auto].
  unfold fix_rowL. set (s := if viol _ _ _ then Lo else Up). destruct (find _ (lvars l)) as [[xj c]|].
  - destruct (bound (fst a) s xi) as [b|]; [|discriminate]. destruct (pivot_and_updateL a xi xj b) as [a1| |] eqn:E1; cbn [rbind]; try discriminate. destruct (UP_pau _ _ _ _ _ H E1) as [A B].
    intros E. destruct (IH _ _ _ A E) as [A' B']. split; [exact A'|congruence].
  - cbn [rbind]. intros E; injection E as <- <-; auto.
Qed.
Lemma UP_prop a val p a' ls cf : UP a -> lra_propL a val p = Ok (a', ls, cf) -> UP a' /\ lsn (snd a') = lsn (snd a).
Proof.
  assert (HA : forall s x v, UP a -> assert_boundL a s x v p val = Ok (a', ls, cf) -> UP a' /\ lsn (snd a') = lsn (snd a)).
  { intros s x v H. destruct a as [t w]. unfold assert_boundL. destruct (bsle _ _ _); [intros E; injection E as <- _ _; auto|].
    destruct (match bound t (other s) x with None => false | Some b => negb (sle s v b) end); [intros E; injection E as <- _ _; auto|]. cbv zeta. set (t1 := set_cb _ _). assert (H1 : UP (t1, w)) by exact H.
    destruct (if negb (sle s v (vals t1 x)) && negb (is_basic t1 x) then updateL (t1, w) x v else Ok (t1, w)) as [[t2 w2]| |] eqn:E2; cbn [rbind]; try discriminate.
    assert (H2 : UP (t2, w2) /\ lsn w2 = lsn w) by (destruct (_ && _) in E2; [exact (UP_update _ _ _ _ H1 E2)|injection E2 as <- <-; auto]). destruct H2 as [H2 B2].
    destruct (tell _ _ _ _ _) as [[v1 l1] [c|]]; [intros E; injection E as <- _ _; auto|]. destruct (rows_prop _ _ _ _ _) as [[[v2 l2] c2]| |]; cbn [rbind]; try discriminate. intros E; injection E as <- _ _; auto. }
  intros H. unfold lra_propL. destruct (gfind _ _) as [x|]; [|discriminate]. destruct (val (a_b x)); [apply HA, H|apply HA, H|intros E; injection E as <- _ _; auto].
Qed.
End Order.

(** ** The network. *)
Lemma nx_pivot t xi xj t1 : pivot t xi xj = Ok t1 -> nx t1 = nx t.
Proof.
  unfold pivot. destruct (row_of t xi) as [l| |]; cbn [rbind]; try discriminate. destruct (lin_div_in _ _) as [e0| |]; cbn [rbind]; try discriminate.
  destruct (rfold _ _ _) as [[tb1 w1]| |]; cbn [rbind]; try discriminate. destruct (new_row _ _ _ _). intros E; injection E as <-. reflexivity.
Qed.
Definition regs (a : lraL) : nat * list (nat * nat * qe) := (nx (fst a), lsn (snd a)).
Lemma lsn_rows t x d : forall rs vs w vs' w', rfold (shift_rowL t x d) rs (vs, w) = Ok (vs', w') -> lsn w' = lsn w.
Proof.
  induction rs as [|r rs IH]; intros vs w vs' w'; cbn [rfold]; [intros E; injection E as <- <-; auto|]. unfold shift_rowL at 1. destruct (row_coef t r x) as [c| |]; cbn [rbind]; try discriminate. cbv zeta. cbn [fst snd].
  intros E. rewrite (IH _ _ _ _ E). reflexivity.
Qed.
Lemma nx_update a x v a' : updateL a x v = Ok a' -> regs a' = regs a.
Proof. destruct a as [t w]. unfold updateL. intros E. apply guard_ok in E as [_ E]. destruct (rfold _ _ _) as [[vs w1]| |] eqn:E1; cbn [rbind] in E; try discriminate E. injection E as <-. apply lsn_rows in E1. unfold regs. cbn. rewrite E1. reflexivity. Qed.
Lemma nx_pau a xi xj v a' : pivot_and_updateL a xi xj v = Ok a' -> regs a' = regs a.
Proof.
  destruct a as [t w]. unfold pivot_and_updateL. intros E. apply guard_ok in E as [_ E]. apply guard_ok in E as [_ E]. destruct (row_coef t xi xj) as [a| |]; cbn [rbind] in E; try discriminate E. apply guard_ok in E as [_ E]. cbv zeta in E.
  destruct (rfold _ _ _) as [[vs w1]| |] eqn:E1 in E; cbn [rbind] in E; try discriminate E. destruct (pivot (set_vals vs t) xi xj) as [t1| |] eqn:E2; cbn [rbind] in E; try discriminate E. injection E as <-.
  apply nx_pivot in E2. apply lsn_rows in E1. unfold regs. cbn [fst snd]. rewrite E1, E2. reflexivity.
Qed.
Lemma nx_check : forall f a a' cf, lra_checkL f a = Ok (a', cf) -> regs a' = regs a.
Proof.
  induction f as [|f IH]; intros a a' cf; cbn [lra_checkL]; [discriminate|]. destruct (find _ (tab (fst a))) as [[xi l]|]; [|intros E; injection E as <- <-; auto].
  unfold fix_rowL. set (s := if viol _ _ _ then Lo else Up). destruct (find _ (lvars l)) as [[xj c]|].
  - destruct (bound (fst a) s xi) as [b|]; [|discriminate]. destruct (pivot_and_updateL a xi xj b) as [a1| |] eqn:E1; cbn [rbind]; try discriminate. apply nx_pau in E1.
    intros E. rewrite (IH _ _ _ E). exact E1.
  - cbn [rbind]. intros E; injection E as <- <-; auto.
Qed.
Lemma nx_prop ord a val p a' ls cf : lra_propL ord a val p = Ok (a', ls, cf) -> regs a' = regs a.
Proof.
  assert (HA : forall s x v, assert_boundL ord a s x v p val = Ok (a', ls, cf) -> regs a' = regs a).
  { intros s x v. destruct a as [t w]. unfold assert_boundL. destruct (bsle _ _ _); [intros E; injection E as <- _ _; auto|].
    destruct (match bound t (other s) x with None => false | Some b => negb (sle s v b) end); [intros E; injection E as <- _ _; auto|]. cbv zeta. set (t1 := set_cb _ _).
    destruct (if negb (sle s v (vals t1 x)) && negb (is_basic t1 x) then updateL (t1, w) x v else Ok (t1, w)) as [[t2 w2]| |] eqn:E2; cbn [rbind]; try discriminate.
    assert (H2 : regs (t2, w2) = regs (t1, w)) by (destruct (_ && _) in E2; [exact (nx_update _ _ _ _ E2)|injection E2 as <- <-; auto]).
    destruct (tell _ _ _ _ _) as [[v1 l1] [c|]]; [intros E; injection E as <- _ _; exact H2|]. destruct (rows_prop _ _ _ _ _) as [[[v2 l2] c2]| |]; cbn [rbind]; try discriminate. intros E; injection E as <- _ _; exact H2. }
  unfold lra_propL. destruct (gfind _ _) as [x|]; [|discriminate]. destruct (val (a_b x)); [apply HA|apply HA|intros E; injection E as <- _ _; auto].
Qed.
Lemma regs_pop a : regs (lra_pop (fst a), snd a) = regs a.
Proof. unfold regs, lra_pop. destruct (layers (fst a)); reflexivity. Qed.
(** Everybody registered knows the current values; nobody else is called. *)
Definition UPn (a : lraL) : Prop := UP a /\ forall x l v0, In (x, l, v0) (lsn (snd a)) -> x < nx (fst a).
Lemma UPn_to a a' : UPn a -> UP a' /\ lsn (snd a') = lsn (snd a) -> regs a' = regs a -> UPn a'.
Proof. intros [_ H] [A B] N. injection N as N _. split; [exact A|]. intros x l v0 Hi. rewrite B in Hi. rewrite N. apply (H _ _ _ Hi). Qed.
Lemma UPn_step ord fuel fl (s s' : st lraL) c r : PT UPn s -> step (ops := lraL_ops ord fuel) fl s c = Ok (s', r) -> PT UPn s'.
Proof.
  apply P_step.
  - intros t val p t' ls cf H E. apply (UPn_to t); [exact H| |].
    + apply (UP_prop _ _ _ _ _ _ _ (proj1 H) E). + apply (nx_prop _ _ _ _ _ _ _ E).
  - intros t val t' cf H E. cbn in E. apply (UPn_to t); [exact H| |].
    + apply (UP_check _ _ _ _ (proj1 H) E). + apply (nx_check _ _ _ _ E).
  - intros t H. apply (UPn_to t); [exact H|split; [exact (proj1 H)|reflexivity]|reflexivity].
  - intros t H. cbn. apply (UPn_to t); [exact H| |apply regs_pop]. unfold lra_pop; destruct (layers (fst t)); (split; [exact (proj1 H)|reflexivity]).
Qed.

(** The calls that make variables and literals do not call anybody (lra_theory.cpp:29-230). *)
Definition with_ths {A B} (s : st A) (l : list B) : st B :=
  mk_st (nv s) (cls s) (ncid s) (constrs s) (watches s) (assigns s) (level s) (reason s) (prop_q s) (trail s) (trail_lim s) (decisions s) (exprs s) l (bounds s) (listening s) (log s).
Definition bare (s : st lraL) : st lra := with_ths s (map fst (theories s)).
Definition dress (s : st lra) (ws : list lis) : st lraL := with_ths s (combine (theories s) ws).
Definition lift {A} (f : st lra -> res (st lra * A)) (s : st lraL) : res (st lraL * A) :=
  '(s1, a) <- f (bare s) ;; Ok (dress s1 (map snd (theories s)), a).
Inductive vcall :=
  | VSat (c : call) | VVar (i : nat) | VSlack (i : nat) (l : lin) | VCmp (i : nat) (sd : side) (strict : bool) (l r : lin) | VEq (i : nat) (l r : lin)
  | VListen (i x k : nat).
Definition vstep ord fuel fl (s : st lraL) (c : vcall) : res (st lraL * ret) :=
  match c with
  | VSat c => step (ops := lraL_ops ord fuel) fl s c
  | VVar i => '(s1, x) <- lift (fun s => lra_new_var s i) s ;; Ok (s1, RVar x)
  | VSlack i l => '(s1, x) <- lift (fun s => lra_new_slack s i l) s ;; Ok (s1, RVar x)
  | VCmp i sd strict l r => '(s1, p) <- lift (fun s => lra_cmp s i sd strict l r) s ;; Ok (s1, RLit p)
  | VEq i l r => '(s1, p) <- lift (fun s => lra_new_eq s i l r) s ;; Ok (s1, RLit p)
  | VListen i x k =>
    match nth_error (theories s) i with
    | Some a => guard (x <? nx (fst a)) (Ok (set_theories (set_nth (theories s) i (lra_listen a x k)) s, RUnit))
    | None => UB
    end
  end.
(** Any sequence of calls that return, from an empty network with theories [k]. *)
Inductive VHist ord fuel (k : nat) : list vcall -> st lraL -> Prop :=
  | VH0 : VHist ord fuel k [] (init (repeat (lra_init, lis0) k))
  | VH1 cs s c fl s' r : VHist ord fuel k cs s -> vstep ord fuel fl s c = Ok (s', r) -> VHist ord fuel k (cs ++ [c]) s'.

(** Old variables keep their values. *)
Definition kept (t t' : lra) : Prop := nx t <= nx t' /\ forall x, x < nx t -> vals t' x = vals t x.
Lemma kept_refl t : kept t t. Proof. split; auto. Qed.
Lemma kept_trans a b c : kept a b -> kept b c -> kept a c.
Proof. intros [A B] [D E]. split; [lia|]. intros x Hx. rewrite E by lia. apply B, Hx. Qed.
Lemma kept_var t : kept t (fst (t_new_var t)).
Proof. split; cbn; [lia|]. intros x Hx. apply upd_neq. lia. Qed.
Lemma kept_slack root t l t1 x : t_new_slack root t l = Ok (t1, x) -> kept t t1.
Proof.
  unfold t_new_slack. intros E. apply guard_ok in E as [_ E]. destruct (find_slack t l); [injection E as <- _; apply kept_refl|]. apply guard_ok in E as [_ E]. cbv zeta in E.
  unfold t_new_var in E. destruct (new_row _ _ _ _). injection E as <- _. split; cbn; [lia|]. intros z Hz. rewrite !upd_neq by lia. reflexivity.
Qed.
Lemma F2_refl l : Forall2 kept l l. Proof. induction l; constructor; [apply kept_refl|assumption]. Qed.
Lemma F2_trans : forall a b c, Forall2 kept a b -> Forall2 kept b c -> Forall2 kept a c.
Proof. intros a b c H. revert c. induction H; intros c K; inversion K; subst; constructor; [eapply kept_trans; eassumption|auto]. Qed.
Lemma F2_set : forall l i t t', nth_error l i = Some t -> kept t t' -> Forall2 kept l (set_nth l i t').
Proof.
  induction l as [|u l IH]; intros [|i] t t' E K; cbn in *; try discriminate.
  - injection E as ->. constructor; [exact K|apply F2_refl]. - constructor; [apply kept_refl|apply (IH i t); assumption].
Qed.
Lemma kept_new_var (s s' : st lra) i x : lra_new_var s i = Ok (s', x) -> Forall2 kept (theories s) (theories s').
Proof.
  unfold lra_new_var, with_th. destruct (nth_error (theories s) i) as [t|] eqn:Ei; [|discriminate]. destruct (t_new_var t) as [t1 y] eqn:E1. intros E; injection E as <- _. cbn. apply (F2_set _ _ t); [exact Ei|]. pose proof (kept_var t) as K. rewrite E1 in K. exact K.
Qed.
Lemma kept_new_slack (s s' : st lra) i l x : lra_new_slack s i l = Ok (s', x) -> Forall2 kept (theories s) (theories s').
Proof.
  unfold lra_new_slack, with_th. destruct (nth_error (theories s) i) as [t|] eqn:Ei; [|discriminate]. destruct (t_new_slack _ t l) as [[t1 y]| |] eqn:E1; cbn [rbind]; try discriminate. intros E; injection E as <- _. cbn. apply (F2_set _ _ t); [exact Ei|]. eapply kept_slack, E1.
Qed.
Lemma kept_asrt t sd x c v : kept t (add_asrt t sd x c v). Proof. split; cbn; auto. Qed.
Lemma nth_set_same {A} : forall (l : list A) i t u, nth_error l i = Some u -> nth_error (set_nth l i t) i = Some t.
Proof. induction l as [|a l IH]; intros [|i] t u E; cbn in *; try discriminate; [reflexivity|]. apply (IH i t u E). Qed.
Lemma kept_cmp (s s' : st lra) i sd strict l r p : lra_cmp s i sd strict l r = Ok (s', p) -> Forall2 kept (theories s) (theories s').
Proof.
  unfold lra_cmp, with_th. destruct (nth_error (theories s) i) as [t|] eqn:Ei; [|discriminate]. cbv zeta. destruct (cmp_sat _ _ _ _); [intros E; injection E as <- _; apply F2_refl|]. destruct (cmp_unsat _ _ _ _); [intros E; injection E as <- _; apply F2_refl|].
  destruct (t_new_slack _ t _) as [[t1 y]| |] eqn:E1; cbn [rbind]; try discriminate. assert (K1 : Forall2 kept (theories s) (set_nth (theories s) i t1)) by (apply (F2_set _ _ t); [exact Ei|eapply kept_slack, E1]).
  destruct (cmp_sat _ _ _ _); [intros E; injection E as <- _; exact K1|]. destruct (cmp_unsat _ _ _ _); [intros E; injection E as <- _; exact K1|]. destruct (find_asrt _ _ _ _); [intros E; injection E as <- _; exact K1|].
  unfold new_var. intros E; injection E as <- _. unfold bind. match goal with |- context [if ?b then _ else _] => destruct b end; cbn; apply (F2_trans _ _ _ K1); (apply (F2_set _ _ t1); [apply (nth_set_same _ _ _ t Ei)|apply kept_asrt]).
Qed.
Lemma kept_eq (s s' : st lra) i l r p : lra_new_eq s i l r = Ok (s', p) -> Forall2 kept (theories s) (theories s').
Proof.
  unfold lra_new_eq. destruct (lra_new_geq s i l r) as [[s1 p1]| |] eqn:E1; cbn [rbind]; try discriminate. destruct (lra_new_leq s1 i l r) as [[s2 p2]| |] eqn:E2; cbn [rbind]; try discriminate. intros E.
  apply kept_cmp in E1. apply kept_cmp in E2. apply K_new_conj in E. rewrite E. eapply F2_trans; eassumption.
Qed.
Lemma UPn_kept t w t' : UPn (t, w) -> kept t t' -> UPn (t', w).
Proof.
  intros [[A B] D] [N V]. split; [split|].
  - intros x l v0 Hi. cbn in *. rewrite (A x l v0 Hi). symmetry. apply V. apply (D x l v0 Hi). - exact B. - intros x l v0 Hi. cbn in *. specialize (D x l v0 Hi). lia.
Qed.
Lemma UPn_dress : forall (ts : list lraL) us, (forall a, In a ts -> UPn a) -> Forall2 kept (map fst ts) us -> forall a, In a (combine us (map snd ts)) -> UPn a.
Proof.
  induction ts as [|[t w] ts IH]; intros us H F a Ha; cbn in *; inversion F as [|? u ? us' F1 F2]; subst; cbn in Ha; [destruct Ha|]. destruct Ha as [<-|Ha]; [apply (UPn_kept t); [apply H; left; reflexivity|exact F1]|]. apply (IH us'); [intros b Hb; apply H; right; exact Hb|exact F2|exact Ha].
Qed.
Lemma UPn_lift {A} (f : st lra -> res (st lra * A)) (Hf : forall s s' a, f s = Ok (s', a) -> Forall2 kept (theories s) (theories s')) s s' a : PT UPn s -> lift f s = Ok (s', a) -> PT UPn s'.
Proof.
  intros H. unfold lift. destruct (f (bare s)) as [[s1 b]| |] eqn:E1; cbn [rbind]; try discriminate. intros E; injection E as <- <-. intros u Hu. cbn in Hu. eapply UPn_dress; [exact H| |exact Hu]. apply Hf in E1. exact E1.
Qed.
Lemma heard_none t w x l : UPn (t, w) -> has_lis w x l = false -> heard w l x = [].
Proof.
  intros [[_ B] _] Hn. unfold heard. destruct (filter _ (ltold w)) as [|[[a y] v] r] eqn:E; [reflexivity|]. exfalso. assert (Hi : In (a, y, v) ((a, y, v) :: r)) by (left; reflexivity). rewrite <- E in Hi. apply filter_In in Hi as [Hi He]. cbn in He. apply andb_prop in He as [E1 E2]. apply Nat.eqb_eq in E1. apply Nat.eqb_eq in E2. subst a y.
  destruct (B _ _ _ Hi) as (v0 & Hv). cbn in Hv. unfold has_lis in Hn. assert (X : existsb (fun e => (fst (fst e) =? x) && (snd (fst e) =? l)) (lsn w) = true) by (apply existsb_exists; exists (x, l, v0); split; [exact Hv|cbn; rewrite !Nat.eqb_refl; reflexivity]). congruence.
Qed.
Lemma UPn_listen a x l : UPn a -> x < nx (fst a) -> UPn (lra_listen a x l).
Proof.
  destruct a as [t w]. intros H Hx. unfold lra_listen. destruct (_ && _) eqn:E; [|exact H]. apply andb_prop in E as [_ E]. apply negb_true_iff in E. pose proof (heard_none t w x l H E) as Hh. destruct H as [[A B] D]. split; [split|].
  - intros y k v0 Hi. cbn in Hi. unfold known, heard in *. cbn [ltold fst snd]. destruct Hi as [Hi|Hi]; [injection Hi as <- <- <-; rewrite Hh; reflexivity|apply (A y k v0 Hi)].
  - intros k y v Hi. cbn in *. destruct (B k y v Hi) as (v0 & Hv). exists v0. right. exact Hv.
  - intros y k v0 [Hi|Hi]; [injection Hi as <- <- <-; exact Hx|apply (D y k v0 Hi)].
Qed.
Lemma UPn_vstep ord fuel fl s c s' r : PT UPn s -> vstep ord fuel fl s c = Ok (s', r) -> PT UPn s'.
Proof.
  intros H. destruct c as [c|i|i l|i sd strict l r0|i l r0|i x k]; cbn [vstep].
  - apply UPn_step, H.
  - destruct (lift _ s) as [[s1 x]| |] eqn:E1; cbn [rbind]; try discriminate. intros E; injection E as <- _. eapply UPn_lift; [|exact H|exact E1]. intros ? ? ?. apply kept_new_var.
  - destruct (lift _ s) as [[s1 x]| |] eqn:E1; cbn [rbind]; try discriminate. intros E; injection E as <- _. eapply UPn_lift; [|exact H|exact E1]. intros ? ? ?. apply kept_new_slack.
  - destruct (lift _ s) as [[s1 x]| |] eqn:E1; cbn [rbind]; try discriminate. intros E; injection E as <- _. eapply UPn_lift; [|exact H|exact E1]. intros ? ? ?. apply kept_cmp.
  - destruct (lift _ s) as [[s1 x]| |] eqn:E1; cbn [rbind]; try discriminate. intros E; injection E as <- _. eapply UPn_lift; [|exact H|exact E1]. intros ? ? ?. apply kept_eq.
  - destruct (nth_error (theories s) i) as [a|] eqn:Ei; [|discriminate]. intros E. apply guard_ok in E as [Hx E]. injection E as <- _. apply Nat.ltb_lt in Hx. eapply (PT_set _ s); [exact Ei| |reflexivity|exact H]. intros Ha. apply UPn_listen; assumption.
Qed.
Theorem vhist_up ord fuel k cs s : VHist ord fuel k cs s -> PT UPn s.
Proof.
  induction 1 as [|cs s c fl s' r H IH E].
  - intros t Ht. cbn in Ht. apply repeat_spec in Ht. subst t. split; [split|]; cbn; intros; contradiction.
  - eapply UPn_vstep; eassumption.
Qed.

(** ** Registered once, told for ever. *)
Inductive VRun ord fuel (s0 : st lraL) : st lraL -> Prop :=
  | VR0 : VRun ord fuel s0 s0
  | VR1 s c fl s' r : VRun ord fuel s0 s -> vstep ord fuel fl s c = Ok (s', r) -> VRun ord fuel s0 s'.
Definition lsn_at (s : st lraL) (i : nat) : option (list (nat * nat * qe)) := option_map (fun a => lsn (snd a)) (nth_error (theories s) i).
Lemma step_lsn ord fuel fl (s s' : st lraL) c r i : step (ops := lraL_ops ord fuel) fl s c = Ok (s', r) -> lsn_at s' i = lsn_at s i.
Proof.
  intros E. assert (K : map regs (theories s') = map regs (theories s)).
  { eapply (K_step (lraL_ops ord fuel) regs); [| | | |exact E].
    - intros t val p t' ls cf H. apply (nx_prop _ _ _ _ _ _ _ H).
    - intros t val t' cf H. apply (nx_check _ _ _ _ H).
    - intros t. reflexivity.
    - intros t. apply regs_pop. }
  unfold lsn_at. apply (f_equal (fun l => nth_error (map snd l) i)) in K. rewrite !map_map, !nth_error_map in K. exact K.
Qed.
Lemma F2_nth : forall l l' i, Forall2 kept l l' -> nth_error l i = None <-> nth_error l' i = None.
Proof. intros l l' i H. revert i. induction H; intros [|i]; cbn; try tauto; [split; discriminate|apply IHForall2]. Qed.
Lemma lift_lsn {A} (f : st lra -> res (st lra * A)) (Hf : forall s s' a, f s = Ok (s', a) -> Forall2 kept (theories s) (theories s')) s s' b i : lift f s = Ok (s', b) -> lsn_at s' i = lsn_at s i.
Proof.
  unfold lift. destruct (f (bare s)) as [[s1 b1]| |] eqn:E1; cbn [rbind]; try discriminate. intros E; injection E as <- <-. apply Hf in E1. cbn in E1. unfold lsn_at. cbn. revert i E1. generalize (theories s), (theories s1).
  intros ts. induction ts as [|a ts IH]; intros us i F; cbn in F; inversion F as [|? u ? us' F1 F2]; subst; cbn; [destruct i; reflexivity|]. destruct i as [|i]; cbn; [reflexivity|apply IH, F2].
Qed.
(** A call other than a registration of [x] with [k] does not change who listens to what; a registration only adds. *)
Lemma vstep_lsn ord fuel fl s c s' r i : vstep ord fuel fl s c = Ok (s', r) -> lsn_at s' i = lsn_at s i \/ exists x k a, c = VListen i x k /\ nth_error (theories s) i = Some a /\ nth_error (theories s') i = Some (lra_listen a x k).
Proof.
  destruct c as [c|j|j l|j sd strict l r0|j l r0|j x k]; cbn [vstep].
  - intros E. left. eapply step_lsn, E.
  - destruct (lift _ s) as [[s1 x]| |] eqn:E1; cbn [rbind]; try discriminate. intros E; injection E as <- _. left. eapply lift_lsn; [|exact E1]. intros ? ? ?. apply kept_new_var.
  - destruct (lift _ s) as [[s1 x]| |] eqn:E1; cbn [rbind]; try discriminate. intros E; injection E as <- _. left. eapply lift_lsn; [|exact E1]. intros ? ? ?. apply kept_new_slack.
  - destruct (lift _ s) as [[s1 x]| |] eqn:E1; cbn [rbind]; try discriminate. intros E; injection E as <- _. left. eapply lift_lsn; [|exact E1]. intros ? ? ?. apply kept_cmp.
  - destruct (lift _ s) as [[s1 x]| |] eqn:E1; cbn [rbind]; try discriminate. intros E; injection E as <- _. left. eapply lift_lsn; [|exact E1]. intros ? ? ?. apply kept_eq.
  - destruct (nth_error (theories s) j) as [a|] eqn:Ei; [|discriminate]. intros E. apply guard_ok in E as [Hx E]. injection E as <- _. destruct (Nat.eq_dec i j) as [->|Hn].
    + right. exists x, k, a. cbn. rewrite (nth_set_same _ _ _ a Ei). auto.
    + left. unfold lsn_at. cbn. f_equal. rewrite nth_set_nth by (apply nth_error_Some; congruence). apply Nat.eqb_neq in Hn. rewrite Hn. reflexivity.
Qed.
Lemma listen_lsn a x k : lsn (snd (lra_listen a x k)) = lsn (snd a) \/ exists v, lsn (snd (lra_listen a x k)) = (x, k, v) :: lsn (snd a).
Proof. destruct a as [t w]. unfold lra_listen. destruct (_ && _); [right; eexists; reflexivity|left; reflexivity]. Qed.
Lemma run_lsn ord fuel s0 s i x k v0 : VRun ord fuel s0 s -> (exists l, lsn_at s0 i = Some l /\ In (x, k, v0) l) -> exists l, lsn_at s i = Some l /\ In (x, k, v0) l.
Proof.
  induction 1 as [|s c fl s' r H IH E]; intros H0; [exact H0|]. destruct (IH H0) as (l & El & Hl). destruct (vstep_lsn _ _ _ _ _ _ _ i E) as [K|(y & j & a & -> & Ea & Ea')]; [exists l; rewrite K; auto|].
  unfold lsn_at in *. rewrite Ea in El. cbn in El. injection El as <-. rewrite Ea'. cbn. eexists. split; [reflexivity|]. destruct (listen_lsn a y j) as [->|(v & ->)]; [exact Hl|right; exact Hl].
Qed.
Lemma hist_lsn ord fuel n cs s i x k v0 l : VHist ord fuel n cs s -> lsn_at s i = Some l -> In (x, k, v0) l -> In (VListen i x k) cs.
Proof.
  intros H. revert l. induction H as [|cs s c fl s' r H IH E]; intros l El Hl.
  - unfold lsn_at in El. cbn in El. destruct (nth_error (repeat _ n) i) as [a|] eqn:Ea; [|discriminate]. apply nth_error_In, repeat_spec in Ea. subst a. cbn in El. injection El as <-. destruct Hl.
  - apply in_app_iff. destruct (vstep_lsn _ _ _ _ _ _ _ i E) as [K|(y & j & a & -> & Ea & Ea')]; [left; apply (IH l); [congruence|exact Hl]|].
    unfold lsn_at in El, IH. rewrite Ea' in El. cbn in El. injection El as <-. rewrite Ea in IH. cbn in IH. destruct (listen_lsn a y j) as [K|(v & K)]; rewrite K in Hl; [left; apply (IH _ eq_refl Hl)|]. destruct Hl as [Hl|Hl]; [injection Hl as <- <- _; right; left; reflexivity|left; apply (IH _ eq_refl Hl)].
Qed.
Lemma run_hist ord fuel n cs s0 s : VHist ord fuel n cs s0 -> VRun ord fuel s0 s -> exists cs', VHist ord fuel n cs' s.
Proof. intros H R. induction R as [|s c fl s' r R IH E]; [eauto|]. destruct IH as (cs' & IH). eexists. eapply VH1; eassumption. Qed.
(** The bounds of [x] differ. *)
Definition open_ (t : lra) (x : nat) : Prop := match bound t Lo x, bound t Up x with Some b, Some u => qe_leb u b = false | _, _ => True end.
Theorem listens ord fuel n cs s i t w x k fl s1 r s2 t2 w2 : VHist ord fuel n cs s -> nth_error (theories s) i = Some (t, w) -> open_ t x -> ~ In (VListen i x k) cs ->
  vstep ord fuel fl s (VListen i x k) = Ok (s1, r) -> VRun ord fuel s1 s2 -> nth_error (theories s2) i = Some (t2, w2) -> hd (vals t x) (heard w2 k x) = vals t2 x.
Proof.
  intros H Ei Ho Hn E R E2. assert (H1 : VHist ord fuel n (cs ++ [VListen i x k]) s1) by (eapply VH1; eassumption). destruct (run_hist _ _ _ _ _ _ H1 R) as (cs' & H2). pose proof (vhist_up _ _ _ _ _ H2 _ (nth_error_In _ _ E2)) as [[U _] _].
  apply (U x k (vals t x)). assert (K : exists l, lsn_at s2 i = Some l /\ In (x, k, vals t x) l).
  { apply (run_lsn _ _ _ _ _ _ _ _ R). cbn [vstep] in E. rewrite Ei in E. apply guard_ok in E as [_ E]. injection E as <- _. unfold lsn_at. cbn [theories set_theories]. rewrite (nth_set_same _ _ _ _ Ei). cbn [option_map]. eexists. split; [reflexivity|].
    unfold lra_listen. assert (Hh : has_lis w x k = false).
    { destruct (has_lis w x k) eqn:Eh; [|reflexivity]. exfalso. unfold has_lis in Eh. apply existsb_exists in Eh as ([[a b] v] & Hi & He). cbn in He. apply andb_prop in He as [A B]. apply Nat.eqb_eq in A. apply Nat.eqb_eq in B. subst a b. apply Hn. eapply hist_lsn; [exact H| |exact Hi]. unfold lsn_at. rewrite Ei. reflexivity. }
    rewrite Hh. assert (Hb : match bound t Lo x, bound t Up x with Some b, Some u => negb (qe_leb u b) | _, _ => true end = true) by (unfold open_ in Ho; destruct (bound t Lo x), (bound t Up x); try reflexivity; rewrite Ho; reflexivity). rewrite Hb. left. reflexivity. }
  destruct K as (l & El & Hl). unfold lsn_at in El. rewrite E2 in El. injection El as <-. exact Hl.
Qed.
(** Nobody is told anything about a variable it never asked about. *)
Theorem only_registered ord fuel n cs s i t w k x v : VHist ord fuel n cs s -> nth_error (theories s) i = Some (t, w) -> In (k, x, v) (ltold w) -> In (VListen i x k) cs.
Proof.
  intros H Ei Hi. pose proof (vhist_up _ _ _ _ _ H _ (nth_error_In _ _ Ei)) as [[_ U] _]. destruct (U k x v Hi) as (v0 & Hv). eapply hist_lsn; [exact H| |exact Hv]. unfold lsn_at. rewrite Ei. reflexivity.
Qed.

(** Executable histories. *)
Fixpoint vexec ord fuel (fl : nat) (s : st lraL) (cs : list vcall) : option (st lraL) :=
  match cs with [] => Some s | c :: r => match vstep ord fuel fl s c with Ok (s', _) => vexec ord fuel fl s' r | _ => None end end.
Lemma vexec_hist ord fuel fl n : forall cs cs0 s s', VHist ord fuel n cs0 s -> vexec ord fuel fl s cs = Some s' -> VHist ord fuel n (cs0 ++ cs) s'.
Proof.
  induction cs as [|c cs IH]; intros cs0 s s' H; cbn; [intros E; injection E as <-; rewrite app_nil_r; exact H|]. destruct (vstep _ _ _ _ _) as [[s1 r]| |] eqn:E1; try discriminate. intros E.
  replace (cs0 ++ c :: cs) with ((cs0 ++ [c]) ++ cs) by (rewrite <- app_assoc; reflexivity). eapply IH; [|exact E]. eapply VH1; eassumption.
Qed.
Lemma vexec_run ord fuel fl s0 : forall cs s s', VRun ord fuel s0 s -> vexec ord fuel fl s cs = Some s' -> VRun ord fuel s0 s'.
Proof.
  induction cs as [|c cs IH]; intros s s' H; cbn; [intros E; injection E as <-; exact H|]. destruct (vstep _ _ _ _ _) as [[s1 r]| |] eqn:E1; try discriminate. intros E. eapply IH; [|exact E]. eapply VR1; eassumption.
Qed.
End Srt.
