(** The invariant of the SAT core, and its preservation by the elementary operations. *)
From Verif Require Import Base Sat SatSpec.

(** Number of level separators at or below position [i]: the level of the literal at position [i] of
    the trail. *)
Definition lvl_at (lims : list nat) (i : nat) : nat := length (filter (fun n => n <=? i) lims).
Definition b2n (b : bool) : nat := if b then 1 else 0.
(** How many times a clause must occur in the watch list of [p]. *)
Definition wcount (ls : list lit) (p : lit) : nat :=
  match ls with
  | a :: b :: _ => b2n (lit_eqb (negl a) p) + b2n (lit_eqb (negl b) p)
  | _ => 0
  end.
Definition desc (a b : nat) : Prop := b <= a.

Section Inv.
Context {T : Type} {ops : theory_ops T} (C : contract ops).
Notation st := (st T).

(** Trail, levels, decisions. *)
Record InvT (s : st) : Prop := {
  t_nv : 0 < nv s;
  t_a0 : assigns s 0 = LFalse;
  t_l0 : level s 0 = 0;
  t_out : forall v, nv s <= v -> assigns s v = LUndef;
  t_undef : forall v, assigns s v = LUndef -> level s v = 0 /\ reason s v = None;
  t_true : forall p, In p (trail s) -> value s p = LTrue;
  t_no0 : forall p, In p (trail s) -> lvar p <> 0;
  t_nodup : NoDup (map lvar (trail s));
  t_level : forall pre p post, trail s = pre ++ p :: post ->
              level s (lvar p) = lvl_at (trail_lim s) (length post);
  t_on : forall v, level s v <> 0 -> In v (map lvar (trail s));
  t_lim : StronglySorted desc (trail_lim s);
  t_lim_le : forall n, In n (trail_lim s) -> n <= length (trail s);
  t_dec : length (decisions s) = length (trail_lim s);
  t_drange : forall p, In p (decisions s) -> lvar p < nv s;
  t_rnone : forall pre p post, trail s = pre ++ p :: post -> reason s (lvar p) = None ->
              level s (lvar p) <> 0 ->
              exists k, nth_error (decisions s) k = Some p /\ nth_error (trail_lim s) k = Some (length post) }.

(** False for ever. *)
Definition dead (s : st) (p : lit) : bool := is_false s p && (level s (lvar p) =? 0).

(** Clauses and watch lists. *)
Record InvC (s : st) : Prop := {
  c_nodup : NoDup (constrs s);
  c_lt : forall c, In c (constrs s) -> c < ncid s;
  c_shape : forall c, In c (constrs s) -> exists a b r, cls s c = a :: b :: r /\ a <> b;
  c_range : forall c, In c (constrs s) -> forall p, In p (cls s c) -> lvar p < nv s;
  c_compl : forall c, In c (constrs s) -> forall p q, In p (cls s c) -> In q (cls s c) ->
              lvar p = lvar q -> p = q;
  c_dup : forall c, In c (constrs s) -> NoDup (filter (fun p => negb (dead s p)) (cls s c));
  c_watch : forall c, In c (constrs s) -> forall p,
              count_occ Nat.eq_dec (watches s p) c = wcount (cls s c) p;
  c_owned : forall c p, In c (watches s p) -> In c (constrs s) }.

(** Reasons. *)
Record InvR (s : st) : Prop := {
  r_in : forall v c, reason s v = Some c -> In c (constrs s) /\
           exists p r, lvar p = v /\ value s p = LTrue /\ cls s c = p :: r /\
                       forall q, In q r -> value s q = LFalse;
  r_before : forall pre p post c, trail s = pre ++ p :: post -> reason s (lvar p) = Some c ->
           forall q, In q (tl (cls s c)) -> In (negl q) post \/ ~ In (lvar q) (map lvar (trail s));
  r_off : forall v c, ~ In v (map lvar (trail s)) -> reason s v = Some c ->
           forall q, In q (tl (cls s c)) -> ~ In (lvar q) (map lvar (trail s)) }.

(** Watch semantics, up to a set of pending literals. *)
Definition half (s : st) (pend : lit -> Prop) (x y : lit) : Prop :=
  value s x = LFalse ->
  pend (negl x) \/ (value s y = LTrue /\ level s (lvar y) <= level s (lvar x)).
Definition InvW (wp : nat -> lit -> Prop) (s : st) : Prop :=
  forall c, In c (constrs s) -> forall a b r, cls s c = a :: b :: r ->
    half s (wp c) a b /\ half s (wp c) b a.

Record InvQ (s : st) : Prop := {
  q_on : forall p, In p (prop_q s) -> In p (trail s) /\ level s (lvar p) = dlevel s;
  q_nodup : NoDup (prop_q s) }.

(** One theory: its views and its registration. *)
Definition th_views (strict : Prop) (pend : lit -> Prop) (s : st) (t : T) (vs : list (list lit)) : Prop :=
  th_inv C t vs /\ length vs = S (dlevel s) /\
  (forall j v l, nth_error vs j = Some v -> strict \/ 0 < j -> In l v ->
     value s l = LTrue /\ level s (lvar l) = dlevel s - j) /\
  (forall l, th_atom C t (lvar l) -> value s l = LTrue ->
     pend l \/ exists j v, nth_error vs j = Some v /\ In l v /\ level s (lvar l) = dlevel s - j).
Record InvTh (strict : Prop) (tp : nat -> lit -> Prop) (s : st) : Prop := {
  h_views : forall i t, nth_error (theories s) i = Some t -> exists vs, th_views strict (tp i) s t vs;
  h_range : forall i t v, nth_error (theories s) i = Some t -> th_atom C t v -> 0 < v < nv s;
  h_bound : forall i t v, nth_error (theories s) i = Some t -> th_atom C t v ->
      assigns s v = LUndef \/ level s v <> 0 \/ (exists l, lvar l = v /\ In l (prop_q s)) -> In i (bounds s v);
  h_owned : forall i v, In i (bounds s v) -> exists t, nth_error (theories s) i = Some t /\ th_atom C t v;
  h_nodup : forall v, NoDup (bounds s v);
  h_fixed : forall i t n v, nth_error (theories s) i = Some t -> th_fixed C t n v -> strict \/ 0 < n ->
      assigns s v <> LUndef /\ level s v + n <= dlevel s }.

(** The invariant at API level: everything pending is in the queue. *)
Record Inv (s : st) : Prop := {
  i_t : InvT s;
  i_c : InvC s;
  i_r : InvR s;
  i_w : InvW (fun _ l => In l (prop_q s)) s;
  i_q : InvQ s;
  i_h : InvTh True (fun _ l => In l (prop_q s)) s }.

(** The invariant while a conflict is being analysed: everything of the current level is pending. *)
Record InvX (s : st) : Prop := {
  x_t : InvT s;
  x_c : InvC s;
  x_r : InvR s;
  x_w : InvW (fun _ l => level s (lvar l) = dlevel s) s;
  x_q : prop_q s = [];
  x_h : InvTh False (fun _ l => level s (lvar l) = dlevel s) s }.

(** The theories have been checked. *)
Definition settled (s : st) : Prop := forall t, In t (theories s) -> th_feas C t.

(** ** Basic facts. *)

Lemma value_negl (s : st) p : value s (negl p) = lneg (value s p).
Proof. unfold value, vlit; cbn. destruct (assigns s (lvar p)), (lsgn p); reflexivity. Qed.
Lemma is_true_iff (s : st) p : is_true s p = true <-> value s p = LTrue.
Proof. unfold is_true; destruct (lbool_eqb_spec (value s p) LTrue); split; congruence. Qed.
Lemma is_false_iff (s : st) p : is_false s p = true <-> value s p = LFalse.
Proof. unfold is_false; destruct (lbool_eqb_spec (value s p) LFalse); split; congruence. Qed.
Lemma is_undef_iff (s : st) p : is_undef s p = true <-> value s p = LUndef.
Proof. unfold is_undef; destruct (lbool_eqb_spec (value s p) LUndef); split; congruence. Qed.
Lemma value_undef (s : st) p : value s p = LUndef <-> assigns s (lvar p) = LUndef.
Proof. unfold value, vlit; destruct (assigns s (lvar p)), (lsgn p); split; congruence. Qed.
Lemma value_true_false (s : st) p : value s p = LTrue <-> value s (negl p) = LFalse.
Proof. rewrite value_negl; destruct (value s p); cbn; split; congruence. Qed.
Lemma value_false_true (s : st) p : value s p = LFalse <-> value s (negl p) = LTrue.
Proof. rewrite value_negl; destruct (value s p); cbn; split; congruence. Qed.
Lemma value_same_var (s : st) p q : lvar p = lvar q -> value s p = LTrue -> value s q = LTrue -> p = q.
Proof.
  intros Hv Hp Hq. destruct (same_var p q Hv) as [|E]; [assumption|].
  subst p. rewrite value_negl, Hq in Hp; discriminate.
Qed.

Lemma filter_len_le {A} (f : A -> bool) l : length (filter f l) <= length l.
Proof. induction l as [|x l IH]; cbn; [lia|]. destruct (f x); cbn; lia. Qed.
Lemma filter_len_all {A} (f : A -> bool) l :
  length (filter f l) = length l <-> (forall x, In x l -> f x = true).
Proof.
  induction l as [|x l IH]; cbn; [split; [contradiction|reflexivity]|].
  pose proof (filter_len_le f l). destruct (f x) eqn:E; cbn.
  - split.
    + intros H1 y [->|Hy]; [exact E|]. apply IH; [lia|exact Hy].
    + intros H1. f_equal. apply IH. intros y Hy; apply H1; right; exact Hy.
  - split; [lia|]. intros H1. rewrite (H1 x (or_introl eq_refl)) in E; discriminate.
Qed.
Lemma NoDup_filter_weaken {A} (f g : A -> bool) l :
  (forall x, In x l -> g x = true -> f x = true) -> NoDup (filter f l) -> NoDup (filter g l).
Proof.
  induction l as [|x l IH]; cbn; intros H Hn; [constructor|].
  assert (Hl : NoDup (filter g l)).
  { apply IH; [intros; apply H; auto|]. destruct (f x); [inversion Hn; assumption|exact Hn]. }
  destruct (g x) eqn:Eg; [|exact Hl]. constructor; [|exact Hl].
  rewrite (H x (or_introl eq_refl) Eg) in Hn. inversion Hn as [|? ? Hx _]; subst.
  intros Hi; apply Hx. apply filter_In in Hi as [Hi Hg]. apply filter_In; auto.
Qed.

Lemma dlevel_lvl (s : st) i : lvl_at (trail_lim s) i <= dlevel s.
Proof. unfold lvl_at, dlevel. apply filter_len_le. Qed.
Lemma lvl_at_top (s : st) i : (forall n, In n (trail_lim s) -> n <= i) -> lvl_at (trail_lim s) i = dlevel s.
Proof. intros H. apply filter_len_all. intros n Hn. apply Nat.leb_le, H, Hn. Qed.
Lemma lvl_at_mono lims i j : i <= j -> lvl_at lims i <= lvl_at lims j.
Proof.
  intros H; unfold lvl_at; induction lims as [|n l IH]; cbn; [lia|].
  destruct (Nat.leb_spec n i), (Nat.leb_spec n j); cbn; lia.
Qed.
Lemma root_dlevel (s : st) : root_level s = true <-> dlevel s = 0.
Proof. unfold root_level, dlevel; destruct (trail_lim s); cbn; split; congruence. Qed.
Lemma root_dlevel_false (s : st) : root_level s = false <-> dlevel s <> 0.
Proof. unfold root_level, dlevel; destruct (trail_lim s); cbn; split; congruence. Qed.

Lemma level_le (s : st) : InvT s -> forall v, level s v <= dlevel s.
Proof.
  intros H v. destruct (Nat.eq_dec (level s v) 0) as [E|E]; [lia|].
  apply (t_on s H) in E. apply in_map_iff in E as (p & <- & Hp).
  apply in_split in Hp as (pre & post & E). rewrite (t_level s H _ _ _ E). apply dlevel_lvl.
Qed.
Lemma trail_range (s : st) : InvT s -> forall p, value s p <> LUndef -> lvar p < nv s.
Proof.
  intros H p Hp. destruct (Nat.lt_ge_cases (lvar p) (nv s)) as [|Hv]; [assumption|].
  exfalso; apply Hp. apply value_undef. apply (t_out s H _ Hv).
Qed.
(** A level-[dl] literal of the trail only has literals of that level above it. *)
Lemma level_above (s : st) : InvT s -> forall pre p mid q post,
  trail s = pre ++ p :: mid ++ q :: post -> level s (lvar q) <= level s (lvar p).
Proof.
  intros H pre p mid q post E.
  rewrite (t_level s H pre p (mid ++ q :: post) E).
  rewrite (t_level s H (pre ++ p :: mid) q post).
  - apply lvl_at_mono. rewrite app_length; cbn; lia.
  - rewrite E, <- app_assoc. reflexivity.
Qed.
Lemma true_lit_true (s : st) : InvT s -> value s TRUE_lit = LTrue.
Proof. intros H; unfold value, vlit; cbn; rewrite (t_a0 s H); reflexivity. Qed.

(** ** [enqueue] of an unassigned literal. *)
Definition enq (s : st) (p : lit) (c : option nat) : st :=
  let v := lvar p in
  let b := if lsgn p then LTrue else LFalse in
  mk_st (nv s) (cls s) (ncid s) (constrs s) (watches s) (upd (assigns s) v b)
       (upd (level s) v (dlevel s)) (upd (reason s) v c) (prop_q s ++ [p]) (p :: trail s)
       (trail_lim s) (decisions s) (exprs s) (theories s) (bounds s)
       (if root_level s then upd (listening s) v [] else listening s)
       (notify (listening s v) v b (log s)).
Lemma enqueue_undef (s : st) p c : value s p = LUndef -> enqueue s p c = (enq s p c, true).
Proof. unfold enqueue; intros ->; reflexivity. Qed.
Lemma value_enq (s : st) p c q : value (enq s p c) q = ov (value s) p q.
Proof.
  unfold value, vlit, ov, enq; cbn.
  destruct (lit_eqb_spec q p) as [->|Hq].
  - rewrite upd_eq. destruct (lsgn p); reflexivity.
  - destruct (lit_eqb_spec q (negl p)) as [->|Hq'].
    + rewrite lvar_negl, upd_eq. cbn. destruct (lsgn p); reflexivity.
    + rewrite upd_neq; [reflexivity|]. intros E.
      destruct (same_var q p E); congruence.
Qed.
Lemma ov_mono (val : lit -> lbool) p q :
  val p = LUndef -> val (negl p) = LUndef -> val q <> LUndef -> ov val p q = val q.
Proof.
  intros Hp Hn Hq; unfold ov.
  destruct (lit_eqb_spec q p); [congruence|]. destruct (lit_eqb_spec q (negl p)); congruence.
Qed.
Lemma ov_true (val : lit -> lbool) p q : ov val p q = LTrue -> q = p \/ val q = LTrue.
Proof.
  unfold ov. destruct (lit_eqb_spec q p); [auto|].
  destruct (lit_eqb_spec q (negl p)); [discriminate|auto].
Qed.
Lemma ov_false (val : lit -> lbool) p q : ov val p q = LFalse -> q = negl p \/ val q = LFalse.
Proof.
  unfold ov. destruct (lit_eqb_spec q p); [discriminate|].
  destruct (lit_eqb_spec q (negl p)); auto.
Qed.
Lemma value_enq_mono (s : st) p c q : value s p = LUndef -> value s q <> LUndef ->
  value (enq s p c) q = value s q.
Proof.
  intros Hp Hq. rewrite value_enq. apply ov_mono; [exact Hp| |exact Hq].
  rewrite value_negl, Hp; reflexivity.
Qed.
Lemma level_enq_mono (s : st) p c q : value s p = LUndef -> value s q <> LUndef ->
  level (enq s p c) (lvar q) = level s (lvar q).
Proof.
  intros Hp Hq; cbn. apply upd_neq. intros E. apply Hq. apply value_undef.
  rewrite E. apply value_undef, Hp.
Qed.

Lemma split_cons {A} (x : A) l pre p post :
  x :: l = pre ++ p :: post -> (pre = [] /\ x = p /\ l = post) \/ exists pre', pre = x :: pre' /\ l = pre' ++ p :: post.
Proof.
  destruct pre as [|y pre]; cbn; intros E; inversion E; subst; [left; auto|right; eauto].
Qed.

Lemma InvT_enq (s : st) p c : InvT s -> value s p = LUndef -> lvar p < nv s ->
  (c = None -> dlevel s <> 0 -> nth_error (decisions s) 0 = Some p /\ nth_error (trail_lim s) 0 = Some (length (trail s))) ->
  InvT (enq s p c).
Proof.
  intros H Hu Hr Hd. assert (Hv0 : assigns s (lvar p) = LUndef) by (apply value_undef, Hu).
  assert (Hne : lvar p <> 0) by (intros E; rewrite E, (t_a0 s H) in Hv0; discriminate).
  assert (Hnt : ~ In (lvar p) (map lvar (trail s))).
  { intros Hi. apply in_map_iff in Hi as (q & Hq & Hi). apply (t_true s H) in Hi.
    apply (value_undef s q) in Hv0 || (rewrite <- Hq in Hv0; apply value_undef in Hv0; congruence). }
  assert (Htop : lvl_at (trail_lim s) (length (trail s)) = dlevel s) by (apply lvl_at_top, t_lim_le, H).
  constructor; cbn [enq nv assigns level reason trail trail_lim decisions].
  - apply (t_nv s H).
  - rewrite upd_neq by auto. apply (t_a0 s H).
  - rewrite upd_neq by auto. apply (t_l0 s H).
  - intros v Hv. rewrite upd_neq by lia. apply (t_out s H v Hv).
  - intros v. unfold upd. destruct (Nat.eqb_spec v (lvar p)) as [->|Hv].
    + destruct (lsgn p); discriminate.
    + apply (t_undef s H).
  - intros q [->|Hq].
    + rewrite value_enq. unfold ov. rewrite lit_eqb_refl. reflexivity.
    + rewrite value_enq_mono; [apply (t_true s H _ Hq)|exact Hu|]. rewrite (t_true s H _ Hq); discriminate.
  - intros q [->|Hq]; [exact Hne|apply (t_no0 s H _ Hq)].
  - cbn. constructor; [exact Hnt|apply (t_nodup s H)].
  - intros pre q post E. apply split_cons in E as [(-> & -> & <-)|(pre' & -> & E)].
    + rewrite upd_eq. symmetry; exact Htop.
    + rewrite upd_neq; [apply (t_level s H _ _ _ E)|]. intros E2. apply Hnt. rewrite <- E2.
      apply in_map. rewrite E. apply in_elt.
  - intros v. unfold upd. destruct (Nat.eqb_spec v (lvar p)) as [->|Hv]; cbn; [auto|].
    intros Hl; right; apply (t_on s H _ Hl).
  - apply (t_lim s H).
  - intros n Hn. cbn. apply (t_lim_le s H) in Hn. lia.
  - apply (t_dec s H).
  - apply (t_drange s H).
  - intros pre q post E. apply split_cons in E as [(-> & -> & <-)|(pre' & -> & E)].
    + rewrite !upd_eq. intros Ec Hl. exists 0. apply Hd; assumption.
    + assert (Hqp : lvar q <> lvar p).
      { intros E2. apply Hnt. rewrite <- E2. apply in_map. rewrite E. apply in_elt. }
      rewrite !upd_neq by exact Hqp. apply (t_rnone s H _ _ _ E).
Qed.

Lemma dead_ext (s s' : st) : (forall p, dead s p = true -> dead s' p = true) ->
  nv s' = nv s -> constrs s' = constrs s -> cls s' = cls s -> ncid s' = ncid s -> watches s' = watches s ->
  InvC s -> InvC s'.
Proof.
  intros Hd E1 E2 E3 E4 E5 H. constructor; rewrite ?E1, ?E2, ?E3, ?E4, ?E5; try apply H.
  intros c Hc. eapply NoDup_filter_weaken; [|apply (c_dup s H c Hc)].
  intros x _. cbn. rewrite !negb_true_iff. intros Hx. destruct (dead s x) eqn:E; [|reflexivity].
  apply Hd in E; congruence.
Qed.
Lemma dead_iff (s : st) p : dead s p = true <-> value s p = LFalse /\ level s (lvar p) = 0.
Proof. unfold dead. rewrite andb_true_iff, is_false_iff, Nat.eqb_eq. reflexivity. Qed.

Lemma InvC_enq (s : st) p c : InvC s -> value s p = LUndef -> InvC (enq s p c).
Proof.
  intros H Hu. apply (dead_ext s); try reflexivity; [|exact H].
  intros q. rewrite !dead_iff. intros [Hq Hl].
  rewrite value_enq_mono, level_enq_mono by congruence. auto.
Qed.

Lemma InvR_enq (s : st) p c : InvT s -> InvR s -> value s p = LUndef ->
  (forall k, c = Some k -> In k (constrs s) /\ exists r, cls s k = p :: r /\ forall q, In q r -> value s q = LFalse) ->
  InvR (enq s p c).
Proof.
  intros HT H Hu Hc. assert (Hv0 : assigns s (lvar p) = LUndef) by (apply value_undef, Hu).
  assert (Hnt : ~ In (lvar p) (map lvar (trail s))).
  { intros Hi. apply in_map_iff in Hi as (q & Hq & Hi). apply (t_true s HT) in Hi.
    rewrite <- Hq in Hv0; apply value_undef in Hv0; congruence. }
  constructor; cbn [enq reason constrs cls trail].
  - intros v k. unfold upd. destruct (Nat.eqb_spec v (lvar p)) as [->|Hv]; intros E.
    + destruct (Hc k E) as (Hk & r & Er & Hr). split; [exact Hk|].
      exists p, r. split; [reflexivity|]. split.
      { rewrite value_enq. unfold ov. rewrite lit_eqb_refl; reflexivity. }
      split; [exact Er|]. intros q Hq. rewrite value_enq_mono; rewrite ?(Hr q Hq); congruence.
    + destruct (r_in s H v k E) as (Hk & q & r & Eq & Hq & Er & Hr). split; [exact Hk|].
      exists q, r. split; [exact Eq|]. split.
      { rewrite value_enq_mono; congruence. }
      split; [exact Er|]. intros x Hx. rewrite value_enq_mono; rewrite ?(Hr x Hx); congruence.
  - intros pre q post k E. apply split_cons in E as [(-> & -> & <-)|(pre' & -> & E)].
    + rewrite upd_eq. intros Ek x Hx. destruct (Hc k Ek) as (Hk & r & Er & Hr).
      rewrite Er in Hx; cbn in Hx. specialize (Hr x Hx).
      destruct (Nat.eq_dec (level s (lvar x)) 0) as [E0|E0].
      * destruct (in_dec Nat.eq_dec (lvar x) (map lvar (trail s))) as [Hi|Hi].
        -- left. apply in_map_iff in Hi as (y & Ey & Hy). 
           replace (negl x) with y; [exact Hy|]. apply (value_same_var s); [exact Ey|apply (t_true s HT _ Hy)|].
           apply value_false_true, Hr.
        -- right. cbn. intros [E2|E2]; [|exact (Hi E2)]. rewrite E2 in Hv0. apply value_undef in Hv0; congruence.
      * apply (t_on s HT) in E0. left. apply in_map_iff in E0 as (y & Ey & Hy).
        replace (negl x) with y; [exact Hy|]. apply (value_same_var s); [exact Ey|apply (t_true s HT _ Hy)|].
        apply value_false_true, Hr.
    + assert (Hqp : lvar q <> lvar p).
      { intros E2. apply Hnt. rewrite <- E2. apply in_map. rewrite E. apply in_elt. }
      rewrite upd_neq by exact Hqp. intros Ek x Hx.
      destruct (r_before s H _ _ _ k E Ek x Hx) as [Hi|Hi]; [left; exact Hi|right].
      cbn. intros [E2|E2]; [|exact (Hi E2)].
      destruct (r_in s H _ k Ek) as (_ & y & r & _ & _ & Er & Hr). rewrite Er in Hx; cbn in Hx.
      specialize (Hr x Hx). rewrite E2 in Hv0; apply value_undef in Hv0; congruence.
  - intros v k Hv. cbn in Hv. rewrite upd_neq by (intros E; apply Hv; left; congruence).
    intros Ek x Hx [E2|E2].
    + destruct (r_in s H _ k Ek) as (_ & y & r & _ & _ & Er & Hr). rewrite Er in Hx; cbn in Hx.
      specialize (Hr x Hx). rewrite E2 in Hv0; apply value_undef in Hv0; congruence.
    + revert E2. apply (r_off s H v k); [|exact Ek|exact Hx]. intros Hi; apply Hv; right; exact Hi.
Qed.

Lemma half_enq (s : st) (pd pd' : lit -> Prop) p c x y : value s p = LUndef ->
  (forall l, pd l -> pd' l) -> pd' p -> half s pd x y -> half (enq s p c) pd' x y.
Proof.
  intros Hu Hm Hp H Hx. rewrite value_enq in Hx. apply ov_false in Hx as [->|Hx].
  - left. rewrite negl_invol; exact Hp.
  - destruct (H Hx) as [Hl|[Hy Hl]]; [left; auto|right].
    rewrite value_enq_mono by congruence. rewrite !level_enq_mono by congruence. auto.
Qed.
Lemma InvW_enq (s : st) (wp wp' : nat -> lit -> Prop) p c : value s p = LUndef ->
  (forall k l, wp k l -> wp' k l) -> (forall k, wp' k p) -> InvW wp s -> InvW wp' (enq s p c).
Proof.
  intros Hu Hm Hp H k Hk a b r E. destruct (H k Hk a b r E) as [H1 H2].
  split; (eapply half_enq with (pd := wp k); [exact Hu|apply Hm|apply Hp|assumption]).
Qed.
Lemma InvQ_enq (s : st) p c : InvT s -> InvQ s -> value s p = LUndef -> InvQ (enq s p c).
Proof.
  intros HT H Hu. constructor; cbn [enq prop_q trail level dlevel trail_lim].
  - intros q Hq. apply in_app_or in Hq as [Hq|[->|[]]].
    + destruct (q_on s H q Hq) as [H1 H2]. split; [right; exact H1|].
      rewrite upd_neq; [exact H2|]. intros E. apply (t_true s HT) in H1.
      apply value_undef in Hu. rewrite <- E in Hu. apply value_undef in Hu; congruence.
    + split; [left; reflexivity|]. apply upd_eq.
  - apply Permutation_NoDup with (l := p :: prop_q s); [apply Permutation_cons_append|].
    constructor; [|apply (q_nodup s H)]. intros Hi. apply (q_on s H) in Hi as [Hi _].
    apply (t_true s HT) in Hi; congruence.
Qed.
Lemma InvTh_enq strict (tp tp' : nat -> lit -> Prop) (s : st) p c : value s p = LUndef ->
  (forall i l, tp i l -> tp' i l) -> (forall i, tp' i p) ->
  InvTh strict tp s -> InvTh strict tp' (enq s p c).
Proof.
  intros Hu Hm Hp H. constructor; cbn [enq theories nv assigns level bounds prop_q].
  - intros i t Et. destruct (h_views _ _ s H i t Et) as (vs & H1 & H2 & H3 & H4). exists vs.
    split; [exact H1|]. split; [exact H2|]. split.
    + intros j v l Ej Hj Hl. destruct (H3 j v l Ej Hj Hl) as [H5 H6].
      rewrite value_enq_mono, level_enq_mono by congruence. auto.
    + intros l Ha Hl. rewrite value_enq in Hl. apply ov_true in Hl as [->|Hl]; [left; auto|].
      destruct (H4 l Ha Hl) as [H5|(j & v & Ej & Hi & El)]; [left; auto|right].
      exists j, v. rewrite level_enq_mono by congruence. auto.
  - apply (h_range _ _ s H).
  - intros i t v Et Ha Hv. apply (h_bound _ _ s H i t v Et Ha).
    unfold upd in Hv. destruct (Nat.eqb_spec v (lvar p)) as [->|Hne].
    + left. apply value_undef, Hu.
    + destruct Hv as [Hv|[Hv|(l & El & Hl)]]; [auto|auto|]. right; right. exists l; split; [exact El|].
      apply in_app_or in Hl as [Hl|[->|[]]]; [exact Hl|]. congruence.
  - apply (h_owned _ _ s H).
  - apply (h_nodup _ _ s H).
  - intros i t n v Et Hf Hn. destruct (h_fixed _ _ s H i t n v Et Hf Hn) as [H1 H2]. unfold upd. change (dlevel (enq s p c)) with (dlevel s).
    destruct (Nat.eqb_spec v (lvar p)) as [->|]; [|auto]. apply value_undef in Hu. contradiction.
Qed.

Lemma Inv_enq (s : st) p c : Inv s -> value s p = LUndef -> lvar p < nv s ->
  (c = None -> dlevel s <> 0 -> nth_error (decisions s) 0 = Some p /\ nth_error (trail_lim s) 0 = Some (length (trail s))) ->
  (forall k, c = Some k -> In k (constrs s) /\ exists r, cls s k = p :: r /\ forall q, In q r -> value s q = LFalse) ->
  Inv (enq s p c).
Proof.
  intros H Hu Hr Hd Hc. destruct H as [HT HC HR HW HQ HH]. constructor.
  - apply InvT_enq; assumption.
  - apply InvC_enq; assumption.
  - apply InvR_enq; assumption.
  - eapply InvW_enq; [exact Hu| | |exact HW]; cbn; intros; apply in_or_app; cbn; auto.
  - apply InvQ_enq; assumption.
  - eapply InvTh_enq; [exact Hu| | |exact HH]; cbn; intros; apply in_or_app; cbn; auto.
Qed.

(** ** [pop_one] of a literal of the current level. *)
Definition pop1 (s : st) (p : lit) (tr : list lit) : st :=
  let v := lvar p in
  mk_st (nv s) (cls s) (ncid s) (constrs s) (watches s) (upd (assigns s) v LUndef)
         (upd (level s) v 0) (upd (reason s) v None) (prop_q s) tr
         (trail_lim s) (decisions s) (exprs s) (theories s) (bounds s) (listening s)
         (notify (listening s v) v LUndef (log s)).
Lemma pop_one_ok (s : st) p tr : trail s = p :: tr -> pop_one s = Ok (pop1 s p tr).
Proof. unfold pop_one; intros ->; reflexivity. Qed.
Lemma value_pop1 (s : st) p tr q :
  value (pop1 s p tr) q = if lvar q =? lvar p then LUndef else value s q.
Proof. unfold value, vlit, pop1, upd; cbn. destruct (lvar q =? lvar p); reflexivity. Qed.
Lemma value_pop1_neq (s : st) p tr q : lvar q <> lvar p -> value (pop1 s p tr) q = value s q.
Proof. intros H; rewrite value_pop1. destruct (Nat.eqb_spec (lvar q) (lvar p)); congruence. Qed.
Lemma level_pop1_neq (s : st) p tr v : v <> lvar p -> level (pop1 s p tr) v = level s v.
Proof. intros H; cbn. apply upd_neq, H. Qed.

(** The trail is above the last separator. *)
Definition above (s : st) : Prop := forall n, In n (trail_lim s) -> n < length (trail s).

Lemma InvT_pop1 (s : st) p tr : InvT s -> trail s = p :: tr -> above s -> InvT (pop1 s p tr).
Proof.
  intros H E Ha. pose proof (t_nodup s H) as Hn. rewrite E in Hn; cbn in Hn.
  inversion Hn as [|? ? Hp Hn']; subst.
  assert (Hp0 : lvar p <> 0) by (apply (t_no0 s H); rewrite E; left; reflexivity).
  assert (Hin : forall q, In q tr -> lvar q <> lvar p).
  { intros q Hq Eq. apply Hp. rewrite <- Eq. apply in_map, Hq. }
  assert (HE : forall pre q post, tr = pre ++ q :: post -> trail s = (p :: pre) ++ q :: post).
  { intros pre q post ->. exact E. }
  constructor; cbn [pop1 nv assigns level reason trail trail_lim decisions].
  - apply (t_nv s H).
  - rewrite upd_neq by auto. apply (t_a0 s H).
  - rewrite upd_neq by auto. apply (t_l0 s H).
  - intros v Hv. unfold upd. destruct (Nat.eqb_spec v (lvar p)); [reflexivity|apply (t_out s H v Hv)].
  - intros v. unfold upd. destruct (Nat.eqb_spec v (lvar p)); [auto|apply (t_undef s H)].
  - intros q Hq. rewrite value_pop1_neq by (apply Hin, Hq). apply (t_true s H). rewrite E; right; exact Hq.
  - intros q Hq. apply (t_no0 s H). rewrite E; right; exact Hq.
  - exact Hn'.
  - intros pre q post Eq. rewrite upd_neq; [apply (t_level s H _ _ _ (HE _ _ _ Eq))|].
    apply Hin. rewrite Eq. apply in_elt.
  - intros v. unfold upd. destruct (Nat.eqb_spec v (lvar p)) as [->|Hv]; [congruence|].
    intros Hl. apply (t_on s H) in Hl. rewrite E in Hl; cbn in Hl. destruct Hl; congruence.
  - apply (t_lim s H).
  - intros n Hin'. apply Ha in Hin'. rewrite E in Hin'; cbn in Hin'. lia.
  - apply (t_dec s H).
  - apply (t_drange s H).
  - intros pre q post Eq.
    assert (Hq : lvar q <> lvar p) by (apply Hin; rewrite Eq; apply in_elt).
    rewrite !upd_neq by exact Hq. apply (t_rnone s H _ _ _ (HE _ _ _ Eq)).
Qed.

Lemma above_level (s : st) p tr : InvT s -> trail s = p :: tr -> above s -> level s (lvar p) = dlevel s.
Proof.
  intros H E Ha. rewrite (t_level s H [] p tr E). apply lvl_at_top. intros n Hn.
  apply Ha in Hn. rewrite E in Hn; cbn in Hn. lia.
Qed.
Lemma level_above_iff (s : st) p tr : InvT s -> trail s = p :: tr -> level s (lvar p) = dlevel s -> above s.
Proof.
  intros H E Hl n Hn. rewrite (t_level s H [] p tr E) in Hl. unfold lvl_at, dlevel in Hl.
  rewrite filter_len_all in Hl. specialize (Hl n Hn). apply Nat.leb_le in Hl. rewrite E; cbn; lia.
Qed.

Lemma InvC_pop1 (s : st) p tr : InvC s -> level s (lvar p) <> 0 -> InvC (pop1 s p tr).
Proof.
  intros H Hl. apply (dead_ext s); try reflexivity; [|exact H].
  intros q. rewrite !dead_iff. intros [Hq Hlq]. assert (Hne : lvar q <> lvar p) by congruence.
  rewrite value_pop1_neq, level_pop1_neq by exact Hne. auto.
Qed.
Lemma InvR_pop1 (s : st) p tr : InvT s -> InvR s -> trail s = p :: tr -> InvR (pop1 s p tr).
Proof.
  intros HT H E. pose proof (t_nodup s HT) as Hn. rewrite E in Hn; cbn in Hn.
  inversion Hn as [|? ? Hp Hn']; subst.
  assert (Hin : forall q, In q tr -> lvar q <> lvar p).
  { intros q Hq Eq. apply Hp. rewrite <- Eq. apply in_map, Hq. }
  assert (HE : forall pre q post, tr = pre ++ q :: post -> trail s = (p :: pre) ++ q :: post).
  { intros pre q post ->. exact E. }
  (* no remaining reason mentions the popped variable *)
  assert (Hother : forall v c, v <> lvar p -> reason s v = Some c -> forall q r x, cls s c = q :: r -> In x r -> lvar x <> lvar p).
  { intros v c Hv Ec q r x Er Hx Ex.
    destruct (r_in s H v c Ec) as (Hc & q' & r' & Eq & Hq & Er' & Hr). rewrite Er in Er'; inversion Er'; subst q' r'.
    (* v must be on the trail at a position: otherwise level 0.. *)
    destruct (in_dec Nat.eq_dec v (map lvar (trail s))) as [Hi|Hi].
    - apply in_map_iff in Hi as (y & Ey & Hy). rewrite E in Hy. destruct Hy as [->|Hy]; [congruence|].
      apply in_split in Hy as (pre & post & Epp).
      assert (Ec' : reason s (lvar y) = Some c) by congruence.
      destruct (r_before s H _ _ _ c (HE _ _ _ Epp) Ec' x) as [Hb|Hb].
      + rewrite Er; exact Hx.
      + apply (Hin (negl x)); [rewrite Epp; apply in_or_app; right; right; exact Hb|]. rewrite lvar_negl; exact Ex.
      + apply Hb. rewrite E, Ex. left; reflexivity.
    - apply (r_off s H v c Hi Ec x); [rewrite Er; exact Hx|]. rewrite E, Ex. left; reflexivity. }
  constructor; cbn [pop1 reason constrs cls trail].
  - intros v c. unfold upd. destruct (Nat.eqb_spec v (lvar p)) as [->|Hv]; [discriminate|]. intros Ec.
    destruct (r_in s H v c Ec) as (Hc & q & r & Eq & Hq & Er & Hr). split; [exact Hc|].
    exists q, r. split; [exact Eq|]. split; [rewrite value_pop1_neq; congruence|].
    split; [exact Er|]. intros x Hx. rewrite value_pop1_neq; [apply Hr, Hx|].
    apply (Hother v c Hv Ec q r x Er Hx).
  - intros pre q post c Eq. assert (Hq : lvar q <> lvar p) by (apply Hin; rewrite Eq; apply in_elt).
    rewrite upd_neq by exact Hq. intros Ec x Hx.
    destruct (r_before s H _ _ _ c (HE _ _ _ Eq) Ec x Hx) as [Hb|Hb]; [left; exact Hb|right].
    intros Hi; apply Hb. rewrite E; right; exact Hi.
  - intros v c Hv. unfold upd. destruct (Nat.eqb_spec v (lvar p)) as [->|Hne]; [discriminate|].
    intros Ec x Hx Hi. apply (r_off s H v c) in Hx; [|rewrite E; cbn; intros [?|?]; congruence|exact Ec].
    apply Hx. rewrite E; right; exact Hi.
Qed.
Lemma InvX_pop1 (s : st) p tr : InvX s -> trail s = p :: tr -> above s -> dlevel s <> 0 ->
  InvX (pop1 s p tr).
Proof.
  intros [HT HC HR HW HQ HH] E Ha Hd.
  pose proof (above_level s p tr HT E Ha) as Hl.
  constructor.
  - apply InvT_pop1; assumption.
  - apply InvC_pop1; [assumption|lia].
  - apply InvR_pop1; assumption.
  - intros c Hc a b r Er.
    assert (Hh : forall x y, half s (fun l => level s (lvar l) = dlevel s) x y ->
               half (pop1 s p tr) (fun l => level (pop1 s p tr) (lvar l) = dlevel (pop1 s p tr)) x y).
    { intros x y H Hx. rewrite value_pop1 in Hx. destruct (Nat.eqb_spec (lvar x) (lvar p)) as [|Hne]; [discriminate|].
      destruct (H Hx) as [H1|[H1 H2]].
      - left. rewrite lvar_negl in *. rewrite level_pop1_neq by exact Hne. exact H1.
      - destruct (Nat.eq_dec (lvar y) (lvar p)) as [Hy|Hy].
        + left. rewrite lvar_negl, level_pop1_neq by exact Hne. 
          pose proof (level_le s HT (lvar x)). change (dlevel (pop1 s p tr)) with (dlevel s). rewrite Hy in H2; lia.
        + right. rewrite value_pop1_neq, !level_pop1_neq by assumption. auto. }
    destruct (HW c Hc a b r Er) as [H1 H2]. split; apply Hh; assumption.
  - exact HQ.
  - constructor; cbn [pop1 theories nv assigns level bounds prop_q].
    + intros i t Et. destruct (h_views _ _ s HH i t Et) as (vs & H1 & H2 & H3 & H4). exists vs.
      split; [exact H1|]. split; [exact H2|]. split.
      * intros j v l Ej [[]|Hj] Hi. destruct (H3 j v l Ej (or_intror Hj) Hi) as [H5 H6].
        assert (Hne : lvar l <> lvar p) by (intros Eq; rewrite Eq in H6; lia).
        rewrite value_pop1_neq, level_pop1_neq by exact Hne. auto.
      * intros l Ht Hv. rewrite value_pop1 in Hv. destruct (Nat.eqb_spec (lvar l) (lvar p)) as [|Hne]; [discriminate|].
        rewrite (upd_neq _ _ _ _ Hne), level_pop1_neq by exact Hne. apply (H4 l Ht Hv).
    + apply (h_range _ _ s HH).
    + intros i t v Et Ht Hv. apply (h_bound _ _ s HH i t v Et Ht).
      unfold upd in Hv. destruct (Nat.eqb_spec v (lvar p)) as [->|Hne]; [right; left; lia|exact Hv].
    + apply (h_owned _ _ s HH).
    + apply (h_nodup _ _ s HH).
    + intros i t n v Et Hf [[]|Hn]. destruct (h_fixed _ _ s HH i t n v Et Hf (or_intror Hn)) as [H1 H2]. change (dlevel (pop1 s p tr)) with (dlevel s).
      assert (Hne : v <> lvar p) by (intros ->; lia). rewrite !upd_neq by exact Hne. auto.
Qed.
End Inv.
