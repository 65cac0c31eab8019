(** The invariant of the linear real arithmetic theory. *)
From Verif Require Import Base Sat SatSpec Lin Qe Lra LraTab LraVal.
From Coq Require Import Lqa.
Open Scope Q_scope.
Local Arguments Nat.ltb : simpl never.
Local Arguments Nat.eqb : simpl never.

(** ** Meaning of the assertions. *)
(** The value [q] of the variable of [a] satisfies [a]. *)
Definition ahold (y : nat -> Q) (a : asrt) : Prop := bhold (a_op a) (Some (a_v a)) (y (a_x a)).
(** [M] and [y] are jointly compatible with the theory: [y] solves the tableau and the atoms that [M]
    makes true are exactly those that [y] satisfies (and [M] has the recorded root-level facts). *)
Definition atoms (t : lra) (v : nat) : Prop := In v (map fst (v_asrts t)).
Definition joint (t : lra) (M : nat -> bool) (y : nat -> Q) : Prop :=
  tsol (tab t) y /\ (forall v a, In (v, a) (v_asrts t) -> (M v = true <-> ahold y a)) /\
  (forall l, In l (facts t) -> atoms t (lvar l) -> mlit M l = true).

(** Right-hand sides: a strict comparison has an infinitesimal. *)
Definition bok (s : side) (b : qe) : Prop := snd b == 0 \/ snd b == match s with Lo => 1 | Up => -1 # 1 end.
(** What a literal says. *)
Definition amean (a : asrt) (sg : bool) : side * nat * qe :=
  if sg then (a_op a, a_x a, a_v a) else (other (a_op a), a_x a, neg_bound a).
Definition lmean (t : lra) (p : lit) : option (side * nat * qe) :=
  match gfind (lvar p) (v_asrts t) with Some a => Some (amean a (lsgn p)) | None => None end.

Lemma bok_sgn s b : bok s b -> bsgn s (Some b).
Proof. destruct b as [r e], s; unfold bok; cbn; lra. Qed.
Lemma neg_bok a : bok (a_op a) (a_v a) -> bok (other (a_op a)) (neg_bound a).
Proof. unfold neg_bound, bok. destruct (a_op a), (a_v a) as [r e]; cbn; lra. Qed.
Lemma neg_hold a q : bok (a_op a) (a_v a) -> (bhold (other (a_op a)) (Some (neg_bound a)) q <-> ~ bhold (a_op a) (Some (a_v a)) q).
Proof.
  unfold neg_bound, bok. destruct (a_op a), (a_v a) as [r e]; cbn; intros [H|H]; (split; [intros [A B] [A' B']; lra|]); intros HN.
  - assert (q < r). { apply Qnot_le_lt. intros Hle. apply HN. split; [exact Hle|lra]. } split; lra.
  - assert (q <= r). { apply Qnot_lt_le. intros Hlt. apply HN. split; [lra|auto]. } split; lra.
  - assert (r < q). { apply Qnot_le_lt. intros Hle. apply HN. split; [exact Hle|lra]. } split; lra.
  - assert (r <= q). { apply Qnot_lt_le. intros Hlt. apply HN. split; [lra|auto]. } split; lra.
Qed.

(** ** Bounds. *)
Definition rootb (t : lra) (s : side) (x : nat) (b : qe) : Prop :=
  forall M y, M 0%nat = false -> joint t M y -> bhold s (Some b) (y x).
Definition bfun := side -> nat -> cbound.

(** The bounds [f] come from the literals [vs] (and from root-level facts). *)
Record BInv (t : lra) (f : bfun) (vs : list (list lit)) : Prop := {
  b_sgn : forall s x, bsgn s (fst (f s x));
  b_out : forall s x, (nx t <= x)%nat -> f s x = (None, TRUE_lit);
  b_why : forall s x b, fst (f s x) = Some b ->
    (snd (f s x) = TRUE_lit /\ rootb t s x b) \/ (In (snd (f s x)) (concat vs) /\ lmean t (snd (f s x)) = Some (s, x, b));
  b_none : forall s x, fst (f s x) = None -> snd (f s x) = TRUE_lit;
  b_lit : forall p, In p (concat vs) -> exists s x b, lmean t p = Some (s, x, b) /\ bsle s (Some b) (fst (f s x)) = true;
  b_ok : forall s x a b, fst (f s x) = Some a -> fst (f (other s) x) = Some b -> sleP s a b }.

Definition within (f : bfun) (vs : nat -> qe) : Prop := forall s x, inb s (fst (f s x)) (vs x).
Definition feas (t : lra) (f : bfun) : Prop := exists vs, vsol (tab t) vs /\ within f vs.

(** The saved bounds of the lower levels. *)
Fixpoint LS (t : lra) (f : bfun) (Ls : list layer) (vs : list (list lit)) : Prop :=
  match Ls, vs with
  | [], [_] => True
  | L :: Ls', v :: ((_ :: _) as vs') =>
    (forall e, In e L -> (snd (fst e) < nx t)%nat) /\
    BInv t (undo L f) vs' /\ feas t (undo L f) /\
    (forall s x, bsle s (fst (undo L f s x)) (fst (f s x)) = true) /\
    (forall s x, f s x = undo L f s x \/ In (snd (f s x)) v) /\
    LS t (undo L f) Ls' vs'
  | _, _ => False
  end.

(** ** Root-level bounds: what is left after undoing all the levels. *)
Fixpoint unwind (Ls : list layer) (f : bfun) : bfun := match Ls with [] => f | L :: r => unwind r (undo L f) end.
Definition rootcb (t : lra) : bfun := unwind (layers t) (cb t).
Definition tighter (f f' : bfun) : Prop := forall s x, bsle s (fst (f s x)) (fst (f' s x)) = true.
Definition bsum (g : nat -> Q -> bnd) (m : qmap) (acc : bnd) : bnd := fold_left (fun acc e => badd acc (bscale (snd e) (g (fst e) (snd e)))) m acc.
(** [x] is the slack variable of an expression over older variables, no assertion is about it, and its
    bounds are not tighter than those of the expression at root level. *)
Definition loose (t : lra) (x : nat) : Prop :=
  aw t x = [] /\ exists l, In (l, x) (xexprs t) /\ lin_clean l /\ (forall v, dom (lvars l) v -> (v < x)%nat) /\
    forall s, bsle s (bound t s x) (bsum (fun v c => fst (rootcb t (tside s c) v)) (lvars l) (Some (qe_of (lkt l)))) = true.

Record TInv (t : lra) (vs : list (list lit)) : Prop := {
  ti_wf : wf_tab (nx t) (tab t) (tw t);
  ti_ne : forall x l, In (x, l) (tab t) -> lvars l <> [];
  ti_val : vsol (tab t) (vals t);
  ti_nb : forall s x, gfind x (tab t) = None -> inb s (bound t s x) (vals t x);
  ti_atom : forall v a, In (v, a) (v_asrts t) -> a_b a = mk_lit v true /\ v <> 0%nat /\ (a_x a < nx t)%nat /\ bok (a_op a) (a_v a);
  ti_nodup : NoDup (map fst (v_asrts t));
  ti_aw : forall x a, In a (aw t x) <-> (exists v, In (v, a) (v_asrts t)) /\ a_x a = x;
  ti_cache : forall l x, In (l, x) (xexprs t) -> (x < nx t)%nat /\ forall k y, tsolk k (tab t) y -> y x == lvalk k y l;
  ti_kt : forall x l, In (x, l) (tab t) -> ~ lkt l == 0 -> loose t x;
  ti_sas : forall s x c p, In ((s, x, c), p) (s_asrts t) -> exists a, In (lvar p, a) (v_asrts t) /\ p = a_b a /\ a_op a = s /\ a_x a = x /\ a_v a = c;
  ti_facts : forall p, In p (facts t) -> In p (last vs []);
  ti_b : BInv t (cb t) vs;
  ti_ls : LS t (cb t) (layers t) vs }.

(** ** Finding assertions. *)
Lemma gfind_nodup {A} (m : list (nat * A)) : NoDup (map fst m) -> forall v a, In (v, a) m <-> gfind v m = Some a.
Proof.
  intros H v a. split; [|apply gfind_in]. revert H. induction m as [|[k d] r IH]; cbn; intros H Hi; [destruct Hi|].
  inversion H as [|? ? Hn H']; subst. destruct Hi as [E|Hi]; [inversion E; subst; rewrite Nat.eqb_refl; reflexivity|].
  destruct (Nat.eqb_spec k v) as [->|]; [|apply IH; assumption]. exfalso. apply Hn. change v with (fst (v, a)). apply in_map, Hi.
Qed.
Lemma atoms_find t v : atoms t v <-> gfind v (v_asrts t) <> None.
Proof. symmetry. apply gfind_some_iff. Qed.

(** ** States with the same constraints. *)
Record same (t t' : lra) : Prop := {
  sm_nx : nx t' = nx t;
  sm_va : v_asrts t' = v_asrts t;
  sm_fa : facts t' = facts t;
  sm_solk : forall k y, tsolk k (tab t') y <-> tsolk k (tab t) y }.
Lemma sm_sol t t' : same t t' -> forall y, tsol (tab t') y <-> tsol (tab t) y.
Proof. intros S y. rewrite <- !tsolk_1. apply S. Qed.
Lemma same_refl t : same t t.
Proof. constructor; auto; tauto. Qed.
Lemma same_trans a b c : same a b -> same b c -> same a c.
Proof. intros [A1 A2 A3 A5] [B1 B2 B3 B5]. constructor; try congruence. intros k y. rewrite B5. apply A5. Qed.
Lemma same_sym a b : same a b -> same b a.
Proof. intros [A1 A2 A3 A5]. constructor; auto. intros k y. symmetry. apply A5. Qed.
Lemma same_lmean t t' p : same t t' -> lmean t' p = lmean t p.
Proof. intros H. unfold lmean. rewrite (sm_va _ _ H). reflexivity. Qed.
Lemma same_joint t t' M y : same t t' -> joint t' M y <-> joint t M y.
Proof. intros H. unfold joint, atoms. rewrite (sm_va _ _ H), (sm_fa _ _ H), (sm_sol _ _ H). reflexivity. Qed.
Lemma same_vsol t t' vs : same t t' -> vsol (tab t') vs <-> vsol (tab t) vs.
Proof. intros H. unfold vsol. rewrite (sm_sol _ _ H), (sm_solk _ _ H). reflexivity. Qed.
Lemma same_rootb t t' s x b : same t t' -> rootb t s x b -> rootb t' s x b.
Proof. intros H R M y HM HJ. apply (R M y HM), (same_joint t t' M y H), HJ. Qed.

Lemma BInv_ext t t' f f' vs : same t t' -> (forall s x, f' s x = f s x) -> BInv t f vs -> BInv t' f' vs.
Proof.
  intros S E [B1 B2 B3 B4 B5 B6]. constructor.
  - intros s x. rewrite E. apply B1.
  - intros s x Hx. rewrite E. apply B2. rewrite (sm_nx _ _ S) in Hx. exact Hx.
  - intros s x b. rewrite E, (same_lmean t t' _ S). intros H. destruct (B3 s x b H) as [[A B]|A]; [left|right; exact A]. split; [exact A|]. apply (same_rootb t t'); assumption.
  - intros s x. rewrite E. apply B4.
  - intros p Hp. destruct (B5 p Hp) as (s & x & b & A & B). exists s, x, b. rewrite E, (same_lmean t t' _ S). auto.
  - intros s x a b. rewrite !E. apply B6.
Qed.
Lemma feas_ext t t' f f' : same t t' -> (forall s x, f' s x = f s x) -> feas t f -> feas t' f'.
Proof. intros S E (vs & A & B). exists vs. split; [apply (same_vsol t t' vs S), A|]. intros s x. rewrite E. apply B. Qed.
Lemma undo_ext L f f' : (forall s x, f' s x = f s x) -> forall s x, undo L f' s x = undo L f s x.
Proof. intros E s x. unfold undo. destruct (lookup_layer L s x); [reflexivity|apply E]. Qed.
Lemma LS_ext t t' : same t t' -> forall Ls vs f f', (forall s x, f' s x = f s x) -> LS t f Ls vs -> LS t' f' Ls vs.
Proof.
  intros S. induction Ls as [|L Ls IH]; intros [|v vs] f f' E H; cbn in *; try exact H.
  destruct vs as [|w vs]; [exact H|]. destruct H as (H0 & H1 & H2 & H3 & H4 & H5). pose proof (undo_ext L f f' E) as EU.
  rewrite (sm_nx _ _ S). split; [exact H0|]. split; [apply (BInv_ext t t' (undo L f)); assumption|]. split; [apply (feas_ext t t' (undo L f)); assumption|].
  split; [intros s x; rewrite EU, E; apply H3|]. split; [intros s x; rewrite EU, E; apply H4|]. exact (IH _ _ _ EU H5).
Qed.

(** ** A literal and its meaning. *)
Section One.
Context (t : lra) (vs : list (list lit)) (HI : TInv t vs).

Lemma lmean_atom p : atoms t (lvar p) <-> lmean t p <> None.
Proof. rewrite atoms_find. unfold lmean. destruct (gfind (lvar p) (v_asrts t)); split; intros H; try discriminate; congruence. Qed.
Lemma lmean_inv p s x b : lmean t p = Some (s, x, b) -> exists a, In (lvar p, a) (v_asrts t) /\ amean a (lsgn p) = (s, x, b) /\ a_b a = mk_lit (lvar p) true /\ lvar p <> 0%nat /\ (x < nx t)%nat /\ bok s b.
Proof.
  unfold lmean. destruct (gfind (lvar p) (v_asrts t)) as [a|] eqn:E; [|discriminate]. intros H. assert (H1 : amean a (lsgn p) = (s, x, b)) by congruence. clear H. apply gfind_in in E.
  destruct (ti_atom _ _ HI _ _ E) as (A & B & D & F). exists a. split; [exact E|]. split; [exact H1|]. split; [exact A|]. split; [exact B|].
  unfold amean in H1. destruct (lsgn p); inversion H1; subst; split; auto. apply neg_bok, F.
Qed.
(** A true literal enforces what it says, and conversely. *)
Lemma lmean_joint p s x b M y : lmean t p = Some (s, x, b) -> joint t M y -> (mlit M p = true <-> bhold s (Some b) (y x)).
Proof.
  intros H (J1 & J2 & _). destruct (lmean_inv p s x b H) as (a & A & B & D & E & F & G). destruct (ti_atom _ _ HI _ _ A) as (_ & _ & _ & Hk).
  specialize (J2 _ _ A). unfold ahold in J2. unfold mlit, amean in *. destruct (lsgn p) eqn:Es; inversion B; subst.
  - rewrite <- J2. destruct (M (lvar p)); cbn; split; congruence.
  - rewrite (neg_hold a (y (a_x a)) Hk), <- J2. destruct (M (lvar p)); cbn; split; congruence.
Qed.
Lemma lmean_negl p s x b : lmean t p = Some (s, x, b) -> lmean t (negl p) <> None.
Proof. unfold lmean. cbn. destruct (gfind (lvar p) (v_asrts t)); congruence. Qed.

(** The bounds hold in all the models in which the reasons hold. *)
Lemma bound_holds f ws : BInv t f ws -> forall s x M y, M 0%nat = false -> joint t M y -> mlit M (snd (f s x)) = true -> bhold s (fst (f s x)) (y x).
Proof.
  intros HB s x M y HM HJ Hr. destruct (fst (f s x)) as [b|] eqn:E; [|exact I].
  destruct (b_why _ _ _ HB s x b E) as [[_ R]|[_ R]]; [exact (R M y HM HJ)|]. exact (proj1 (lmean_joint _ _ _ _ M y R HJ) Hr).
Qed.
(** The reasons are true. *)
Lemma reason_true f ws (val : lv) : BInv t f ws -> val TRUE_lit = LTrue -> (forall q, In q (concat ws) -> val q = LTrue) ->
  forall s x, val (snd (f s x)) = LTrue.
Proof.
  intros HB HT HV s x. destruct (fst (f s x)) as [b|] eqn:E.
  - destruct (b_why _ _ _ HB s x b E) as [[-> _]|[Hi _]]; [exact HT|apply HV, Hi].
  - rewrite (b_none _ _ _ HB s x E). exact HT.
Qed.
(** Reasons other than the constant determine the bound. *)
Lemma reason_inj f ws : BInv t f ws -> forall s x s' x', snd (f s x) = snd (f s' x') -> snd (f s x) <> TRUE_lit -> s = s' /\ x = x'.
Proof.
  intros HB s x s' x' E Hn. destruct (fst (f s x)) as [b|] eqn:Eb; [|destruct (Hn (b_none _ _ _ HB s x Eb))].
  destruct (fst (f s' x')) as [b'|] eqn:Eb'; [|rewrite E in Hn; destruct (Hn (b_none _ _ _ HB s' x' Eb'))].
  destruct (b_why _ _ _ HB s x b Eb) as [[A _]|[_ A]]; [contradiction|].
  destruct (b_why _ _ _ HB s' x' b' Eb') as [[B _]|[_ B]]; [rewrite E in Hn; contradiction|]. rewrite E, B in A. inversion A; auto.
Qed.
End One.

(** ** Sums of bounds over a row. *)
Lemma bsum_hold s g y : forall m acc q, nonzero m -> (forall v c, In (v, c) m -> bsgn (tside s c) (g v c) /\ bhold (tside s c) (g v c) (y v)) ->
  bsgn s acc -> bhold s acc q -> bsgn s (bsum g m acc) /\ bhold s (bsum g m acc) (q + msum y m).
Proof.
  induction m as [|[v c] m IH]; intros acc q Hz Hm Ha Hq; cbn [bsum fold_left msum fst snd].
  - split; [exact Ha|]. apply (bhold_eq s acc q); [ring|exact Hq].
  - assert (Hc : ~ c == 0) by (apply (Hz v c); left; reflexivity). destruct (Hm v c (or_introl eq_refl)) as [S1 H1].
    destruct (IH (badd acc (bscale c (g v c))) (q + c * y v)) as [A B].
    + intros v' c' Hi. apply (Hz v' c'). right; exact Hi.
    + intros v' c' Hi. apply Hm. right; exact Hi.
    + apply badd_sgn; [exact Ha|]. apply bscale_sgn; assumption.
    + apply badd_hold; auto; [apply bscale_sgn|apply bscale_hold]; assumption.
    + split; [exact A|]. eapply bhold_eq; [|exact B]. ring.
Qed.
Lemma bsum_sgn s g : forall m acc, nonzero m -> (forall v c, In (v, c) m -> bsgn (tside s c) (g v c)) -> bsgn s acc -> bsgn s (bsum g m acc).
Proof.
  induction m as [|[v c] m IH]; intros acc Hz Hm Ha; cbn [bsum fold_left fst snd]; [exact Ha|].
  apply IH; [intros v' c' Hi; apply (Hz v' c'); right; exact Hi|intros v' c' Hi; apply Hm; right; exact Hi|].
  apply badd_sgn; [exact Ha|]. apply bscale_sgn; [apply (Hz v c); left; reflexivity|apply Hm; left; reflexivity].
Qed.
Definition qsum (vs : nat -> qe) (m : qmap) : qe := (msum (rat vs) m, msum (eps vs) m).
Lemma inb_eq s b q q' : fst q == fst q' -> snd q == snd q' -> inb s b q -> inb s b q'.
Proof. destruct b as [[r e]|]; [|auto]. destruct s; cbn; unfold qle; cbn; lra. Qed.
Lemma bsum_inb s g vs : forall m acc q, nonzero m -> (forall v c, In (v, c) m -> inb (tside s c) (g v c) (vs v)) ->
  inb s acc q -> inb s (bsum g m acc) (qe_add q (qsum vs m)).
Proof.
  induction m as [|[v c] m IH]; intros acc q Hz Hm Hq; cbn [bsum fold_left fst snd].
  - refine (inb_eq s _ _ _ _ _ Hq); cbn; lra.
  - assert (Hc : ~ c == 0) by (apply (Hz v c); left; reflexivity).
    assert (A := IH (badd acc (bscale c (g v c))) (qe_add q (qe_scale c (vs v))) (fun v' c' Hi => Hz v' c' (or_intror Hi)) (fun v' c' Hi => Hm v' c' (or_intror Hi))).
    refine (inb_eq s _ _ _ _ _ (A _)); [cbn; change (rat vs v) with (fst (vs v)); ring|cbn; change (eps vs v) with (snd (vs v)); ring|]. apply badd_inb; [exact Hq|]. apply bscale_inb; [exact Hc|]. apply Hm. left; reflexivity.
Qed.
Lemma bsum_some g : forall m acc, acc <> None -> (forall v c, In (v, c) m -> g v c <> None) -> bsum g m acc <> None.
Proof.
  induction m as [|[v c] m IH]; intros acc Ha Hm; cbn [bsum fold_left fst snd]; [exact Ha|]. apply IH.
  - specialize (Hm v c (or_introl eq_refl)). destruct acc, (g v c); cbn; congruence.
  - intros v' c' Hi. apply (Hm v' c'). right; exact Hi.
Qed.
Lemma bsum_none g : forall m b, bsum g m None <> Some b.
Proof. induction m as [|e m IH]; intros b; cbn [bsum fold_left badd]; [discriminate|apply IH]. Qed.
Lemma bound_lin_sum t s l : bound_lin t s l = bsum (fun v c => bound t (tside s c) v) (lvars l) (Some (qe_of (lkt l))).
Proof. reflexivity. Qed.
Lemma vsol_row tb vs x l : vsol tb vs -> In (x, l) tb -> fst (vs x) == fst (qsum vs (lvars l)) + lkt l /\ snd (vs x) == snd (qsum vs (lvars l)).
Proof. intros [A B] Hi. specialize (A x l Hi). specialize (B x l Hi). unfold lval, lvalk in *. unfold rat in A at 1. unfold eps in B at 1. cbn. lra. Qed.
Lemma tside_tside s c : tside (tside s c) c = s.
Proof. unfold tside. destruct (qpos c); [reflexivity|apply other_other]. Qed.
Lemma tside_other s c : tside (other s) c = other (tside s c).
Proof. unfold tside. destruct (qpos c); reflexivity. Qed.

(** ** Tighter bounds. *)
Lemma tighter_refl f : tighter f f.
Proof. intros s x. apply bsle_refl. Qed.
Lemma tighter_trans f g h : tighter f g -> tighter g h -> tighter f h.
Proof. intros A B s x. eapply bsle_trans; [apply A|apply B]. Qed.
Lemma tighter_eq f f' : (forall s x, f' s x = f s x) -> tighter f f'.
Proof. intros E s x. rewrite E. apply bsle_refl. Qed.
Lemma unwind_ext : forall Ls f f', (forall s x, f' s x = f s x) -> forall s x, unwind Ls f' s x = unwind Ls f s x.
Proof. induction Ls as [|L Ls IH]; intros f f' E s x; cbn; [apply E|]. apply IH. apply undo_ext, E. Qed.
Lemma LS_root t : forall Ls f vs, LS t f Ls vs -> tighter (unwind Ls f) f.
Proof.
  induction Ls as [|L Ls IH]; intros f [|v vs] H; cbn in *; try contradiction; [apply tighter_refl|]. destruct vs as [|w vs]; [contradiction|].
  destruct H as (_ & _ & _ & H3 & _ & H5). eapply tighter_trans; [exact (IH _ _ H5)|exact H3].
Qed.
Lemma bsum_mono s (g h : nat -> Q -> bnd) : forall m a b, nonzero m -> (forall v c, In (v, c) m -> bsle (tside s c) (g v c) (h v c) = true) ->
  bsle s a b = true -> bsle s (bsum g m a) (bsum h m b) = true.
Proof.
  induction m as [|[v c] m IH]; intros a b Hz Hm Hab; cbn [bsum fold_left fst snd]; [exact Hab|].
  assert (Hc : ~ c == 0) by (apply (Hz v c); left; reflexivity). apply IH; [intros v' c' Hi; apply (Hz v' c'); right; exact Hi|intros v' c' Hi; apply Hm; right; exact Hi|].
  specialize (Hm v c (or_introl eq_refl)). destruct (h v c) as [y|].
  - destruct b as [b|]; [|destruct a; [discriminate|]; reflexivity].
    assert (A : inb s a b) by (destruct a; cbn in *; [apply sle_iff; exact Hab|exact I]).
    assert (B : inb (tside s c) (g v c) y) by (destruct (g v c); cbn in *; [apply sle_iff; exact Hm|exact I]).
    assert (D := badd_inb s a (bscale c (g v c)) b (qe_scale c y) A (bscale_inb s c (g v c) y Hc B)). destruct (badd a (bscale c (g v c))); cbn in *; [apply sle_iff; exact D|reflexivity].
  - destruct (g v c); [discriminate|]. cbn [bscale]. destruct a, b; reflexivity.
Qed.
Lemma tighter_bsum s l f f' : lin_clean l -> tighter f f' ->
  bsle s (bsum (fun v c => fst (f (tside s c) v)) (lvars l) (Some (qe_of (lkt l)))) (bsum (fun v c => fst (f' (tside s c) v)) (lvars l) (Some (qe_of (lkt l)))) = true.
Proof. intros [_ Hz] H. apply bsum_mono; [exact Hz|intros v c _; apply H|apply bsle_refl]. Qed.
(** The value of a loose variable is out of its bounds only if so is that of an older, basic, variable. *)
Lemma loose_viol t vs s x : TInv t vs -> loose t x -> viol t s x = true -> exists v l, (v < x)%nat /\ In (v, l) (tab t) /\ (viol t Lo v || viol t Up v) = true.
Proof.
  intros HI (_ & l & Hl & Hc & Hlt & Hb) Hv.
  destruct (existsb (fun e => viol t Lo (fst e) || viol t Up (fst e)) (lvars l)) eqn:E.
  - apply existsb_exists in E as ([v c] & Hi & Ev). cbn [fst] in Ev. assert (Hd : dom (lvars l) v) by (apply (min_iff _ (proj1 Hc)) in Hi; unfold dom; congruence).
    destruct (gfind v (tab t)) as [k|] eqn:Ek; [exists v, k; split; [apply Hlt, Hd|]; split; [apply gfind_in, Ek|exact Ev]|].
    exfalso. assert (G : forall s', viol t s' v = false).
    { intros s'. pose proof (ti_nb _ _ HI s' v Ek) as H. unfold viol. destruct (bound t s' v); [|reflexivity]. cbn in H. apply negb_false_iff, sle_iff, H. }
    rewrite !G in Ev. discriminate.
  - exfalso. assert (H : forall v c, In (v, c) (lvars l) -> inb (tside s c) (fst (cb t (tside s c) v)) (vals t v)).
    { intros v c Hi. assert (F : (viol t Lo v || viol t Up v) = false).
      { destruct (viol t Lo v || viol t Up v) eqn:F; [|reflexivity]. rewrite <- E. symmetry. apply existsb_exists. exists (v, c). auto. }
      apply orb_false_iff in F as [F1 F2]. assert (F : viol t (tside s c) v = false) by (destruct (tside s c); assumption). unfold viol, bound in F.
      destruct (fst (cb t (tside s c) v)); [|exact I]. apply negb_false_iff, sle_iff in F. exact F. }
    pose proof (bsum_inb s (fun v c => fst (cb t (tside s c) v)) (vals t) (lvars l) (Some (qe_of (lkt l))) (qe_of (lkt l)) (proj2 Hc) H (sleP_refl _ _)) as A.
    pose proof (bsle_inb s _ _ _ (tighter_bsum s l _ _ Hc (LS_root t _ _ _ (ti_ls _ _ HI))) A) as B. pose proof (bsle_inb s _ _ _ (Hb s) B) as D.
    destruct (ti_cache _ _ HI l x Hl) as [_ Hx]. destruct (ti_val _ _ HI) as [V1 V2]. apply tsolk_1 in V1. apply Hx in V1. apply Hx in V2. unfold lvalk in V1, V2. change (rat (vals t) x) with (fst (vals t x)) in V1. change (eps (vals t) x) with (snd (vals t x)) in V2.
    assert (F : inb s (bound t s x) (vals t x)) by (refine (inb_eq s _ _ _ _ _ D); cbn; lra).
    unfold viol in Hv. destruct (bound t s x); [|discriminate]. cbn in F. apply sle_iff in F. rewrite F in Hv. discriminate.
Qed.
