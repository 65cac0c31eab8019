(** Unit propagation: one clause, one watch list. *)
From Verif Require Import Base Sat SatSpec SatInv SatPop SatRec SatAn.

Section Prop_.
Context {T : Type} {ops : theory_ops T} (C : contract ops).
Notation st := (st T).

Lemma InvG_recls (wp wp' tp : nat -> lit -> Prop) (s s' : st) c a' b' r' :
  InvG C wp tp s -> In c (constrs s) ->
  nv s' = nv s -> ncid s' = ncid s -> constrs s' = constrs s -> assigns s' = assigns s ->
  level s' = level s -> reason s' = reason s -> prop_q s' = prop_q s -> trail s' = trail s ->
  trail_lim s' = trail_lim s -> decisions s' = decisions s -> theories s' = theories s -> bounds s' = bounds s ->
  cls s' c = a' :: b' :: r' -> (forall k, k <> c -> cls s' k = cls s k) ->
  Permutation (cls s c) (a' :: b' :: r') -> a' <> b' ->
  (forall v, reason s v = Some c -> a' :: b' :: r' = cls s c) ->
  (forall p k, k <> c -> count_occ Nat.eq_dec (watches s' p) k = count_occ Nat.eq_dec (watches s p) k) ->
  (forall p, count_occ Nat.eq_dec (watches s' p) c = wcount (a' :: b' :: r') p) ->
  (forall k l, k <> c -> In k (constrs s) -> wp k l -> wp' k l) ->
  half s (wp' c) a' b' -> half s (wp' c) b' a' ->
  InvG C wp' tp s'.
Proof.
  intros [HT HC HR HW HQ HH] Hc E1 E2 E3 E4 E5 E6 E7 E8 E9 E10 E11 E12 Ec Eo HP Hab Hre Hw Hwc Hwp Ha Hb.
  assert (Hin : forall p, In p (cls s' c) -> In p (cls s c)).
  { intros p. rewrite Ec. apply Permutation_in. symmetry; exact HP. }
  assert (Hdead : forall p, dead s' p = dead s p).
  { intros p. unfold dead, is_false, value. rewrite E4, E5. reflexivity. }
  constructor.
  - eapply InvT_ext; [..|exact HT]; assumption.
  - constructor; rewrite ?E1, ?E2, ?E3.
    + apply HC.
    + apply HC.
    + intros k Hk. destruct (Nat.eq_dec k c) as [->|Hne]; [rewrite Ec; eauto|].
      rewrite Eo by exact Hne. apply (c_shape s HC k Hk).
    + intros k Hk p Hp. destruct (Nat.eq_dec k c) as [->|Hne]; [apply (c_range s HC c Hk), Hin, Hp|].
      rewrite Eo in Hp by exact Hne. apply (c_range s HC k Hk p Hp).
    + intros k Hk p q Hp Hq. destruct (Nat.eq_dec k c) as [->|Hne]; [apply (c_compl s HC c Hk); apply Hin; assumption|].
      rewrite Eo in Hp, Hq by exact Hne. apply (c_compl s HC k Hk); assumption.
    + intros k Hk. rewrite (filter_ext _ (fun p => negb (dead s p))) by (intros p; rewrite Hdead; reflexivity).
      destruct (Nat.eq_dec k c) as [->|Hne]; [|rewrite Eo by exact Hne; apply (c_dup s HC k Hk)].
      rewrite Ec. eapply Permutation_NoDup; [apply filter_perm, HP|apply (c_dup s HC c Hk)].
    + intros k Hk p. destruct (Nat.eq_dec k c) as [->|Hne]; [rewrite Ec; apply Hwc|].
      rewrite Hw, Eo by exact Hne. apply (c_watch s HC k Hk).
    + intros k p Hk. destruct (Nat.eq_dec k c) as [->|Hne]; [exact Hc|].
      apply (c_owned s HC k p). apply (count_occ_In Nat.eq_dec). rewrite <- Hw by exact Hne.
      apply (count_occ_In Nat.eq_dec). exact Hk.
  - assert (Hcls : forall v k, reason s v = Some k -> cls s' k = cls s k).
    { intros v k Hk. destruct (Nat.eq_dec k c) as [->|Hne]; [rewrite Ec; apply (Hre v Hk)|apply Eo, Hne]. }
    constructor; unfold value; rewrite ?E3, ?E4, ?E6, ?E8.
    + intros v k Hk. rewrite (Hcls v k Hk). apply (r_in s HR v k Hk).
    + intros pre p post k Ep Hk. rewrite (Hcls _ k Hk). apply (r_before s HR _ _ _ _ Ep Hk).
    + intros v k Hv Hk. rewrite (Hcls _ k Hk). apply (r_off s HR _ _ Hv Hk).
  - intros k Hk x y z E. rewrite E3 in Hk.
    assert (Hhalf : forall pd u w, half s pd u w -> half s' pd u w).
    { intros pd u w. unfold half, value. rewrite E4, E5. auto. }
    destruct (Nat.eq_dec k c) as [->|Hne].
    + rewrite Ec in E. inversion E; subst. split; apply Hhalf; assumption.
    + rewrite Eo in E by exact Hne. destruct (HW k Hk x y z E) as [H1 H2].
      split; apply Hhalf; intros Hv; [destruct (H1 Hv) as [H3|H3]|destruct (H2 Hv) as [H3|H3]]; auto.
  - eapply InvQ_ext; [..|exact HQ]; assumption.
  - eapply InvTh_ext; [..|exact HH]; assumption.
Qed.

Lemma find_split_spec {A} (f : A -> bool) l :
  match find_split f l with
  | Some (pre, x, post) => l = pre ++ x :: post /\ f x = true
  | None => forall x, In x l -> f x = false
  end.
Proof.
  induction l as [|y l IH]; cbn; [intros x []|].
  destruct (f y) eqn:E; [split; [reflexivity|exact E]|].
  destruct (find_split f l) as [[[pre x] post]|].
  - destruct IH as [-> H]. split; [reflexivity|exact H].
  - intros x [<-|Hx]; auto.
Qed.

(** The state with the part of the watch list still to be visited put back in place. *)
Definition vst (s : st) (p : lit) (r : list nat) : st :=
  set_watches (updl (watches s) p (watches s p ++ r)) s.
(** Pending literals for the clauses: the queue, and [p] for the clauses still to be visited. *)
Definition wpend (s : st) (p : lit) (r : list nat) (k : nat) (l : lit) : Prop :=
  In l (prop_q s) \/ (l = p /\ In k r).

Lemma count_vst (w : lit -> list nat) p r q k :
  count_occ Nat.eq_dec (updl w p (w p ++ r) q) k =
  count_occ Nat.eq_dec (w q) k + (if lit_eqb p q then count_occ Nat.eq_dec r k else 0).
Proof.
  unfold updl. destruct (lit_eqb_spec q p) as [->|H].
  - rewrite lit_eqb_refl, count_occ_app. lia.
  - destruct (lit_eqb_spec p q); [congruence|lia].
Qed.

Lemma clause_propagate_ok (tp : nat -> lit -> Prop) (s : st) c p r :
  InvG C (wpend s p (c :: r)) tp (vst s p (c :: r)) ->
  value s p = LTrue -> level s (lvar p) = dlevel s ->
  exists s' b, clause_propagate s c p = Ok (s', b) /\
    (forall M, smodels C s' M <-> smodels C s M) /\ grow s s' /\ theories s' = theories s /\ bounds s' = bounds s /\
    (exists ext, trail s' = ext ++ trail s /\ prop_q s' = prop_q s ++ ext) /\
    if b then InvG C (wpend s' p r) (fun i l => tp i l \/ In l (prop_q s')) (vst s' p r)
    else InvG C (wpend s' p (c :: r)) tp (vst s' p r) /\ In c (constrs s') /\
         (forall q, In q (cls s' c) -> value s' q = LFalse) /\ In (negl p) (cls s' c) /\
         trail s' = trail s.
Proof.
  intros HG Hp Hl. pose proof HG as [HT HC HR HW HQ HH].
  assert (Hc : In c (constrs s)).
  { apply (c_owned _ HC c p). cbn. rewrite updl_eq. apply in_or_app; right; left; reflexivity. }
  destruct (c_shape _ HC c Hc) as (a & b & rr & Ecl & Hab). cbn in Ecl.
  assert (Hcount : forall q, count_occ Nat.eq_dec (watches s q) c + (if lit_eqb p q then S (count_occ Nat.eq_dec r c) else 0)
            = b2n (lit_eqb (negl a) q) + b2n (lit_eqb (negl b) q)).
  { intros q. pose proof (c_watch _ HC c Hc q) as E. cbn [vst set_watches watches cls] in E. rewrite count_vst, Ecl in E.
    cbn [wcount] in E. cbn [count_occ] in E. destruct (Nat.eq_dec c c); [|congruence]. exact E. }
  assert (Hor : negl a = p \/ negl b = p).
  { specialize (Hcount p). rewrite lit_eqb_refl in Hcount.
    destruct (lit_eqb_spec (negl a) p); [auto|]. destruct (lit_eqb_spec (negl b) p); [auto|]. cbn in Hcount; lia. }
  assert (Hnr : count_occ Nat.eq_dec r c = 0 /\ count_occ Nat.eq_dec (watches s p) c = 0).
  { specialize (Hcount p). rewrite lit_eqb_refl in Hcount.
    destruct (lit_eqb_spec (negl a) p), (lit_eqb_spec (negl b) p); cbn in Hcount; try lia.
    exfalso. apply Hab. apply negl_inj. congruence. }
  assert (Hrc : ~ In c r) by (apply (count_occ_not_In Nat.eq_dec); apply Hnr).
  (* after the swap the false watch is second *)
  assert (Hsw : exists x0, swap_watch p (cls s c) = x0 :: negl p :: rr /\ x0 <> negl p /\
      Permutation (cls s c) (x0 :: negl p :: rr) /\
      (forall q, b2n (lit_eqb (negl a) q) + b2n (lit_eqb (negl b) q) = b2n (lit_eqb (negl x0) q) + b2n (lit_eqb p q)) /\
      half (vst s p (c :: r)) (wpend s p (c :: r) c) x0 (negl p) /\
      (forall v, reason s v = Some c -> x0 :: negl p :: rr = cls s c /\ value s x0 = LTrue)).
  { destruct (HW c Hc a b rr) as [Ha Hb]; [exact Ecl|].
    assert (Hra : forall v, reason s v = Some c -> value s a = LTrue).
    { intros v Hv. destruct (r_in _ HR v c Hv) as (_ & q & r0 & _ & Vq & Er & _). cbn in Er.
      rewrite Ecl in Er. inversion Er; subst. exact Vq. }
    destruct (lit_eqb_spec (negl a) p) as [Ea|Ea].
    - exists b. rewrite Ecl. cbn [swap_watch]. assert (Ea' : a = negl p) by (rewrite <- Ea, negl_invol; reflexivity).
      assert (Hva : lvar a = lvar p) by (rewrite Ea'; reflexivity). rewrite Hva, Nat.eqb_refl, <- Ea'.
      split; [reflexivity|]. split; [congruence|]. split; [apply perm_swap|]. split; [intros q; rewrite Ea; lia|].
      split; [exact Hb|]. intros v Hv. apply Hra in Hv. rewrite Ea' in Hv. rewrite value_negl, Hp in Hv. discriminate.
    - destruct Hor as [|Eb]; [contradiction|]. exists a. rewrite Ecl. cbn [swap_watch].
      assert (Eb' : b = negl p) by (rewrite <- Eb, negl_invol; reflexivity).
      destruct (Nat.eqb_spec (lvar a) (lvar p)) as [E0|E0].
      + exfalso. apply Hab. apply (c_compl _ HC c Hc); cbn; rewrite ?Ecl; cbn; auto. rewrite Eb', lvar_negl. exact E0.
      + rewrite <- Eb'. split; [reflexivity|]. split; [congruence|]. split; [reflexivity|].
        split; [intros q; rewrite Eb; lia|]. split; [exact Ha|]. intros v Hv. split; [reflexivity|apply (Hra v Hv)]. }
  destruct Hsw as (x0 & Esw & Hx0 & HP & Hcnt & Hhalf & Hreason).
  unfold clause_propagate. rewrite Esw.
  set (s1 := set_cls (upd (cls s) c (x0 :: negl p :: rr)) s).
  assert (Hmod : forall (s' : st) ls', constrs s' = constrs s -> theories s' = theories s -> assigns s' = assigns s -> level s' = level s ->
     cls s' c = ls' -> (forall k, k <> c -> cls s' k = cls s k) -> Permutation (cls s c) ls' ->
     forall M, smodels C s' M <-> smodels C s M).
  { intros s' ls' F1 F2 F3 F4 F5 F6 F7 M.
    assert (Hm : forall c0, In c0 (constrs s) -> (mcl M (cls s' c0) <-> mcl M (cls s c0))).
    { intros k Hk. destruct (Nat.eq_dec k c) as [->|Hne]; [|rewrite F6 by exact Hne; reflexivity].
      rewrite F5. unfold mcl. split; intros (q & Hq & Eq); exists q; (split; [|exact Eq]);
        [apply (Permutation_in _ (Permutation_sym F7)), Hq|apply (Permutation_in _ F7), Hq]. }
    split; intros [S1 S2 S3 S4]; constructor; auto.
    - intros k Hk. apply Hm; [exact Hk|]. apply S2. rewrite F1. exact Hk.
    - unfold value in S3. rewrite F3, F4 in S3. exact S3.
    - rewrite F2 in S4. exact S4.
    - intros k Hk. rewrite F1 in Hk. apply Hm; [exact Hk|]. apply S2, Hk.
    - unfold value. rewrite F3, F4. exact S3.
    - rewrite F2. exact S4. }
  assert (Hgrow : forall s' : st, trail s' = trail s -> assigns s' = assigns s -> level s' = level s -> reason s' = reason s ->
     trail_lim s' = trail_lim s -> decisions s' = decisions s -> nv s' = nv s -> exprs s' = exprs s -> theories s' = theories s -> grow s s').
  { intros s' F1 F2 F3 F4 F5 F6 F7 F8 F9. constructor; try congruence. exists []. rewrite F1, F2, F3, F4. cbn. split; [reflexivity|]. split; [auto|tauto]. }
  assert (Hfalse : value s (negl p) = LFalse) by (rewrite value_negl, Hp; reflexivity).
  (* watch counts when c goes back to the list of p *)
  assert (Hw_p : forall q k, count_occ Nat.eq_dec (watches (vst (push_watch s1 p c) p r) q) k =
      count_occ Nat.eq_dec (watches (vst s p (c :: r)) q) k).
  { intros q k. cbn [vst push_watch set_watches watches s1 set_cls]. rewrite !count_vst.
    destruct (lit_eqb p q); cbn [count_occ]; destruct (Nat.eq_dec c k); lia. }
  assert (Hw_c : forall q, count_occ Nat.eq_dec (watches (vst (push_watch s1 p c) p r) q) c = wcount (x0 :: negl p :: rr) q).
  { intros q. rewrite Hw_p. cbn [vst set_watches watches]. rewrite count_vst. cbn [count_occ].
    destruct (Nat.eq_dec c c); [|congruence]. rewrite Hcount, Hcnt. cbn [wcount]. rewrite negl_invol. reflexivity. }
  (* the generic re-insertion, keeping c pending *)
  assert (HG1 : InvG C (wpend s p (c :: r)) tp (vst (push_watch s1 p c) p r)).
  { eapply InvG_recls with (c := c) (wp := wpend s p (c :: r)) (a' := x0) (b' := negl p) (r' := rr); try exact HG; try reflexivity.
    - exact Hc.
    - cbn. apply upd_eq.
    - intros k Hk. cbn. apply upd_neq, Hk.
    - exact HP.
    - exact Hx0.
    - intros v Hv. apply (Hreason v Hv).
    - intros q k _. apply Hw_p.
    - exact Hw_c.
    - auto.
    - exact Hhalf.
    - intros _. left. right. rewrite negl_invol. split; [reflexivity|left; reflexivity]. }
  destruct (is_true s x0) eqn:Et.
  { (* satisfied *)
    apply is_true_iff in Et. exists (push_watch s1 p c), true. split; [reflexivity|].
    split; [apply (Hmod _ (x0 :: negl p :: rr)); try reflexivity; [cbn; apply upd_eq|intros k Hk; cbn; apply upd_neq, Hk|exact HP]|].
    split; [apply Hgrow; reflexivity|]. split; [reflexivity|]. split; [reflexivity|].
    split; [exists []; split; [reflexivity|cbn; rewrite app_nil_r; reflexivity]|].
    destruct HG1 as [A1 A2 A3 A4 A5 A6]. constructor; try assumption.
    - intros k Hk x y z E. destruct (A4 k Hk x y z E) as [H1 H2].
      destruct (Nat.eq_dec k c) as [->|Hne].
      + cbn in E. rewrite upd_eq in E. inversion E; subst x y z. split.
        * intros Hv. exfalso. change (value s x0 = LFalse) in Hv. congruence.
        * intros Hv. right. split; [exact Et|]. cbn. rewrite Hl. apply (level_le _ HT).
      + split; intros Hv; [destruct (H1 Hv) as [H3|H3]|destruct (H2 Hv) as [H3|H3]]; auto; left;
          (destruct H3 as [H3|[H3 [H4|H4]]]; [left; exact H3|congruence|right; auto]).
    - eapply InvTh_mono; [|exact A6]. auto. }
  assert (Ef : is_false s (negl p) = true) by (apply is_false_iff, Hfalse). rewrite Ef. cbn [negb].
  (* x0 is false only if pending in the queue *)
  assert (Hq0 : value s x0 = LFalse -> In (negl x0) (prop_q s)).
  { intros Hv. destruct (Hhalf Hv) as [[H1|[H1 _]]|[H1 _]].
    - exact H1.
    - exfalso. apply Hx0. rewrite <- (negl_invol x0), H1. reflexivity.
    - exfalso. change (value s (negl p) = LTrue) in H1. congruence. }
  assert (Hnoreason : forall v, reason s v <> Some c).
  { intros v Hv. destruct (Hreason v Hv) as [_ Hv0]. apply is_true_iff in Hv0. congruence. }
  pose proof (find_split_spec (fun l => negb (is_false s l)) rr) as Hfs.
  destruct (find_split (fun l => negb (is_false s l)) rr) as [[[pre l] post]|].
  { (* a new watch *)
    destruct Hfs as [Err Hlf]. apply negb_true_iff in Hlf.
    set (s2 := set_cls (upd (cls s1) c (x0 :: l :: pre ++ negl p :: post)) s1).
    assert (Hvl : value s l <> LFalse) by (intros Hv; apply is_false_iff in Hv; congruence).
    assert (Hlp : negl l <> p) by (intros E; apply Hvl; rewrite <- (negl_invol l), E; exact Hfalse).
    assert (HP2 : Permutation (cls s c) (x0 :: l :: pre ++ negl p :: post)).
    { etransitivity; [exact HP|]. constructor. rewrite Err.
      etransitivity; [apply Permutation_middle|].  
      transitivity (l :: pre ++ negl p :: post); [|reflexivity].
      transitivity (l :: negl p :: pre ++ post).
      - rewrite <- Permutation_middle. rewrite (perm_swap (negl p) l). constructor. rewrite <- Permutation_middle. reflexivity.
      - constructor. apply Permutation_middle. }
    assert (Hx0l : x0 <> l).
    { intros ->. assert (Hdup : NoDup (filter (fun q => negb (dead (vst s p (c :: r)) q)) (l :: negl p :: rr))).
      { eapply Permutation_NoDup; [apply filter_perm, HP|apply (c_dup _ HC c Hc)]. }
      assert (Hd : dead (vst s p (c :: r)) l = false).
      { destruct (dead (vst s p (c :: r)) l) eqn:E; [|reflexivity]. apply dead_iff in E as [E _]. exfalso; apply Hvl, E. }
      remember (negl p :: rr) as tlx eqn:Etl. cbn [filter] in Hdup.
      rewrite Hd in Hdup. cbn [negb] in Hdup. inversion Hdup as [|? ? Hni _]; subst. apply Hni.
      apply filter_In. split; [try rewrite Err; right; apply in_elt|]. rewrite Hd; reflexivity. }
    exists (push_watch s2 (negl l) c), true. split; [reflexivity|].
    split.
    { apply (Hmod _ (x0 :: l :: pre ++ negl p :: post)); try reflexivity.
      - cbn. rewrite !upd_eq. reflexivity.
      - intros k Hk. cbn. rewrite !upd_neq by exact Hk. reflexivity.
      - exact HP2. }
    split; [apply Hgrow; reflexivity|]. split; [reflexivity|]. split; [reflexivity|].
    split; [exists []; split; [reflexivity|cbn; rewrite app_nil_r; reflexivity]|].
    assert (HG2 : InvG C (wpend s p r) tp (vst (push_watch s2 (negl l) c) p r)).
    { eapply InvG_recls with (c := c) (wp := wpend s p (c :: r)) (a' := x0) (b' := l) (r' := pre ++ negl p :: post); try exact HG; try reflexivity.
      - exact Hc.
      - cbn. rewrite !upd_eq. reflexivity.
      - intros k Hk. cbn. rewrite !upd_neq by exact Hk. reflexivity.
      - exact HP2.
      - exact Hx0l.
      - intros v Hv. exfalso. apply (Hnoreason v Hv).
      - intros q k Hk. cbn [vst push_watch set_watches watches s2 s1 set_cls]. rewrite !count_vst.
        cbn [count_occ]. destruct (Nat.eq_dec c k); [congruence|]. destruct (lit_eqb p q), (lit_eqb (negl l) q); lia.
      - intros q. cbn [vst push_watch set_watches watches s2 s1 set_cls]. rewrite !count_vst.
        cbn [wcount count_occ]. destruct (Nat.eq_dec c c); [|congruence]. specialize (Hcount q). rewrite Hcnt in Hcount. destruct Hnr as [Hnr1 Hnr2].
        rewrite Hnr1 in Hcount |- *. destruct (lit_eqb_spec p q) as [->|Hne].
        + destruct (lit_eqb_spec (negl l) q); [congruence|]. cbn [b2n] in *. lia.
        + cbn [b2n] in Hcount. destruct (lit_eqb (negl l) q); cbn [b2n]; lia.
      - intros k q Hk _ [H1|[H1 [H2|H2]]]; [left; exact H1|congruence|right; auto].
      - intros Hv. left. left. apply Hq0, Hv.
      - intros Hv. exfalso. apply Hvl, Hv. }
    destruct HG2 as [A1 A2 A3 A4 A5 A6]. constructor; try assumption. eapply InvTh_mono; [|exact A6]. auto. }
  (* unit or conflicting *)
  assert (Hrr : forall q, In q rr -> value s q = LFalse).
  { intros q Hq. apply Hfs in Hq. apply negb_false_iff in Hq. apply is_false_iff, Hq. }
  set (s2 := push_watch s1 p c) in *.
  destruct (value s x0) eqn:Ev.
  - (* conflict *)
    exists s2, false. split.
    { unfold enqueue. change (value s2 x0) with (value s x0). rewrite Ev. reflexivity. }
    split; [apply (Hmod _ (x0 :: negl p :: rr)); try reflexivity; [cbn; apply upd_eq|intros k Hk; cbn; apply upd_neq, Hk|exact HP]|].
    split; [apply Hgrow; reflexivity|]. split; [reflexivity|]. split; [reflexivity|].
    split; [exists []; split; [reflexivity|cbn; rewrite app_nil_r; reflexivity]|].
    assert (Ecl2 : cls s2 c = x0 :: negl p :: rr) by (cbn; apply upd_eq).
    split; [exact HG1|]. split; [exact Hc|]. rewrite Ecl2. split; [|split; [right; left; reflexivity|reflexivity]].
    intros q [<-|[<-|Hq]]; [exact Ev|exact Hfalse|apply Hrr, Hq].
  - exfalso. apply is_true_iff in Ev. congruence.
  - (* unit *)
    exists (enq s2 x0 (Some c)), true. split.
    { change (value s x0) with (value s2 x0) in Ev. rewrite (enqueue_undef s2 x0 (Some c) Ev). reflexivity. }
    assert (Ecl2 : cls s2 c = x0 :: negl p :: rr) by (cbn; apply upd_eq).
    assert (Hm2 : forall M, smodels C s2 M <-> smodels C s M).
    { apply (Hmod _ (x0 :: negl p :: rr)); try reflexivity; [cbn; apply upd_eq|intros k Hk; cbn; apply upd_neq, Hk|exact HP]. }
    split.
    { intros M. rewrite (enq_smodels C s2 x0 (Some c) M); [apply Hm2|exact Ev|].
      intros Hd HM. destruct (sm_cls _ _ _ HM c Hc) as (q & Hq & Eq). rewrite Ecl2 in Hq.
      destruct Hq as [<-|Hq]; [exact Eq|exfalso].
      assert (Hv : value s2 q = LFalse) by (destruct Hq as [<-|Hq]; [exact Hfalse|apply Hrr, Hq]).
      apply value_false_true in Hv. apply (sm_facts _ _ _ HM) in Hv.
      - rewrite mlit_negl, Eq in Hv; discriminate.
      - pose proof (level_le _ HT (lvar (negl q))) as Hle. change (dlevel (vst s p (c :: r))) with (dlevel s) in Hle. cbn in Hle.
        change (dlevel s2) with (dlevel s) in Hd. change (level s2) with (level s). rewrite lvar_negl in *. lia. }
    split. { eapply grow_trans; [|apply grow_enq; exact Ev]. apply Hgrow; reflexivity. }
    split; [reflexivity|]. split; [reflexivity|].
    split; [exists [x0]; split; reflexivity|].
    pose proof HG1 as [A1 A2 A3 A4 A5 A6].
    change (vst (enq s2 x0 (Some c)) p r) with (enq (vst s2 p r) x0 (Some c)).
    assert (Ev' : value (vst s2 p r) x0 = LUndef) by exact Ev.
    constructor.
    + apply InvT_enq; [exact A1|exact Ev'| |discriminate].
      apply (c_range _ HC c Hc). apply (Permutation_in _ (Permutation_sym HP)). left; reflexivity.
    + apply InvC_enq; assumption.
    + apply InvR_enq; [exact A1|exact A3|exact Ev'|]. intros k Ek. inversion Ek; subst k. split; [exact Hc|].
      exists (negl p :: rr). split; [exact Ecl2|]. intros q [<-|Hq]; [exact Hfalse|apply Hrr, Hq].
    + intros k Hk x y z E. destruct (Nat.eq_dec k c) as [->|Hne].
      * change (cls s2 c = x :: y :: z) in E. rewrite Ecl2 in E. inversion E; subst x y z. split; intros Hv.
        -- exfalso. rewrite value_enq in Hv. unfold ov in Hv. rewrite lit_eqb_refl in Hv; discriminate.
        -- right. split; [rewrite value_enq; unfold ov; rewrite lit_eqb_refl; reflexivity|].
           cbn [enq level]. rewrite upd_eq, lvar_negl. unfold upd.
           destruct (lvar p =? lvar x0); [reflexivity|]. cbn. rewrite Hl. reflexivity.
      * destruct (A4 k Hk x y z E) as [H1 H2].
        assert (Hmono : forall q, wpend s p (c :: r) k q -> wpend (enq s2 x0 (Some c)) p r k q).
        { intros q [H3|[H3 [H4|H4]]]; [left; cbn; apply in_or_app; auto|congruence|right; auto]. }
        split; (eapply half_enq; [exact Ev'|exact Hmono|left; cbn; apply in_or_app; right; left; reflexivity|assumption]).
    + apply InvQ_enq; assumption.
    + eapply InvTh_enq; [exact Ev'| | |exact A6]; cbn; intros; [left; assumption|right; apply in_or_app; right; left; reflexivity].
Qed.
End Prop_.
