(** Adding clauses: the clause constructor and [record]. *)
From Verif Require Import Base Sat SatSpec SatInv SatPop.

Section Rec.
Context {T : Type} {ops : theory_ops T} (C : contract ops).
Notation st := (st T).
Notation record := (Sat.record ops).

(** The invariant with explicit pending sets. *)
Record InvG (wp tp : nat -> lit -> Prop) (s : st) : Prop := {
  g_t : InvT s;
  g_c : InvC s;
  g_r : InvR s;
  g_w : InvW wp s;
  g_q : InvQ s;
  g_h : InvTh C True tp s }.
Lemma Inv_G s : Inv C s <-> InvG (fun _ l => In l (prop_q s)) (fun _ l => In l (prop_q s)) s.
Proof. split; intros [A B D E F G]; constructor; assumption. Qed.

(** ** The state after the construction of a clause. *)
Definition addc (s : st) (ls : list lit) : st :=
  match ls with
  | l0 :: l1 :: _ =>
    let c := ncid s in
    let w := updl (watches s) (negl l0) (watches s (negl l0) ++ [c]) in
    let w := updl w (negl l1) (w (negl l1) ++ [c]) in
    mk_st (nv s) (upd (cls s) c ls) (S c) (constrs s ++ [c]) w (assigns s) (level s) (reason s)
         (prop_q s) (trail s) (trail_lim s) (decisions s) (exprs s) (theories s) (bounds s)
         (listening s) (log s)
  | _ => s
  end.

Lemma count_push (w : lit -> list nat) q c p c' :
  count_occ Nat.eq_dec (updl w q (w q ++ [c]) p) c' =
  count_occ Nat.eq_dec (w p) c' + b2n (lit_eqb q p && (c =? c')).
Proof.
  unfold updl. destruct (lit_eqb_spec p q) as [->|H].
  - rewrite lit_eqb_refl, count_occ_app. cbn. destruct (Nat.eq_dec c c') as [->|Hc].
    + rewrite Nat.eqb_refl. reflexivity.
    + destruct (Nat.eqb_spec c c'); [contradiction|]. reflexivity.
  - destruct (lit_eqb_spec q p); [congruence|]. cbn; lia.
Qed.
Lemma In_push (w : lit -> list nat) q c p c' :
  In c' (updl w q (w q ++ [c]) p) -> In c' (w p) \/ c' = c.
Proof.
  unfold updl. destruct (lit_eqb_spec p q) as [->|H]; [|auto].
  intros Hi. apply in_app_or in Hi as [Hi|[Hi|[]]]; auto.
Qed.

Lemma InvT_ext (s s' : st) : nv s' = nv s -> assigns s' = assigns s -> level s' = level s ->
  reason s' = reason s -> trail s' = trail s -> trail_lim s' = trail_lim s -> decisions s' = decisions s ->
  InvT s -> InvT s'.
Proof.
  intros E1 E2 E3 E4 E5 E6 E7 H.
  constructor; unfold value; rewrite ?E1, ?E2, ?E3, ?E4, ?E5, ?E6, ?E7; apply H.
Qed.
Lemma InvQ_ext (s s' : st) : prop_q s' = prop_q s -> trail s' = trail s -> level s' = level s ->
  trail_lim s' = trail_lim s -> InvQ s -> InvQ s'.
Proof. intros E1 E2 E3 E4 H. constructor; unfold dlevel; rewrite ?E1, ?E2, ?E3, ?E4; apply H. Qed.
Lemma InvTh_ext strict tp (s s' : st) : nv s' = nv s -> assigns s' = assigns s -> level s' = level s ->
  trail_lim s' = trail_lim s -> theories s' = theories s -> bounds s' = bounds s -> prop_q s' = prop_q s ->
  InvTh C strict tp s -> InvTh C strict tp s'.
Proof.
  intros E1 E2 E3 E4 E5 E6 E7 H.
  constructor; unfold th_views, value, dlevel; rewrite ?E1, ?E2, ?E3, ?E4, ?E5, ?E6, ?E7; [apply (h_views _ _ _ _ H)|apply (h_range _ _ _ _ H)|apply (h_bound _ _ _ _ H)|apply (h_owned _ _ _ _ H)|apply (h_nodup _ _ _ _ H)|apply (h_fixed _ _ _ _ H)].
Qed.
Lemma InvTh_mono strict (tp tp' : nat -> lit -> Prop) (s : st) :
  (forall i l, tp i l -> tp' i l) -> InvTh C strict tp s -> InvTh C strict tp' s.
Proof.
  intros Hm H. constructor; try apply H.
  intros i t Et. destruct (h_views _ _ _ s H i t Et) as (vs & H1 & H2 & H3 & H4). exists vs.
  repeat split; auto; try (eapply H3; eauto).
  intros l Ha Hl. destruct (H4 l Ha Hl); auto.
Qed.

Record clause_ok (s : st) (ls : list lit) : Prop := {
  k_shape : exists a b r, ls = a :: b :: r /\ a <> b;
  k_range : forall p, In p ls -> lvar p < nv s;
  k_compl : forall p q, In p ls -> In q ls -> lvar p = lvar q -> p = q;
  k_dup : NoDup (filter (fun p => negb (dead s p)) ls) }.

Lemma addc_cls_old s ls c : c < ncid s -> cls (addc s ls) c = cls s c.
Proof. intros H. destruct ls as [|a [|b r]]; cbn; try reflexivity. apply upd_neq; lia. Qed.

Lemma InvC_addc (s : st) ls : InvC s -> clause_ok s ls -> InvC (addc s ls).
Proof.
  intros H K. destruct (k_shape s ls K) as (a & b & r & E & Hab).
  pose proof (k_range s ls K) as KR. pose proof (k_compl s ls K) as KC. pose proof (k_dup s ls K) as KD.
  rewrite E in KR, KC, KD. subst ls.
  set (c := ncid s).
  assert (Hold : forall k, In k (constrs s) -> k <> c /\ upd (cls s) c (a :: b :: r) k = cls s k).
  { intros k Hk. apply (c_lt s H) in Hk. assert (k <> c) by (unfold c; lia). split; [assumption|]. apply upd_neq; assumption. }
  constructor; cbn [addc nv cls ncid constrs watches]; fold c.
  - apply Permutation_NoDup with (l := c :: constrs s); [apply Permutation_cons_append|].
    constructor; [|apply (c_nodup s H)]. intros Hi; destruct (Hold c Hi); congruence.
  - intros k Hk. apply in_app_or in Hk as [Hk|[<-|[]]]; [apply (c_lt s H) in Hk; unfold c; lia|lia].
  - intros k Hk. apply in_app_or in Hk as [Hk|[<-|[]]].
    + destruct (Hold k Hk) as [_ ->]. apply (c_shape s H k Hk).
    + rewrite upd_eq. eauto.
  - intros k Hk. apply in_app_or in Hk as [Hk|[<-|[]]].
    + destruct (Hold k Hk) as [_ ->]. apply (c_range s H k Hk).
    + rewrite upd_eq. exact KR.
  - intros k Hk. apply in_app_or in Hk as [Hk|[<-|[]]].
    + destruct (Hold k Hk) as [_ ->]. apply (c_compl s H k Hk).
    + rewrite upd_eq. exact KC.
  - intros k Hk. apply in_app_or in Hk as [Hk|[<-|[]]].
    + destruct (Hold k Hk) as [_ ->]. apply (c_dup s H k Hk).
    + rewrite upd_eq. exact KD.
  - intros k Hk p. rewrite !count_push. apply in_app_or in Hk as [Hk|[<-|[]]].
    + destruct (Hold k Hk) as [Hne ->]. rewrite (c_watch s H k Hk).
      destruct (Nat.eqb_spec c k); [congruence|]. rewrite !andb_false_r. cbn; lia.
    + rewrite upd_eq, Nat.eqb_refl, !andb_true_r. cbn [wcount].
      assert (H0 : count_occ Nat.eq_dec (watches s p) c = 0).
      { apply count_occ_not_In. intros Hi. apply (c_owned s H) in Hi. destruct (Hold c Hi); congruence. }
      rewrite H0. lia.
  - intros k p Hk. apply in_or_app. apply In_push in Hk as [Hk| ->]; [|right; left; reflexivity].
    apply In_push in Hk as [Hk| ->]; [|right; left; reflexivity]. left. apply (c_owned s H _ _ Hk).
Qed.

Lemma InvR_addc (s : st) ls : InvC s -> InvR s -> InvR (addc s ls).
Proof.
  intros HC H. destruct ls as [|a [|b r]]; [exact H|exact H|].
  assert (Hold : forall v k, reason s v = Some k -> upd (cls s) (ncid s) (a :: b :: r) k = cls s k).
  { intros v k Hk. apply (r_in s H) in Hk as [Hk _]. apply (c_lt s HC) in Hk. apply upd_neq; lia. }
  constructor; cbn [addc cls constrs reason trail].
  - intros v k Hk. rewrite (Hold v k Hk). destruct (r_in s H v k Hk) as (H1 & H2).
    split; [apply in_or_app; auto|exact H2].
  - intros pre p post k E Hk. rewrite (Hold _ k Hk). apply (r_before s H _ _ _ _ E Hk).
  - intros v k Hv Hk. rewrite (Hold _ k Hk). apply (r_off s H _ _ Hv Hk).
Qed.

Lemma InvW_addc wp (s : st) a b r : InvC s -> InvW wp s ->
  half s (wp (ncid s)) a b -> half s (wp (ncid s)) b a -> InvW wp (addc s (a :: b :: r)).
Proof.
  intros HC H Ha Hb k Hk x y z E. cbn [addc constrs cls] in Hk, E.
  apply in_app_or in Hk as [Hk|[<-|[]]].
  - rewrite upd_neq in E by (apply (c_lt s HC) in Hk; lia). apply (H k Hk x y z E).
  - rewrite upd_eq in E. inversion E; subst. split; assumption.
Qed.

Lemma InvG_addc wp tp (s : st) a b r : InvG wp tp s -> clause_ok s (a :: b :: r) ->
  half s (wp (ncid s)) a b -> half s (wp (ncid s)) b a -> InvG wp tp (addc s (a :: b :: r)).
Proof.
  intros [HT HC HR HW HQ HH] K H1 H2. constructor.
  - eapply InvT_ext; [..|exact HT]; reflexivity.
  - apply InvC_addc; assumption.
  - apply InvR_addc; assumption.
  - apply InvW_addc; assumption.
  - eapply InvQ_ext; [..|exact HQ]; reflexivity.
  - eapply InvTh_ext; [..|exact HH]; reflexivity.
Qed.

Lemma addc_smodels (s : st) ls M : InvC s -> 2 <= length ls ->
  (smodels C (addc s ls) M <-> smodels C s M /\ mcl M ls).
Proof.
  intros HC Hl. destruct ls as [|a [|b r]]; cbn in Hl; try lia.
  set (ls := a :: b :: r).
  assert (Hold : forall k, In k (constrs s) -> upd (cls s) (ncid s) ls k = cls s k).
  { intros k Hk. apply (c_lt s HC) in Hk. apply upd_neq; lia. }
  split.
  - intros H. split.
    + constructor; try apply H. intros c Hc. rewrite <- (Hold c Hc). apply (sm_cls _ _ _ H).
      cbn. apply in_or_app; auto.
    + assert (Hi : In (ncid s) (constrs (addc s ls))) by (cbn; apply in_or_app; right; left; reflexivity).
      pose proof (sm_cls _ _ _ H _ Hi) as Hc. cbn in Hc. rewrite upd_eq in Hc. exact Hc.
  - intros [H Hc]. constructor; try apply H. cbn [addc constrs cls ls]. intros c Hi.
    apply in_app_or in Hi as [Hi|[<-|[]]].
    + fold ls. rewrite (Hold c Hi). apply (sm_cls _ _ _ H c Hi).
    + rewrite upd_eq. exact Hc.
Qed.

(** Enqueuing a literal that holds in all the models. *)
Lemma enq_smodels (s : st) p c M : value s p = LUndef ->
  (dlevel s = 0 -> smodels C s M -> mlit M p = true) -> (smodels C (enq s p c) M <-> smodels C s M).
Proof.
  intros Hu Hp. split; intros H; constructor; try apply H.
  - intros q H1 H2. apply (sm_facts _ _ _ H).
    + rewrite value_enq_mono; congruence.
    + rewrite level_enq_mono; congruence.
  - intros q H1 H2. rewrite value_enq in H1. apply ov_true in H1 as [->|H1].
    + cbn in H2. rewrite upd_eq in H2. apply Hp; assumption.
    + rewrite level_enq_mono in H2 by congruence. apply (sm_facts _ _ _ H q H1 H2).
Qed.

(** [grow s s']: [s'] extends the assignment of [s], at the same decision level. *)
Record grow (s s' : st) : Prop := {
  gr_trail : exists ext, trail s' = ext ++ trail s /\
     (forall v, ~ In v (map lvar ext) ->
        assigns s' v = assigns s v /\ level s' v = level s v /\ reason s' v = reason s v) /\
     (forall v, In v (map lvar ext) -> assigns s v = LUndef);
  gr_lim : trail_lim s' = trail_lim s;
  gr_dec : decisions s' = decisions s;
  gr_nv : nv s' = nv s;
  gr_exprs : exprs s' = exprs s;
  gr_ths : length (theories s') = length (theories s) }.
Lemma grow_refl s : grow s s.
Proof. constructor; try reflexivity. exists []. cbn. split; [reflexivity|]. split; [auto|tauto]. Qed.
Lemma grow_trans s1 s2 s3 : grow s1 s2 -> grow s2 s3 -> grow s1 s3.
Proof.
  intros [(e1 & A1 & B1 & D1) L1 K1 N1 X1 Y1] [(e2 & A2 & B2 & D2) L2 K2 N2 X2 Y2].
  constructor; try congruence. exists (e2 ++ e1). split; [rewrite A2, A1, app_assoc; reflexivity|]. split.
  - intros v Hv. rewrite map_app in Hv.
    destruct (B1 v) as (P1 & P2 & P3); [intros Hi; apply Hv, in_or_app; auto|].
    destruct (B2 v) as (Q1 & Q2 & Q3); [intros Hi; apply Hv, in_or_app; auto|]. repeat split; congruence.
  - intros v Hv. destruct (in_dec Nat.eq_dec v (map lvar e1)) as [Hi|Hi]; [apply D1, Hi|].
    rewrite map_app in Hv. apply in_app_or in Hv as [Hv|Hv]; [|contradiction].
    destruct (B1 v Hi) as (<- & _). apply D2, Hv.
Qed.
Lemma grow_enq s p c : value s p = LUndef -> grow s (enq s p c).
Proof.
  intros Hu. constructor; try reflexivity. exists [p]. split; [reflexivity|]. split.
  - intros v Hv. cbn. rewrite !upd_neq; auto; intros ->; apply Hv; left; reflexivity.
  - intros v [<-|[]]. apply value_undef, Hu.
Qed.
Lemma grow_value (s s' : st) p : grow s s' -> value s p <> LUndef ->
  value s' p = value s p /\ level s' (lvar p) = level s (lvar p).
Proof.
  intros [(e & A & B & D) _ _ _ _ _] Hp. destruct (in_dec Nat.eq_dec (lvar p) (map lvar e)) as [Hi|Hi].
  - exfalso. apply Hp, value_undef, D, Hi.
  - destruct (B _ Hi) as (P & Q & _). unfold value, vlit. rewrite P. auto.
Qed.
Lemma grow_dlevel (s s' : st) : grow s s' -> dlevel s' = dlevel s.
Proof. intros H. unfold dlevel. rewrite (gr_lim _ _ H). reflexivity. Qed.

(** ** [record] *)
Lemma count_by_app f l1 l2 : count_by f (l1 ++ l2) = count_by f l1 + count_by f l2.
Proof. unfold count_by. rewrite filter_app, app_length. reflexivity. Qed.
Lemma count_by_all f l : (forall x, In x l -> f x = true) -> count_by f l = length l.
Proof. intros H; apply filter_len_all, H. Qed.
Lemma count_by_none f l : (forall x, In x l -> f x = false) -> count_by f l = 0.
Proof.
  unfold count_by. induction l as [|x l IH]; cbn; intros H; [reflexivity|].
  rewrite (H x (or_introl eq_refl)). apply IH. auto.
Qed.
Lemma srt_head (sr : sorter) (key : lit -> nat) ls b r :
  srt key ls = b :: r -> forall q, In q ls -> key q <= key b.
Proof.
  intros E q Hq. apply (srt_in sr key) in Hq. pose proof (srt_sorted key ls) as Hs. rewrite E in Hs, Hq.
  destruct Hq as [->|Hq]; [lia|]. inversion Hs as [|? ? _ F]; subst. rewrite Forall_forall in F. exact (F q Hq).
Qed.
Lemma filter_perm {A} (f : A -> bool) l l' : Permutation l l' -> Permutation (filter f l) (filter f l').
Proof.
  induction 1; cbn; auto.
  - destruct (f x); auto.
  - destruct (f x), (f y); auto. apply perm_swap.
  - etransitivity; eassumption.
Qed.

Definition rec_lits (s : st) (l0 : lit) (tl : list lit) : list lit :=
  l0 :: srt (sorter := th_sort ops) (fun l => level s (lvar l)) tl.
(** The state after [record (l0 :: tl)]. *)
Definition recorded (s : st) (l0 : lit) (tl : list lit) : st :=
  match tl with
  | [] => enq s l0 None
  | _ => enq (addc s (rec_lits s l0 tl)) l0 (Some (ncid s))
  end.

Record rec_pre (s : st) (l0 : lit) (tl : list lit) : Prop := {
  rp_range : lvar l0 < nv s;
  rp_undef : value s l0 = LUndef;
  rp_false : forall q, In q tl -> value s q = LFalse;
  rp_dup : NoDup (filter (fun q => negb (dead s q)) tl);
  rp_root : tl = [] -> dlevel s = 0;
  rp_level : tl <> [] -> exists q, In q tl /\ level s (lvar q) = dlevel s }.

Lemma record_eq (s : st) l0 tl : InvT s -> rec_pre s l0 tl -> record s (l0 :: tl) = Ok (recorded s l0 tl).
Proof.
  intros HT [Rr Ru Rf Rd Rroot Rl]. unfold Sat.record.
  assert (Htf : forall q, In q tl -> is_true s q = false).
  { intros q Hq. destruct (is_true s q) eqn:E; [|reflexivity]. apply is_true_iff in E. rewrite (Rf q Hq) in E; discriminate. }
  assert (Huf : forall q, In q tl -> is_undef s q = false).
  { intros q Hq. destruct (is_undef s q) eqn:E; [|reflexivity]. apply is_undef_iff in E. rewrite (Rf q Hq) in E; discriminate. }
  assert (Hff : forall q, In q tl -> is_false s q = true) by (intros q Hq; apply is_false_iff, Rf, Hq).
  assert (E0 : is_true s l0 = false /\ is_undef s l0 = true /\ is_false s l0 = false).
  { unfold is_true, is_undef, is_false. rewrite Ru. auto. }
  destruct E0 as (E1 & E2 & E3).
  assert (G1 : in_range s (l0 :: tl) = true).
  { unfold in_range. apply forallb_forall. intros q [<-|Hq]; apply Nat.ltb_lt; [exact Rr|].
    apply trail_range; [exact HT|]. rewrite (Rf q Hq); discriminate. }
  rewrite G1, E2. cbn [guard].
  change (l0 :: tl) with ([l0] ++ tl). rewrite !count_by_app.
  rewrite (count_by_none (is_true s) tl Htf), (count_by_none (is_undef s) tl Huf), (count_by_all (is_false s) tl Hff).
  unfold count_by; cbn [filter]. rewrite E1, E2, E3. cbn [length app Nat.add Nat.eqb guard Nat.sub].
  rewrite Nat.sub_0_r, Nat.eqb_refl. cbn [guard].
  destruct tl as [|x tl].
  - assert (Hr : root_level s = true) by (apply root_dlevel, Rroot; reflexivity). rewrite Hr. cbn [guard].
    rewrite enqueue_undef by exact Ru. reflexivity.
  - unfold recorded, rec_lits. 
    destruct (srt (sorter := th_sort ops) (fun l => level s (lvar l)) (x :: tl)) as [|b r] eqn:Er.
    + exfalso. assert (Hx : In x (srt (sorter := th_sort ops) (fun l => level s (lvar l)) (x :: tl))).
      { apply srt_in. left; reflexivity. }
      rewrite Er in Hx. destruct Hx.
    + cbn [new_constr rbind]. rewrite enqueue_undef by exact Ru. reflexivity.
Qed.

Lemma rec_clause_ok (s : st) l0 tl : InvT s -> rec_pre s l0 tl -> tl <> [] ->
  clause_ok s (rec_lits s l0 tl) /\
  exists b r, rec_lits s l0 tl = l0 :: b :: r /\ value s b = LFalse /\ level s (lvar b) = dlevel s /\
     (forall q, In q (b :: r) <-> In q tl).
Proof.
  intros HT [Rr Ru Rf Rd Rroot Rl] Hne. unfold rec_lits.
  destruct (srt (sorter := th_sort ops) (fun l => level s (lvar l)) tl) as [|b r] eqn:Er.
  { exfalso. destruct tl as [|x tl]; [congruence|].
    assert (Hx : In x (srt (sorter := th_sort ops) (fun l => level s (lvar l)) (x :: tl))).
    { apply srt_in. left; reflexivity. }
    rewrite Er in Hx. destruct Hx. }
  assert (Hiff : forall q, In q (b :: r) <-> In q tl).
  { intros q. rewrite <- Er. apply srt_in. }
  assert (Hfal : forall q, In q (b :: r) -> value s q = LFalse) by (intros q Hq; apply Rf, Hiff, Hq).
  split.
  - constructor.
    + exists l0, b, r. split; [reflexivity|]. intros ->. rewrite (Hfal b (or_introl eq_refl)) in Ru; discriminate.
    + intros p [<-|Hp]; [exact Rr|]. apply trail_range; [exact HT|]. rewrite (Hfal p Hp); discriminate.
    + assert (Hl0 : forall q, In q (b :: r) -> lvar l0 <> lvar q).
      { intros q Hq E. apply Hfal in Hq. apply value_undef in Ru. rewrite E in Ru. apply value_undef in Ru. congruence. }
      intros p q [<-|Hp] [<-|Hq] E; [reflexivity|exfalso; eapply Hl0; eauto|exfalso; eapply Hl0; eauto|].
      destruct (same_var p q E) as [|E2]; [assumption|]. subst p. exfalso.
      specialize (Hfal _ Hp) as V. rewrite value_negl, (Hfal _ Hq) in V. discriminate.
    + set (BR := b :: r) in *. cbn [filter]. assert (D0 : dead s l0 = false).
      { destruct (dead s l0) eqn:E; [|reflexivity]. apply dead_iff in E as [E _]. congruence. }
      rewrite D0. cbn [negb]. constructor.
      * intros Hi. apply filter_In in Hi as [Hi _]. specialize (Hfal _ Hi). congruence.
      * apply (Permutation_NoDup (l := filter (fun q => negb (dead s q)) tl)); [|exact Rd].
        apply filter_perm. rewrite <- Er. apply srt_perm.
  - exists b, r. split; [reflexivity|]. split; [apply Hfal; left; reflexivity|]. split; [|exact Hiff].
    destruct (Rl Hne) as (q & Hq & Eq).
    pose proof (srt_head _ (fun l => level s (lvar l)) tl b r Er q Hq) as Hle. cbn in Hle.
    pose proof (level_le s HT (lvar b)). lia.
Qed.

Lemma recorded_gen (wp tp wp' tp' : nat -> lit -> Prop) (s : st) l0 tl :
  InvG wp tp s -> rec_pre s l0 tl ->
  (forall k l, wp k l -> wp' k l) -> (forall k, wp' k l0) ->
  (forall k l, tp k l -> tp' k l) -> (forall k, tp' k l0) ->
  InvG wp' tp' (recorded s l0 tl) /\ grow s (recorded s l0 tl) /\
  (forall M, smodels C (recorded s l0 tl) M <-> smodels C s M /\ mcl M (l0 :: tl)).
Proof.
  intros HG R Hw Hw0 Ht Ht0. pose proof HG as [HT HC HR HW HQ HH].
  destruct tl as [|x tl]; cbn [recorded].
  - split; [|split].
    + constructor.
      * apply InvT_enq; [exact HT|apply R|apply R|]. intros _ Hd. exfalso. apply Hd. apply R; reflexivity.
      * apply InvC_enq; [exact HC|apply R].
      * apply InvR_enq; [exact HT|exact HR|apply R|discriminate].
      * eapply InvW_enq; [apply R|exact Hw|exact Hw0|exact HW].
      * apply InvQ_enq; [exact HT|exact HQ|apply R].
      * eapply InvTh_enq; [apply R|exact Ht|exact Ht0|exact HH].
    + apply grow_enq, R.
    + intros M. split.
      * intros HM. assert (Hm : mlit M l0 = true).
        { apply (sm_facts _ _ _ HM l0); [rewrite value_enq; unfold ov; rewrite lit_eqb_refl; reflexivity|]. cbn. rewrite upd_eq. apply R; reflexivity. }
        split; [|exists l0; split; [left; reflexivity|exact Hm]].
        destruct HM as [S1 S2 S3 S4]. constructor; try assumption. intros p H1 H2. apply S3.
        -- rewrite value_enq_mono; [assumption|apply R|congruence].
        -- rewrite level_enq_mono; [assumption|apply R|congruence].
      * intros [HM (q & [<-|[]] & E)]. apply enq_smodels; [apply R|intros; exact E|exact HM].
  - set (TL := x :: tl) in *. assert (Hne : TL <> []) by discriminate.
    destruct (rec_clause_ok s l0 TL HT R Hne) as (K & b & r & El & Vb & Lb & Hiff).
    rewrite El.
    assert (Hu1 : value (addc s (l0 :: b :: r)) l0 = LUndef) by apply R.
    assert (HT1 : InvT (addc s (l0 :: b :: r))) by (eapply InvT_ext; [..|exact HT]; reflexivity).
    assert (K1 : In (ncid s) (constrs (addc s (l0 :: b :: r))))
      by (cbn; apply in_or_app; right; left; reflexivity).
    assert (K2 : cls (addc s (l0 :: b :: r)) (ncid s) = l0 :: b :: r) by (cbn; apply upd_eq).
    assert (HC1 : InvC (addc s (l0 :: b :: r))).
    { rewrite El in K. apply InvC_addc; [exact HC|exact K]. }
    split; [|split].
    + constructor.
      * apply InvT_enq; [exact HT1|exact Hu1|apply R|discriminate].
      * apply InvC_enq; [exact HC1|exact Hu1].
      * apply InvR_enq; [exact HT1|apply InvR_addc; assumption|exact Hu1|].
        intros k Ek. inversion Ek; subst k. split; [exact K1|]. exists (b :: r). split; [exact K2|].
        intros q Hq. apply (rp_false _ _ _ R). apply Hiff, Hq.
      * intros k Hk a' b' r' Er'. cbn [enq constrs cls addc] in Hk, Er'.
        apply in_app_or in Hk as [Hk|[<-|[]]].
        -- rewrite upd_neq in Er' by (apply (c_lt s HC) in Hk; lia).
           destruct (HW k Hk a' b' r' Er') as [H1 H2].
           split; (eapply half_enq with (pd := wp k); [exact Hu1|apply Hw|apply Hw0|assumption]).
        -- rewrite upd_eq in Er'. inversion Er'; subst a' b' r'. split; intros Hv.
           ++ exfalso. rewrite value_enq in Hv. unfold ov in Hv. rewrite lit_eqb_refl in Hv. discriminate.
           ++ right. split; [rewrite value_enq; unfold ov; rewrite lit_eqb_refl; reflexivity|].
              cbn [enq level addc]. rewrite upd_eq. unfold upd.
              destruct (lvar b =? lvar l0); [reflexivity|]. rewrite Lb. reflexivity.
      * apply InvQ_enq; [exact HT1| |exact Hu1]. eapply InvQ_ext; [..|exact HQ]; reflexivity.
      * eapply InvTh_enq; [exact Hu1|exact Ht|exact Ht0|]. eapply InvTh_ext; [..|exact HH]; reflexivity.
    + eapply grow_trans; [|apply grow_enq, Hu1]. constructor; try reflexivity. exists []. cbn.
      split; [reflexivity|]. split; [auto|tauto].
    + intros M. assert (Hcl' : mcl M (l0 :: TL) <-> mcl M (l0 :: b :: r)).
      { split; intros (p & Hp & E); exists p; (split; [|exact E]);
          (destruct Hp as [->|Hp]; [left; reflexivity|right; apply Hiff, Hp]). }
      rewrite Hcl', enq_smodels; [|exact Hu1|].
      * apply addc_smodels; [exact HC|cbn; lia].
      * intros Hd HM. apply addc_smodels in HM as [HM Hcl]; [|exact HC|cbn; lia].
        destruct Hcl as (p & [<-|Hp] & E); [exact E|exfalso].
        assert (Hp' : value s p = LFalse) by (apply (rp_false _ _ _ R), Hiff, Hp).
        assert (Hl : level s (lvar p) = 0).
        { pose proof (level_le s HT (lvar p)). change (dlevel (addc s (l0 :: b :: r))) with (dlevel s) in Hd. lia. }
        apply value_false_true in Hp'. apply (sm_facts _ _ _ HM) in Hp'; [|exact Hl].
        rewrite mlit_negl, E in Hp'. discriminate.
Qed.

Lemma recorded_ok (wp tp wp' tp' : nat -> lit -> Prop) (s : st) l0 tl :
  InvG wp tp s -> rec_pre s l0 tl ->
  (forall k l, wp k l -> wp' k l) -> (forall k, wp' k l0) ->
  (forall k l, tp k l -> tp' k l) -> (forall k, tp' k l0) ->
  (forall M, smodels C s M -> mcl M (l0 :: tl)) ->
  InvG wp' tp' (recorded s l0 tl) /\ grow s (recorded s l0 tl) /\
  (forall M, smodels C (recorded s l0 tl) M <-> smodels C s M).
Proof.
  intros HG R Hw Hw0 Ht Ht0 Hent.
  destruct (recorded_gen wp tp wp' tp' s l0 tl HG R Hw Hw0 Ht Ht0) as (A & B & D).
  split; [exact A|]. split; [exact B|]. intros M. rewrite D. split; [tauto|]. intros HM; split; [exact HM|apply Hent, HM].
Qed.
End Rec.
