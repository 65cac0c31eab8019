(** [next], and the other operations seen as transitions between quiet states. *)
From Verif Require Import Base Sat SatSpec SatInv SatPop SatImp SatRec SatAn SatProp SatLoop SatMain SatApi SatApi2.

Section Next.
Context {T : Type} {ops : theory_ops T} (C : contract ops).
Notation st := (st T).
Notation record := (Sat.record ops).
Notation recorded := (SatRec.recorded (ops := ops)).
Notation rec_lits := (SatRec.rec_lits (ops := ops)).

(** Every decision took effect: it is true, at the level it opened. *)
Definition decs_ok (s : st) : Prop :=
  forall k p, nth_error (decisions s) k = Some p -> value s p = LTrue /\ level s (lvar p) = dlevel s - k.

Lemma nth_skipn {A} (l : list A) n k : nth_error (skipn n l) k = nth_error l (n + k).
Proof. revert l; induction n as [|n IH]; intros [|x l]; cbn; auto. destruct k; reflexivity. Qed.

Lemma decs_step (s s' : st) : InvT s -> step_post C s s' -> decs_ok s -> decs_ok s'.
Proof.
  intros HT HS H k p E. rewrite (sp_dec _ _ _ HS), nth_skipn in E. pose proof (sp_dl _ _ _ HS) as Hd.
  destruct (H _ _ E) as [V L]. 
  assert (Hk : dlevel s - dlevel s' + k < dlevel s).
  { unfold dlevel at 3. rewrite <- (t_dec s HT). apply nth_error_Some. congruence. }
  destruct (sp_kept _ _ _ HS p V) as [V' L']; [lia|]. split; [exact V'|]. lia.
Qed.

Lemma decs_pop (s s' : st) rem : InvT s -> undo s s' rem -> (forall p, In p rem -> level s (lvar p) = dlevel s) ->
  trail_lim s' = tl (trail_lim s) -> decisions s' = tl (decisions s) -> decs_ok s -> decs_ok s'.
Proof.
  intros HT HU Hr El Ed H k p E.
  assert (Hd : dlevel s' = dlevel s - 1) by (unfold dlevel; rewrite El; destruct (trail_lim s); cbn; lia).
  destruct (decisions s) as [|d ds] eqn:Eds; [rewrite Ed in E; destruct k; discriminate|]. rewrite Ed in E. cbn in E.
  assert (Hlen : S (length ds) = dlevel s) by (unfold dlevel; rewrite <- (t_dec s HT), Eds; reflexivity).
  assert (Hk : k < length ds) by (apply nth_error_Some; congruence).
  destruct (H (S k) p) as [V L]; [rewrite Eds; exact E|].
  assert (Hn : ~ In (lvar p) (map lvar rem)).
  { intros Hi. apply in_map_iff in Hi as (q & Eq & Hq). apply Hr in Hq. rewrite Eq in Hq. lia. }
  destruct (u_keep _ _ _ HU _ Hn) as (_ & -> & _). rewrite (undo_value _ _ _ _ HU Hn). split; [exact V|]. lia.
Qed.

Lemma decs_assumed (s : st) p : InvT s -> value s p = LUndef -> decs_ok s -> decs_ok (@assumed T ops s p).
Proof.
  intros HT Hu H k q E. unfold assumed in *. rewrite Hu in *. cbn [enq push_st decisions] in E.
  assert (Hd : dlevel (enq (@push_st T ops s p) p None) = S (dlevel s)) by reflexivity. rewrite Hd.
  destruct k as [|k].
  - cbn in E. inversion E; subst q. split; [rewrite value_enq; unfold ov; rewrite lit_eqb_refl; reflexivity|].
    cbn. rewrite upd_eq. unfold dlevel. cbn. lia.
  - cbn in E. destruct (H k q E) as [V L]. assert (Hu' : value (@push_st T ops s p) p = LUndef) by exact Hu.
    assert (V' : value (@push_st T ops s p) q = LTrue) by exact V.
    rewrite (value_enq_mono _ _ _ _ Hu') by congruence. rewrite (level_enq_mono _ _ _ _ Hu') by congruence.
    split; [exact V'|]. cbn [push_st level]. rewrite L. reflexivity.
Qed.

Theorem next_ok fuel (s : st) : quiet C s -> decs_ok s -> dlevel s <> 0 ->
  match next ops fuel s with
  | UB => False
  | OOF => th_total C -> fuel <= enough s
  | Ok (s', b) =>
      (forall M, smodels C s' M <-> smodels C s M /\ exists d, In d (decisions s) /\ mlit M d = false) /\
      dlevel s' < dlevel s /\ nv s' = nv s /\ exprs s' = exprs s /\ decs_ok s' /\
      (exists n, 0 < n /\ decisions s' = skipn n (decisions s)) /\ kept s s' /\
      (b = true -> quiet C s') /\ (b = false -> doomed C s')
  end.
Proof.
  intros [HI Hq Hs] HD Hd. unfold next.
  assert (Er : root_level s = false) by (apply root_dlevel_false, Hd). rewrite Er.
  pose proof (i_t _ _ HI) as HT.
  destruct (pop_ok C s (Inv_InvX C s HI Hq) Hd) as (s1 & rem & E & HI1 & Hq1 & Hs1 & HU & Hrem & El & Ed & Hlen & Hth & Hlv & HM).
  rewrite E. cbn [rbind].
  destruct (decisions s) as [|d ds] eqn:Eds.
  { exfalso. apply Hd. unfold dlevel. rewrite <- (t_dec s HT), Eds. reflexivity. }
  cbn [map]. pose proof (decs_pop s s1 rem HT HU Hrem El ltac:(rewrite Ed, Eds; reflexivity) HD) as HD1.
  assert (Hd1 : S (dlevel s1) = dlevel s) by (unfold dlevel; rewrite El; unfold dlevel in Hd; destruct (trail_lim s); cbn in *; lia).
  cbn in Ed. pose proof (i_t _ _ HI1) as HT1.
  destruct (HD 0 d) as [Vd Ld]; [rewrite Eds; reflexivity|].
  assert (Hin : In (lvar d) (map lvar rem)).
  { destruct (in_dec Nat.eq_dec (lvar d) (map lvar rem)) as [|Hn]; [assumption|exfalso].
    destruct (u_keep _ _ _ HU _ Hn) as (_ & E2 & _). pose proof (level_le s1 HT1 (lvar d)). lia. }
  assert (Hu : value s1 (negl d) = LUndef) by (apply (undo_value_gone _ _ _ (negl d) HU); exact Hin).
  assert (Eu : is_undef s1 (negl d) = true) by (apply is_undef_iff, Hu). rewrite Eu. cbn [guard].
  assert (Hdv : forall k q, nth_error ds k = Some q -> value s1 q = LTrue /\ level s1 (lvar q) = dlevel s1 - k).
  { intros k q Ek. apply HD1. rewrite Ed. exact Ek. }
  assert (Hlds : length ds = dlevel s1) by (unfold dlevel; rewrite <- (t_dec s1 HT1), Ed; reflexivity).
  assert (R : rec_pre s1 (negl d) (map negl ds)).
  { constructor.
    - cbn. rewrite (u_nv _ _ _ HU). apply (t_drange s HT). rewrite Eds. left; reflexivity.
    - exact Hu.
    - intros q Hq2. apply in_map_iff in Hq2 as (q0 & <- & Hq0). apply In_nth_error in Hq0 as (k & Ek).
      rewrite value_negl. destruct (Hdv k q0 Ek) as [-> _]. reflexivity.
    - apply NoDup_filter. apply FinFun.Injective_map_NoDup; [intros x y; apply negl_inj|].
      apply NoDup_nth_error. intros i j Hi Ej. destruct (nth_error ds i) as [q|] eqn:Ei; [|apply nth_error_None in Ei; lia].
      symmetry in Ej. assert (Hj : j < length ds) by (apply nth_error_Some; congruence).
      destruct (Hdv i q Ei) as [_ L1]. destruct (Hdv j q Ej) as [_ L2]. lia.
    - intros E0. destruct ds; [exact (eq_sym Hlds)|discriminate].
    - intros Hne. destruct ds as [|d1 ds]; [exfalso; apply Hne; reflexivity|]. exists (negl d1). split; [left; reflexivity|].
      cbn. destruct (Hdv 0 d1 eq_refl) as [_ ->]. lia. }
  rewrite (record_eq s1 _ _ HT1 R). cbn [rbind].
  set (s2 := recorded s1 (negl d) (map negl ds)).
  destruct (recorded_gen C (fun _ l => In l (prop_q s1)) (fun _ l => In l (prop_q s1))
      (fun _ l => In l (prop_q s2)) (fun _ l => In l (prop_q s2)) s1 (negl d) (map negl ds)) as (G2 & Hg2 & HM2).
  { apply Inv_G, HI1. }
  { exact R. }
  { intros _ l Hl. rewrite Hq1 in Hl. destruct Hl. }
  { intros _. subst s2. unfold SatRec.recorded. destruct (map negl ds); [cbn; apply in_or_app; right; left; reflexivity|].
    cbn [enq prop_q]. apply in_or_app; right; left; reflexivity. }
  { intros _ l Hl. rewrite Hq1 in Hl. destruct Hl. }
  { intros _. subst s2. unfold SatRec.recorded. destruct (map negl ds); [cbn; apply in_or_app; right; left; reflexivity|].
    cbn [enq prop_q]. apply in_or_app; right; left; reflexivity. }
  assert (HI2 : Inv C s2) by (apply Inv_G, G2).
  pose proof (grow_dlevel _ _ Hg2) as Hdl2. fold s2 in Hdl2, Hg2, HM2.
  assert (HMf : forall M, smodels C s2 M <-> smodels C s M /\ exists d0, In d0 (d :: ds) /\ mlit M d0 = false).
  { intros M. rewrite HM2, HM. apply and_iff_compat_l. change (negl d :: map negl ds) with (map negl (d :: ds)). split.
    - intros (q & Hq0 & Em). apply in_map_iff in Hq0 as (q0 & <- & Hi). exists q0. split; [exact Hi|].
      rewrite mlit_negl in Em. destruct (mlit M q0); [discriminate|reflexivity].
    - intros (q0 & Hi & Em). exists (negl q0). split; [apply in_map, Hi|]. rewrite mlit_negl, Em. reflexivity. }
  assert (HD2 : decs_ok s2).
  { intros k q Ek. rewrite (gr_dec _ _ Hg2) in Ek. rewrite Hdl2. destruct (HD1 k q Ek) as [V L].
    destruct (grow_value _ _ q Hg2) as [-> ->]; [congruence|]. auto. }
  pose proof (propagate_ok C (dlevel s2) fuel s2 HI2 (le_n _)) as HP.
  destruct (propagate ops fuel s2) as [[s' b]| |]; [|exact HP|].
  - assert (HS : step_post C s2 s') by (destruct HP; constructor; assumption).
    pose proof (pp_dl _ _ _ _ HP) as Hd'. 
    split; [intros M; rewrite (pp_models _ _ _ _ HP); apply HMf|]. split; [lia|].
    split; [rewrite (pp_nv _ _ _ _ HP), (gr_nv _ _ Hg2), (u_nv _ _ _ HU); reflexivity|].
    split; [rewrite (pp_exprs _ _ _ _ HP), (gr_exprs _ _ Hg2), (u_exprs _ _ _ HU); reflexivity|].
    split; [apply (decs_step s2); [apply HI2|exact HS|exact HD2]|].
    split; [|split; [|split]].
    + exists (S (dlevel s2 - dlevel s')). split; [lia|]. rewrite (pp_dec _ _ _ _ HP), (gr_dec _ _ Hg2), Ed. reflexivity.
    + intros q Vq Lq. assert (Hn : ~ In (lvar q) (map lvar rem)) by (intros Hi; apply in_map_iff in Hi as (q0 & E0 & Hi); pose proof (Hrem q0 Hi) as Hr0; rewrite E0 in Hr0; lia).
      pose proof (undo_value _ _ _ q HU Hn) as V1. destruct (u_keep _ _ _ HU _ Hn) as (_ & L1 & _).
      destruct (grow_value _ _ q Hg2) as [V2 L2]; [congruence|]. fold s2 in V2, L2. destruct (pp_kept _ _ _ _ HP q) as [V3 L3]; [congruence|lia|]. split; [exact V3|lia].
    + intros ->. destruct (pp_true _ _ _ _ HP eq_refl) as (A & B & D). constructor; assumption.
    + intros ->. apply (pp_false _ _ _ _ HP eq_refl).
  - intros Ht. specialize (HP Ht). pose proof (mu_enough C s2 HI2) as He. unfold enough in *. rewrite Hdl2 in HP.
    rewrite (gr_nv _ _ Hg2), (u_nv _ _ _ HU), Hdl2 in He.
    assert (Hpw : nv s ^ dlevel s1 <= nv s ^ dlevel s) by (apply Nat.pow_le_mono_r; [pose proof (t_nv s HT); lia|lia]).
    pose proof (Nat.mul_le_mono_l _ _ (nv s) Hpw). lia.
Qed.

Lemma next_root fuel (s : st) : dlevel s = 0 -> next ops fuel s = Ok (s, false).
Proof. intros Hd. unfold next. assert (E : root_level s = true) by (apply root_dlevel, Hd). rewrite E. reflexivity. Qed.
End Next.
