(** The linear real arithmetic theory respects the contract of the core. *)
From Verif Require Import Base Sat SatSpec SatInv Lin Qe Lra LraTab LraVal LraInv LraChk LraPro.
From Coq Require Import Lqa.
Open Scope Q_scope.
Local Arguments Nat.ltb : simpl never.
Local Arguments Nat.eqb : simpl never.
Section Srt.
Context {sr : sorter}.

Lemma BInv_mono t f vs vs' : BInv t f vs -> (forall q, In q (concat vs) <-> In q (concat vs')) -> BInv t f vs'.
Proof.
  intros [B1 B2 B3 B4 B5 B6] H. constructor; auto.
  - intros s x b E. rewrite <- H. auto.
  - intros p Hp. apply B5, H, Hp.
Qed.
Lemma push_ok t vs : TInv t vs -> feas t (cb t) -> TInv (lra_push t) ([] :: vs) /\ same t (lra_push t).
Proof.
  intros [I1 I2 I3 I4 I5 I6 I7 I8 Ik I9 I10 I11 I12] HF. assert (S : same t (lra_push t)) by (constructor; reflexivity || (intros; cbn; tauto)).
  assert (Hne : vs <> []) by (intros ->; destruct (layers t); exact I12).
  split; [|exact S]. constructor; auto.
  - intros p Hp. apply I10 in Hp. destruct vs; [congruence|exact Hp].
  - apply (BInv_ext t _ (cb t)); auto. apply (BInv_mono t _ vs); [exact I11|]. intros q. reflexivity.
  - apply (LS_ext t _ S _ _ (cb t)); auto. cbn [lra_push layers set_layers LS]. destruct vs as [|w vs]; [congruence|].
    assert (EU : forall s x, undo [] (cb t) s x = cb t s x) by reflexivity.
    split; [intros e []|]. split; [exact I11|]. split; [exact HF|]. split; [intros s x; apply bsle_refl|]. split; [auto|]. exact I12.
Qed.
Lemma pop_ok t v w vs : TInv t (v :: w :: vs) -> TInv (lra_pop t) (w :: vs) /\ same t (lra_pop t) /\ feas (lra_pop t) (cb (lra_pop t)).
Proof.
  intros [I1 I2 I3 I4 I5 I6 I7 I8 Ik I9 I10 I11 I12]. unfold lra_pop. destruct (layers t) as [|L Ls] eqn:El; [destruct I12|]. destruct I12 as (H0 & H1 & H2 & H3 & H4 & H5).
  set (t' := set_layers Ls (set_cb (undo L (cb t)) t)). assert (S : same t t') by (constructor; reflexivity || (intros; cbn; tauto)).
  split; [|split; [exact S|apply (feas_ext t t' (undo L (cb t)) _ S (fun _ _ => eq_refl) H2)]]. constructor; auto.
  - intros s x Ex. cbn [t' tab set_layers set_cb] in Ex. cbn [t' vals set_layers set_cb]. unfold bound. cbn [t' cb set_layers set_cb].
    eapply bsle_inb; [apply H3|]. apply (I4 s x Ex).
  - intros x l Hx Hn. destruct (Ik x l Hx Hn) as (A & l0 & B & D & F & G). split; [exact A|]. exists l0. split; [exact B|]. split; [exact D|]. split; [exact F|]. intros s.
    eapply bsle_trans; [apply H3|]. specialize (G s). unfold rootcb in *. rewrite El in G. exact G.
  - apply (BInv_ext t t' (undo L (cb t)) _ _ S (fun _ _ => eq_refl) H1).
  - apply (LS_ext t t' S Ls (w :: vs) (undo L (cb t)) _ (fun _ _ => eq_refl) H5).
Qed.

(** The clauses that are valid for each choice of the numeric values are valid for all of them. *)
Lemma lemmas_fun tm tm' at_ p v ls v1 : lemmas_ok tm at_ p v ls v1 -> forall v2, lemmas_ok tm' at_ p v ls v2 -> v1 = v2.
Proof. induction 1 as [|v l0 tl r v1 A B D E F G H IH]; intros v2 K; inversion K; subst; auto. Qed.
Lemma lemmas_all {Y} (tm : Y -> (nat -> bool) -> Prop) at_ p v ls v1 : forall y0 : Y, lemmas_ok (tm y0) at_ p v ls v1 ->
  (forall y, exists v2, lemmas_ok (tm y) at_ p v ls v2) -> lemmas_ok (fun M => exists y, tm y M) at_ p v ls v1.
Proof.
  intros y0. induction 1 as [|v l0 tl r v1 A B D E F G H IH]; intros K; [constructor|]. constructor; auto.
  - intros M HM (y & Hy). destruct (K y) as (v2 & Hv). inversion Hv; subst. auto.
  - apply IH. intros y. destruct (K y) as (v2 & Hv). inversion Hv; subst. eauto.
Qed.

(** The constraints are the same, root-level bounds can only be tighter. *)
Record later (t t' : lra) : Prop := { lt_same : same t t'; lt_root : tighter (rootcb t) (rootcb t') }.
Lemma later_refl t : later t t.
Proof. split; [apply same_refl|apply tighter_refl]. Qed.
Lemma later_trans a b c : later a b -> later b c -> later a c.
Proof. intros [A B] [D E]. split; [eapply same_trans; eassumption|]. intros s x. eapply bsle_trans; [apply B|apply E]. Qed.
Lemma update_kept t x v t' : update t x v = Ok t' -> cb t' = cb t /\ layers t' = layers t.
Proof. unfold update. destruct (negb (is_basic t x)); cbn [guard]; [|discriminate]. destruct (rfold _ _ _) as [vs| |]; cbn [rbind]; try discriminate. intros E. inversion E; subst. auto. Qed.
Lemma assert_root ord t s x v p val t' ls cf : assert_bound ord t s x v p val = Ok (t', ls, cf) -> tighter (rootcb t) (rootcb t').
Proof.
  unfold assert_bound. destruct (bsle s (Some v) (bound t s x)) eqn:E1; [intros E; inversion E; subst; apply tighter_refl|]. apply bsle_total in E1.
  destruct (match bound t (other s) x with Some b0 => negb (sle s v b0) | None => false end); [intros E; inversion E; subst; apply tighter_refl|].
  cbv zeta. set (t1 := set_cb (updc (cb t) s x (Some v, p)) (set_layers (save t s x) t)).
  assert (H : forall t2, (if negb (sle s v (vals t1 x)) && negb (is_basic t1 x) then update t1 x v else Ok t1) = Ok t2 -> tighter (rootcb t) (rootcb (set_tick (S (tick t2)) t2))).
  { intros t2 E. assert (K : cb t2 = cb t1 /\ layers t2 = layers t1) by (destruct (negb _ && negb _); [eapply update_kept, E|inversion E; auto]). destruct K as [K1 K2].
    unfold rootcb. cbn [set_tick cb layers]. rewrite K1, K2. cbn [t1 set_cb set_layers cb layers]. apply save_root, E1. }
  destruct (if negb (sle s v (vals t1 x)) && negb (is_basic t1 x) then update t1 x v else Ok t1) as [t2| |]; cbn [rbind]; try discriminate. specialize (H t2 eq_refl).
  destruct (tell _ _ _ _ _) as [[v1 l1] [c1|]]; [intros E; inversion E; subst; exact H|]. destruct (rows_prop _ _ _ _ _) as [[[v2 l2] c2]| |]; cbn [rbind]; try discriminate. intros E; inversion E; subst; exact H.
Qed.
Lemma prop_root ord t val p t' ls cf : lra_prop ord t val p = Ok (t', ls, cf) -> tighter (rootcb t) (rootcb t').
Proof.
  unfold lra_prop. destruct (gfind (lvar p) (v_asrts t)) as [a|]; [|discriminate]. destruct (val (a_b a)); [apply assert_root|apply assert_root|]. intros E; inversion E; subst. apply tighter_refl.
Qed.
Lemma pop_root t : tighter (rootcb t) (rootcb (lra_pop t)).
Proof. unfold lra_pop, rootcb. destruct (layers t) as [|L Ls] eqn:E; [rewrite E; apply tighter_refl|apply tighter_refl]. Qed.
Lemma kept_later t t' : kept t t' -> later t t'.
Proof. intros [A B D E F G]. split; [exact A|]. unfold rootcb. rewrite B, G. apply tighter_refl. Qed.

Section Con.
Context (ord : nat -> list nat -> list nat) (Hord : forall k l, Permutation l (ord k l)) (fuel : lra -> nat) (Y : (nat -> Q) -> Prop)
  (P : lra -> Prop) (HP : forall t t', later t t' -> P t -> P t').

(** A Boolean assignment is compatible with the theory when some values of the numeric variables,
    among those in [Y], solve the tableau and make true exactly the atoms that the assignment makes true.
    [P] is any property of the theory that holds as long as its constraints are the same and its
    root-level bounds are not relaxed. *)
Definition lraC : contract (lra_ops ord fuel).
Proof.
  refine (mk_strict (lra_ops ord fuel) (fun t M => exists y, Y y /\ joint t M y) atoms (fun t vs => TInv t vs /\ P t) (fun t => feas t (cb t)) _ _ _ _ _).
  - intros t M M' H (y & HY & J1 & J2 & J3). exists y. split; [exact HY|]. split; [exact J1|]. split.
    + intros v a Hv. rewrite <- (H v); [apply J2, Hv|]. change v with (fst (v, a)). apply in_map, Hv.
    + intros l Hl Ha. specialize (J3 l Hl Ha). unfold mlit in *. rewrite <- (H _ Ha). exact J3.
  - intros t vs [HI HPt] HF. destruct (push_ok t vs HI HF) as [A S]. split; [split; [exact A|apply (HP t); [split; [exact S|apply tighter_refl]|exact HPt]]|]. split; [|split; [intros M|intros v]].
    + apply (feas_ext t _ (cb t)); auto.
    + reflexivity.
    + reflexivity.
  - intros t v w vs [HI HPt]. destruct (pop_ok t v w vs HI) as (A & S & F). split; [split; [exact A|apply (HP t); [split; [exact S|apply pop_root]|exact HPt]]|]. split; [exact F|]. split; [intros M|intros x]; cbn [th_pop lra_ops].
    + split; intros (y & HY & Hy); exists y; (split; [exact HY|]); apply (same_joint t (lra_pop t) M _ S), Hy.
    + unfold atoms. rewrite (sm_va _ _ S). reflexivity.
  - intros t v vs val p [HI HPt] Ha Hn HT HV Hp.
    assert (HQ := fun y => lra_prop_ok ord Hord t v vs val p y HI Ha Hn HT HV Hp). destruct (HQ (fun _ => 0)) as (t' & ls & cf & E & S & HV' & val' & HL & HC).
    cbn [th_prop lra_ops]. rewrite E. cbn [safe]. assert (HP' : P t') by (apply (HP t); [split; [exact S|eapply prop_root, E]|exact HPt]).
    split; [destruct HV' as (v' & K1 & K2); exists v'; auto|]. split; [intros M; split; intros (y & HY & Hy); exists y; (split; [exact HY|]); apply (same_joint t t' M _ S), Hy|].
    split; [intros x; unfold atoms; rewrite (sm_va _ _ S); reflexivity|].
    assert (HA : forall y, lemmas_ok (fun M => joint t M y) (atoms t) p val ls val' /\ forall c, cf = Some c -> valid_in (fun M => joint t M y) c).
    { intros y. destruct (HQ y) as (t2 & l2 & c2 & E2 & _ & _ & v2 & A & B). rewrite E in E2. assert (l2 = ls /\ c2 = cf) as [-> ->] by (split; congruence).
      rewrite (lemmas_fun _ _ _ _ _ _ _ HL _ A). split; [exact A|]. intros c Hc. apply (B c Hc). }
    exists val'. split; [eapply lemmas_iff; [| |apply (lemmas_all (fun y M => joint t M y) (atoms t) p val ls val' (fun _ => 0)); [exact HL|intros y; exists val'; apply HA]]; [intros M (y & _ & Hy); exists y; exact Hy|auto]|].
    intros c Hc. destruct (HC c Hc) as (A & B & D & _). split; [exact A|]. split; [exact B|]. split; [exact D|]. intros M HM (y & _ & Hy). apply (proj2 (HA y) c Hc M HM Hy).
  - intros t v vs val [HI HPt] Hn HT HV. cbn [th_check lra_ops]. pose proof (lra_check_ok (fuel t) t (v :: vs) HI) as H.
    destruct (lra_check (fuel t) t) as [[t' cf]| |]; cbn [safe]; [|exact H|exact I]. destruct H as (K & I1 & H). pose proof (k_same _ _ K) as S. split; [split; [exact I1|apply (HP t); [apply kept_later, K|exact HPt]]|].
    split; [intros ->; exists (vals t'); split; [apply (ti_val _ _ I1)|exact H]|]. split; [intros M; split; intros (y & HY & Hy); exists y; (split; [exact HY|]); apply (same_joint t t' M _ S), Hy|].
    split; [intros x; unfold atoms; rewrite (sm_va _ _ S); reflexivity|]. intros c ->. destruct H as (s & xi & l & Hi & Hv & Hr & Hc).
    destruct (check_conflict t' v vs val s xi l c I1 Hi Hv Hr Hc Hn HT HV) as (A & B & D & F). split; [exact A|]. split; [exact B|]. split; [|exact F].
    intros M HM (y & _ & HJ). apply (D M y HM). apply (same_joint t t' M _ S), HJ.
Defined.

Lemma lra_init_inv : TInv lra_init [[]] /\ feas lra_init (cb lra_init) /\ forall v, ~ atoms lra_init v.
Proof.
  split; [|split; [|intros v []]].
  - constructor; cbn; try (intros; contradiction).
    + constructor; cbn; try (intros; contradiction); try exact I. * intros v r. split; [intros []|intros (l & [] & _)]. * intros v. constructor.
    + split; intros x l [].
    + intros s x _. exact I.
    + constructor.
    + intros x a. split; [intros []|intros [(v & []) _]].
    + constructor; cbn; auto; try discriminate. intros p [].
    + exact I.
  - exists (fun _ => (0, 0)). split; [split; intros x l []|]. intros s x. exact I.
Qed.
End Con.
End Srt.
