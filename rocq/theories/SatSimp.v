(** [simplify_db]. *)
From Verif Require Import Base Sat SatSpec SatInv SatPop SatImp SatRec SatAn SatProp SatLoop SatMain SatApi SatApi2 SatNext.

Lemma before_true_none {T} (s : st T) ls : existsb (is_true s) ls = false -> before_true s ls = ls.
Proof.
  induction ls as [|l r IH]; cbn; [reflexivity|]. destruct (is_true s l); [discriminate|]. cbn. intros H. rewrite IH; auto.
Qed.
Lemma before_true_In {T} (s : st T) ls q : In q (before_true s ls) -> In q ls.
Proof. induction ls as [|l r IH]; cbn; [tauto|]. destruct (is_true s l); cbn; tauto. Qed.

Lemma remove_first_spec c l : In c l ->
  exists l', remove_first c l = Some l' /\
    (forall x, count_occ Nat.eq_dec l' x = count_occ Nat.eq_dec l x - b2n (x =? c)) /\ (forall x, In x l' -> In x l).
Proof.
  induction l as [|y l IH]; intros H; [destruct H|]. cbn [remove_first].
  destruct (Nat.eqb_spec y c) as [->|Hne].
  - exists l. split; [reflexivity|]. split; [|intros; right; assumption]. intros x. cbn [count_occ].
    destruct (Nat.eqb_spec x c) as [->|Hx].
    + destruct (Nat.eq_dec c c); [cbn; lia|congruence].
    + destruct (Nat.eq_dec c x); [congruence|cbn; lia].
  - destruct H as [->|H]; [congruence|]. destruct (IH H) as (l' & -> & A & B). exists (y :: l'). split; [reflexivity|]. split.
    + intros x. cbn [count_occ]. rewrite A. destruct (Nat.eq_dec y x) as [->|]; [|reflexivity].
      destruct (Nat.eqb_spec x c); [congruence|]. cbn; lia.
    + intros x [->|Hx]; [left; reflexivity|right; auto].
Qed.

Lemma drop_reasons c vs : forall rs v, fold_left (drop_reason c) vs rs v =
  match rs v with Some d => if (d =? c) && memn v vs then None else Some d | None => None end.
Proof.
  induction vs as [|x vs IH]; intros rs v; cbn [fold_left].
  - cbn. destruct (rs v); [|reflexivity]. rewrite andb_false_r. reflexivity.
  - rewrite IH. unfold drop_reason. change (memn v (x :: vs)) with ((v =? x) || memn v vs)%bool.
    destruct (rs x) as [d|] eqn:Ex.
    + destruct (Nat.eqb_spec d c) as [->|Hd].
      * unfold upd. destruct (Nat.eqb_spec v x) as [->|Hv].
        -- rewrite Ex, Nat.eqb_refl. reflexivity.
        -- reflexivity.
      * destruct (Nat.eqb_spec v x) as [->|Hv]; [|reflexivity]. rewrite Ex.
        destruct (Nat.eqb_spec d c); [congruence|reflexivity].
    + destruct (Nat.eqb_spec v x) as [->|Hv]; [|reflexivity]. rewrite Ex. reflexivity.
Qed.

Section Simp.
Context {T : Type} {ops : theory_ops T} (C : contract ops).
Notation st := (st T).

(** Only the clause contents differ. *)
Definition recls (s s' : st) : Prop := s' = set_cls (cls s') s.

(** What one simplification does to a clause whose watched literals are both undefined, or which is
    satisfied with the first false literal not before the first true one. *)
Lemma clause_simplify_ok (s : st) c a b r : cls s c = a :: b :: r ->
  (value s a = LFalse -> value s b = LTrue) -> (value s b = LFalse -> value s a = LTrue) ->
  exists s', clause_simplify s c = (s', existsb (is_true s) (cls s c)) /\ recls s s' /\
    (forall k, k <> c -> cls s' k = cls s k) /\
    (exists r', cls s' c = a :: b :: r') /\ (forall q, In q (cls s' c) -> In q (cls s c)) /\
    (existsb (is_true s) (cls s c) = false -> cls s' c = filter (is_undef s) (cls s c)).
Proof.
  intros E Ha Hb. unfold clause_simplify. set (ls := cls s c).
  set (out := filter (is_undef s) (before_true s ls)).
  assert (Hout : forall q, In q out -> In q ls) by (intros q Hq; apply filter_In in Hq as [Hq _]; eapply before_true_In; exact Hq).
  destruct (existsb (is_true s) ls) eqn:Ex.
  - exists (set_cls (upd (cls s) c (out ++ skipn (length out) ls)) s). split; [reflexivity|]. split; [reflexivity|]. split; [|split; [|split]].
    + intros k Hk. cbn. apply upd_neq, Hk.
    + cbn. rewrite upd_eq. subst out ls. rewrite E. cbn [before_true].
      destruct (is_true s a) eqn:Ta; [cbn; eauto|]. cbn [before_true].
      destruct (is_undef s a) eqn:Ua.
      * destruct (is_true s b) eqn:Tb; [cbn [filter]; rewrite Ua; cbn; eauto|].
        destruct (is_undef s b) eqn:Ub; [cbn [filter]; rewrite Ua, Ub; cbn; eauto|].
        exfalso. assert (Fb : value s b = LFalse).
        { destruct (value s b) eqn:V; [reflexivity| |].
          - assert (is_true s b = true) by (apply is_true_iff; exact V). congruence.
          - assert (is_undef s b = true) by (apply is_undef_iff; exact V). congruence. }
        apply Hb in Fb. apply is_true_iff in Fb. congruence.
      * assert (Fa : value s a = LFalse).
        { destruct (value s a) eqn:V; [reflexivity| |].
          - assert (is_true s a = true) by (apply is_true_iff; exact V). congruence.
          - assert (is_undef s a = true) by (apply is_undef_iff; exact V). congruence. }
        apply Ha in Fa. apply is_true_iff in Fa. rewrite Fa. cbn [filter]. rewrite Ua. cbn. eauto.
    + cbn. rewrite upd_eq. intros q Hq. apply in_app_or in Hq as [Hq|Hq]; [apply Hout, Hq|].
      rewrite <- (firstn_skipn (length out) ls). apply in_or_app; right; exact Hq.
    + discriminate.
  - assert (Eo : out = filter (is_undef s) ls) by (unfold out; rewrite before_true_none by exact Ex; reflexivity).
    exists (set_cls (upd (cls s) c out) s). split; [reflexivity|]. split; [reflexivity|]. split; [|split; [|split]].
    + intros k Hk. cbn. apply upd_neq, Hk.
    + cbn. rewrite upd_eq, Eo. unfold ls in Ex |- *. rewrite E in Ex |- *. cbn in Ex.
      apply orb_false_iff in Ex as [Ta Ex]. apply orb_false_iff in Ex as [Tb _].
      assert (Ua : is_undef s a = true).
      { apply is_undef_iff. destruct (value s a) eqn:V; [|apply is_true_iff in V; congruence|reflexivity].
        specialize (Ha eq_refl). apply is_true_iff in Ha. congruence. }
      assert (Ub : is_undef s b = true).
      { apply is_undef_iff. destruct (value s b) eqn:V; [|apply is_true_iff in V; congruence|reflexivity].
        specialize (Hb eq_refl). apply is_true_iff in Hb. congruence. }
      cbn. rewrite Ua, Ub. eauto.
    + cbn. rewrite upd_eq. exact Hout.
    + intros _. cbn. rewrite upd_eq. exact Eo.
Qed.

(** The loop: [s0] is the state before it. *)
Record simp_inv (s0 s : st) (kept mid out : list nat) : Prop := {
  si_recls : recls s0 s;
  si_perm : Permutation (kept ++ mid ++ out) (constrs s0);
  si_mid : forall c, In c mid -> cls s c = cls s0 c;
  si_kept : forall c, In c kept -> existsb (is_true s0) (cls s0 c) = false /\ cls s c = filter (is_undef s0) (cls s0 c) /\
              exists a b r r', cls s0 c = a :: b :: r /\ cls s c = a :: b :: r';
  si_out : forall c, In c out -> existsb (is_true s0) (cls s0 c) = true /\
              (forall q, In q (cls s c) -> In q (cls s0 c)) /\
              exists a b r r', cls s0 c = a :: b :: r /\ cls s c = a :: b :: r' }.

Lemma simp_loop_ok (s0 : st) : InvC s0 -> InvW (fun _ _ => False) s0 ->
  forall n (s : st) kept mid out, length mid <= n -> simp_inv s0 s kept mid out ->
  exists s' kept' out', simp_loop n s kept mid out = (s', kept', out') /\ simp_inv s0 s' kept' [] out'.
Proof.
  intros HC HW. induction n as [|n IH]; intros s kept mid out Hn HS; cbn [simp_loop].
  { destruct mid; [|cbn in Hn; lia]. exists s, kept, out. rewrite app_nil_r. auto. }
  destruct mid as [|c r]; [exists s, kept, out; auto|].
  assert (Hnd : NoDup (kept ++ (c :: r) ++ out)).
  { eapply Permutation_NoDup; [symmetry; apply (si_perm _ _ _ _ _ HS)|apply (c_nodup s0 HC)]. }
  assert (Hcin : In c (constrs s0)).
  { eapply Permutation_in; [apply (si_perm _ _ _ _ _ HS)|]. apply in_or_app; right; left; reflexivity. }
  destruct (c_shape s0 HC c Hcin) as (a & b & l & Ec & Hab).
  pose proof (si_mid _ _ _ _ _ HS c (or_introl eq_refl)) as Es.
  assert (Ev : forall q, value s q = value s0 q) by (intros q; rewrite (si_recls _ _ _ _ _ HS); reflexivity).
  destruct (HW c Hcin a b l Ec) as [W1 W2]. unfold half in W1, W2.
  destruct (clause_simplify_ok s c a b l) as (s1 & E1 & R1 & O1 & (l' & L1) & I1 & F1).
  { congruence. }
  { rewrite !Ev. intros Hf. destruct (W1 Hf) as [[]|[H _]]; exact H. }
  { rewrite !Ev. intros Hf. destruct (W2 Hf) as [[]|[H _]]; exact H. }
  rewrite E1. rewrite Es in E1, I1, F1 |- *.
  assert (Et : existsb (is_true s) (cls s0 c) = existsb (is_true s0) (cls s0 c)).
  { clear -Ev. induction (cls s0 c) as [|q l IH]; cbn; [reflexivity|]. rewrite IH. unfold is_true. rewrite Ev. reflexivity. }
  rewrite Et in *.
  assert (Ef : filter (is_undef s) (cls s0 c) = filter (is_undef s0) (cls s0 c)).
  { apply filter_ext. intros q. unfold is_undef. rewrite Ev. reflexivity. }
  rewrite Ef in F1.
  assert (R01 : recls s0 s1).
  { unfold recls in *. rewrite R1. rewrite (si_recls _ _ _ _ _ HS). reflexivity. }
  assert (Hother : forall k, In k (kept ++ r ++ out) -> cls s1 k = cls s k).
  { intros k Hk. apply O1. intros ->. apply NoDup_remove_2 in Hnd. apply Hnd. exact Hk. }
  destruct (existsb (is_true s0) (cls s0 c)) eqn:Ex.
  - assert (Hgen : forall mid', Permutation mid' r -> simp_inv s0 s1 kept mid' (c :: out)).
    { intros mid' Hp. constructor.
      - exact R01.
      - rewrite <- (si_perm _ _ _ _ _ HS). apply Permutation_app_head. rewrite Hp. cbn. symmetry. apply Permutation_middle.
      - intros k Hk. apply (Permutation_in _ Hp) in Hk. rewrite Hother by (rewrite !in_app_iff; auto).
        apply (si_mid _ _ _ _ _ HS). right; exact Hk.
      - intros k Hk. rewrite Hother by (rewrite !in_app_iff; auto). apply (si_kept _ _ _ _ _ HS k Hk).
      - intros k [<-|Hk].
        + split; [exact Ex|]. split; [exact I1|]. exists a, b, l, l'. auto.
        + rewrite Hother by (rewrite !in_app_iff; auto). apply (si_out _ _ _ _ _ HS k Hk). }
    destruct r as [|x r].
    + apply IH; [cbn; lia|]. apply Hgen. reflexivity.
    + set (R := x :: r) in *. apply IH.
      * cbn [length] in Hn |- *. assert (HR : R <> []) by discriminate.
        pose proof (app_removelast_last c HR) as E. apply (f_equal (@length nat)) in E. rewrite app_length in E. cbn [length] in E. lia.
      * apply Hgen. assert (HR : R <> []) by discriminate. rewrite (app_removelast_last c HR) at 3. apply Permutation_cons_append.
  - apply IH; [cbn in Hn; lia|]. constructor.
    + exact R01.
    + rewrite <- (si_perm _ _ _ _ _ HS), <- app_assoc. reflexivity.
    + intros k Hk. rewrite Hother by (rewrite !in_app_iff; auto). apply (si_mid _ _ _ _ _ HS). right; exact Hk.
    + intros k Hk. apply in_app_or in Hk as [Hk|[<-|[]]].
      * rewrite Hother by (rewrite !in_app_iff; auto). apply (si_kept _ _ _ _ _ HS k Hk).
      * split; [exact Ex|]. split; [apply F1; reflexivity|]. exists a, b, l, l'. auto.
    + intros k Hk. rewrite Hother by (rewrite !in_app_iff; auto). apply (si_out _ _ _ _ _ HS k Hk).
Qed.

Lemma filter_id {A} (f : A -> bool) l : (forall x, In x l -> f x = true) -> filter f l = l.
Proof. induction l as [|x l IH]; cbn; intros H; [reflexivity|]. rewrite H by auto. rewrite IH; auto. Qed.
Lemma filter_filter {A} (f g : A -> bool) l : filter f (filter g l) = filter g (filter f l).
Proof.
  induction l as [|x l IH]; cbn; [reflexivity|]. destruct (g x) eqn:Eg, (f x) eqn:Ef; cbn; rewrite ?Eg, ?Ef, IH; reflexivity.
Qed.

(** The structural part of the clause invariant, without the ban of repetitions. *)
Record InvW0 (s : st) : Prop := {
  w_nodup : NoDup (constrs s);
  w_shape : forall c, In c (constrs s) -> exists a b r, cls s c = a :: b :: r /\ a <> b;
  w_watch : forall c, In c (constrs s) -> forall p, count_occ Nat.eq_dec (watches s p) c = wcount (cls s c) p;
  w_owned : forall c p, In c (watches s p) -> In c (constrs s) }.

(** Destroying a clause. *)
Lemma destroy_ok (s : st) kept c out : InvW0 (set_constrs (kept ++ c :: out) s) ->
  exists w, destroy (set_constrs kept s) c =
     Ok (set_constrs kept (set_reason (fold_left (drop_reason c) (map lvar (cls s c)) (reason s)) (set_watches w s))) /\
     InvW0 (set_constrs (kept ++ out) (set_watches w s)).
Proof.
  intros [HN HSh HW HO]. cbn [set_constrs constrs cls watches] in *.
  assert (Hc : In c (kept ++ c :: out)) by (apply in_or_app; right; left; reflexivity).
  destruct (HSh c Hc) as (a & b & r & Ec & Hab). unfold destroy. cbn [set_constrs cls watches reason]. rewrite Ec.
  assert (Hne : negl a <> negl b) by (intros E; apply Hab, negl_inj, E).
  assert (Ha : In c (watches s (negl a))).
  { apply (count_occ_In Nat.eq_dec). rewrite HW, Ec by exact Hc. cbn [wcount]. rewrite lit_eqb_refl. cbn. lia. }
  assert (Hb : In c (watches s (negl b))).
  { apply (count_occ_In Nat.eq_dec). rewrite HW, Ec by exact Hc. cbn [wcount]. rewrite lit_eqb_refl. cbn. lia. }
  destruct (remove_first_spec c _ Ha) as (wa & Ea & Ca & Ia). rewrite Ea.
  rewrite updl_neq by (intros E; apply Hne; congruence).
  destruct (remove_first_spec c _ Hb) as (wb & Eb & Cb & Ib). rewrite Eb.
  set (w := updl (updl (watches s) (negl a) wa) (negl b) wb). exists w. split; [reflexivity|].
  assert (Hct : forall p x, count_occ Nat.eq_dec (w p) x = count_occ Nat.eq_dec (watches s p) x - b2n (x =? c) * wcount (a :: b :: r) p).
  { intros p x. unfold w, updl. cbn [wcount].
    destruct (lit_eqb_spec p (negl b)) as [->|Hpb].
    - rewrite Cb, lit_eqb_refl. destruct (lit_eqb_spec (negl a) (negl b)); [contradiction|]. cbn; lia.
    - destruct (lit_eqb_spec p (negl a)) as [->|Hpa].
      + rewrite Ca, lit_eqb_refl. destruct (lit_eqb_spec (negl b) (negl a)); [congruence|]. cbn; lia.
      + destruct (lit_eqb_spec (negl a) p); [congruence|]. destruct (lit_eqb_spec (negl b) p); [congruence|]. cbn; lia. }
  assert (HIw : forall p x, In x (w p) -> In x (watches s p)).
  { intros p x. unfold w, updl. destruct (lit_eqb_spec p (negl b)) as [->|]; [apply Ib|]. destruct (lit_eqb_spec p (negl a)) as [->|]; [apply Ia|auto]. }
  assert (Hrest : forall x, In x (kept ++ out) -> In x (kept ++ c :: out) /\ x <> c).
  { intros x Hx. split; [rewrite in_app_iff in *; cbn; tauto|]. intros ->. apply NoDup_remove_2 in HN. contradiction. }
  constructor; cbn [set_constrs set_watches constrs cls watches].
  - apply NoDup_remove_1 in HN. exact HN.
  - intros x Hx. apply HSh, Hrest, Hx.
  - intros x Hx p. destruct (Hrest x Hx) as [H1 H2]. rewrite Hct, (HW x H1). destruct (Nat.eqb_spec x c); [contradiction|]. cbn; lia.
  - intros x p Hx. pose proof (HO x p (HIw p x Hx)) as H. apply in_app_or in H as [H|[<-|H]]; [apply in_or_app; auto| |apply in_or_app; auto].
    exfalso. apply (count_occ_In Nat.eq_dec) in Hx. rewrite Hct, (HW c Hc), Nat.eqb_refl, Ec in Hx. unfold b2n at 1 in Hx. lia.
Qed.

Lemma destroys_ok kept : forall out (s : st), InvW0 (set_constrs (kept ++ out) s) ->
  exists w rs, rfold destroy out (set_constrs kept s) = Ok (set_constrs kept (set_reason rs (set_watches w s))) /\
     InvW0 (set_constrs kept (set_watches w s)) /\
     (forall v d, rs v = Some d -> reason s v = Some d) /\
     (forall v d, rs v = Some d -> In d out -> ~ In v (map lvar (cls s d))).
Proof.
  induction out as [|c out IH]; intros s H.
  - rewrite app_nil_r in H. exists (watches s), (reason s). cbn [rfold]. split; [reflexivity|]. split; [destruct H; constructor; assumption|].
    split; [auto|intros v d _ []].
  - destruct (destroy_ok s kept c out H) as (w & E & H1). cbn [rfold]. rewrite E. cbn [rbind].
    set (rs1 := fold_left (drop_reason c) (map lvar (cls s c)) (reason s)).
    destruct (IH (set_reason rs1 (set_watches w s))) as (w2 & rs2 & E2 & H2 & R1 & R2).
    { destruct H1; constructor; assumption. }
    assert (Hd : forall v d, rs2 v = Some d -> reason s v = Some d /\ ~ (d = c /\ In v (map lvar (cls s c)))).
    { intros v d Hv. apply R1 in Hv. cbn in Hv. unfold rs1 in Hv. rewrite drop_reasons in Hv.
      destruct (reason s v) as [d'|]; [|discriminate].
      destruct ((d' =? c) && memn v (map lvar (cls s c)))%bool eqn:Eb; [discriminate|]. inversion Hv; subst d'. split; [reflexivity|].
      intros [-> Hi]. rewrite Nat.eqb_refl in Eb. apply memn_In in Hi. rewrite Hi in Eb. discriminate. }
    exists w2, rs2. split; [exact E2|]. split; [destruct H2; constructor; assumption|]. split.
    + intros v d Hv. apply (Hd v d Hv).
    + intros v d Hv [<-|Hi] Hin; [apply (Hd v c Hv); auto|]. apply (R2 v d Hv Hi). exact Hin.
Qed.

Lemma simplify_tail (s : st) : quiet C s -> dlevel s = 0 ->
  let '(s2, kept, out) := simp_loop (length (constrs s)) s [] (constrs s) [] in
  exists s3, rfold destroy out (set_constrs kept s2) = Ok s3 /\
    quiet C s3 /\ (forall M, smodels C s3 M <-> smodels C s M) /\
    (forall c, In c (constrs s3) -> 2 <= length (cls s3 c) /\ NoDup (cls s3 c) /\ forall q, In q (cls s3 c) -> value s3 q = LUndef) /\
    (forall c, In c (constrs s3) -> In c (constrs s)) /\
    (forall v, reason s3 v = None) /\
    (assigns s3 = assigns s /\ level s3 = level s /\ trail s3 = trail s /\ trail_lim s3 = trail_lim s /\ decisions s3 = decisions s /\
     nv s3 = nv s /\ exprs s3 = exprs s /\ theories s3 = theories s /\ bounds s3 = bounds s /\ listening s3 = listening s /\ log s3 = log s /\ prop_q s3 = prop_q s).
Proof.
  intros [HI Hq Hs] Hd. pose proof HI as [HT HC HR HW HQ HH].
  assert (Hlv : forall v, level s v = 0) by (intros v; pose proof (level_le s HT v); lia).
  assert (HW' : InvW (fun _ _ => False) s).
  { intros c Hc a b r E. destruct (HW c Hc a b r E) as [H1 H2]. unfold half in *. rewrite Hq in H1, H2. cbn in H1, H2. tauto. }
  destruct (simp_loop_ok s HC HW' (length (constrs s)) s [] (constrs s) []) as (s2 & kept & out & E & HS).
  { lia. }
  { constructor; cbn; try reflexivity; try tauto. { destruct s; reflexivity. } rewrite app_nil_r. reflexivity. }
  rewrite E. destruct HS as [SR SP _ SK SO]. cbn [app] in SP.
  assert (Hin : forall c, In c (kept ++ out) <-> In c (constrs s)).
  { intros c. split; apply Permutation_in; [exact SP|symmetry; exact SP]. }
  assert (Hsh : forall c, In c (kept ++ out) -> exists a b r r', cls s c = a :: b :: r /\ cls s2 c = a :: b :: r').
  { intros c Hc. apply in_app_or in Hc as [Hc|Hc]; [apply (SK c Hc)|apply (SO c Hc)]. }
  assert (H0 : InvW0 (set_constrs (kept ++ out) s2)).
  { rewrite SR. constructor; cbn [set_constrs set_cls constrs cls watches].
    - eapply Permutation_NoDup; [symmetry; exact SP|apply (c_nodup s HC)].
    - intros c Hc. destruct (Hsh c Hc) as (a & b & r & r' & E1 & E2). exists a, b, r'. split; [exact E2|].
      destruct (c_shape s HC c (proj1 (Hin c) Hc)) as (a0 & b0 & r0 & E0 & Hn). rewrite E1 in E0. inversion E0; subst. exact Hn.
    - intros c Hc p. rewrite (c_watch s HC c (proj1 (Hin c) Hc)). destruct (Hsh c Hc) as (a & b & r & r' & E1 & E2).
      rewrite E1, E2. reflexivity.
    - intros c p Hc. apply Hin. apply (c_owned s HC c p Hc). }
  destruct (destroys_ok kept out s2 H0) as (w & rs & E3 & H3 & R1 & R2).
  rewrite E3. set (s3 := set_constrs kept (set_reason rs (set_watches w s2))). exists s3. split; [reflexivity|].
  assert (Ev : forall q, value s3 q = value s q) by (intros q; unfold s3; rewrite SR; reflexivity).
  assert (El : level s3 = level s) by (unfold s3; rewrite SR; reflexivity).
  assert (Er : forall v, reason s3 v = None).
  { intros v. destruct (reason s3 v) as [d|] eqn:Ed; [exfalso|reflexivity]. change (rs v = Some d) in Ed.
    pose proof (R1 v d Ed) as Hrs. rewrite SR in Hrs. cbn in Hrs.
    destruct (r_in s HR v d Hrs) as (Hc & p & r & Hv & Vp & Ec & _).
    apply Hin in Hc. pose proof (Hsh d Hc) as (a & b & r1 & r1' & E1 & E2).
    apply in_app_or in Hc as [Hc|Hc].
    - destruct (SK d Hc) as (Hf & _). rewrite Ec in Hf. cbn in Hf. apply orb_false_iff in Hf as [Hf _].
      apply is_true_iff in Vp. congruence.
    - apply (R2 v d Ed Hc). rewrite E2. rewrite E1 in Ec. inversion Ec; subst. left; reflexivity. }
  assert (Hold : forall c, In c kept -> In c (constrs s)) by (intros c Hc; apply Hin, in_or_app; auto).
  assert (Hcls : forall c, cls s3 c = cls s2 c) by reflexivity.
  assert (Hund : forall c, In c kept -> forall q, In q (cls s3 c) <-> In q (cls s c) /\ value s q = LUndef).
  { intros c Hc q. rewrite Hcls. destruct (SK c Hc) as (_ & -> & _). rewrite filter_In, is_undef_iff. reflexivity. }
  assert (HT3 : InvT s3).
  { assert (HTe : InvT s -> InvT s3); [|apply HTe, HT].
    clear HT. intros HT. assert (Eall : nv s3 = nv s /\ assigns s3 = assigns s /\ trail s3 = trail s /\ trail_lim s3 = trail_lim s /\ decisions s3 = decisions s)
      by (unfold s3; rewrite SR; repeat split).
    destruct Eall as (E1 & E2 & E5 & E6 & E7).
    constructor; rewrite ?E1, ?E2, ?El, ?E5, ?E6, ?E7; try apply HT.
    - intros v Hv. split; [apply (t_undef s HT v Hv)|apply Er].
    - intros p Hp. rewrite Ev. apply (t_true s HT p Hp).
    - intros pre p post Et _ Hne. exfalso. apply Hne, Hlv. }
  assert (HM : forall M, smodels C s3 M <-> smodels C s M).
  { intros M. split; intros [S1 S2 S3 S4]; constructor; try assumption.
    - intros c Hc. apply Hin in Hc. apply in_app_or in Hc as [Hc|Hc].
      + destruct (S2 c Hc) as (q & Hq2 & Em). exists q. split; [apply (Hund c Hc q), Hq2|exact Em].
      + destruct (SO c Hc) as (Ht & _). apply existsb_exists in Ht as (q & Hq2 & Tq). exists q. split; [exact Hq2|].
        apply S3; [rewrite Ev; apply is_true_iff, Tq|rewrite El; apply Hlv].
    - intros p Hp Hl. apply S3; [rewrite Ev; exact Hp|rewrite El; exact Hl].
    - intros t Ht. apply S4. unfold s3; rewrite SR; exact Ht.
    - intros c Hc. change (In c kept) in Hc. destruct (S2 c (Hold c Hc)) as (q & Hq2 & Em). exists q. split; [|exact Em].
      apply (Hund c Hc). split; [exact Hq2|]. destruct (value s q) eqn:V; [exfalso| |reflexivity].
      + apply value_false_true in V. apply S3 in V; [|apply Hlv]. rewrite mlit_negl, Em in V. discriminate.
      + destruct (SK c Hc) as (Hf & _). exfalso. assert (Hx : existsb (is_true s) (cls s c) = true) by (apply existsb_exists; exists q; split; [exact Hq2|apply is_true_iff, V]). congruence.
    - intros p Hp Hl. rewrite Ev in Hp. rewrite El in Hl. apply S3; assumption.
    - intros t Ht. apply S4. unfold s3 in Ht; rewrite SR in Ht; exact Ht. }
  assert (HC3 : InvC s3).
  { destruct H3 as [A B D F]. constructor; try assumption.
    - intros c Hc. unfold s3; rewrite SR. apply (c_lt s HC c (Hold c Hc)).
    - intros c Hc p Hp. apply (Hund c Hc) in Hp as [Hp _]. unfold s3; rewrite SR. apply (c_range s HC c (Hold c Hc) p Hp).
    - intros c Hc p q Hp Hq2. apply (Hund c Hc) in Hp as [Hp _]. apply (Hund c Hc) in Hq2 as [Hq2 _]. apply (c_compl s HC c (Hold c Hc)); assumption.
    - intros c Hc. rewrite Hcls. destruct (SK c Hc) as (_ & -> & _). rewrite filter_filter. apply NoDup_filter.
      rewrite (filter_ext _ (fun p => negb (dead s p))); [apply (c_dup s HC c (Hold c Hc))|].
      intros q. unfold dead, is_false. rewrite Ev, El. reflexivity. }
  split; [|split; [exact HM|split; [|split; [exact Hold|split; [exact Er|unfold s3; rewrite SR; repeat split]]]]].
  - constructor.
    + constructor.
      * exact HT3.
      * exact HC3.
      * constructor; intros *; rewrite Er; discriminate.
      * intros c Hc a b r Ec. unfold half. rewrite !Ev. 
        assert (Ha : value s a = LUndef) by (apply (Hund c Hc); rewrite Ec; left; reflexivity).
        assert (Hb : value s b = LUndef) by (apply (Hund c Hc); rewrite Ec; right; left; reflexivity).
        split; congruence.
      * eapply InvQ_ext; [..|exact HQ]; unfold s3; rewrite SR; reflexivity.
      * assert (HH' : InvTh C True (fun _ l => In l (prop_q s)) s3) by (eapply InvTh_ext; [..|exact HH]; unfold s3; rewrite SR; reflexivity).
        assert (Eq3 : prop_q s3 = prop_q s) by (unfold s3; rewrite SR; reflexivity). rewrite Eq3. exact HH'.
    + unfold s3; rewrite SR; exact Hq.
    + intros t Ht. apply Hs. unfold s3 in Ht; rewrite SR in Ht; exact Ht.
  - intros c Hc. split; [|split].
    + destruct (c_shape s3 HC3 c Hc) as (a & b & r & -> & _). cbn; lia.
    + rewrite <- (filter_id (fun p => negb (dead s3 p)) (cls s3 c)).
      * apply (c_dup s3 HC3 c Hc).
      * intros q Hq2. apply (Hund c Hc) in Hq2 as [_ V]. destruct (dead s3 q) eqn:Dq; [|reflexivity].
        apply dead_iff in Dq as [Dq _]. rewrite Ev in Dq. congruence.
    + intros q Hq2. rewrite Ev. apply (Hund c Hc), Hq2.
Qed.

(** [simplify_db]: same meaning, and every remaining clause has only undefined literals, all distinct,
    at least two. *)
Definition clean (s : st) : Prop := forall c, In c (constrs s) ->
  2 <= length (cls s c) /\ NoDup (cls s c) /\ forall q, In q (cls s c) -> value s q = LUndef.

Theorem simplify_db_ok fuel (s : st) : Inv C s -> dlevel s = 0 ->
  match simplify_db ops fuel s with
  | UB => False
  | OOF => th_total C -> fuel <= enough s
  | Ok (s', b) => (forall M, smodels C s' M <-> smodels C s M) /\ dlevel s' = 0 /\ nv s' = nv s /\ exprs s' = exprs s /\
      decisions s' = decisions s /\ (forall q, value s q = LTrue -> value s' q = LTrue) /\
      length (theories s') = length (theories s) /\
      if b then quiet C s' /\ clean s' else doomed C s'
  end.
Proof.
  intros HI Hd. unfold simplify_db. assert (Er : root_level s = true) by (apply root_dlevel, Hd). rewrite Er. cbn [guard].
  pose proof (propagate_ok C (dlevel s) fuel s HI (le_n _)) as HP.
  destruct (propagate ops fuel s) as [[s1 b]| |]; cbn [rbind]; [|exact HP|].
  2:{ intros Ht. specialize (HP Ht). pose proof (mu_enough C s HI). lia. }
  assert (Hd1 : dlevel s1 = 0) by (pose proof (pp_dl _ _ _ _ HP); lia).
  assert (Hg : grow s s1) by (apply (pp_grow _ _ _ _ HP); lia).
  assert (Hv : forall q, value s q = LTrue -> value s1 q = LTrue) by (intros q Hq; destruct (grow_value _ _ q Hg) as [-> _]; congruence).
  destruct b.
  - destruct (pp_true _ _ _ _ HP eq_refl) as (A & B & D). assert (Hqs : quiet C s1) by (constructor; assumption).
    pose proof (simplify_tail s1 Hqs Hd1) as HT.
    destruct (simp_loop (length (constrs s1)) s1 [] (constrs s1) []) as [[s2 kept] out].
    destruct HT as (s3 & E3 & Q3 & M3 & Cl & _ & _ & E1 & E2 & E4 & E5 & E6 & E7 & E8 & E9 & _). rewrite E3. cbn [rbind].
    split; [intros M; rewrite M3; apply (pp_models _ _ _ _ HP)|]. split; [unfold dlevel; rewrite E5; exact Hd1|].
    split; [rewrite E7; apply HP|]. split; [rewrite E8; apply HP|]. split; [rewrite E6; apply Hg|].
    split; [intros q Hq; unfold value; rewrite E1; apply Hv, Hq|]. split; [rewrite E9; apply Hg|]. split; [exact Q3|exact Cl].
  - split; [apply HP|]. split; [exact Hd1|]. split; [apply HP|]. split; [apply HP|]. split; [apply Hg|]. split; [exact Hv|].
    split; [apply Hg|]. apply (pp_false _ _ _ _ HP eq_refl).
Qed.
End Simp.
