(** The reification functions: [new_eq], [new_conj], [new_disj]. *)
From Coq Require Import String.
From Verif Require Import Base Keys Sat SatSpec SatInv SatPop SatImp SatRec SatAn SatProp SatLoop SatMain SatApi SatApi2.

(** ** Meaning of the expressions. *)
Definition at_most_one (M : nat -> bool) (ls : list lit) : Prop :=
  forall p q, In p ls -> In q ls -> mlit M p = true -> mlit M q = true -> p = q.
Definition exactly_one (M : nat -> bool) (ls : list lit) : Prop :=
  at_most_one M ls /\ exists p, In p ls /\ mlit M p = true.
(** What a cached literal guarantees about its expression. *)
Definition op_means (M : nat -> bool) (o : op) (p : lit) : Prop :=
  match o with
  | OVar v => p = mk_lit v true
  | OEq l r => (mlit M p = true -> mlit M l = mlit M r) /\ (mlit M l = true -> mlit M r = true -> mlit M p = true)
  | OConj ls => mlit M p = forallb (mlit M) ls
  | ODisj ls => mlit M p = existsb (mlit M) ls
  | OAmo ls => mlit M p = true -> at_most_one M ls
  | OExct ls => mlit M p = true -> exactly_one M ls
  end.
Definition op_lits (o : op) : list lit :=
  match o with
  | OVar v => [mk_lit v true] | OEq l r => [l; r]
  | OConj ls | ODisj ls | OAmo ls | OExct ls => ls
  end.
Lemma op_means_same M o o' p : op_same o o' -> op_means M o p -> op_means M o' p.
Proof.
  destruct o, o'; cbn [op_same]; intros E; try (inversion E; subst; exact (fun H => H)); try discriminate.
  destruct E as [[-> ->]|[-> ->]]; [exact (fun H => H)|]. cbn. intros [A B]. split; auto. intros H. symmetry. auto.
Qed.

Lemma mlit_upd_neq M v b p : lvar p <> v -> mlit (upd M v b) p = mlit M p.
Proof. intros H. unfold mlit. rewrite upd_neq by exact H. reflexivity. Qed.
Lemma mlit_upd_eq M v b : mlit (upd M v b) (mk_lit v true) = b.
Proof. unfold mlit. cbn. rewrite upd_eq. destruct b; reflexivity. Qed.

Lemma conj_filter_eq v : forall ls p, conj_filter v p ls = clause_filter (fun q => lneg (v q)) p ls.
Proof.
  induction ls as [|q ls IH]; intros p; cbn; [reflexivity|].
  assert (E1 : lbool_eqb (lneg (v q)) LTrue = lbool_eqb (v q) LFalse) by (destruct (v q); reflexivity).
  assert (E2 : lbool_eqb (lneg (v q)) LFalse = lbool_eqb (v q) LTrue) by (destruct (v q); reflexivity).
  rewrite E1, E2, !IH. reflexivity.
Qed.

Section Reify.
Context {T : Type} {ops : theory_ops T} (C : contract ops).
Notation st := (st T).

Definition facts (s : st) : forall M p, smodels C s M -> value s p = LTrue -> level s (lvar p) = 0 -> mlit M p = true.
Proof. intros M p HM; apply (sm_facts _ _ _ HM). Defined.

(** Only the existing variables matter. *)
Lemma smodels_agree (s : st) M M' : Inv C s -> agree (nv s) M M' -> smodels C s M -> smodels C s M'.
Proof.
  intros [HT HC HR HW HQ HH] Ha [S1 S2 S3 S4]. constructor.
  - rewrite <- (Ha 0 (t_nv s HT)). exact S1.
  - intros c Hc. eapply mcl_agree; [exact Ha|apply (c_range s HC c Hc)|apply S2, Hc].
  - intros p Hp Hl. rewrite <- (mlit_agree M M' p (nv s) Ha); [apply S3; assumption|].
    apply (trail_range s HT). congruence.
  - intros t Ht. pose proof Ht as Ht'. apply In_nth_error in Ht' as (i & Ei). eapply (c_model_ext ops C); [|apply S4, Ht].
    intros v Hv. apply Ha. apply (h_range _ _ _ _ HH i t v Ei Hv).
Qed.

(** ** The cache. *)
Definition cache_ok (s : st) : Prop := forall k p, In (k, p) (exprs s) ->
  exists o, k = key_of o /\ (forall q, In q (op_lits o) -> lvar q < nv s) /\ lvar p < nv s /\
    forall M, smodels C s M -> op_means M o p.
Lemma cache_mono (s s' : st) : cache_ok s -> exprs s' = exprs s -> nv s <= nv s' ->
  (forall M, smodels C s' M -> smodels C s M) -> cache_ok s'.
Proof.
  intros H E Hn HM k p Hi. rewrite E in Hi. destruct (H k p Hi) as (o & A & B & D & F). exists o.
  split; [exact A|]. split; [intros q Hq; specialize (B q Hq); lia|]. split; [lia|]. intros M Hm. apply F, HM, Hm.
Qed.
Lemma find_expr_In (s : st) k p : find_expr s k = Some p -> In (k, p) (exprs s).
Proof.
  unfold find_expr. destruct (find _ (exprs s)) as [[k' p']|] eqn:E; [|discriminate]. intros H; inversion H; subst.
  apply find_some in E as [H1 H2]. cbn in H2. apply String.eqb_eq in H2. subst. exact H1.
Qed.
Lemma find_expr_None (s : st) k p : find_expr s k = None -> ~ In (k, p) (exprs s).
Proof.
  unfold find_expr. destruct (find _ (exprs s)) as [[k' p']|] eqn:E; [discriminate|]. intros _ Hi.
  eapply find_none in E; [|exact Hi]. cbn in E. rewrite String.eqb_refl in E. discriminate.
Qed.
Lemma find_expr_none_iff (s : st) k : find_expr s k = None <-> forall p, ~ In (k, p) (exprs s).
Proof.
  split; [intros H p; apply find_expr_None, H|]. intros H. destruct (find_expr s k) as [p|] eqn:E; [|reflexivity].
  exfalso. apply (H p). apply find_expr_In, E.
Qed.
Lemma cache_found (s : st) o p : cache_ok s -> find_expr s (key_of o) = Some p ->
  lvar p < nv s /\ forall M, smodels C s M -> op_means M o p.
Proof.
  intros H Hf. apply find_expr_In in Hf. destruct (H _ _ Hf) as (o' & Ek & _ & Hp & Hm). split; [exact Hp|].
  intros M HM. eapply op_means_same; [|apply Hm, HM]. symmetry in Ek. apply key_of_inj, Ek.
Qed.

(** ** Extension of a network by definitions: no model is lost. *)
Record ext (s s' : st) : Prop := {
  e_inv : Inv C s';
  e_nv : nv s <= nv s';
  e_mono : forall M, smodels C s' M -> smodels C s M;
  e_dl : dlevel s' = dlevel s;
  e_val : forall p, value s p <> LUndef -> value s' p = value s p;
  e_cache : cache_ok s';
  e_exprs : forall k p, find_expr s k = Some p -> find_expr s' k = Some p;
  e_ths : theories s' = theories s;
  e_bounds : bounds s' = bounds s }.
Definition conservative (s s' : st) : Prop :=
  forall M, smodels C s M -> exists M', agree (nv s) M M' /\ smodels C s' M'.
Lemma ext_refl s : Inv C s -> cache_ok s -> ext s s.
Proof. intros H1 H2. constructor; auto. Qed.
Lemma cons_refl s : conservative s s.
Proof. intros M HM. exists M. split; [intros v _; reflexivity|exact HM]. Qed.
Lemma ext_trans s1 s2 s3 : ext s1 s2 -> ext s2 s3 -> ext s1 s3.
Proof.
  intros [A1 B1 D1 E1 F1 G1 H1 K1 L1] [A2 B2 D2 E2 F2 G2 H2 K2 L2]. constructor; auto; try congruence; try lia.
  intros p Hp. rewrite F2; [apply F1, Hp|]. rewrite F1; assumption.
Qed.
Lemma cons_trans s1 s2 s3 : nv s1 <= nv s2 -> conservative s1 s2 -> conservative s2 s3 -> conservative s1 s3.
Proof.
  intros Hn H1 H2 M HM. destruct (H1 M HM) as (M1 & A1 & S1). destruct (H2 M1 S1) as (M2 & A2 & S2).
  exists M2. split; [|exact S2]. intros v Hv. rewrite (A1 v Hv). apply A2. lia.
Qed.

Lemma cache_new_var (s : st) : Inv C s -> cache_ok s -> cache_ok (fst (new_var s)).
Proof.
  intros HI H. destruct (new_var_ok C s HI) as [_ V]. intros k p Hi. rewrite (vp_exprs _ _ _ V) in Hi.
  apply in_app_or in Hi as [Hi|[Hi|[]]].
  - destruct (H k p Hi) as (o & A & B & D & F). exists o. rewrite (vp_nv _ _ _ V).
    split; [exact A|]. split; [intros q Hq; specialize (B q Hq); lia|]. split; [lia|]. intros M HM. apply F, (vp_models _ _ _ V), HM.
  - inversion Hi; subst. exists (OVar (nv s)). rewrite (vp_nv _ _ _ V). split; [reflexivity|]. split; [|split; [cbn; lia|]].
    + intros q [<-|[]]. cbn. lia.
    + intros M _. reflexivity.
Qed.
Lemma new_var_ext (s : st) : Inv C s -> cache_ok s ->
  ext s (fst (new_var s)) /\ (forall M b, smodels C s M -> smodels C (fst (new_var s)) (upd M (nv s) b)) /\
  agree (nv s) (fun _ => true) (fun _ => true).
Proof.
  intros HI H. destruct (new_var_ok C s HI) as [_ V]. split; [|split; [|intros v _; reflexivity]].
  - constructor; try apply V.
    + rewrite (vp_nv _ _ _ V). lia.
    + unfold dlevel. destruct (vp_trail _ _ _ V) as (_ & -> & _). reflexivity.
    + intros p _. unfold value, vlit. rewrite (vp_assigns _ _ _ V). reflexivity.
    + apply cache_new_var; assumption.
    + intros k p. unfold find_expr. rewrite (vp_exprs _ _ _ V). intros Hf.
      destruct (find (fun e => String.eqb (fst e) k) (exprs s)) as [e|] eqn:E; [|discriminate].
      assert (Ef : forall l l', find (fun e => String.eqb (fst e) k) l = Some e -> find (fun e => String.eqb (fst e) k) (l ++ l') = Some e).
      { clear. induction l as [|x l IH]; cbn; intros l' H; [discriminate|]. destruct (String.eqb (fst x) k); [exact H|apply IH, H]. }
      rewrite (Ef _ _ E). exact Hf.
  - intros M b HM. apply (vp_models _ _ _ V). eapply smodels_agree; [exact HI| |exact HM].
    intros v Hv. rewrite upd_neq by lia. reflexivity.
Qed.

(** Several clauses. *)
Lemma new_clauses_ok : forall cs (s : st), Inv C s -> dlevel s = 0 -> (forall c p, In c cs -> In p c -> lvar p < nv s) ->
  exists s' b, new_clauses s cs = Ok (s', b) /\ Inv C s' /\ grow s s' /\ theories s' = theories s /\ bounds s' = bounds s /\
    (forall M, smodels C s' M -> smodels C s M) /\
    if b then forall M, smodels C s' M <-> smodels C s M /\ (forall c, In c cs -> mcl M c)
    else forall M, smodels C s M -> ~ (forall c, In c cs -> mcl M c).
Proof.
  induction cs as [|c cs IH]; intros s HI Hd Hr; cbn [new_clauses].
  - exists s, true. split; [reflexivity|]. split; [exact HI|]. split; [apply grow_refl|]. split; [reflexivity|]. split; [reflexivity|]. split; [auto|].
    intros M. split; [intros HM; split; [exact HM|intros c []]|tauto].
  - destruct (new_clause_ok C s c HI Hd) as (s1 & b1 & -> & P); [intros p Hp; apply (Hr c p); [left; reflexivity|exact Hp]|]. cbn [rbind].
    destruct P as [P1 P2 P3 P4 P5 P6]. destruct b1.
    + destruct (IH s1 P1) as (s2 & b2 & -> & H1 & H2 & H3 & H4 & H5 & H6).
      * rewrite (grow_dlevel _ _ P2). exact Hd.
      * intros k p Hk Hp. rewrite (gr_nv _ _ P2). apply (Hr k p); [right; exact Hk|exact Hp].
      * exists s2, b2. split; [reflexivity|]. split; [exact H1|]. split; [eapply grow_trans; eassumption|]. split; [congruence|]. split; [congruence|].
        split; [intros M HM; apply H5 in HM; apply (P5 eq_refl), HM|].
        destruct b2.
        -- intros M. rewrite H6, (P5 eq_refl). split.
           ++ intros [[A B] D]. split; [exact A|]. intros k [<-|Hk]; auto.
           ++ intros [A B]. split; [split; [exact A|apply B; left; reflexivity]|intros k Hk; apply B; right; exact Hk].
        -- intros M HM Hall. apply (H6 M); [apply (P5 eq_refl); split; [exact HM|apply Hall; left; reflexivity]|].
           intros k Hk. apply Hall. right; exact Hk.
    + destruct (P6 eq_refl) as [-> P7]. exists s, false. split; [reflexivity|]. split; [exact P1|]. split; [exact P2|]. split; [reflexivity|]. split; [reflexivity|].
      split; [auto|]. intros M HM Hall. apply (P7 M HM). apply Hall. left; reflexivity.
Qed.

Lemma find_app (s s' : st) e : exprs s' = exprs s ++ e -> forall k p, find_expr s k = Some p -> find_expr s' k = Some p.
Proof.
  intros E k p. unfold find_expr. rewrite E. clear. generalize (exprs s) as l.
  induction l as [|x l IH]; cbn; intros H; [discriminate|]. destruct (String.eqb (fst x) k); [exact H|apply IH, H].
Qed.

Lemma Inv_exprs (s : st) e : Inv C s -> Inv C (set_exprs e s).
Proof.
  intros [A B D E F G]. constructor.
  - destruct A; constructor; assumption.
  - destruct B; constructor; assumption.
  - destruct D; constructor; assumption.
  - exact E.
  - destruct F; constructor; assumption.
  - destruct G; constructor; assumption.
Qed.
(** The common tail. *)
Lemma reify_raw (s : st) cs o ctr : Inv C s -> cache_ok s -> dlevel s = 0 ->
  (forall c p, In c cs -> In p c -> lvar p < nv s) ->
  (forall q, In q (op_lits o) -> lvar q < nv s) -> lvar ctr < nv s ->
  (forall M, smodels C s M -> (forall c, In c cs -> mcl M c) -> op_means M o ctr) ->
  exists s' p, reify s cs (key_of o) ctr = Ok (s', p) /\ ext s s' /\ nv s' = nv s /\
    (exprs s' = exprs s \/ exprs s' = exprs s ++ [(key_of o, ctr)]) /\
    ((p = ctr /\ forall M, smodels C s' M <-> smodels C s M /\ (forall c, In c cs -> mcl M c)) \/
     (p = FALSE_lit /\ forall M, smodels C s M -> ~ (forall c, In c cs -> mcl M c))).
Proof.
  intros HI Hc Hd Hr Ho Hct Hm. unfold reify. destruct (new_clauses_ok cs s HI Hd Hr) as (s1 & b & -> & H1 & H2 & H3 & H4 & H5 & H6). cbn [rbind].
  assert (Hn1 : nv s1 = nv s) by apply (gr_nv _ _ H2).
  assert (Hc1 : cache_ok s1) by (apply (cache_mono s); [exact Hc|apply (gr_exprs _ _ H2)|lia|exact H5]).
  assert (HE : ext s s1).
  { constructor; auto; try lia.
    - apply (grow_dlevel _ _ H2).
    - intros p Hp. apply (grow_value _ _ p H2 Hp).
    - intros k p. unfold find_expr. rewrite (gr_exprs _ _ H2). auto. }
  destruct b.
  - exists (add_expr s1 (key_of o) ctr), ctr. split; [reflexivity|].
    assert (Ha : add_expr s1 (key_of o) ctr = s1 \/ add_expr s1 (key_of o) ctr = set_exprs (exprs s1 ++ [(key_of o, ctr)]) s1).
    { unfold add_expr. destruct (find_expr s1 (key_of o)); auto. }
    destruct Ha as [-> | ->].
    + split; [exact HE|]. split; [exact Hn1|]. split; [left; apply (gr_exprs _ _ H2)|]. left. split; [reflexivity|exact H6].
    + set (s2 := set_exprs _ s1).
      assert (HM2 : forall M, smodels C s2 M <-> smodels C s1 M) by (intros M; split; intros [S1 S2 S3 S4]; constructor; assumption).
      split; [|split; [exact Hn1|split; [right; cbn; rewrite (gr_exprs _ _ H2); reflexivity|]]].
      * constructor; try apply HE.
        -- apply Inv_exprs, H1.
        -- intros M HM. apply H5, HM2, HM.
        -- intros k p Hi. cbn in Hi. apply in_app_or in Hi as [Hi|[Hi|[]]].
           ++ destruct (Hc1 k p Hi) as (o' & A & B & D & F). exists o'. split; [exact A|]. split; [exact B|]. split; [exact D|].
              intros M HM. apply F, HM2, HM.
           ++ inversion Hi; subst. exists o. split; [reflexivity|]. cbn [s2 set_exprs nv]. rewrite Hn1. split; [exact Ho|]. split; [exact Hct|].
              intros M HM. apply HM2, H6 in HM as [HM Hcs]. apply Hm; assumption.
        -- intros k p Hf. apply (find_app s1 s2 [(key_of o, ctr)] eq_refl). apply HE, Hf.
      * left. split; [reflexivity|]. intros M. rewrite HM2. apply H6.
  - exists s1, FALSE_lit. split; [reflexivity|]. split; [exact HE|]. split; [exact Hn1|]. split; [left; apply (gr_exprs _ _ H2)|]. right. auto.
Qed.

(** A new control literal: the definitions are satisfiable by some choice of its value. *)
Lemma reify_new (s : st) cs o : Inv C s -> cache_ok s -> dlevel s = 0 ->
  let ctr := mk_lit (nv s) true in
  (forall c p, In c cs -> In p c -> lvar p <= nv s) ->
  (forall q, In q (op_lits o) -> lvar q < nv s) ->
  (forall M, smodels C s M -> exists b, forall c, In c cs -> mcl (upd M (nv s) b) c) ->
  (forall M, (forall c, In c cs -> mcl M c) -> op_means M o ctr) ->
  exists s' p, reify (fst (new_var s)) cs (key_of o) ctr = Ok (s', p) /\ ext s s' /\ conservative s s' /\ lvar p < nv s' /\
    nv s' = S (nv s) /\
    (forall k e, In (k, e) (exprs s') -> In (k, e) (exprs s) \/ k = key_var (nv s) \/ k = key_of o) /\
    (forall M, smodels C s' M -> p = ctr /\ forall c, In c cs -> mcl M c) /\
    (forall M b, smodels C s M -> (forall c, In c cs -> mcl (upd M (nv s) b) c) -> smodels C s' (upd M (nv s) b)) /\
    (forall M, smodels C s M -> (forall c, In c cs -> mcl M c) -> smodels C s' M).
Proof.
  intros HI Hc Hd ctr Hr Ho Hw Hm. destruct (new_var_ok C s HI) as [_ V].
  destruct (new_var_ext s HI Hc) as (HE1 & HU & _). set (s1 := fst (new_var s)) in *.
  assert (Hn1 : nv s1 = S (nv s)) by apply V.
  destruct (reify_raw s1 cs o ctr) as (s2 & p & E & HE2 & Hn2 & Hx & HP).
  - exact (e_inv _ _ HE1).
  - exact (e_cache _ _ HE1).
  - rewrite (e_dl _ _ HE1). exact Hd.
  - intros c q H1 H2. specialize (Hr c q H1 H2). lia.
  - intros q Hq. specialize (Ho q Hq). lia.
  - cbn. lia.
  - intros M _ H. apply Hm, H.
  - exists s2, p. split; [exact E|]. assert (HE : ext s s2) by (eapply ext_trans; eassumption). split; [exact HE|].
    assert (Hcons : conservative s s2).
    { intros M HM. destruct (Hw M HM) as (b & Hb). exists (upd M (nv s) b). split; [intros v Hv; rewrite upd_neq by lia; reflexivity|].
      destruct HP as [[-> HP]|[-> HP]].
      - apply HP. split; [apply HU, HM|exact Hb].
      - exfalso. apply (HP (upd M (nv s) b)); [apply HU, HM|exact Hb]. }
    split; [exact Hcons|]. split; [|split; [congruence|split; [|split; [|split]]]].
    + destruct HP as [[-> _]|[-> _]]; cbn; lia.
    + intros k e Hi. assert (Hv1 : exprs s1 = exprs s ++ [(key_var (nv s), mk_lit (nv s) true)]) by apply V.
      destruct Hx as [Hx|Hx]; rewrite Hx, Hv1 in Hi; rewrite ?in_app_iff in Hi; cbn in Hi.
      * destruct Hi as [Hi|[Hi|[]]]; [auto|inversion Hi; auto].
      * destruct Hi as [[Hi|[Hi|[]]]|[Hi|[]]]; [auto|inversion Hi; auto|inversion Hi; auto].
    + intros M HM. destruct HP as [[-> HP]|[-> HP]].
      * split; [reflexivity|]. apply HP, HM.
      * exfalso. pose proof (e_mono _ _ HE M HM) as HM0. destruct (Hw M HM0) as (b & Hb). apply (HP (upd M (nv s) b)); [apply HU, HM0|exact Hb].
    + intros M b HM Hb. destruct HP as [[-> HP]|[-> HP]].
      * apply HP. split; [apply HU, HM|exact Hb].
      * exfalso. apply (HP (upd M (nv s) b)); [apply HU, HM|exact Hb].
    + intros M HM Hb. apply (vp_models _ _ _ V) in HM. destruct HP as [[-> HP]|[-> HP]].
      * apply HP. split; [exact HM|exact Hb].
      * exfalso. apply (HP M); [exact HM|exact Hb].
Qed.

(** ** [new_conj] and [new_disj] *)
Lemma forallb_iff {A} (f : A -> bool) (l l' : list A) : (forall x, In x l' -> In x l) -> (forall x, In x l -> In x l' \/ f x = true) ->
  forallb f l = forallb f l'.
Proof.
  intros H1 H2. apply eq_true_iff_eq. rewrite !forallb_forall. split; intros H x Hx; [apply H, H1, Hx|].
  destruct (H2 x Hx); auto.
Qed.
Lemma existsb_iff {A} (f : A -> bool) (l l' : list A) : (forall x, In x l' -> In x l) -> (forall x, In x l -> In x l' \/ f x = false) ->
  existsb f l = existsb f l'.
Proof.
  intros H1 H2. apply eq_true_iff_eq. rewrite !existsb_exists. split; intros (x & Hx & Hf); exists x; split; auto.
  destruct (H2 x Hx); [assumption|congruence].
Qed.

Lemma upd_keep M n b q : lvar q < n -> mlit (upd M n b) q = mlit M q.
Proof. intros H. apply mlit_upd_neq. lia. Qed.

Theorem new_conj_ok (s : st) ls : Inv C s -> cache_ok s -> dlevel s = 0 -> (forall p, In p ls -> lvar p < nv s) ->
  exists s' p, new_conj s ls = Ok (s', p) /\ ext s s' /\ conservative s s' /\ lvar p < nv s' /\
    (forall M, smodels C s' M <-> smodels C s M /\ mlit M p = forallb (mlit M) ls) /\
    (forall k e, In (k, e) (exprs s') -> In (k, e) (exprs s) \/ k = key_var (nv s) \/
       exists ls', k = key_conj ls' /\ 2 <= length ls' /\ forall q, In q ls' -> In q ls).
Proof.
  intros HI Hc Hd Hr. unfold new_conj.
  assert (Er : root_level s = true) by (apply root_dlevel, Hd). rewrite Er. cbn [guard].
  assert (Ein : in_range s ls = true) by (apply in_range_iff, Hr). rewrite Ein. cbn [guard].
  assert (Hlv : forall v, level s v = 0) by (intros v; pose proof (level_le s (i_t _ _ HI) v); lia).
  assert (Hfact : forall M p, smodels C s M -> value s p = LTrue -> mlit M p = true) by (intros M p HM Hp; apply (sm_facts _ _ _ HM p Hp), Hlv).
  assert (Hfalse : forall M p, smodels C s M -> value s p = LFalse -> mlit M p = false).
  { intros M p HM Hp. apply value_false_true in Hp. apply (Hfact M _ HM) in Hp. rewrite mlit_negl in Hp. destruct (mlit M p); [discriminate|reflexivity]. }
  assert (HF0 : forall M, smodels C s M -> mlit M FALSE_lit = false) by (intros M HM; unfold mlit; cbn; rewrite (sm_false _ _ _ HM); reflexivity).
  assert (Hnv : 0 < nv s) by apply (t_nv s (i_t _ _ HI)).
  rewrite conj_filter_eq.
  pose proof (clause_filter_spec (fun q => lneg (value s q)) (sort_by lvar ls) None (sort_by_sorted lvar ls) ltac:(discriminate)) as HF.
  assert (HIn : forall q, In q (sort_by lvar ls) <-> In q ls) by (intros q; apply sort_by_In).
  assert (Htriv : forall p, lvar p < nv s -> (forall M, smodels C s M -> mlit M p = forallb (mlit M) ls) ->
     exists s' p0, Ok (s, p) = Ok (s', p0) /\ ext s s' /\ conservative s s' /\ lvar p0 < nv s' /\
     (forall M, smodels C s' M <-> smodels C s M /\ mlit M p0 = forallb (mlit M) ls) /\
     (forall k e, In (k, e) (exprs s') -> In (k, e) (exprs s) \/ k = key_var (nv s) \/
       exists ls', k = key_conj ls' /\ 2 <= length ls' /\ forall q, In q ls' -> In q ls)).
  { intros p Hp Hm. exists s, p. split; [reflexivity|]. split; [apply ext_refl; assumption|]. split; [apply cons_refl|]. split; [exact Hp|].
    split; [intros M; split; [intros HM; split; [exact HM|apply Hm, HM]|tauto]|auto]. }
  destruct (clause_filter _ None (sort_by lvar ls)) as [k|].
  2:{ apply Htriv; [exact Hnv|]. intros M HM. rewrite (HF0 M HM). symmetry. apply not_true_iff_false. rewrite forallb_forall. intros Hall.
      destruct HF as [(q & Hq & Ev)|(q & Hq & [Hn|Hn])]; [| |discriminate].
      - apply HIn, Hall in Hq. rewrite Hfalse in Hq; [discriminate|exact HM|]. destruct (value s q); cbn in Ev; congruence.
      - apply HIn, Hall in Hq. apply HIn, Hall in Hn. rewrite mlit_negl, Hq in Hn. discriminate. }
  destruct HF as (A & B & _ & D).
  assert (HA : forall q, In q k -> In q ls /\ value s q = LUndef).
  { intros q Hq. destruct (A q Hq) as [H1 H2]. split; [apply HIn, H1|]. destruct (value s q); cbn in H2; congruence. }
  assert (HD : forall M, smodels C s M -> forallb (mlit M) ls = forallb (mlit M) k).
  { intros M HM. apply forallb_iff; [intros x Hx; apply HA, Hx|]. intros x Hx. apply HIn in Hx.
    destruct (D x Hx) as [?|[H|?]]; [auto| |discriminate]. right. apply (Hfact M x HM). destruct (value s x); cbn in H; congruence. }
  destruct k as [|a [|b r]].
  - apply Htriv; [exact Hnv|]. intros M HM. rewrite (HD M HM). change TRUE_lit with (negl FALSE_lit). rewrite mlit_negl, (HF0 M HM). reflexivity.
  - apply Htriv; [apply Hr, HA; left; reflexivity|]. intros M HM. rewrite (HD M HM). cbn. rewrite andb_true_r. reflexivity.
  - set (k := a :: b :: r) in *. assert (Hk : 2 <= length k) by (cbn; lia).
    assert (Hkr : forall q, In q k -> lvar q < nv s) by (intros q Hq; apply Hr, HA, Hq). clearbody k.
    change (key_conj k) with (key_of (OConj k)).
    destruct (find_expr s (key_of (OConj k))) as [e|] eqn:Ef.
    + destruct (cache_found s (OConj k) e Hc Ef) as [H1 H2]. apply Htriv; [exact H1|]. intros M HM. rewrite (HD M HM). apply (H2 M HM).
    + set (cs := map (fun l => [negl (mk_lit (nv s) true); l]) k ++ [mk_lit (nv s) true :: map negl k]).
      assert (Hcs : forall M, (forall c, In c cs -> mcl M c) <-> mlit M (mk_lit (nv s) true) = forallb (mlit M) k).
      { intros M. unfold cs. split.
        - intros H. apply eq_true_iff_eq. rewrite forallb_forall. split.
          + intros Hct x Hx. destruct (H [negl (mk_lit (nv s) true); x]) as (q & [<-|[<-|[]]] & Hq); [|rewrite mlit_negl, Hct in Hq; discriminate|exact Hq].
            apply in_or_app. left. apply in_map_iff. exists x. auto.
          + intros Hall. destruct (H (mk_lit (nv s) true :: map negl k)) as (q & [<-|Hq] & Eq); [apply in_or_app; right; left; reflexivity|exact Eq|].
            apply in_map_iff in Hq as (x & <- & Hx). rewrite mlit_negl, (Hall x Hx) in Eq. discriminate.
        - intros H c Hi. apply in_app_or in Hi as [Hi|[<-|[]]].
          + apply in_map_iff in Hi as (x & <- & Hx). destruct (mlit M (mk_lit (nv s) true)) eqn:Ec.
            * symmetry in H. rewrite forallb_forall in H. exists x. split; [right; left; reflexivity|apply H, Hx].
            * exists (negl (mk_lit (nv s) true)). split; [left; reflexivity|]. rewrite mlit_negl, Ec. reflexivity.
          + destruct (mlit M (mk_lit (nv s) true)) eqn:Ec.
            * exists (mk_lit (nv s) true). split; [left; reflexivity|exact Ec].
            * symmetry in H. assert (Hx : exists x, In x k /\ mlit M x = false).
              { clear -H. induction k as [|x k IH]; cbn in H; [discriminate|]. destruct (mlit M x) eqn:E; [|exists x; split; [left; reflexivity|exact E]].
                destruct (IH H) as (y & Hy & Ey). exists y. split; [right; exact Hy|exact Ey]. }
              destruct Hx as (x & Hx & Ex). exists (negl x). split; [right; apply in_map, Hx|]. rewrite mlit_negl, Ex. reflexivity. }
      destruct (reify_new s cs (OConj k) HI Hc Hd) as (s' & p & E & H1 & H2 & H3 & H4 & H5 & H6 & H7 & H8).
      * intros c p Hi Hp. unfold cs in Hi. apply in_app_or in Hi as [Hi|[<-|[]]].
        -- apply in_map_iff in Hi as (x & <- & Hx). destruct Hp as [<-|[<-|[]]]; [cbn; lia|]. specialize (Hkr x Hx). lia.
        -- destruct Hp as [<-|Hp]; [cbn; lia|]. apply in_map_iff in Hp as (x & <- & Hx). specialize (Hkr x Hx). cbn. lia.
      * exact Hkr.
      * intros M HM. exists (forallb (mlit M) k). apply Hcs. rewrite mlit_upd_eq. apply eq_true_iff_eq. rewrite !forallb_forall.
        split; intros H x Hx; specialize (H x Hx); rewrite upd_keep in * by (apply Hkr, Hx); exact H.
      * intros M H. apply Hcs, H.
      * exists s', p. split; [exact E|]. split; [exact H1|]. split; [exact H2|]. split; [exact H3|]. split.
        -- intros M. split.
           ++ intros HM. split; [apply (e_mono _ _ H1 M HM)|]. rewrite (HD M (e_mono _ _ H1 M HM)). destruct (H6 M HM) as [-> Hall]. apply Hcs, Hall.
           ++ intros [HM Em]. rewrite (HD M HM) in Em. destruct (H2 M HM) as (M0 & _ & S0). destruct (H6 M0 S0) as [-> _].
              apply H8; [exact HM|]. apply Hcs, Em.
        -- intros k0 e Hi. destruct (H5 k0 e Hi) as [?|[?|?]]; auto. right; right. exists k. split; [assumption|]. split; [exact Hk|]. intros q Hq. apply HA, Hq.
Qed.

Theorem new_disj_ok (s : st) ls : Inv C s -> cache_ok s -> dlevel s = 0 -> (forall p, In p ls -> lvar p < nv s) ->
  exists s' p, new_disj s ls = Ok (s', p) /\ ext s s' /\ conservative s s' /\ lvar p < nv s' /\
    (forall M, smodels C s' M <-> smodels C s M /\ mlit M p = existsb (mlit M) ls).
Proof.
  intros HI Hc Hd Hr. unfold new_disj.
  assert (Er : root_level s = true) by (apply root_dlevel, Hd). rewrite Er. cbn [guard].
  assert (Ein : in_range s ls = true) by (apply in_range_iff, Hr). rewrite Ein. cbn [guard].
  assert (Hlv : forall v, level s v = 0) by (intros v; pose proof (level_le s (i_t _ _ HI) v); lia).
  assert (Hfact : forall M p, smodels C s M -> value s p = LTrue -> mlit M p = true) by (intros M p HM Hp; apply (sm_facts _ _ _ HM p Hp), Hlv).
  assert (Hfalse : forall M p, smodels C s M -> value s p = LFalse -> mlit M p = false).
  { intros M p HM Hp. apply value_false_true in Hp. apply (Hfact M _ HM) in Hp. rewrite mlit_negl in Hp. destruct (mlit M p); [discriminate|reflexivity]. }
  assert (HF0 : forall M, smodels C s M -> mlit M FALSE_lit = false) by (intros M HM; unfold mlit; cbn; rewrite (sm_false _ _ _ HM); reflexivity).
  assert (Hnv : 0 < nv s) by apply (t_nv s (i_t _ _ HI)).
  pose proof (clause_filter_spec (value s) (sort_by lvar ls) None (sort_by_sorted lvar ls) ltac:(discriminate)) as HF.
  assert (HIn : forall q, In q (sort_by lvar ls) <-> In q ls) by (intros q; apply sort_by_In).
  assert (Htriv : forall p, lvar p < nv s -> (forall M, smodels C s M -> mlit M p = existsb (mlit M) ls) ->
     exists s' p0, Ok (s, p) = Ok (s', p0) /\ ext s s' /\ conservative s s' /\ lvar p0 < nv s' /\
     (forall M, smodels C s' M <-> smodels C s M /\ mlit M p0 = existsb (mlit M) ls)).
  { intros p Hp Hm. exists s, p. split; [reflexivity|]. split; [apply ext_refl; assumption|]. split; [apply cons_refl|]. split; [exact Hp|].
    intros M; split; [intros HM; split; [exact HM|apply Hm, HM]|tauto]. }
  destruct (clause_filter _ None (sort_by lvar ls)) as [k|].
  2:{ apply Htriv; [exact Hnv|]. intros M HM. change TRUE_lit with (negl FALSE_lit). rewrite mlit_negl, (HF0 M HM). symmetry. cbn. rewrite existsb_exists.
      destruct HF as [(q & Hq & Ev)|(q & Hq & [Hn|Hn])]; [| |discriminate].
      - exists q. split; [apply HIn, Hq|apply Hfact; assumption].
      - destruct (mlit M q) eqn:E; [exists q; split; [apply HIn, Hq|exact E]|].
        exists (negl q). split; [apply HIn, Hn|]. rewrite mlit_negl, E. reflexivity. }
  destruct HF as (A & B & _ & D).
  assert (HA : forall q, In q k -> In q ls) by (intros q Hq; apply HIn, A, Hq).
  assert (HD : forall M, smodels C s M -> existsb (mlit M) ls = existsb (mlit M) k).
  { intros M HM. apply existsb_iff; [exact HA|]. intros x Hx. apply HIn in Hx.
    destruct (D x Hx) as [?|[H|?]]; [auto| |discriminate]. right. apply (Hfalse M x HM H). }
  destruct k as [|a [|b r]].
  - apply Htriv; [exact Hnv|]. intros M HM. rewrite (HD M HM). apply (HF0 M HM).
  - apply Htriv; [apply Hr, HA; left; reflexivity|]. intros M HM. rewrite (HD M HM). cbn. rewrite orb_false_r. reflexivity.
  - set (k := a :: b :: r) in *.
    assert (Hkr : forall q, In q k -> lvar q < nv s) by (intros q Hq; apply Hr, HA, Hq). clearbody k.
    change (key_disj k) with (key_of (ODisj k)).
    destruct (find_expr s (key_of (ODisj k))) as [e|] eqn:Ef.
    + destruct (cache_found s (ODisj k) e Hc Ef) as [H1 H2]. apply Htriv; [exact H1|]. intros M HM. rewrite (HD M HM). apply (H2 M HM).
    + set (cs := map (fun l => [negl l; mk_lit (nv s) true]) k ++ [negl (mk_lit (nv s) true) :: k]).
      assert (Hcs : forall M, (forall c, In c cs -> mcl M c) <-> mlit M (mk_lit (nv s) true) = existsb (mlit M) k).
      { intros M. unfold cs. split.
        - intros H. apply eq_true_iff_eq. rewrite existsb_exists. split.
          + intros Hct. destruct (H (negl (mk_lit (nv s) true) :: k)) as (q & [<-|Hq] & Eq); [apply in_or_app; right; left; reflexivity| |].
            * rewrite mlit_negl, Hct in Eq. discriminate.
            * exists q. auto.
          + intros (x & Hx & Ex). destruct (H [negl x; mk_lit (nv s) true]) as (q & [<-|[<-|[]]] & Hq); [|rewrite mlit_negl, Ex in Hq; discriminate|exact Hq].
            apply in_or_app. left. apply in_map_iff. exists x. auto.
        - intros H c Hi. apply in_app_or in Hi as [Hi|[<-|[]]].
          + apply in_map_iff in Hi as (x & <- & Hx). destruct (mlit M (mk_lit (nv s) true)) eqn:Ec.
            * exists (mk_lit (nv s) true). split; [right; left; reflexivity|exact Ec].
            * exists (negl x). split; [left; reflexivity|]. rewrite mlit_negl. destruct (mlit M x) eqn:Ex; [|reflexivity].
              assert (Hex : existsb (mlit M) k = true) by (apply existsb_exists; exists x; auto). congruence.
          + destruct (mlit M (mk_lit (nv s) true)) eqn:Ec.
            * symmetry in H. apply existsb_exists in H as (x & Hx & Ex). exists x. split; [right; exact Hx|exact Ex].
            * exists (negl (mk_lit (nv s) true)). split; [left; reflexivity|]. rewrite mlit_negl, Ec. reflexivity. }
      destruct (reify_new s cs (ODisj k) HI Hc Hd) as (s' & p & E & H1 & H2 & H3 & H4 & H5 & H6 & H7 & H8).
      * intros c p Hi Hp. unfold cs in Hi. apply in_app_or in Hi as [Hi|[<-|[]]].
        -- apply in_map_iff in Hi as (x & <- & Hx). destruct Hp as [<-|[<-|[]]]; [|cbn; lia]. specialize (Hkr x Hx). cbn. lia.
        -- destruct Hp as [<-|Hp]; [cbn; lia|]. specialize (Hkr p Hp). lia.
      * exact Hkr.
      * intros M HM. exists (existsb (mlit M) k). apply Hcs. rewrite mlit_upd_eq. apply eq_true_iff_eq. rewrite !existsb_exists.
        split; intros (x & Hx & Ex); exists x; (split; [exact Hx|]); rewrite upd_keep in * by (apply Hkr, Hx); exact Ex.
      * intros M H. apply Hcs, H.
      * exists s', p. split; [exact E|]. split; [exact H1|]. split; [exact H2|]. split; [exact H3|].
        intros M. split.
        -- intros HM. split; [apply (e_mono _ _ H1 M HM)|]. rewrite (HD M (e_mono _ _ H1 M HM)). destruct (H6 M HM) as [-> Hall]. apply Hcs, Hall.
        -- intros [HM Em]. rewrite (HD M HM) in Em. destruct (H2 M HM) as (M0 & _ & S0). destruct (H6 M0 S0) as [-> _].
           apply H8; [exact HM|]. apply Hcs, Em.
Qed.

(** ** [new_eq]: what the code guarantees. *)
(** When exactly one side is assigned the code compares the signs of the two literals. *)
Definition sign_ok (s : st) (l r : lit) : Prop :=
  l = r \/ (value s l = LUndef <-> value s r = LUndef) \/ lsgn l = lsgn r.
Theorem new_eq_ok (s : st) l r : Inv C s -> cache_ok s -> dlevel s = 0 -> lvar l < nv s -> lvar r < nv s ->
  exists s' p, new_eq s l r = Ok (s', p) /\ ext s s' /\ conservative s s' /\ lvar p < nv s' /\
    (sign_ok s l r -> forall M, smodels C s' M <-> smodels C s M /\ op_means M (OEq l r) p).
Proof.
  intros HI Hc Hd Hl Hr. unfold new_eq.
  assert (Er : root_level s = true) by (apply root_dlevel, Hd). rewrite Er. cbn [guard].
  assert (Ein : in_range s [l; r] = true) by (apply in_range_iff; intros p [<-|[<-|[]]]; assumption). rewrite Ein. cbn [guard].
  assert (Hlv : forall v, level s v = 0) by (intros v; pose proof (level_le s (i_t _ _ HI) v); lia).
  assert (Hfact : forall M p, smodels C s M -> value s p = LTrue -> mlit M p = true) by (intros M p HM Hp; apply (sm_facts _ _ _ HM p Hp), Hlv).
  assert (Hfalse : forall M p, smodels C s M -> value s p = LFalse -> mlit M p = false).
  { intros M p HM Hp. apply value_false_true in Hp. apply (Hfact M _ HM) in Hp. rewrite mlit_negl in Hp. destruct (mlit M p); [discriminate|reflexivity]. }
  assert (HF0 : forall M, smodels C s M -> mlit M FALSE_lit = false) by (intros M HM; unfold mlit; cbn; rewrite (sm_false _ _ _ HM); reflexivity).
  assert (HT0 : forall M, smodels C s M -> mlit M TRUE_lit = true) by (intros M HM; change TRUE_lit with (negl FALSE_lit); rewrite mlit_negl, (HF0 M HM); reflexivity).
  assert (Hnv : 0 < nv s) by apply (t_nv s (i_t _ _ HI)).
  assert (Htriv : forall p, lvar p < nv s -> (sign_ok s l r -> forall M, smodels C s M -> mlit M p = Bool.eqb (mlit M l) (mlit M r)) ->
     exists s' p0, Ok (s, p) = Ok (s', p0) /\ ext s s' /\ conservative s s' /\ lvar p0 < nv s' /\
     (sign_ok s l r -> forall M, smodels C s' M <-> smodels C s M /\ op_means M (OEq l r) p0)).
  { intros p Hp Hm. exists s, p. split; [reflexivity|]. split; [apply ext_refl; assumption|]. split; [apply cons_refl|]. split; [exact Hp|].
    intros Hsg M. split; [|tauto]. intros HM. split; [exact HM|]. cbn [op_means]. rewrite (Hm Hsg M HM). split; [apply eqb_prop|].
    intros -> ->. reflexivity. }
  destruct (lit_eqb_spec l r) as [->|Hne].
  { apply Htriv; [exact Hnv|]. intros _ M HM. rewrite (HT0 M HM). destruct (mlit M r); reflexivity. }
  assert (Hsgn : (value s l = LUndef /\ value s r <> LUndef \/ value s l <> LUndef /\ value s r = LUndef) -> sign_ok s l r -> Bool.eqb (lsgn l) (lsgn r) = true).
  { intros Hm [?|[Hsg| ->]]; [contradiction| |apply Bool.eqb_reflx]. exfalso. tauto. }
  destruct (value s l) eqn:Vl, (value s r) eqn:Vr;
    try (apply Htriv; [try (cbn; assumption); try (destruct (Bool.eqb (lsgn l) (lsgn r)); cbn; assumption)|]; intros Hsg M HM;
      try (rewrite Hsgn by first [exact Hsg | left; split; [reflexivity|discriminate] | right; split; [discriminate|reflexivity]]);
      rewrite ?(HF0 M HM), ?(HT0 M HM), ?mlit_negl, ?(Hfact M l HM Vl), ?(Hfact M r HM Vr), ?(Hfalse M l HM Vl), ?(Hfalse M r HM Vr);
      try (destruct (mlit M l)); try (destruct (mlit M r)); reflexivity).
  change (key_eq l r) with (key_of (OEq l r)).
  destruct (find_expr s (key_of (OEq l r))) as [e|] eqn:Ef.
  - destruct (cache_found s (OEq l r) e Hc Ef) as [H1 H2]. exists s, e. split; [reflexivity|]. split; [apply ext_refl; assumption|]. split; [apply cons_refl|].
    split; [exact H1|]. intros _ M. split; [intros HM; split; [exact HM|apply (H2 M HM)]|tauto].
  - set (ctr := mk_lit (nv s) true). set (cs := [[negl ctr; negl l; r]; [negl ctr; l; negl r]; [ctr; negl l; negl r]]).
    assert (Hcs : forall M, (forall c, In c cs -> mcl M c) <-> op_means M (OEq l r) ctr).
    { intros M. cbn [op_means]. split.
      - intros H. split.
        + intros Hct. destruct (H [negl ctr; negl l; r]) as (q & Hq & Eq); [left; reflexivity|].
          destruct (H [negl ctr; l; negl r]) as (q' & Hq' & Eq'); [right; left; reflexivity|].
          destruct Hq as [<-|[<-|[<-|[]]]], Hq' as [<-|[<-|[<-|[]]]]; rewrite ?mlit_negl in *; destruct (mlit M ctr), (mlit M l), (mlit M r); cbn in *; congruence.
        + intros Hl1 Hr1. destruct (H [ctr; negl l; negl r]) as (q & Hq & Eq); [right; right; left; reflexivity|].
          destruct Hq as [<-|[<-|[<-|[]]]]; rewrite ?mlit_negl, ?Hl1, ?Hr1 in Eq; [exact Eq|discriminate|discriminate].
      - intros [H1 H2] c [<-|[<-|[<-|[]]]]; destruct (mlit M ctr) eqn:E1, (mlit M l) eqn:E2, (mlit M r) eqn:E3;
          try (specialize (H1 eq_refl)); try (specialize (H2 eq_refl eq_refl)); try discriminate;
          first [exists (negl ctr); split; [cbn; tauto|rewrite mlit_negl, E1; reflexivity] | exists ctr; split; [cbn; tauto|exact E1] |
                 exists l; split; [cbn; tauto|exact E2] | exists r; split; [cbn; tauto|exact E3] |
                 exists (negl l); split; [cbn; tauto|rewrite mlit_negl, E2; reflexivity] | exists (negl r); split; [cbn; tauto|rewrite mlit_negl, E3; reflexivity]]. }
    destruct (reify_new s cs (OEq l r) HI Hc Hd) as (s' & p & E & H1 & H2 & H3 & H4 & H5 & H6 & H7 & H8).
    + intros c p [<-|[<-|[<-|[]]]] [<-|[<-|[<-|[]]]]; cbn; lia.
    + intros q [<-|[<-|[]]]; assumption.
    + intros M HM. exists (Bool.eqb (mlit M l) (mlit M r)). apply Hcs. cbn [op_means]. unfold ctr. rewrite mlit_upd_eq, !upd_keep by assumption.
      split; [apply eqb_prop|intros -> ->; reflexivity].
    + intros M H. apply Hcs, H.
    + exists s', p. split; [exact E|]. split; [exact H1|]. split; [exact H2|]. split; [exact H3|].
      intros _ M. split.
      * intros HM. split; [apply (e_mono _ _ H1 M HM)|]. destruct (H6 M HM) as [-> Hall]. apply Hcs, Hall.
      * intros [HM Em]. destruct (H2 M HM) as (M0 & _ & S0). destruct (H6 M0 S0) as [-> _]. apply H8; [exact HM|]. apply Hcs, Em.
Qed.
End Reify.
