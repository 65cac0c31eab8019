(** The at-most-one and exactly-one reifications. *)
From Coq Require Import String.
From Verif Require Import Base Keys Sat SatSpec SatInv SatPop SatImp SatRec SatAn SatProp SatLoop SatMain SatApi SatApi2 Reify.

(** ** Filters *)
Lemma amo_filter2_in v : forall ls p k, amo_filter2 v p ls = Some k -> forall q, In q k -> In q ls /\ v q = LUndef.
Proof.
  induction ls as [|a ls IH]; intros p k; cbn; [intros H; inversion H; intros q []|].
  destruct (v a) eqn:Va; cbn; destruct (is_lit p (negl a)); cbn; try discriminate; try destruct (is_lit p a); cbn;
    try (intros H q Hq; destruct (IH _ _ H q Hq); auto).
  destruct (amo_filter2 v (Some a) ls) as [k'|] eqn:E; [|discriminate]. intros H q Hq; inversion H; subst.
  destruct Hq as [<-|Hq]; [auto|]. destruct (IH _ _ E q Hq); auto.
Qed.
Lemma amo_filter_in v : forall ls p k, amo_filter v p ls = Some k -> forall q, In q k -> In q ls /\ v q = LUndef.
Proof.
  induction ls as [|a ls IH]; intros p k; cbn; [intros H; inversion H; intros q []|].
  destruct (v a) eqn:Va; cbn.
  - intros H q Hq; destruct (IH _ _ H q Hq); auto.
  - intros H q Hq. destruct (amo_filter2_in v _ _ _ H q Hq); auto.
  - destruct (is_lit p a); cbn; [intros H q Hq; destruct (IH _ _ H q Hq); auto|].
    destruct (amo_filter v (Some a) ls) as [k'|] eqn:E; [|discriminate]. intros H q Hq; inversion H; subst.
    destruct Hq as [<-|Hq]; [auto|]. destruct (IH _ _ E q Hq); auto.
Qed.
Lemma amo_filter_all v : forall ls p, (forall q, In q ls -> v q <> LTrue) ->
  exists k, amo_filter v p ls = Some k /\ (forall q, In q ls -> In q k \/ v q = LFalse \/ p = Some q).
Proof.
  induction ls as [|a ls IH]; intros p Hn; cbn; [exists []; split; [reflexivity|intros q []]|].
  assert (Hn' : forall q, In q ls -> v q <> LTrue) by (intros q Hq; apply Hn; right; exact Hq).
  pose proof (Hn a (or_introl eq_refl)) as Ha. destruct (v a) eqn:Va; cbn; [|congruence|].
  - destruct (IH p Hn') as (k & E & H). exists k. split; [exact E|]. intros q [<-|Hq]; auto.
  - destruct (is_lit p a) eqn:Ep; cbn.
    + destruct (IH p Hn') as (k & E & H). exists k. split; [exact E|]. intros q [<-|Hq]; [|auto].
      right; right. destruct p as [b|]; cbn in Ep; [|discriminate]. destruct (lit_eqb_spec b a); congruence.
    + destruct (IH (Some a) Hn') as (k & E & H). rewrite E. exists (a :: k). split; [reflexivity|].
      intros q [<-|Hq]; [left; left; reflexivity|]. destruct (H q Hq) as [?|[?|Hs]]; [left; right; assumption|auto|].
      inversion Hs; subst. left; left; reflexivity.
Qed.
Lemma amo_filter2_sub v : forall ls p k, amo_filter2 v p ls = Some k -> NoDup ls -> NoDup k.
Proof.
  induction ls as [|a ls IH]; intros p k; cbn; [intros H _; inversion H; constructor|].
  intros H Hnd. inversion Hnd as [|? ? Hni Hnd']; subst.
  destruct (lbool_eqb (v a) LTrue || is_lit p (negl a)); [discriminate|].
  destruct (negb (lbool_eqb (v a) LFalse) && negb (is_lit p a)); [|eapply IH; eassumption].
  destruct (amo_filter2 v (Some a) ls) as [k'|] eqn:E; [|discriminate]. inversion H; subst. constructor; [|eapply IH; eassumption].
  intros Hi. apply Hni. apply (amo_filter2_in v _ _ _ E a Hi).
Qed.
Lemma amo_filter_sub v : forall ls p k, amo_filter v p ls = Some k -> NoDup ls -> NoDup k.
Proof.
  induction ls as [|a ls IH]; intros p k; cbn; [intros H _; inversion H; constructor|].
  intros H Hnd. inversion Hnd as [|? ? Hni Hnd']; subst.
  destruct (lbool_eqb (v a) LTrue); [eapply amo_filter2_sub; eassumption|].
  destruct (negb (lbool_eqb (v a) LFalse) && negb (is_lit p a)); [|eapply IH; eassumption].
  destruct (amo_filter v (Some a) ls) as [k'|] eqn:E; [|discriminate]. inversion H; subst. constructor; [|eapply IH; eassumption].
  intros Hi. apply Hni. apply (amo_filter_in v _ _ _ E a Hi).
Qed.
Lemma amo_filter2_idem v : forall ls p k, amo_filter2 v p ls = Some k -> amo_filter v p k = Some k.
Proof.
  induction ls as [|a ls IH]; intros p k; cbn; [intros H; inversion H; reflexivity|].
  destruct (v a) eqn:Va; cbn; destruct (is_lit p (negl a)); cbn; try discriminate; try (apply IH).
  destruct (is_lit p a) eqn:Ep; cbn; [apply IH|].
  destruct (amo_filter2 v (Some a) ls) as [k'|] eqn:E; [|discriminate]. intros H; inversion H; subst. cbn. rewrite Va, Ep. cbn.
  rewrite (IH _ _ E). reflexivity.
Qed.
Lemma amo_filter_idem v : forall ls p k, amo_filter v p ls = Some k -> amo_filter v p k = Some k.
Proof.
  induction ls as [|a ls IH]; intros p k; cbn; [intros H; inversion H; reflexivity|].
  destruct (v a) eqn:Va; cbn; [apply IH|apply amo_filter2_idem|].
  destruct (is_lit p a) eqn:Ep; cbn; [apply IH|].
  destruct (amo_filter v (Some a) ls) as [k'|] eqn:E; [|discriminate]. intros H; inversion H; subst. cbn. rewrite Va, Ep. cbn.
  rewrite (IH _ _ E). reflexivity.
Qed.
Lemma amo_filter_sorted v (R : lit -> lit -> Prop) : forall ls p k, amo_filter v p ls = Some k -> StronglySorted R ls -> StronglySorted R k.
Proof.
  assert (H2 : forall ls p k, amo_filter2 v p ls = Some k -> StronglySorted R ls -> StronglySorted R k).
  { induction ls as [|a ls IH]; intros p k; cbn; [intros H _; inversion H; constructor|].
    intros H Hs. inversion Hs as [|? ? Hs' Hf]; subst. destruct (lbool_eqb (v a) LTrue || is_lit p (negl a)); [discriminate|].
    destruct (negb (lbool_eqb (v a) LFalse) && negb (is_lit p a)); [|eapply IH; eassumption].
    destruct (amo_filter2 v (Some a) ls) as [k'|] eqn:E; [|discriminate]. inversion H; subst. constructor; [eapply IH; eassumption|].
    rewrite Forall_forall in *. intros x Hx. apply Hf. apply (amo_filter2_in v _ _ _ E x Hx). }
  induction ls as [|a ls IH]; intros p k; cbn; [intros H _; inversion H; constructor|].
  intros H Hs. inversion Hs as [|? ? Hs' Hf]; subst. destruct (lbool_eqb (v a) LTrue); [eapply H2; eassumption|].
  destruct (negb (lbool_eqb (v a) LFalse) && negb (is_lit p a)); [|eapply IH; eassumption].
  destruct (amo_filter v (Some a) ls) as [k'|] eqn:E; [|discriminate]. inversion H; subst. constructor; [eapply IH; eassumption|].
  rewrite Forall_forall in *. intros x Hx. apply Hf. apply (amo_filter_in v _ _ _ E x Hx).
Qed.
(** The filter leaves a strictly sorted list of unassigned literals as it is. *)
Lemma amo_filter_id v : forall ls p, (forall q, In q ls -> v q = LUndef) -> StronglySorted (fun a b => lvar a < lvar b) ls ->
  (forall q, p = Some q -> forall r, In r ls -> lvar q < lvar r) -> amo_filter v p ls = Some ls.
Proof.
  induction ls as [|a ls IH]; intros p Hv Hs Hp; cbn; [reflexivity|]. rewrite (Hv a (or_introl eq_refl)). cbn.
  assert (E : is_lit p a = false).
  { destruct p as [b|]; cbn; [|reflexivity]. destruct (lit_eqb_spec b a) as [->|]; [|reflexivity].
    specialize (Hp a eq_refl a (or_introl eq_refl)). lia. }
  inversion Hs as [|? ? Hs' Hf]; subst. rewrite E. cbn. rewrite IH; [reflexivity| |exact Hs'|].
  - intros q Hq. apply Hv. right; exact Hq.
  - intros q Hq r Hr. inversion Hq; subst. rewrite Forall_forall in Hf. apply Hf, Hr.
Qed.
Lemma ins_by_last {A} (key : A -> nat) x : forall l, (forall y, In y l -> key y <= key x) -> ins_by key x l = l ++ [x].
Proof.
  induction l as [|y l IH]; intros H; cbn; [reflexivity|].
  destruct (Nat.leb_spec (key y) (key x)) as [_|Hlt]; [|specialize (H y (or_introl eq_refl)); lia].
  rewrite IH; [reflexivity|]. intros z Hz. apply H. right; exact Hz.
Qed.
Lemma sort_by_id_aux {A} (key : A -> nat) : forall l acc, StronglySorted (fun a b => key a <= key b) (acc ++ l) ->
  fold_left (fun acc x => ins_by key x acc) l acc = acc ++ l.
Proof.
  induction l as [|x l IH]; intros acc Hs; cbn; [rewrite app_nil_r; reflexivity|].
  assert (E : ins_by key x acc = acc ++ [x]).
  { apply ins_by_last. clear IH. induction acc as [|a acc IHa]; cbn in *; [intros y []|]. inversion Hs as [|? ? Hs' Hf]; subst.
    intros y [<-|Hy]; [|apply IHa; assumption]. rewrite Forall_forall in Hf. apply Hf. apply in_or_app. right; left; reflexivity. }
  rewrite E, IH; rewrite <- app_assoc; [reflexivity|exact Hs].
Qed.
Lemma sort_by_id {A} (key : A -> nat) l : StronglySorted (fun a b => key a < key b) l -> sort_by key l = l.
Proof.
  intros H. apply (sort_by_id_aux key l []). cbn. induction H as [|a l H IH Hf]; constructor; [exact IH|].
  eapply Forall_impl; [|exact Hf]. cbn. intros; lia.
Qed.

(** ** The encodings *)
(** At most one position is true. *)
Definition amo_pos (M : nat -> bool) (ls : list lit) : Prop :=
  forall i j p q, nth_error ls i = Some p -> nth_error ls j = Some q -> mlit M p = true -> mlit M q = true -> i = j.
Lemma amo_pos_of M ls : NoDup ls -> at_most_one M ls -> amo_pos M ls.
Proof.
  intros Hn H i j p q Hi Hj Hp Hq. assert (p = q) as -> by (apply H; eauto using nth_error_In).
  apply (proj1 (NoDup_nth_error ls) Hn i j); [apply nth_error_Some; congruence|congruence].
Qed.
Lemma pair_clauses_in ctr : forall ls c, In c (pair_clauses ctr ls) ->
  exists i j p q, i <> j /\ nth_error ls i = Some p /\ nth_error ls j = Some q /\ c = [negl p; negl q; negl ctr].
Proof.
  induction ls as [|a ls IH]; cbn; [intros c []|]. intros c H. apply in_app_or in H as [H|H].
  - apply in_map_iff in H as (k & <- & Hk). apply In_nth_error in Hk as (j & Hj). exists 0, (S j), a, k. cbn. split; [discriminate|auto].
  - destruct (IH c H) as (i & j & p & q & H1 & H2 & H3 & H4). exists (S i), (S j), p, q. cbn. split; [lia|auto].
Qed.
Lemma pair_clauses_has ctr : forall ls i j p q, i < j -> nth_error ls i = Some p -> nth_error ls j = Some q ->
  In [negl p; negl q; negl ctr] (pair_clauses ctr ls).
Proof.
  induction ls as [|a ls IH]; intros i j p q Hij Hi Hj; [destruct i; discriminate|].
  cbn. destruct j as [|j]; [lia|]. cbn in Hj. destruct i as [|i]; cbn in Hi.
  - inversion Hi; subst. apply in_or_app; left. apply in_map_iff. exists q. split; [reflexivity|]. eapply nth_error_In; exact Hj.
  - apply in_or_app; right. apply (IH i j); [lia|assumption|assumption].
Qed.
Lemma pair_sound M ctr ls : (forall c, In c (pair_clauses ctr ls) -> mcl M c) -> mlit M ctr = true -> amo_pos M ls.
Proof.
  intros H Hc.
  assert (K : forall i j p q, i < j -> nth_error ls i = Some p -> nth_error ls j = Some q -> mlit M p = true -> mlit M q = true -> False).
  { intros i j p q Hij Hi Hj Hp Hq. destruct (H _ (pair_clauses_has ctr ls i j p q Hij Hi Hj)) as (x & [<-|[<-|[<-|[]]]] & E);
    rewrite mlit_negl in E; rewrite ?Hp, ?Hq, ?Hc in E; discriminate. }
  intros i j p q Hi Hj Hp Hq. destruct (lt_eq_lt_dec i j) as [[L| ->]|L]; [|reflexivity|]; exfalso; eapply K; eauto.
Qed.
Lemma pair_complete M ctr ls : (mlit M ctr = true -> amo_pos M ls) -> forall c, In c (pair_clauses ctr ls) -> mcl M c.
Proof.
  intros H c Hc. apply pair_clauses_in in Hc as (i & j & p & q & Hij & Hi & Hj & ->).
  destruct (mlit M ctr) eqn:Ec; [|exists (negl ctr); split; [cbn; auto|rewrite mlit_negl, Ec; reflexivity]].
  destruct (mlit M p) eqn:Ep; [|exists (negl p); split; [cbn; auto|rewrite mlit_negl, Ep; reflexivity]].
  destruct (mlit M q) eqn:Eq; [|exists (negl q); split; [cbn; auto|rewrite mlit_negl, Eq; reflexivity]].
  exfalso. apply Hij. eapply (H eq_refl); eassumption.
Qed.
Lemma amo_pos_amo M ls : amo_pos M ls -> at_most_one M ls.
Proof.
  intros H p q Hp Hq Ep Eq. apply In_nth_error in Hp as (i & Hi). apply In_nth_error in Hq as (j & Hj).
  assert (i = j) by (eapply H; eassumption). congruence.
Qed.

Lemma prod_clauses_in ctr ls u v c : In c (prod_clauses ctr ls u v) ->
  exists i j l x y, nth_error ls (i * length v + j) = Some l /\ nth_error u i = Some x /\ nth_error v j = Some y /\
    (c = [negl l; x; negl ctr] \/ c = [negl l; y; negl ctr]).
Proof.
  unfold prod_clauses. intros H. apply in_flat_map in H as (i & Hi & H). apply in_flat_map in H as (j & Hj & H).
  exists i, j. destruct (nth_error ls (i * length v + j)) as [l|]; [|destruct H].
  destruct (nth_error u i) as [x|]; [|destruct H]. destruct (nth_error v j) as [y|]; [|destruct H].
  exists l, x, y. destruct H as [<-|[<-|[]]]; auto 6.
Qed.
Lemma prod_clauses_has ctr ls u v k l : nth_error ls k = Some l -> k < length u * length v ->
  exists x y, nth_error u (k / length v) = Some x /\ nth_error v (k mod length v) = Some y /\
    In [negl l; x; negl ctr] (prod_clauses ctr ls u v) /\ In [negl l; y; negl ctr] (prod_clauses ctr ls u v).
Proof.
  intros Hl Hk. assert (Hv : length v <> 0) by (intros E; rewrite E in Hk; lia).
  pose proof (Nat.mod_upper_bound k (length v) Hv) as Hj.
  assert (Hi : k / length v < length u) by (apply Nat.div_lt_upper_bound; [exact Hv|lia]).
  destruct (nth_error u (k / length v)) as [x|] eqn:Ex; [|apply nth_error_None in Ex; lia].
  destruct (nth_error v (k mod length v)) as [y|] eqn:Ey; [|apply nth_error_None in Ey; lia].
  exists x, y. split; [reflexivity|]. split; [reflexivity|].
  assert (Ek : k / length v * length v + k mod length v = k) by (pose proof (Nat.div_mod k (length v) Hv); lia).
  split; unfold prod_clauses; apply in_flat_map; exists (k / length v); (split; [apply in_seq; lia|]);
    apply in_flat_map; exists (k mod length v); (split; [apply in_seq; lia|]); rewrite Ek, Hl, Ex, Ey; cbn; auto.
Qed.
Lemma prod_sound M ctr ls u v : length ls <= length u * length v -> (forall c, In c (prod_clauses ctr ls u v) -> mcl M c) ->
  mlit M ctr = true -> amo_pos M u -> amo_pos M v -> amo_pos M ls.
Proof.
  intros Hn H Hc Hu Hv i j p q Hi Hj Hp Hq.
  assert (Li : i < length ls) by (apply nth_error_Some; congruence). assert (Lj : j < length ls) by (apply nth_error_Some; congruence).
  destruct (prod_clauses_has ctr ls u v i p Hi ltac:(lia)) as (x & y & Hx & Hy & C1 & C2).
  destruct (prod_clauses_has ctr ls u v j q Hj ltac:(lia)) as (x' & y' & Hx' & Hy' & C3 & C4).
  assert (K : forall l z, mlit M l = true -> mcl M [negl l; z; negl ctr] -> mlit M z = true).
  { intros l z Hl (w & [<-|[<-|[<-|[]]]] & E); [rewrite mlit_negl, Hl in E; discriminate|exact E|rewrite mlit_negl, Hc in E; discriminate]. }
  assert (Ei : i / length v = j / length v) by (eapply Hu; [exact Hx|exact Hx'| |]; (eapply K; [|apply H; eassumption]; assumption)).
  assert (Ej : i mod length v = j mod length v) by (eapply Hv; [exact Hy|exact Hy'| |]; (eapply K; [|apply H; eassumption]; assumption)).
  assert (Hl0 : length v <> 0) by (intros E; rewrite E in Hn; lia).
  rewrite (Nat.div_mod i (length v) Hl0), (Nat.div_mod j (length v) Hl0), Ei, Ej. reflexivity.
Qed.

Lemma sizes n : 4 <= n -> let ps := ceil_sqrt n in let qs := ceil_div n ps in
  2 <= ps < n /\ 2 <= qs < n /\ n <= ps * qs.
Proof.
  intros Hn ps qs. unfold ceil_sqrt in ps.
  assert (H1 : ps < n) by (apply Nat.sqrt_up_lt_lin; lia).
  assert (H2 : 2 <= ps) by (change 2 with (Nat.sqrt_up 4); apply Nat.sqrt_up_le_mono; exact Hn).
  assert (H3 : n <= ps * ps) by (pose proof (Nat.sqrt_up_spec n ltac:(lia)) as H; fold ps in H; lia).
  clearbody ps. unfold ceil_div in qs.
  pose proof (Nat.div_mod (n + ps - 1) ps ltac:(lia)) as E. pose proof (Nat.mod_upper_bound (n + ps - 1) ps ltac:(lia)) as B. fold qs in E. clearbody qs.
  assert (H4 : qs <= ps) by (destruct (le_lt_dec qs ps) as [|L]; [assumption|]; assert (ps * S ps <= ps * qs) by (apply Nat.mul_le_mono_l; lia); lia).
  assert (H5 : 2 <= qs) by (destruct (le_lt_dec 2 qs) as [|L]; [assumption|]; assert (ps * qs <= ps * 1) by (apply Nat.mul_le_mono_l; lia); lia).
  lia.
Qed.

Section Amo.
Context {T : Type} {ops : theory_ops T} (C : contract ops).
Notation st := (st T).

(** ** Fresh variables *)
Lemma new_vars_ok : forall n (s : st), Inv C s -> cache_ok C s ->
  snd (new_vars s n) = map (fun v => mk_lit v true) (seq (nv s) n) /\ nv (fst (new_vars s n)) = nv s + n /\
  ext C s (fst (new_vars s n)) /\
  (forall M, smodels C (fst (new_vars s n)) M <-> smodels C s M) /\
  (forall v, assigns (fst (new_vars s n)) v = assigns s v) /\
  (forall k e, In (k, e) (exprs (fst (new_vars s n))) -> In (k, e) (exprs s) \/ exists v, k = key_var v).
Proof.
  induction n as [|n IH]; intros s HI Hc; cbn [new_vars seq map].
  - cbn. split; [reflexivity|]. split; [lia|]. split; [apply ext_refl; assumption|]. split; [tauto|]. split; [reflexivity|auto].
  - destruct (new_var_ok C s HI) as [Ev V]. destruct (new_var_ext C s HI Hc) as (HE & _ & _).
    destruct (new_var s) as [s1 v] eqn:E1. cbn [fst snd] in *. subst v.
    destruct (IH s1 (e_inv _ _ _ HE) (e_cache _ _ _ HE)) as (A & B & D & F & G & K).
    destruct (new_vars s1 n) as [s2 r]. cbn [fst snd] in *. pose proof (vp_nv _ _ _ V) as Hn1. rewrite A, Hn1.
    split; [reflexivity|]. split; [lia|]. split; [eapply ext_trans; eassumption|]. split; [|split].
    + intros M. rewrite F. apply (vp_models _ _ _ V).
    + intros v. rewrite G. apply (vp_assigns _ _ _ V).
    + intros k e Hi. destruct (K k e Hi) as [Hi'|?]; [|auto]. rewrite (vp_exprs _ _ _ V) in Hi'.
      apply in_app_or in Hi' as [?|[Hx|[]]]; [auto|]. inversion Hx. eauto.
Qed.

(** What may enter the cache: at-most-one over literals of [ls], or over fresh variables. *)
Definition amo_entries (ls : list lit) (s s' : st) : Prop := forall k e, In (k, e) (exprs s') ->
  In (k, e) (exprs s) \/ forall l, k = key_amo l -> (forall q, In q l -> In q ls) \/ (forall q, In q l -> nv s <= lvar q).
Lemma not_amo_var v l : key_var v <> key_amo l.
Proof. intros H. apply (key_of_inj (OVar v) (OAmo l)) in H. cbn in H. discriminate. Qed.
Lemma not_amo_conj l' l : key_conj l' <> key_amo l.
Proof. intros H. apply (key_of_inj (OConj l') (OAmo l)) in H. cbn in H. discriminate. Qed.
Lemma key_amo_inj' l l' : key_amo l = key_amo l' -> l = l'.
Proof. intros H. apply (key_of_inj (OAmo l) (OAmo l')) in H. cbn in H. inversion H; reflexivity. Qed.

Record amo_post (s : st) (ls : list lit) (s' : st) (p : lit) : Prop := {
  a_ext : ext C s s';
  a_range : lvar p < nv s';
  a_entries : amo_entries ls s s';
  a_cons : conservative C s s';
  a_sound : (forall q, In q ls -> value s q <> LTrue) -> forall M, smodels C s' M -> mlit M p = true -> at_most_one M ls;
  a_fresh : forall k, amo_filter (value s) None (sort_by lvar ls) = Some k -> 2 <= length k ->
    (forall e, ~ In (key_amo k, e) (exprs s)) -> forall M b, smodels C s M -> (b = true -> amo_pos M k) ->
    exists M', agree (nv s) M M' /\ smodels C s' M' /\ mlit M' p = b }.

Lemma amo_pos_agree n M M' ls : agree n M M' -> (forall q, In q ls -> lvar q < n) -> amo_pos M ls -> amo_pos M' ls.
Proof.
  intros Ha Hr H i j p q Hi Hj Hp Hq. apply (H i j p q Hi Hj); erewrite mlit_agree; eauto using nth_error_In.
Qed.

(** The body of [new_at_most_one] on the filtered literals. *)
Definition amo_body (rec : st -> list lit -> res (st * lit)) (s : st) (ls' : list lit) : res (st * lit) :=
  match find_expr s (key_amo ls') with
  | Some e => Ok (s, e)
  | None =>
    if length ls' <? 4 then
      let (s1, v) := new_var s in
      let ctr := mk_lit v true in
      reify s1 (pair_clauses ctr ls') (key_amo ls') ctr
    else
      let ps := ceil_sqrt (length ls') in
      let qs := ceil_div (length ls') ps in
      let (s1, u) := new_vars s ps in
      let (s2, v) := new_vars s1 qs in
      '(s3, cu) <- rec s2 u ;;
      '(s4, cv) <- rec s3 v ;;
      '(s5, ctr) <- new_conj s4 [cu; cv] ;;
      reify s5 (prod_clauses ctr ls' u v) (key_amo ls') ctr
  end.

Lemma seq_lits_sorted n : forall a, StronglySorted (fun a b => lvar a < lvar b) (map (fun v => mk_lit v true) (seq a n)).
Proof.
  induction n as [|n IH]; intros a; cbn; constructor; [apply IH|]. apply Forall_forall. intros x Hx.
  apply in_map_iff in Hx as (y & <- & Hy). apply in_seq in Hy. cbn. lia.
Qed.
Lemma seq_lits_in n a q : In q (map (fun v => mk_lit v true) (seq a n)) -> a <= lvar q < a + n /\ lsgn q = true.
Proof. intros H. apply in_map_iff in H as (y & <- & Hy). apply in_seq in Hy. cbn. auto. Qed.
Lemma seq_lits_nth n a i q : nth_error (map (fun v => mk_lit v true) (seq a n)) i = Some q -> q = mk_lit (a + i) true /\ i < n.
Proof.
  intros H. assert (L : i < n) by (rewrite <- (seq_length n a), <- (map_length (fun v => mk_lit v true)); apply nth_error_Some; congruence).
  rewrite nth_error_map in H. rewrite (nth_error_nth' _ 0) in H by (rewrite seq_length; exact L). cbn in H.
  rewrite seq_nth in H by exact L. inversion H; auto.
Qed.
Lemma mlit_pos M v : mlit M (mk_lit v true) = M v.
Proof. unfold mlit; cbn. destruct (M v); reflexivity. Qed.

Lemma amo_body_ok rec N (s : st) ls :
  (forall s0 l, length l < N -> Inv C s0 -> cache_ok C s0 -> dlevel s0 = 0 -> (forall q, In q l -> lvar q < nv s0) ->
     exists s' p, rec s0 l = Ok (s', p) /\ amo_post s0 l s' p) ->
  length ls <= N -> 2 <= length ls ->
  Inv C s -> cache_ok C s -> dlevel s = 0 -> (forall q, In q ls -> lvar q < nv s) -> (forall q, In q ls -> value s q = LUndef) ->
  exists s' p, amo_body rec s ls = Ok (s', p) /\ ext C s s' /\ lvar p < nv s' /\ amo_entries ls s s' /\ conservative C s s' /\
    (forall M, smodels C s' M -> mlit M p = true -> at_most_one M ls) /\
    ((forall e, ~ In (key_amo ls, e) (exprs s)) -> forall M b, smodels C s M -> (b = true -> amo_pos M ls) ->
       exists M', agree (nv s) M M' /\ smodels C s' M' /\ mlit M' p = b).
Proof.
  intros Hrec HN H2 HI Hc Hd Hr Hu. unfold amo_body. change (key_amo ls) with (key_of (OAmo ls)).
  destruct (find_expr s (key_of (OAmo ls))) as [e|] eqn:Ef.
  { destruct (cache_found C s (OAmo ls) e Hc Ef) as [K1 K2]. exists s, e. split; [reflexivity|]. split; [apply ext_refl; assumption|].
    split; [exact K1|]. split; [intros k x Hi; left; exact Hi|]. split; [apply cons_refl|]. split; [exact K2|].
    intros Hn. exfalso. apply (Hn e). apply find_expr_In in Ef. exact Ef. }
  assert (Hstrong : forall s' p, (forall M b, smodels C s M -> (b = true -> amo_pos M ls) ->
       exists M', agree (nv s) M M' /\ smodels C s' M' /\ mlit M' p = b) -> conservative C s s').
  { intros s' p H M HM. destruct (H M false HM ltac:(discriminate)) as (M' & A & B & _). eauto. }
  destruct (Nat.ltb_spec (length ls) 4) as [H4|H4].
  - destruct (new_var_ok C s HI) as [Ev V]. destruct (new_var s) as [s1 v] eqn:E1. cbn [fst snd] in *. subst v.
    set (ctr := mk_lit (nv s) true).
    assert (Hws : forall M b, (b = true -> amo_pos M ls) -> forall c, In c (pair_clauses ctr ls) -> mcl (upd M (nv s) b) c).
    { intros M b Hb. apply pair_complete. unfold ctr. rewrite mlit_upd_eq. intros ->.
      eapply amo_pos_agree; [|exact Hr|apply Hb; reflexivity]. intros w Hw. rewrite upd_neq by lia. reflexivity. }
    destruct (reify_new C s (pair_clauses ctr ls) (OAmo ls) HI Hc Hd) as (s' & p & E & K1 & K2 & K3 & K4 & K5 & K6 & K7 & _).
    + intros c p Hi Hp. apply pair_clauses_in in Hi as (i & j & x & y & _ & Hx & Hy & ->). apply nth_error_In, Hr in Hx. apply nth_error_In, Hr in Hy.
      destruct Hp as [<-|[<-|[<-|[]]]]; cbn; lia.
    + exact Hr.
    + intros M HM. exists false. apply Hws. discriminate.
    + intros M H. cbn [op_means]. intros Hct. apply amo_pos_amo. eapply pair_sound; eassumption.
    + rewrite E1 in E. cbn [fst] in E. fold ctr in E.
      exists s', p. split; [exact E|]. split; [exact K1|]. split; [exact K3|]. split; [|split; [exact K2|split]].
      * intros k e Hi. destruct (K5 k e Hi) as [?|[->| ->]]; [auto| |]; right; intros l El.
        -- exfalso. eapply not_amo_var, El.
        -- left. apply key_amo_inj' in El. subst l. auto.
      * intros M HM Hp. destruct (K6 M HM) as [-> Hall]. apply amo_pos_amo. eapply pair_sound; eassumption.
      * intros _ M b HM Hb. exists (upd M (nv s) b). split; [intros w Hw; rewrite upd_neq by lia; reflexivity|].
        pose proof (K7 M b HM (Hws M b Hb)) as S'. split; [exact S'|]. destruct (K6 _ S') as [-> _]. apply mlit_upd_eq.
  - set (n := length ls) in *. pose proof (sizes n H4) as Hsz. cbn zeta in Hsz. set (ps := ceil_sqrt n) in *. set (qs := ceil_div n ps) in *.
    destruct Hsz as ([P1 P2] & [Q1 Q2] & PQ). clearbody ps qs.
    destruct (new_vars_ok ps s HI Hc) as (U1 & U2 & U3 & U4 & U5 & U6). destruct (new_vars s ps) as [s1 u]. cbn [fst snd] in *.
    destruct (new_vars_ok qs s1 (e_inv _ _ _ U3) (e_cache _ _ _ U3)) as (V1 & V2 & V3 & V4 & V5 & V6). destruct (new_vars s1 qs) as [s2 v]. cbn [fst snd] in *.
    assert (Lu : length u = ps) by (rewrite U1, map_length, seq_length; reflexivity).
    assert (Lv : length v = qs) by (rewrite V1, map_length, seq_length; reflexivity).
    assert (Ru : forall q, In q u -> nv s <= lvar q < nv s + ps) by (intros q Hq; rewrite U1 in Hq; apply seq_lits_in in Hq; tauto).
    assert (Rv : forall q, In q v -> nv s + ps <= lvar q < nv s + ps + qs) by (intros q Hq; rewrite V1 in Hq; apply seq_lits_in in Hq; lia).
    assert (HE2 : ext C s s2) by (eapply ext_trans; eassumption).
    destruct (Hrec s2 u) as (s3 & cu & -> & A).
    { lia. } { apply (e_inv _ _ _ HE2). } { apply (e_cache _ _ _ HE2). } { rewrite (e_dl _ _ _ HE2); exact Hd. } { intros q Hq. specialize (Ru q Hq). lia. }
    cbn [rbind]. assert (HE3 : ext C s s3) by (eapply ext_trans; [exact HE2|apply (a_ext _ _ _ _ A)]).
    pose proof (e_nv _ _ _ (a_ext _ _ _ _ A)) as N23.
    destruct (Hrec s3 v) as (s4 & cv & -> & B).
    { lia. } { apply (e_inv _ _ _ HE3). } { apply (e_cache _ _ _ HE3). } { rewrite (e_dl _ _ _ HE3); exact Hd. } { intros q Hq. specialize (Rv q Hq). lia. }
    cbn [rbind]. assert (HE4 : ext C s s4) by (eapply ext_trans; [exact HE3|apply (a_ext _ _ _ _ B)]).
    pose proof (e_nv _ _ _ (a_ext _ _ _ _ B)) as N34.
    pose proof (a_range _ _ _ _ A) as Rcu. pose proof (a_range _ _ _ _ B) as Rcv.
    destruct (new_conj_ok C s4 [cu; cv] (e_inv _ _ _ HE4) (e_cache _ _ _ HE4)) as (s5 & ctr & -> & J1 & J2 & J3 & J4' & J5).
    { rewrite (e_dl _ _ _ HE4); exact Hd. } { intros q [<-|[<-|[]]]; lia. }
    assert (J4 : forall M, smodels C s5 M -> mlit M ctr = forallb (mlit M) [cu; cv]) by (intros M HM; apply J4', HM).
    cbn [rbind]. assert (HE5 : ext C s s5) by (eapply ext_trans; eassumption). pose proof (e_nv _ _ _ J1) as N45.
    assert (Hv2 : forall w, assigns s2 w = assigns s w) by (intros w; rewrite V5; apply U5).
    assert (Hfresh : forall w, nv s <= w -> assigns s2 w = LUndef) by (intros w Hw; rewrite Hv2; apply (t_out s (i_t _ _ HI)); exact Hw).
    assert (Hlv3 : forall w, level s3 w = 0) by (intros w; pose proof (level_le s3 (i_t _ _ (e_inv _ _ _ HE3)) w); rewrite (e_dl _ _ _ HE3) in *; lia).
    (* if there is a model, the second block of fresh variables is still unassigned *)
    assert (Hvundef : forall M, smodels C s M -> forall q, In q v -> value s3 q = LUndef).
    { intros M HM q Hq. assert (Sq : lsgn q = true) by (rewrite V1 in Hq; apply seq_lits_in in Hq; tauto).
      assert (HM2 : forall b, smodels C s2 (upd M (lvar q) b)).
      { intros b. apply V4, U4. eapply smodels_agree; [exact HI| |exact HM]. intros w Hw. specialize (Rv q Hq). rewrite upd_neq by lia. reflexivity. }
      assert (Hboth : forall b, exists M', smodels C s3 M' /\ M' (lvar q) = b).
      { intros b. destruct (a_cons _ _ _ _ A _ (HM2 b)) as (M' & Ag & S'). exists M'. split; [exact S'|].
        rewrite <- Ag; [apply upd_eq|]. specialize (Rv q Hq). lia. }
      destruct (value s3 q) eqn:E; [| |reflexivity]; exfalso.
      - destruct (Hboth true) as (M' & S' & Eb). apply value_false_true in E. pose proof (sm_facts _ _ _ S' _ E (Hlv3 _)) as F.
        rewrite mlit_negl in F. unfold mlit in F. rewrite Sq, Eb in F. discriminate.
      - destruct (Hboth false) as (M' & S' & Eb). pose proof (sm_facts _ _ _ S' _ E (Hlv3 _)) as F. unfold mlit in F. rewrite Sq, Eb in F. discriminate. }
    assert (Hu2 : forall q, In q u -> value s2 q = LUndef) by (intros q Hq; unfold value, vlit; rewrite (Hfresh (lvar q)); [reflexivity|specialize (Ru q Hq); lia]).
    assert (Hsound : forall M, smodels C s5 M -> (forall c, In c (prod_clauses ctr ls u v) -> mcl M c) -> mlit M ctr = true -> amo_pos M ls).
    { intros M S5 Hall Hct. rewrite (J4 M S5) in Hct. cbn in Hct. rewrite andb_true_r in Hct. apply andb_prop in Hct as [Ecu Ecv].
      pose proof (e_mono _ _ _ J1 _ S5) as S4. pose proof (e_mono _ _ _ (a_ext _ _ _ _ B) _ S4) as S3. pose proof (e_mono _ _ _ HE5 _ S5) as S0.
      assert (Au : at_most_one M u) by (apply (a_sound _ _ _ _ A); [intros q Hq; rewrite (Hu2 q Hq); discriminate|exact S3|exact Ecu]).
      assert (Av : at_most_one M v) by (apply (a_sound _ _ _ _ B); [intros q Hq; rewrite (Hvundef M S0 q Hq); discriminate|exact S4|exact Ecv]).
      apply (prod_sound M ctr ls u v); [rewrite Lu, Lv; exact PQ|exact Hall| | |].
      - rewrite (J4 M S5). cbn. rewrite Ecu, Ecv. reflexivity.
      - apply amo_pos_of; [|exact Au]. rewrite U1. apply FinFun.Injective_map_NoDup; [intros x y E; inversion E; reflexivity|apply seq_NoDup].
      - apply amo_pos_of; [|exact Av]. rewrite V1. apply FinFun.Injective_map_NoDup; [intros x y E; inversion E; reflexivity|apply seq_NoDup]. }
    destruct (reify_raw C s5 (prod_clauses ctr ls u v) (OAmo ls) ctr) as (s6 & p & E & K1 & K2 & K3 & K4).
    { exact (e_inv _ _ _ HE5). } { exact (e_cache _ _ _ HE5). } { rewrite (e_dl _ _ _ HE5); exact Hd. }
    { intros c q Hi Hq. apply prod_clauses_in in Hi as (i & j & l & x & y & Hl & Hx & Hy & Ec). apply nth_error_In, Hr in Hl. apply nth_error_In, Ru in Hx. apply nth_error_In, Rv in Hy.
      destruct Ec as [-> | ->]; destruct Hq as [<-|[<-|[<-|[]]]]; cbn; lia. }
    { intros q Hq. cbn in Hq. specialize (Hr q Hq). lia. } { exact J3. }
    { intros M S5 Hall. cbn [op_means]. intros Hct. apply amo_pos_amo. apply Hsound; assumption. }
    exists s6, p. split; [exact E|]. assert (HE6 : ext C s s6) by (eapply ext_trans; eassumption). split; [exact HE6|].
    assert (Hkey : forall k e, In (k, e) (exprs s6) -> In (k, e) (exprs s) \/
       forall l, k = key_amo l -> (forall q, In q l -> In q ls) \/ (forall q, In q l -> nv s <= lvar q)).
    { intros k e Hi.
      assert (H5 : In (k, e) (exprs s5) -> In (k, e) (exprs s) \/ forall l, k = key_amo l -> (forall q, In q l -> In q ls) \/ (forall q, In q l -> nv s <= lvar q)).
      { intros Hi5. destruct (J5 k e Hi5) as [Hi4|[->|(l' & -> & _)]].
        - destruct (a_entries _ _ _ _ B k e Hi4) as [Hi3|Hx].
          + destruct (a_entries _ _ _ _ A k e Hi3) as [Hi2|Hx].
            * destruct (V6 k e Hi2) as [Hi1|(w & ->)]; [destruct (U6 k e Hi1) as [?|(w & ->)]; [auto|]|];
                right; intros l El; exfalso; eapply not_amo_var, El.
            * right. intros l El. right. destruct (Hx l El) as [Hy|Hy]; intros q Hq; specialize (Hy q Hq); [specialize (Ru q Hy)|]; lia.
          + right. intros l El. right. destruct (Hx l El) as [Hy|Hy]; intros q Hq; specialize (Hy q Hq); [specialize (Rv q Hy)|]; lia.
        - right; intros l El; exfalso; eapply not_amo_var, El.
        - right; intros l El; exfalso; eapply not_amo_conj, El. }
      destruct K3 as [K3|K3]; rewrite K3 in Hi; [apply H5, Hi|]. apply in_app_or in Hi as [Hi|[Hi|[]]]; [apply H5, Hi|].
      inversion Hi; subst. right. intros l El. left. apply (key_amo_inj' ls l) in El. subst l. auto. }
    (* the extension *)
    assert (Hext : forall M b, smodels C s M -> (b = true -> amo_pos M ls) -> exists M', agree (nv s) M M' /\ smodels C s6 M' /\ mlit M' p = b).
    { intros M b HM Hb.
      (* the position of the true literal, if any *)
      assert (Hpos : exists k, b = true -> forall i q, nth_error ls i = Some q -> mlit M q = true -> i = k).
      { destruct (existsb (mlit M) ls) eqn:Ex.
        - apply existsb_exists in Ex as (q & Hq & Eq). apply In_nth_error in Hq as (k & Hk). exists k. intros Hbt i q' Hi Hq'.
          apply (Hb Hbt i k q' q); assumption.
        - exists 0. intros _ i q Hi Hq. exfalso. apply not_true_iff_false in Ex. apply Ex. apply existsb_exists. exists q. split; [eapply nth_error_In; exact Hi|exact Hq]. }
      destruct Hpos as (k & Hk).
      set (M1 := fun w => if w <? nv s then M w else if w <? nv s + ps then w =? nv s + k / qs else w =? nv s + ps + k mod qs).
      assert (Ag1 : agree (nv s) M M1) by (intros w Hw; unfold M1; destruct (Nat.ltb_spec w (nv s)); [reflexivity|lia]).
      assert (S2 : smodels C s2 M1) by (apply V4, U4; eapply smodels_agree; [exact HI|exact Ag1|exact HM]).
      assert (Mu : forall i x, nth_error u i = Some x -> mlit M1 x = (i =? k / qs)).
      { intros i x Hx. rewrite U1 in Hx. apply seq_lits_nth in Hx as [-> Hi]. rewrite mlit_pos. unfold M1.
        destruct (Nat.ltb_spec (nv s + i) (nv s)); [lia|]. destruct (Nat.ltb_spec (nv s + i) (nv s + ps)); [|lia].
        destruct (Nat.eqb_spec (nv s + i) (nv s + k / qs)), (Nat.eqb_spec i (k / qs)); lia. }
      assert (Mv : forall j y, nth_error v j = Some y -> mlit M1 y = (j =? k mod qs)).
      { intros j y Hy. rewrite V1 in Hy. apply seq_lits_nth in Hy as [-> Hj]. rewrite mlit_pos. unfold M1.
        destruct (Nat.ltb_spec (nv s1 + j) (nv s)); [lia|]. destruct (Nat.ltb_spec (nv s1 + j) (nv s + ps)); [lia|].
        destruct (Nat.eqb_spec (nv s1 + j) (nv s + ps + k mod qs)), (Nat.eqb_spec j (k mod qs)); lia. }
      assert (Pu : amo_pos M1 u) by (intros i j x y Hx Hy Ex Ey; rewrite (Mu i x Hx) in Ex; rewrite (Mu j y Hy) in Ey; apply Nat.eqb_eq in Ex, Ey; lia).
      assert (Pv : amo_pos M1 v) by (intros i j x y Hx Hy Ex Ey; rewrite (Mv i x Hx) in Ex; rewrite (Mv j y Hy) in Ey; apply Nat.eqb_eq in Ex, Ey; lia).
      assert (Su : StronglySorted (fun a b => lvar a < lvar b) u) by (rewrite U1; apply seq_lits_sorted).
      assert (Sv : StronglySorted (fun a b => lvar a < lvar b) v) by (rewrite V1; apply seq_lits_sorted).
      assert (Nu : NoDup u) by (rewrite U1; apply FinFun.Injective_map_NoDup; [intros x y Exy; inversion Exy; reflexivity|apply seq_NoDup]).
      assert (Nvd : NoDup v) by (rewrite V1; apply FinFun.Injective_map_NoDup; [intros x y Exy; inversion Exy; reflexivity|apply seq_NoDup]).
      assert (old : forall l e, ~ (forall q, In q l -> lvar q < nv s) -> In (key_amo l, e) (exprs s) -> False).
      { intros l e Hn Hi. destruct (Hc _ _ Hi) as (o & Ek & Ho & _). apply (key_of_inj (OAmo l) o) in Ek. destruct o; cbn in Ek; try discriminate.
        inversion Ek; subst. apply Hn, Ho. }
      assert (Hl0 : forall l e, In (key_amo l, e) (exprs s2) -> In (key_amo l, e) (exprs s)).
      { intros l e Hi. destruct (V6 _ _ Hi) as [Hi1|(w & Ew)]; [|exfalso; symmetry in Ew; eapply not_amo_var, Ew].
        destruct (U6 _ _ Hi1) as [Hi0|(w & Ew)]; [exact Hi0|exfalso; symmetry in Ew; eapply not_amo_var, Ew]. }
      assert (Ku : forall e, ~ In (key_amo u, e) (exprs s2)).
      { intros e Hi. apply Hl0 in Hi. eapply old; [|exact Hi]. intros Hlt. destruct u as [|x u']; [cbn in Lu; lia|].
        specialize (Hlt x (or_introl eq_refl)). specialize (Ru x (or_introl eq_refl)). lia. }
      destruct (a_fresh _ _ _ _ A u) with (M := M1) (b := b) as (M2 & Ag2 & S3 & Ecu); [|lia|exact Ku|exact S2|intros _; exact Pu|].
      { rewrite sort_by_id by exact Su. apply amo_filter_id; [exact Hu2|exact Su|discriminate]. }
      assert (Kv : forall e, ~ In (key_amo v, e) (exprs s3)).
      { intros e Hi. destruct v as [|y v']; [cbn in Lv; lia|]. specialize (Rv y (or_introl eq_refl)).
        destruct (a_entries _ _ _ _ A _ _ Hi) as [Hi2|Hx].
        - apply Hl0 in Hi2. eapply old; [|exact Hi2]. intros Hlt. specialize (Hlt y (or_introl eq_refl)). lia.
        - destruct (Hx _ eq_refl) as [Hy|Hy]; specialize (Hy y (or_introl eq_refl)); [specialize (Ru y Hy)|]; lia. }
      destruct (a_fresh _ _ _ _ B v) with (M := M2) (b := b) as (M3 & Ag3 & S4 & Ecv); [|lia|exact Kv|exact S3| |].
      { rewrite sort_by_id by exact Sv. apply amo_filter_id; [|exact Sv|discriminate]. apply (Hvundef M HM). }
      { intros _. eapply amo_pos_agree; [exact Ag2| |exact Pv]. intros q Hq. specialize (Rv q Hq). lia. }
      destruct (J2 M3 S4) as (M4 & Ag4 & S5).
      assert (Ect : mlit M4 ctr = b).
      { rewrite (J4 M4 S5). cbn. rewrite andb_true_r.
        rewrite <- (mlit_agree M3 M4 cu (nv s4) Ag4), <- (mlit_agree M2 M3 cu (nv s3) Ag3), Ecu by lia.
        rewrite <- (mlit_agree M3 M4 cv (nv s4) Ag4), Ecv by lia. destruct b; reflexivity. }
      assert (Ag14 : agree (nv s2) M1 M4).
      { intros w Hw. rewrite (Ag2 w Hw), (Ag3 w), (Ag4 w) by lia. reflexivity. }
      assert (Ag : agree (nv s) M M4) by (intros w Hw; rewrite (Ag1 w Hw); apply Ag14; lia).
      assert (Hall : forall c, In c (prod_clauses ctr ls u v) -> mcl M4 c).
      { intros c Hi. apply prod_clauses_in in Hi as (i & j & l & x & y & Hl & Hx & Hy & Ec).
        destruct b; [|exists (negl ctr); split; [destruct Ec as [-> | ->]; cbn; auto|rewrite mlit_negl, Ect; reflexivity]].
        destruct (mlit M4 l) eqn:El; [|exists (negl l); split; [destruct Ec as [-> | ->]; cbn; auto|rewrite mlit_negl, El; reflexivity]].
        assert (Ek : i * length v + j = k).
        { apply (Hk eq_refl _ l Hl). rewrite (mlit_agree M M4 l (nv s) Ag); [exact El|]. apply Hr. eapply nth_error_In; exact Hl. }
        assert (Lj : j < qs) by (rewrite <- Lv; apply nth_error_Some; congruence).
        rewrite Lv in Ek. assert (Ei : k / qs = i) by (rewrite <- Ek; symmetry; apply (Nat.div_unique _ qs i j); lia).
        assert (Ej : k mod qs = j) by (rewrite <- Ek; symmetry; apply (Nat.mod_unique _ qs i j); lia).
        destruct Ec as [-> | ->].
        - exists x. split; [cbn; auto|]. rewrite <- (mlit_agree M1 M4 x (nv s2) Ag14), (Mu i x Hx), Ei; [apply Nat.eqb_refl|].
          apply nth_error_In, Ru in Hx. lia.
        - exists y. split; [cbn; auto|]. rewrite <- (mlit_agree M1 M4 y (nv s2) Ag14), (Mv j y Hy), Ej; [apply Nat.eqb_refl|].
          apply nth_error_In, Rv in Hy. lia. }
      exists M4. split; [exact Ag|]. destruct K4 as [[-> K4]|[-> K4]].
      - split; [apply K4; auto|exact Ect].
      - exfalso. apply (K4 M4 S5 Hall). }
    split; [|split; [exact Hkey|split; [eapply Hstrong, Hext|split; [|intros _; exact Hext]]]].
    + destruct K4 as [[-> _]|[-> _]]; [lia|]. cbn. pose proof (t_nv s (i_t _ _ HI)). pose proof (e_nv _ _ _ HE6). lia.
    + intros M S6 Hp. destruct K4 as [[-> K4]|[-> K4]].
      * apply K4 in S6 as [S5 Hall]. apply amo_pos_amo. apply Hsound; assumption.
      * exfalso. unfold mlit in Hp. cbn in Hp. rewrite (sm_false _ _ _ S6) in Hp. discriminate.
Qed.

Theorem amo_f_ok : forall fuel (s : st) ls, length ls < fuel -> Inv C s -> cache_ok C s -> dlevel s = 0 ->
  (forall q, In q ls -> lvar q < nv s) -> exists s' p, new_amo_f fuel s ls = Ok (s', p) /\ amo_post s ls s' p.
Proof.
  induction fuel as [|fuel IH]; intros s ls Hlen HI Hc Hd Hr; [lia|]. cbn [new_amo_f].
  assert (Er : root_level s = true) by (apply root_dlevel, Hd). rewrite Er. cbn [guard].
  assert (Ein : in_range s ls = true) by (apply in_range_iff, Hr). rewrite Ein. cbn [guard].
  assert (Hnv : 0 < nv s) by apply (t_nv s (i_t _ _ HI)).
  destruct (amo_filter (value s) None (sort_by lvar ls)) as [k|] eqn:Ek.
  2:{ exists s, FALSE_lit. split; [reflexivity|]. constructor; [apply ext_refl; assumption|exact Hnv|intros ? ? Hi; left; exact Hi|apply cons_refl| |congruence].
      intros Hn. exfalso. destruct (amo_filter_all (value s) (sort_by lvar ls) None) as (k & E & _); [|congruence].
      intros q Hq. apply Hn. apply sort_by_In in Hq. exact Hq. }
  pose proof (amo_filter_in _ _ _ _ Ek) as Hk.
  assert (Hka : (forall q, In q ls -> value s q <> LTrue) -> forall M, smodels C s M -> forall p, In p ls -> mlit M p = true -> In p k).
  { intros Hn M HM p Hp Em. destruct (amo_filter_all (value s) (sort_by lvar ls) None) as (k' & E & H'); [intros q Hq; apply Hn; apply sort_by_In in Hq; exact Hq|].
    assert (k' = k) by congruence. subst k'. destruct (H' p) as [?|[Hf|?]]; [apply sort_by_In; exact Hp|assumption| |discriminate].
    exfalso. apply value_false_true in Hf. assert (L0 : level s (lvar p) = 0) by (pose proof (level_le s (i_t _ _ HI) (lvar p)); lia).
    pose proof (sm_facts _ _ _ HM _ Hf L0) as F. rewrite mlit_negl, Em in F. discriminate. }
  assert (Hsound0 : forall s' p, ext C s s' -> (forall M, smodels C s' M -> mlit M p = true -> at_most_one M k) ->
    (forall q, In q ls -> value s q <> LTrue) -> forall M, smodels C s' M -> mlit M p = true -> at_most_one M ls).
  { intros s' p HE H Hn M HM Hp a b Ha Hb Ea Eb. pose proof (e_mono _ _ _ HE M HM) as HM0. apply (H M HM Hp); [apply (Hka Hn M HM0)|apply (Hka Hn M HM0)| |]; assumption. }
  assert (Htriv : (forall M, at_most_one M k) -> length k < 2 -> exists s' p, Ok (s, TRUE_lit) = Ok (s', p) /\ amo_post s ls s' p).
  { intros H1 H2. exists s, TRUE_lit. split; [reflexivity|]. constructor; [apply ext_refl; assumption|exact Hnv|intros ? ? Hi; left; exact Hi|apply cons_refl| |].
    - apply Hsound0; [apply ext_refl; assumption|]. intros M _ _. apply H1.
    - intros k' E L. assert (k' = k) by congruence. subst k'. lia. }
  destruct k as [|a [|b r]].
  - apply Htriv; [intros M p q []|cbn; lia].
  - apply Htriv; [|cbn; lia]. intros M p q [<-|[]] [<-|[]] _ _. reflexivity.
  - set (k := a :: b :: r) in *.
    assert (Lk : length k <= length ls).
    { clear -Ek. assert (H : forall v l p k, amo_filter2 v p l = Some k -> length k <= length l).
      { intros v. induction l as [|x l IHl]; intros p k0; cbn; [intros E; inversion E; cbn; lia|].
        destruct (lbool_eqb (v x) LTrue || is_lit p (negl x)); [discriminate|].
        destruct (negb (lbool_eqb (v x) LFalse) && negb (is_lit p x)); [|intros E; apply IHl in E; lia].
        destruct (amo_filter2 v (Some x) l) eqn:E0; [|discriminate]. intros E; inversion E; subst. apply IHl in E0. cbn. lia. }
      assert (H' : forall v l p k, amo_filter v p l = Some k -> length k <= length l).
      { intros v. induction l as [|x l IHl]; intros p k0; cbn; [intros E; inversion E; cbn; lia|].
        destruct (lbool_eqb (v x) LTrue); [intros E; apply H in E; lia|].
        destruct (negb (lbool_eqb (v x) LFalse) && negb (is_lit p x)); [|intros E; apply IHl in E; lia].
        destruct (amo_filter v (Some x) l) eqn:E0; [|discriminate]. intros E; inversion E; subst. apply IHl in E0. cbn. lia. }
      apply H' in Ek. rewrite <- (Permutation_length (sort_by_perm lvar ls)) in Ek. exact Ek. }
    assert (Hk' : forall q, In q k -> In q ls /\ value s q = LUndef) by (intros q Hq; destruct (Hk q Hq) as [H1 H2]; apply sort_by_In in H1; auto).
    destruct (amo_body_ok (new_amo_f fuel) fuel s k) as (s' & p & E & B1 & B2 & B3 & B4 & B5 & B6).
    + intros s0 l Hl. apply IH. exact Hl.
    + lia.
    + cbn; lia.
    + exact HI.
    + exact Hc.
    + exact Hd.
    + intros q Hq. apply Hr, Hk', Hq.
    + intros q Hq. apply Hk', Hq.
    + exists s', p. split; [exact E|]. constructor.
      * exact B1.
      * exact B2.
      * intros k0 e Hi. destruct (B3 k0 e Hi) as [?|Hx]; [auto|]. right. intros l El. destruct (Hx l El) as [Hy|Hy]; [left|right; exact Hy].
        intros q Hq. apply Hk', Hy, Hq.
      * exact B4.
      * apply Hsound0; [exact B1|exact B5].
      * intros k' E' L Hn M bb HM Hb. assert (k' = k) by congruence. subst k'. apply B6; assumption.
Qed.

(** ** [new_exct_one] *)
Record exct_post (s : st) (ls : list lit) (s' : st) (p : lit) : Prop := {
  x_ext : ext C s s';
  x_range : lvar p < nv s';
  x_sound : (forall q, In q ls -> value s q <> LTrue) -> forall M, smodels C s' M -> mlit M p = true -> exactly_one M ls;
  x_cons : forall k, amo_filter (value s) None (sort_by lvar ls) = Some k -> (length k = 1 -> forall q, In q k -> lsgn q = true) ->
    (forall e, ~ In (key_amo k, e) (exprs s)) -> conservative C s s';
  x_fresh : forall k, amo_filter (value s) None (sort_by lvar ls) = Some k -> (length k = 1 -> forall q, In q k -> lsgn q = true) ->
    (forall e, ~ In (key_amo k, e) (exprs s)) -> (forall e, ~ In (key_exct k, e) (exprs s)) -> forall M, smodels C s M -> amo_pos M k -> mcl M k ->
    exists M', agree (nv s) M M' /\ smodels C s' M' /\ mlit M' p = true }.

Lemma ext_add_expr (s : st) o p : Inv C s -> cache_ok C s -> (forall q, In q (op_lits o) -> lvar q < nv s) -> lvar p < nv s ->
  (forall M, smodels C s M -> op_means M o p) -> ext C s (add_expr s (key_of o) p) /\ (forall M, smodels C (add_expr s (key_of o) p) M <-> smodels C s M).
Proof.
  intros HI Hc Ho Hp Hm. unfold add_expr. destruct (find_expr s (key_of o)); [split; [apply ext_refl; assumption|tauto]|].
  assert (Hmod : forall M, smodels C (set_exprs (exprs s ++ [(key_of o, p)]) s) M <-> smodels C s M).
  { intros M; split; intros [A B D F]; constructor; assumption. }
  split; [|exact Hmod]. constructor; try reflexivity.
  - apply Inv_exprs, HI.
  - intros M HM. apply Hmod, HM.
  - intros k e Hi. cbn in Hi. apply in_app_or in Hi as [Hi|[Hi|[]]].
    + destruct (Hc k e Hi) as (o' & A & B & D & F). exists o'. split; [exact A|]. split; [exact B|]. split; [exact D|]. intros M HM. apply F, Hmod, HM.
    + inversion Hi; subst. exists o. split; [reflexivity|]. split; [exact Ho|]. split; [exact Hp|]. intros M HM. apply Hm, Hmod, HM.
  - intros k e. apply (find_app s _ [(key_of o, p)]). reflexivity.
Qed.

Theorem exct_ok (s : st) ls : Inv C s -> cache_ok C s -> dlevel s = 0 -> (forall q, In q ls -> lvar q < nv s) ->
  exists s' p, new_exct_one s ls = Ok (s', p) /\ exct_post s ls s' p.
Proof.
  intros HI Hc Hd Hr. unfold new_exct_one.
  assert (Er : root_level s = true) by (apply root_dlevel, Hd). rewrite Er. cbn [guard].
  assert (Ein : in_range s ls = true) by (apply in_range_iff, Hr). rewrite Ein. cbn [guard].
  assert (Hnv : 0 < nv s) by apply (t_nv s (i_t _ _ HI)).
  destruct (amo_filter (value s) None (sort_by lvar ls)) as [k|] eqn:Ek.
  2:{ exists s, FALSE_lit. split; [reflexivity|]. constructor; [apply ext_refl; assumption|exact Hnv| |congruence|congruence].
      intros Hn. exfalso. destruct (amo_filter_all (value s) (sort_by lvar ls) None) as (k & E & _); [|congruence].
      intros q Hq. apply Hn. apply sort_by_In in Hq. exact Hq. }
  pose proof (amo_filter_in _ _ _ _ Ek) as Hk0.
  assert (Hk : forall q, In q k -> In q ls /\ value s q = LUndef) by (intros q Hq; destruct (Hk0 q Hq) as [H1 H2]; apply sort_by_In in H1; auto).
  assert (Hka : (forall q, In q ls -> value s q <> LTrue) -> forall M, smodels C s M -> forall p, In p ls -> mlit M p = true -> In p k).
  { intros Hn M HM p Hp Em. destruct (amo_filter_all (value s) (sort_by lvar ls) None) as (k' & E & H'); [intros q Hq; apply Hn; apply sort_by_In in Hq; exact Hq|].
    assert (k' = k) by congruence. subst k'. destruct (H' p) as [?|[Hf|?]]; [apply sort_by_In; exact Hp|assumption| |discriminate].
    exfalso. apply value_false_true in Hf. assert (L0 : level s (lvar p) = 0) by (pose proof (level_le s (i_t _ _ HI) (lvar p)); lia).
    pose proof (sm_facts _ _ _ HM _ Hf L0) as F. rewrite mlit_negl, Em in F. discriminate. }
  assert (Hlift : forall s' p, ext C s s' -> (forall M, smodels C s' M -> mlit M p = true -> exactly_one M k) ->
    (forall q, In q ls -> value s q <> LTrue) -> forall M, smodels C s' M -> mlit M p = true -> exactly_one M ls).
  { intros s' p HE H Hn M HM Hp. pose proof (e_mono _ _ _ HE M HM) as HM0. destruct (H M HM Hp) as [H1 (q & Hq & Eq)]. split.
    - intros a b Ha Hb Ea Eb. apply H1; [apply (Hka Hn M HM0)|apply (Hka Hn M HM0)| |]; assumption.
    - exists q. split; [apply Hk, Hq|exact Eq]. }
  assert (HFf : forall s' M, smodels C s' M -> mlit M FALSE_lit = true -> False) by (intros s' M HM H; unfold mlit in H; cbn in H; rewrite (sm_false _ _ _ HM) in H; discriminate).
  assert (Htriv : forall p, lvar p < nv s -> (forall M, smodels C s M -> mlit M p = true -> exactly_one M k) ->
     ((length k = 1 -> forall q, In q k -> lsgn q = true) -> (forall e, ~ In (key_exct k, e) (exprs s)) -> forall M, mcl M k -> mlit M p = true) ->
     exists s' p', Ok (s, p) = Ok (s', p') /\ exct_post s ls s' p').
  { intros p Hp H Hx. exists s, p. split; [reflexivity|]. constructor; [apply ext_refl; assumption|exact Hp| |intros ? _ _ _; apply cons_refl|].
    - apply Hlift; [apply ext_refl; assumption|exact H].
    - intros k' Ek' Hs _ Hn M HM _ Hc'. assert (k' = k) by congruence. subst k'. exists M. split; [intros v _; reflexivity|]. split; [exact HM|]. apply Hx; assumption. }
  destruct k as [|a r]; [apply Htriv; [exact Hnv|intros M HM Hp; exfalso; eapply HFf; eassumption|intros _ _ M (q & [] & _)]|].
  set (k := a :: r) in *.
  destruct (match r with [] => lsgn a | _ :: _ => false end) eqn:Es.
  { destruct r as [|b r]; [|discriminate]. apply Htriv; [apply Hr, Hk; left; reflexivity|intros M HM Hp; split|].
    - intros x y [<-|[]] [<-|[]] _ _. reflexivity.
    - exists a. split; [left; reflexivity|exact Hp].
    - intros _ _ M (q & [<-|[]] & Hq). exact Hq. }
  assert (Hkr : forall q, In q k -> lvar q < nv s) by (intros q Hq; apply Hr, Hk, Hq).
  change (key_exct k) with (key_of (OExct k)).
  destruct (find_expr s (key_of (OExct k))) as [e|] eqn:Ef.
  { destruct (cache_found C s (OExct k) e Hc Ef) as [K1 K2]. apply Htriv; [exact K1|exact K2|]. intros _ Hn. destruct (Hn e). apply find_expr_In, Ef. }
  unfold new_at_most_one. destruct (amo_f_ok (S (length k)) s k ltac:(lia) HI Hc Hd Hkr) as (s1 & ctr & -> & A). cbn [rbind].
  destruct A as [A1 A2 A3 A4 A5 A6]. pose proof (e_nv _ _ _ A1) as N1.
  destruct (new_clause_ok C s1 (k ++ [negl ctr])) as (s2 & b & -> & P).
  { apply (e_inv _ _ _ A1). } { rewrite (e_dl _ _ _ A1); exact Hd. }
  { intros q Hq. apply in_app_or in Hq as [Hq|[<-|[]]]; [specialize (Hkr q Hq); lia|cbn; exact A2]. }
  cbn [rbind]. destruct P as [P1 P2 P3 P4 P5 P6].
  assert (Hnt : forall q, In q k -> value s q <> LTrue) by (intros q Hq; destruct (Hk q Hq) as [_ ->]; discriminate).
  assert (Hon : (length k = 1 -> forall q, In q k -> lsgn q = true) -> (forall e, ~ In (key_amo k, e) (exprs s)) -> forall M, smodels C s M -> amo_pos M k -> mcl M k ->
    exists M', agree (nv s) M M' /\ smodels C s1 M' /\ mlit M' ctr = true /\ mcl M' (k ++ [negl ctr])).
  { intros Hs Hn M HM Hap (q & Hq & Eq).
    assert (L2 : 2 <= length k).
    { destruct r as [|b' r]; [|cbn; lia]. specialize (Hs eq_refl a (or_introl eq_refl)). congruence. }
    assert (Ek2 : amo_filter (value s) None (sort_by lvar k) = Some k).
    { assert (Es2 : sort_by lvar k = k).
      { apply (sort_by_id_aux lvar k []). cbn [app]. eapply amo_filter_sorted; [exact Ek|]. exact (sort_by_sorted lvar ls). }
      rewrite Es2. eapply amo_filter_idem, Ek. }
    destruct (A6 k Ek2 L2 Hn M true HM (fun _ => Hap)) as (M' & Ag & S1 & Ec). exists M'. split; [exact Ag|]. split; [exact S1|]. split; [exact Ec|].
    exists q. split; [apply in_or_app; left; exact Hq|]. rewrite <- (mlit_agree M M' q (nv s) Ag (Hkr q Hq)). exact Eq. }
  destruct b.
  - pose proof (P5 eq_refl) as P5'.
    assert (N2 : nv s2 = nv s1) by apply (gr_nv _ _ P2).
    assert (HE2 : ext C s1 s2).
    { constructor; auto.
      - lia.
      - intros M HM. apply P5', HM.
      - apply (grow_dlevel _ _ P2).
      - intros p Hp. apply (grow_value _ _ p P2 Hp).
      - eapply cache_mono; [apply (e_cache _ _ _ A1)|apply (gr_exprs _ _ P2)|lia|intros M HM; apply P5', HM].
      - intros kk p. unfold find_expr. rewrite (gr_exprs _ _ P2). auto. }
    assert (Hmean : forall M, smodels C s2 M -> mlit M ctr = true -> exactly_one M k).
    { intros M HM Hc1. apply P5' in HM as [HM1 (q & Hq & Eq)]. split; [apply A5; assumption|].
      apply in_app_or in Hq as [Hq|[<-|[]]]; [exists q; auto|]. rewrite mlit_negl, Hc1 in Eq. discriminate. }
    assert (Hkr2 : forall q, In q (op_lits (OExct k)) -> lvar q < nv s2) by (intros q Hq; change (In q k) in Hq; specialize (Hkr q Hq); lia).
    destruct (ext_add_expr s2 (OExct k) ctr P1 (e_cache _ _ _ HE2) Hkr2 ltac:(lia) Hmean) as [HE3 Hm3].
    set (s3 := add_expr s2 (key_of (OExct k)) ctr) in *.
    assert (HE : ext C s s3) by (eapply ext_trans; [exact A1|eapply ext_trans; eassumption]).
    exists s3, ctr. split; [reflexivity|]. constructor.
    + exact HE.
    + pose proof (e_nv _ _ _ HE3). lia.
    + apply Hlift; [exact HE|]. intros M HM. apply Hmean, Hm3, HM.
    + intros k' Ek' Hs Hn. assert (k' = k) by congruence. subst k'. intros M HM.
      assert (L2 : 2 <= length k).
      { destruct r as [|b r]; [|cbn; lia]. specialize (Hs eq_refl a (or_introl eq_refl)). congruence. }
      assert (Ek2 : amo_filter (value s) None (sort_by lvar k) = Some k).
      { assert (Es2 : sort_by lvar k = k).
        { apply (sort_by_id_aux lvar k []). cbn [app]. eapply amo_filter_sorted; [exact Ek|]. exact (sort_by_sorted lvar ls). }
        rewrite Es2. eapply amo_filter_idem, Ek. }
      destruct (A6 k Ek2 L2 Hn M false HM ltac:(discriminate)) as (M' & Ag & S1 & Ec).
      exists M'. split; [exact Ag|]. apply Hm3, P5'. split; [exact S1|]. exists (negl ctr). split; [apply in_or_app; right; left; reflexivity|].
      rewrite mlit_negl, Ec. reflexivity.
    + intros k' Ek' Hs Hn _ M HM Hap Hmc. assert (k' = k) by congruence. subst k'. destruct (Hon Hs Hn M HM Hap Hmc) as (M' & Ag & S1 & Ec & Hq).
      exists M'. split; [exact Ag|]. split; [|exact Ec]. apply Hm3, P5'. split; [exact S1|exact Hq].
  - destruct (P6 eq_refl) as [-> P7]. exists s1, FALSE_lit. split; [reflexivity|]. constructor.
    + exact A1.
    + cbn. lia.
    + intros _ M HM H. exfalso. eapply HFf; eassumption.
    + intros ? _ _ _. exact A4.
    + intros k' Ek' Hs Hn _ M HM Hap Hmc. assert (k' = k) by congruence. subst k'. destruct (Hon Hs Hn M HM Hap Hmc) as (M' & _ & S1 & _ & Hq). destruct (P7 M' S1 Hq).
Qed.
End Amo.
