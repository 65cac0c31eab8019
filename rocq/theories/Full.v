(** Histories that also state equalities, at-most-one and exactly-one constraints: which variables
    the client has seen, and what it has been told. *)
From Coq Require Import String.
From Verif Require Import Base Keys Sat SatSpec SatInv SatPop SatImp SatRec SatAn SatProp SatLoop SatMain SatApi SatApi2 SatNext SatSimp Reify Amo Run.
Section Srt.
Context {sr : sorter}.

Definition two_fresh (n : nat) (ls : list lit) : Prop :=
  exists a b, In a ls /\ In b ls /\ lvar a <> lvar b /\ n <= lvar a /\ n <= lvar b.
Lemma two_fresh_le n m ls : n <= m -> two_fresh m ls -> two_fresh n ls.
Proof. intros H (a & b & H1 & H2 & H3 & H4 & H5). exists a, b. repeat split; auto; lia. Qed.
Lemma two_nodup n ls : 2 <= length ls -> NoDup (map lvar ls) -> (forall q, In q ls -> n <= lvar q) -> two_fresh n ls.
Proof.
  intros L H Hn. destruct ls as [|a [|b r]]; cbn in L; try lia. exists a, b. cbn in H. inversion H as [|? ? H1 _]; subst.
  split; [left; reflexivity|]. split; [right; left; reflexivity|]. split; [|split; apply Hn; cbn; auto].
  intros E. apply H1. left. congruence.
Qed.
Lemma lt_sorted_nodup : forall ls, StronglySorted (fun a b : lit => lvar a < lvar b) ls -> NoDup (map lvar ls).
Proof.
  induction ls as [|a ls IH]; intros H; cbn; [constructor|]. inversion H as [|? ? H1 H2]; subst. constructor; [|apply IH, H1].
  intros Hi. apply in_map_iff in Hi as (b & E & Hb). rewrite Forall_forall in H2. specialize (H2 b Hb). lia.
Qed.

Lemma amo_filter_len v : forall l p k, amo_filter v p l = Some k -> length k <= length l.
Proof.
  assert (H : forall l p k, amo_filter2 v p l = Some k -> length k <= length l).
  { induction l as [|x l IHl]; intros p k0; cbn; [intros E; inversion E; cbn; lia|].
    destruct (lbool_eqb (v x) LTrue || is_lit p (negl x)); [discriminate|].
    destruct (negb (lbool_eqb (v x) LFalse) && negb (is_lit p x)); [|intros E; apply IHl in E; lia].
    destruct (amo_filter2 v (Some x) l) eqn:E0; [|discriminate]. intros E; inversion E; subst. apply IHl in E0. cbn. lia. }
  induction l as [|x l IHl]; intros p k0; cbn; [intros E; inversion E; cbn; lia|].
  destruct (lbool_eqb (v x) LTrue); [intros E; apply H in E; lia|].
  destruct (negb (lbool_eqb (v x) LFalse) && negb (is_lit p x)); [|intros E; apply IHl in E; lia].
  destruct (amo_filter v (Some x) l) eqn:E0; [|discriminate]. intros E; inversion E; subst. apply IHl in E0. cbn. lia.
Qed.

Lemma mlit_var M M' p : mlit M p = mlit M' p -> M (lvar p) = M' (lvar p).
Proof. unfold mlit. destruct (M (lvar p)), (M' (lvar p)), (lsgn p); cbn; congruence. Qed.

Section Full.
Context {T : Type} {ops : theory_ops T} (C : contract ops).
Notation st := (st T).

Lemma clause_keeps (s s' : st) ls b : new_clause s ls = Ok (s', b) -> exprs s' = exprs s /\ nv s' = nv s.
Proof.
  unfold new_clause, guard. destruct (root_level s); [|discriminate]. destruct (in_range s ls); [|discriminate].
  destruct (clause_filter (value s) None (sort_by lvar ls)) as [[|a [|c r]]|]; cbn [rbind].
  - intros H. injection H as <- _. auto.
  - intros H. unfold enqueue in H. destruct (value s a); injection H as <- _; auto.
  - unfold new_constr. cbn. intros H. injection H as <- _. auto.
  - intros H. injection H as <- _. auto.
Qed.
Lemma clauses_keep : forall cs (s s' : st) b, new_clauses s cs = Ok (s', b) -> exprs s' = exprs s /\ nv s' = nv s.
Proof.
  induction cs as [|c cs IH]; intros s s' b; cbn [new_clauses].
  - intros H. injection H as <- _. auto.
  - destruct (new_clause s c) as [[s1 b1]| |] eqn:E; cbn [rbind]; try discriminate. apply clause_keeps in E as [E1 E2].
    destruct b1; [|intros H; injection H as <- _; auto]. intros H. apply IH in H as [A B]. split; congruence.
Qed.
Lemma reify_keeps (s s' : st) cs k ctr p : reify s cs k ctr = Ok (s', p) -> nv s' = nv s /\
  ((p = FALSE_lit /\ exprs s' = exprs s) \/ (p = ctr /\ (exprs s' = exprs s \/ exprs s' = exprs s ++ [(k, ctr)]))).
Proof.
  unfold reify. destruct (new_clauses s cs) as [[s1 b]| |] eqn:E; cbn [rbind]; try discriminate. apply clauses_keep in E as [E1 E2].
  destruct b; intros H; injection H as <- <-; [|auto]. unfold add_expr. destruct (find_expr s1 k); cbn; rewrite ?E1; auto.
Qed.
Lemma find_none (s : st) k : find_expr s k = None -> forall e, ~ In (k, e) (exprs s).
Proof.
  unfold find_expr. intros H e Hi. destruct (find (fun x => String.eqb (fst x) k) (exprs s)) as [x|] eqn:E; [discriminate|].
  apply (find_none _ _ E) in Hi. cbn in Hi. rewrite String.eqb_refl in Hi. discriminate.
Qed.

(** One expression: where the answer comes from, and what enters the cache. *)
Definition source (s : st) (ls : list lit) (p : lit) : Prop :=
  nv s <= lvar p \/ lvar p = 0 \/ (exists q, In q ls /\ lvar q = lvar p) \/
  exists o, In (key_of o, p) (exprs s) /\ forall q, In q (op_lits o) -> In q ls.
Definition entries (s s' : st) (p : lit) : Prop := forall k e, In (k, e) (exprs s') ->
  In (k, e) (exprs s) \/ (exists v, k = key_var v) \/ e = p \/ exists o, k = key_of o /\ two_fresh (nv s) (op_lits o).

Lemma new_var_shape (s : st) : Inv C s -> snd (new_var s) = nv s /\ nv (fst (new_var s)) = S (nv s) /\
  exprs (fst (new_var s)) = exprs s ++ [(key_var (nv s), mk_lit (nv s) true)].
Proof. intros HI. destruct (new_var_ok C s HI) as [E V]. split; [exact E|]. split; apply V. Qed.

(** The common pattern: a fresh control variable. *)
Lemma reify_shape (s s' : st) cs o p : Inv C s ->
  reify (fst (new_var s)) cs (key_of o) (mk_lit (snd (new_var s)) true) = Ok (s', p) ->
  (lvar p = 0 \/ lvar p = nv s) /\
  forall k e, In (k, e) (exprs s') -> In (k, e) (exprs s) \/ k = key_var (nv s) \/ (k = key_of o /\ e = p /\ lvar p = nv s).
Proof.
  intros HI H. destruct (new_var_shape s HI) as (Ev & _ & Ex). rewrite Ev in H.
  apply reify_keeps in H as [_ [[-> H]|[-> [H|H]]]].
  - split; [left; reflexivity|]. intros k e Hi. rewrite H, Ex in Hi. apply in_app_or in Hi as [?|[Hi|[]]]; [auto|]. injection Hi as <- _. auto.
  - split; [right; reflexivity|]. intros k e Hi. rewrite H, Ex in Hi. apply in_app_or in Hi as [?|[Hi|[]]]; [auto|]. injection Hi as <- _. auto.
  - split; [right; reflexivity|]. intros k e Hi. rewrite H, Ex in Hi. apply in_app_or in Hi as [Hi|[Hi|[]]].
    + apply in_app_or in Hi as [?|[Hi|[]]]; [auto|]. injection Hi as <- _. auto.
    + injection Hi as <- <-. auto.
Qed.

Lemma conj_shape (s s' : st) ls p : Inv C s -> new_conj s ls = Ok (s', p) ->
  let sub l := (forall q, In q l -> In q ls /\ value s q = LUndef) /\ 2 <= length l /\ NoDup (map lvar l) in
  (lvar p = 0 \/ In p ls \/ lvar p = nv s \/ exists l, In (key_conj l, p) (exprs s) /\ sub l) /\
  forall k e, In (k, e) (exprs s') -> In (k, e) (exprs s) \/ k = key_var (nv s) \/
    (e = p /\ lvar p = nv s /\ exists l, k = key_conj l /\ sub l).
Proof.
  intros HI. unfold new_conj, guard. destruct (root_level s); [|discriminate]. destruct (in_range s ls); [|discriminate].
  rewrite conj_filter_eq.
  pose proof (clause_filter_spec (fun q => lneg (value s q)) (sort_by lvar ls) None (sort_by_sorted lvar ls) ltac:(discriminate)) as HF.
  destruct (clause_filter _ None (sort_by lvar ls)) as [k|]; [|intros H; injection H as <- <-; cbn zeta; split; [auto|auto]].
  destruct HF as (A & B & _ & _).
  assert (HA : forall q, In q k -> In q ls /\ value s q = LUndef).
  { intros q Hq. destruct (A q Hq) as [H1 H2]. split; [apply (sort_by_In lvar), H1|]. destruct (value s q); cbn in H2; congruence. }
  destruct k as [|a [|b r]].
  - intros H; injection H as <- <-; cbn zeta; split; [auto|auto].
  - intros H; injection H as <- <-; cbn zeta; split; [right; left; apply HA; left; reflexivity|auto].
  - set (k := a :: b :: r) in *. assert (Hk : 2 <= length k) by (cbn; lia). clearbody k.
    change (key_conj k) with (key_of (OConj k)). destruct (find_expr s (key_of (OConj k))) as [e|] eqn:Ef.
    + intros H; injection H as <- <-; cbn zeta. split; [|auto]. right; right; right. exists k. split; [apply find_expr_In, Ef|]. auto.
    + destruct (new_var s) as [s1 v] eqn:E1. intros H.
      assert (H' : reify (fst (new_var s)) (map (fun l => [negl (mk_lit v true); l]) k ++ [mk_lit v true :: map negl k]) (key_of (OConj k)) (mk_lit (snd (new_var s)) true) = Ok (s', p))
        by (rewrite E1; exact H).
      apply reify_shape in H' as [H1 H2]; [|exact HI]. cbn zeta. split; [tauto|].
      intros k0 e Hi. destruct (H2 k0 e Hi) as [?|[?|(-> & -> & ?)]]; auto. right; right. split; [reflexivity|]. split; [assumption|]. exists k. auto.
Qed.
Lemma conj_source (s s' : st) ls p : Inv C s -> new_conj s ls = Ok (s', p) -> source s ls p /\ entries s s' p.
Proof.
  intros HI H. destruct (conj_shape s s' ls p HI H) as [A B]. split.
  - destruct A as [?|[?|[?|(l & H1 & H2 & _)]]]; [right; left; assumption|right; right; left; eauto|left; lia|].
    right; right; right. exists (OConj l). split; [exact H1|]. intros q Hq. apply H2, Hq.
  - intros k e Hi. destruct (B k e Hi) as [?|[?|(-> & _)]]; eauto.
Qed.
Lemma disj_source (s s' : st) ls p : Inv C s -> new_disj s ls = Ok (s', p) -> source s ls p /\ entries s s' p.
Proof.
  intros HI. unfold new_disj, guard. destruct (root_level s); [|discriminate]. destruct (in_range s ls); [|discriminate].
  pose proof (clause_filter_spec (value s) (sort_by lvar ls) None (sort_by_sorted lvar ls) ltac:(discriminate)) as HF.
  assert (H0 : forall p, lvar p = 0 -> source s ls p /\ entries s s p) by (intros q Hq; split; [right; left; exact Hq|intros k e; auto]).
  destruct (clause_filter _ None (sort_by lvar ls)) as [k|]; [|intros H; injection H as <- <-; apply H0; reflexivity].
  destruct HF as (A & _). assert (HA : forall q, In q k -> In q ls) by (intros q Hq; apply (sort_by_In lvar), A, Hq).
  destruct k as [|a [|b r]].
  - intros H; injection H as <- <-. apply H0; reflexivity.
  - intros H; injection H as <- <-. split; [right; right; left; exists a; split; [apply HA; left|]; reflexivity|intros k e; auto].
  - set (k := a :: b :: r) in *. clearbody k.
    change (key_disj k) with (key_of (ODisj k)). destruct (find_expr s (key_of (ODisj k))) as [e|] eqn:Ef.
    + intros H; injection H as <- <-. split; [|intros ? ?; auto]. right; right; right. exists (ODisj k). split; [apply find_expr_In, Ef|exact HA].
    + destruct (new_var s) as [s1 v] eqn:E1. intros H.
      assert (H' : reify (fst (new_var s)) (map (fun l => [negl l; mk_lit v true]) k ++ [negl (mk_lit v true) :: k]) (key_of (ODisj k)) (mk_lit (snd (new_var s)) true) = Ok (s', p))
        by (rewrite E1; exact H).
      apply reify_shape in H' as [H1 H2]; [|exact HI]. split; [destruct H1; [right; left; assumption|left; lia]|].
      intros k0 e Hi. destruct (H2 k0 e Hi) as [?|[?|(-> & -> & ?)]]; eauto.
Qed.
Lemma eq_source (s s' : st) l r p : Inv C s -> new_eq s l r = Ok (s', p) -> source s [l; r] p /\ entries s s' p.
Proof.
  intros HI. unfold new_eq, guard. destruct (root_level s); [|discriminate]. destruct (in_range s [l; r]); [|discriminate].
  assert (H0 : forall p, lvar p = 0 \/ lvar p = lvar l \/ lvar p = lvar r -> source s [l; r] p /\ entries s s p).
  { intros q Hq. split; [|intros k e; auto]. destruct Hq as [Hq|[Hq|Hq]]; [right; left; exact Hq| |]; right; right; left; [exists l|exists r]; cbn; auto. }
  destruct (lit_eqb l r); [intros H; injection H as <- <-; apply H0; left; reflexivity|].
  destruct (value s l), (value s r); try (intros H; injection H as <- <-; apply H0; try (destruct (Bool.eqb (lsgn l) (lsgn r))); cbn; auto; fail).
  change (key_eq l r) with (key_of (OEq l r)). destruct (find_expr s (key_of (OEq l r))) as [e|] eqn:Ef.
  - intros H; injection H as <- <-. split; [|intros ? ?; auto]. right; right; right. exists (OEq l r). split; [apply find_expr_In, Ef|auto].
  - destruct (new_var s) as [s1 v] eqn:E1. intros H.
    assert (H' : reify (fst (new_var s)) [[negl (mk_lit v true); negl l; r]; [negl (mk_lit v true); l; negl r]; [mk_lit v true; negl l; negl r]] (key_of (OEq l r)) (mk_lit (snd (new_var s)) true) = Ok (s', p))
      by (rewrite E1; exact H).
    apply reify_shape in H' as [H1 H2]; [|exact HI]. split; [destruct H1; [right; left; assumption|left; lia]|].
    intros k0 e Hi. destruct (H2 k0 e Hi) as [?|[?|(-> & -> & ?)]]; eauto.
Qed.

(** At-most-one: the entries of the recursive calls are over fresh variables. *)
Definition amo_ent (s : st) (ls : list lit) (s' : st) (p : lit) : Prop :=
  (nv s <= lvar p \/ lvar p = 0 \/ exists l, amo_filter (value s) None (sort_by lvar ls) = Some l /\ 2 <= length l /\ In (key_amo l, p) (exprs s)) /\
  forall k e, In (k, e) (exprs s') -> In (k, e) (exprs s) \/ (exists v, k = key_var v) \/
    (exists l, amo_filter (value s) None (sort_by lvar ls) = Some l /\ 2 <= length l /\ k = key_amo l /\ e = p) \/
    exists o, k = key_of o /\ two_fresh (nv s) (op_lits o) /\ (nv s <= lvar e \/ lvar e = 0).
Lemma amo_shape : forall fuel (s s' : st) ls p, length ls < fuel -> Inv C s -> cache_ok C s -> dlevel s = 0 ->
  (forall q, In q ls -> lvar q < nv s) -> new_amo_f fuel s ls = Ok (s', p) -> amo_ent s ls s' p.
Proof.
  induction fuel as [|fuel IH]; intros s s' ls p Hlen HI Hc Hd Hr; [lia|]. cbn [new_amo_f].
  assert (Er : root_level s = true) by (apply root_dlevel, Hd). rewrite Er. cbn [guard].
  assert (Ein : in_range s ls = true) by (apply in_range_iff, Hr). rewrite Ein. cbn [guard].
  assert (Hnv : 0 < nv s) by apply (t_nv s (i_t _ _ HI)).
  assert (H0 : forall p, lvar p = 0 -> amo_ent s ls s p) by (intros q Hq; split; [right; left; exact Hq|intros k e; auto]).
  unfold amo_ent. destruct (amo_filter (value s) None (sort_by lvar ls)) as [k|] eqn:Ek.
  2:{ intros H; injection H as <- <-. split; [right; left; reflexivity|intros ? ?; auto]. }
  destruct k as [|a [|b r]]; [intros H; injection H as <- <-; split; [right; left; reflexivity|intros ? ?; auto]..|].
  set (k := a :: b :: r) in *. assert (Lk2 : 2 <= length k) by (cbn; lia).
  assert (Hk : forall q, In q k -> In q ls /\ value s q = LUndef) by (intros q Hq; destruct (amo_filter_in _ _ _ _ Ek q Hq) as [H1 H2]; apply sort_by_In in H1; auto).
  assert (Lk : length k <= length ls) by (rewrite (Permutation_length (sort_by_perm lvar ls)); eapply amo_filter_len, Ek).
  clearbody k. change (key_amo k) with (key_of (OAmo k)). destruct (find_expr s (key_of (OAmo k))) as [e|] eqn:Ef.
  { intros H; injection H as <- <-. split; [|intros ? ?; auto]. right; right. exists k. split; [reflexivity|]. split; [exact Lk2|]. apply find_expr_In, Ef. }
  destruct (Nat.ltb_spec (length k) 4) as [H4|H4].
  { destruct (new_var s) as [s1 v] eqn:E1. intros H.
    assert (H' : reify (fst (new_var s)) (pair_clauses (mk_lit v true) k) (key_of (OAmo k)) (mk_lit (snd (new_var s)) true) = Ok (s', p)) by (rewrite E1; exact H).
    apply reify_shape in H' as [H1 H2]; [|exact HI]. split; [destruct H1; [right; left; assumption|left; lia]|].
    intros k0 e Hi. destruct (H2 k0 e Hi) as [?|[?|(-> & -> & ?)]]; eauto. right; right; left. exists k. auto. }
  set (n := length k) in *. pose proof (sizes n H4) as Hsz. cbn zeta in Hsz. set (ps := ceil_sqrt n) in *. set (qs := ceil_div n ps) in *.
  destruct Hsz as ([P1 P2] & [Q1 Q2] & PQ). clearbody ps qs.
  destruct (new_vars_ok C ps s HI Hc) as (U1 & U2 & U3 & U4 & U5 & U6). destruct (new_vars s ps) as [s1 u]. cbn [fst snd] in *.
  destruct (new_vars_ok C qs s1 (e_inv _ _ _ U3) (e_cache _ _ _ U3)) as (V1 & V2 & V3 & V4 & V5 & V6). destruct (new_vars s1 qs) as [s2 v]. cbn [fst snd] in *.
  assert (Lu : length u = ps) by (rewrite U1, map_length, seq_length; reflexivity).
  assert (Lv : length v = qs) by (rewrite V1, map_length, seq_length; reflexivity).
  assert (Ru : forall q, In q u -> nv s <= lvar q < nv s + ps) by (intros q Hq; rewrite U1 in Hq; apply seq_lits_in in Hq; tauto).
  assert (Rv : forall q, In q v -> nv s + ps <= lvar q < nv s + ps + qs) by (intros q Hq; rewrite V1 in Hq; apply seq_lits_in in Hq; lia).
  assert (HE2 : ext C s s2) by (eapply ext_trans; eassumption).
  assert (I2 := e_inv _ _ _ HE2). assert (C2 := e_cache _ _ _ HE2).
  assert (D2 : dlevel s2 = 0) by (rewrite (e_dl _ _ _ HE2); exact Hd).
  assert (R2 : forall q, In q u -> lvar q < nv s2) by (intros q Hq; specialize (Ru q Hq); lia).
  destruct (amo_f_ok C fuel s2 u ltac:(lia) I2 C2 D2 R2) as (s3 & cu & Eu & A). rewrite Eu. cbn [rbind].
  destruct (IH s2 s3 u cu ltac:(lia) I2 C2 D2 R2 Eu) as [Su Tu].
  assert (HE3 : ext C s2 s3) by apply A. assert (I3 := e_inv _ _ _ HE3). assert (C3 := e_cache _ _ _ HE3).
  assert (D3 : dlevel s3 = 0) by (rewrite (e_dl _ _ _ HE3); exact D2). pose proof (e_nv _ _ _ HE3) as N23.
  assert (R3 : forall q, In q v -> lvar q < nv s3) by (intros q Hq; specialize (Rv q Hq); lia).
  destruct (amo_f_ok C fuel s3 v ltac:(lia) I3 C3 D3 R3) as (s4 & cv & Evv & B). rewrite Evv. cbn [rbind].
  destruct (IH s3 s4 v cv ltac:(lia) I3 C3 D3 R3 Evv) as [Sv Tv].
  assert (HE4 : ext C s3 s4) by apply B. assert (I4 := e_inv _ _ _ HE4). assert (C4 := e_cache _ _ _ HE4).
  assert (D4 : dlevel s4 = 0) by (rewrite (e_dl _ _ _ HE4); exact D3). pose proof (e_nv _ _ _ HE4) as N34.
  pose proof (a_range _ _ _ _ _ A) as Rcu. pose proof (a_range _ _ _ _ _ B) as Rcv.
  destruct (new_conj s4 [cu; cv]) as [[s5 ctr]| |] eqn:Ej; cbn [rbind]; try discriminate.
  destruct (conj_shape s4 s5 [cu; cv] ctr I4 Ej) as [Sj Tj]. intros H. apply reify_keeps in H as [_ Hp].
  (* filtered lists of fresh variables have two distinct elements *)
  assert (Hsub : forall (vv : lit -> lbool) m cnt l, amo_filter vv None (sort_by lvar (map (fun v => mk_lit v true) (seq m cnt))) = Some l -> 2 <= length l -> nv s <= m -> two_fresh (nv s) l).
  { intros vv m cnt l El L2 Hm. rewrite sort_by_id in El by apply seq_lits_sorted. apply two_nodup; [exact L2| |].
    - apply lt_sorted_nodup. eapply amo_filter_sorted; [exact El|apply seq_lits_sorted].
    - intros q Hq. apply (amo_filter_in _ _ _ _ El) in Hq as [Hq _]. apply seq_lits_in in Hq. lia. }
  assert (old2 : forall l e, In (key_amo l, e) (exprs s2) -> forall q, In q l -> lvar q < nv s).
  { intros l e Hi. assert (Hi0 : In (key_amo l, e) (exprs s)).
    { destruct (V6 _ _ Hi) as [Hi1|(w & Ew)]; [|exfalso; symmetry in Ew; eapply not_amo_var, Ew].
      destruct (U6 _ _ Hi1) as [Hi0|(w & Ew)]; [exact Hi0|exfalso; symmetry in Ew; eapply not_amo_var, Ew]. }
    destruct (Hc _ _ Hi0) as (o & Eo & Ho & _). apply (key_of_inj (OAmo l) o) in Eo. destruct o; cbn in Eo; try discriminate. injection Eo as <-. exact Ho. }
  assert (inu : forall l, amo_filter (value s2) None (sort_by lvar u) = Some l -> forall q, In q l -> In q u)
    by (intros l El q Hq; apply (amo_filter_in _ _ _ _ El) in Hq as [Hq _]; apply sort_by_In in Hq; exact Hq).
  assert (inv : forall l, amo_filter (value s3) None (sort_by lvar v) = Some l -> forall q, In q l -> In q v)
    by (intros l El q Hq; apply (amo_filter_in _ _ _ _ El) in Hq as [Hq _]; apply sort_by_In in Hq; exact Hq).
  assert (Fu : nv s <= lvar cu \/ lvar cu = 0).
  { destruct Su as [?|[?|(l & El & L2 & Hi)]]; [lia|auto|]. exfalso. destruct l as [|x l]; [cbn in L2; lia|].
    pose proof (old2 _ _ Hi x (or_introl eq_refl)). specialize (Ru x (inu _ El x (or_introl eq_refl))). lia. }
  assert (Fv : nv s <= lvar cv \/ lvar cv = 0).
  { destruct Sv as [?|[?|(l & El & L2 & Hi)]]; [lia|auto|]. exfalso. destruct l as [|x l]; [cbn in L2; lia|].
    pose proof (Rv x (inv _ El x (or_introl eq_refl))) as Rx.
    destruct (Tu _ _ Hi) as [Hi2|[(w & Ew)|[(l' & El' & _ & Ek' & _)|(o & Eo & Ho & _)]]].
    - pose proof (old2 _ _ Hi2 x (or_introl eq_refl)). lia.
    - symmetry in Ew. eapply not_amo_var, Ew.
    - apply key_amo_inj' in Ek'. subst l'. specialize (Ru x (inu _ El' x (or_introl eq_refl))). lia.
    - apply (key_of_inj (OAmo (x :: l)) o) in Eo. destruct o; cbn in Eo; try discriminate. injection Eo as <-. cbn [op_lits] in Ho.
      destruct Ho as (y & _ & Hy & _ & _ & Ly & _). specialize (Rv y (inv _ El y Hy)). lia. }
  (* entries up to s4 *)
  assert (T4 : forall k0 e, In (k0, e) (exprs s4) -> In (k0, e) (exprs s) \/ (exists w, k0 = key_var w) \/
     exists o, k0 = key_of o /\ two_fresh (nv s) (op_lits o) /\ (nv s <= lvar e \/ lvar e = 0)).
  { intros k0 e Hi. destruct (Tv k0 e Hi) as [Hi3|[Hw|[(l & El & L2 & -> & ->)|(o & -> & Ho & He)]]].
    - destruct (Tu k0 e Hi3) as [Hi2|[Hw|[(l & El & L2 & -> & ->)|(o & -> & Ho & He)]]].
      + destruct (V6 _ _ Hi2) as [Hi1|Hw]; [|auto]. destruct (U6 _ _ Hi1) as [Hi0|Hw]; auto.
      + auto.
      + right; right. exists (OAmo l). split; [reflexivity|]. split; [|exact Fu]. rewrite U1 in El. apply (Hsub _ _ _ _ El L2). lia.
      + right; right. exists o. split; [reflexivity|]. split; [eapply two_fresh_le; [|exact Ho]; lia|]. destruct He; [left; lia|auto].
    - auto.
    - right; right. exists (OAmo l). split; [reflexivity|]. split; [|exact Fv]. rewrite V1 in El. apply (Hsub _ _ _ _ El L2). lia.
    - right; right. exists o. split; [reflexivity|]. split; [eapply two_fresh_le; [|exact Ho]; lia|]. destruct He; [left; lia|auto]. }
  assert (Hz : forall q, In q [cu; cv] -> value s4 q = LUndef -> nv s <= lvar q).
  { intros q Hq Eq. assert (Hne : lvar q <> 0).
    { intros E0. unfold value, vlit in Eq. rewrite E0, (t_a0 s4 (i_t _ _ I4)) in Eq. destruct (lsgn q); discriminate. }
    destruct Hq as [<-|[<-|[]]]; [destruct Fu|destruct Fv]; first [assumption|contradiction]. }
  assert (Fc : nv s <= lvar ctr \/ lvar ctr = 0).
  { destruct Sj as [?|[Hin|[?|(l & Hi & Hl & L2 & Hn)]]]; [auto|destruct Hin as [<-|[<-|[]]]; assumption|left; lia|].
    destruct (T4 _ _ Hi) as [Hi0|[(w & Ew)|(o & _ & _ & He)]]; [|exfalso; apply (key_of_inj (OConj l) (OVar w)) in Ew; discriminate|exact He].
    exfalso. destruct (Hc _ _ Hi0) as (o & Eo & Ho & _). apply (key_of_inj (OConj l) o) in Eo. destruct o; cbn in Eo; try discriminate. injection Eo as <-.
    destruct l as [|x l]; [cbn in L2; lia|]. specialize (Ho x (or_introl eq_refl)). destruct (Hl x (or_introl eq_refl)) as [H1 H2]. specialize (Hz x H1 H2). lia. }
  assert (T5 : forall k0 e, In (k0, e) (exprs s5) -> In (k0, e) (exprs s) \/ (exists w, k0 = key_var w) \/
     exists o, k0 = key_of o /\ two_fresh (nv s) (op_lits o) /\ (nv s <= lvar e \/ lvar e = 0)).
  { intros k0 e Hi. destruct (Tj k0 e Hi) as [Hi4|[->|(-> & Ec & l & -> & Hl & L2 & Hn)]]; [apply T4, Hi4|eauto|].
    right; right. exists (OConj l). split; [reflexivity|]. split; [|exact Fc]. apply two_nodup; [exact L2|exact Hn|]. intros q Hq. destruct (Hl q Hq). apply Hz; assumption. }
  destruct Hp as [[-> Hp]|[-> Hp]].
  - split; [right; left; reflexivity|]. intros k0 e Hi. rewrite Hp in Hi. destruct (T5 _ _ Hi) as [?|[?|?]]; auto.
  - split; [destruct Fc; auto|]. intros k0 e Hi. destruct Hp as [Hp|Hp]; rewrite Hp in Hi.
    + destruct (T5 _ _ Hi) as [?|[?|?]]; auto.
    + apply in_app_or in Hi as [Hi|[Hi|[]]]; [destruct (T5 _ _ Hi) as [?|[?|?]]; auto|]. injection Hi as <- <-.
      right; right; left. exists k. auto.
Qed.

Lemma amo_cases (s s' : st) ls p k : Inv C s -> cache_ok C s -> new_at_most_one s ls = Ok (s', p) -> amo_filter (value s) None (sort_by lvar ls) = Some k ->
  (s' = s /\ lvar p < nv s) \/ (2 <= length k /\ forall e, ~ In (key_amo k, e) (exprs s)).
Proof.
  intros HI Hc. unfold new_at_most_one. cbn [new_amo_f]. unfold guard. destruct (root_level s); [|discriminate]. destruct (in_range s ls); [|discriminate].
  intros H E. rewrite E in H. assert (Hnv : 0 < nv s) by apply (t_nv s (i_t _ _ HI)).
  destruct k as [|a [|b r]]; [injection H as <- <-; left; auto..|]. set (k := a :: b :: r) in *. assert (Lk : 2 <= length k) by (cbn; lia). clearbody k.
  change (key_amo k) with (key_of (OAmo k)) in *. destruct (find_expr s (key_of (OAmo k))) as [e|] eqn:Ef.
  - injection H as <- <-. left. split; [reflexivity|]. apply (cache_found C s (OAmo k) e Hc Ef).
  - right. split; [exact Lk|]. apply find_none, Ef.
Qed.

Definition unasserted (s : st) (ls : list lit) : Prop := forall q, In q ls -> value s q <> LTrue.

Lemma amo_told (s s' : st) ls p M b : Inv C s -> cache_ok C s -> dlevel s = 0 -> (forall q, In q ls -> lvar q < nv s) ->
  new_at_most_one s ls = Ok (s', p) -> NoDup ls -> unasserted s ls -> smodels C s M -> (lvar p < nv s -> mlit M p = b) -> (b = true -> at_most_one M ls) ->
  exists M', agree (nv s) M M' /\ smodels C s' M' /\ mlit M' p = b.
Proof.
  intros HI Hc Hd Hr E Hn Hu HM Hp Hb.
  destruct (amo_filter_all (value s) (sort_by lvar ls) None) as (k & Ek & _); [intros q Hq; apply Hu; apply sort_by_In in Hq; exact Hq|].
  destruct (amo_f_ok C (S (length ls)) s ls ltac:(lia) HI Hc Hd Hr) as (s1 & p1 & E1 & P). change (new_amo_f (S (length ls)) s ls) with (new_at_most_one s ls) in E1.
  rewrite E in E1. injection E1 as <- <-.
  destruct (amo_cases s s' ls p k HI Hc E Ek) as [[-> Hlt]|[L2 Hk]].
  - exists M. split; [intros v _; reflexivity|]. auto.
  - apply (a_fresh _ _ _ _ _ P k Ek L2 Hk M b HM). intros Eb. apply amo_pos_of.
    + eapply amo_filter_sub; [exact Ek|]. eapply Permutation_NoDup; [apply (sort_by_perm lvar)|exact Hn].
    + intros x y Hx Hy. apply (Hb Eb); apply (sort_by_In lvar); eapply amo_filter_in; eassumption.
Qed.

Lemma smodels_expr (s : st) k p M : smodels C (add_expr s k p) M <-> smodels C s M.
Proof. unfold add_expr. destruct (find_expr s k); [tauto|]. split; intros [A B D F]; constructor; assumption. Qed.
Lemma add_exprs (s : st) k p k0 e : In (k0, e) (exprs (add_expr s k p)) -> In (k0, e) (exprs s) \/ (k0 = k /\ e = p).
Proof. unfold add_expr. destruct (find_expr s k); cbn; [auto|]. intros H. apply in_app_or in H as [?|[H|[]]]; [auto|]. injection H as <- <-. auto. Qed.

(** [new_exct_one] by cases. *)
Lemma exct_cases (s s' : st) ls p : Inv C s -> cache_ok C s -> dlevel s = 0 -> (forall q, In q ls -> lvar q < nv s) -> unasserted s ls ->
  new_exct_one s ls = Ok (s', p) ->
  exists k, amo_filter (value s) None (sort_by lvar ls) = Some k /\ (forall q, In q k -> In q ls /\ value s q = LUndef) /\
    ((s' = s /\ lvar p < nv s /\ source s ls p) \/
     exists s1 ctr s2 b, new_at_most_one s k = Ok (s1, ctr) /\ amo_post C s k s1 ctr /\ new_clause s1 (k ++ [negl ctr]) = Ok (s2, b) /\
       clause_post C s1 s2 (k ++ [negl ctr]) b /\
       (b = true /\ p = ctr /\ s' = add_expr s2 (key_exct k) ctr \/ b = false /\ p = FALSE_lit /\ s' = s1)).
Proof.
  intros HI Hc Hd Hr Hu. unfold new_exct_one, guard. destruct (root_level s); [|discriminate]. destruct (in_range s ls); [|discriminate].
  destruct (amo_filter_all (value s) (sort_by lvar ls) None) as (k & Ek & _); [intros q Hq; apply Hu; apply sort_by_In in Hq; exact Hq|].
  rewrite Ek. assert (Hk : forall q, In q k -> In q ls /\ value s q = LUndef) by (intros q Hq; destruct (amo_filter_in _ _ _ _ Ek q Hq) as [H1 H2]; apply sort_by_In in H1; auto).
  assert (Hnv : 0 < nv s) by apply (t_nv s (i_t _ _ HI)).
  intros H. exists k. split; [reflexivity|]. split; [exact Hk|].
  destruct k as [|a r]; [injection H as <- <-; left; split; [reflexivity|]; split; [exact Hnv|right; left; reflexivity]|].
  destruct (match r with [] => lsgn a | _ :: _ => false end).
  { injection H as <- <-. destruct (Hk a (or_introl eq_refl)) as [Ha _]. left. split; [reflexivity|]. split; [apply Hr, Ha|right; right; left; eauto]. }
  set (k := a :: r) in *. clearbody k. change (key_exct k) with (key_of (OExct k)) in *. destruct (find_expr s (key_of (OExct k))) as [e|] eqn:Ef.
  { injection H as <- <-. left. split; [reflexivity|]. split; [apply (cache_found C s (OExct k) e Hc Ef)|]. right; right; right. exists (OExct k).
    split; [apply find_expr_In, Ef|]. intros q Hq. apply Hk, Hq. }
  right. assert (Hkr : forall q, In q k -> lvar q < nv s) by (intros q Hq; apply Hr, Hk, Hq).
  destruct (amo_f_ok C (S (length k)) s k ltac:(lia) HI Hc Hd Hkr) as (s1 & ctr & E1 & P). change (new_amo_f (S (length k)) s k) with (new_at_most_one s k) in E1.
  rewrite E1 in H. cbn [rbind] in H. pose proof (a_ext _ _ _ _ _ P) as A1. pose proof (e_nv _ _ _ A1) as N1.
  destruct (new_clause_ok C s1 (k ++ [negl ctr])) as (s2 & b & E2 & P2).
  { apply (e_inv _ _ _ A1). } { rewrite (e_dl _ _ _ A1); exact Hd. }
  { intros q Hq. apply in_app_or in Hq as [Hq|[<-|[]]]; [specialize (Hkr q Hq); lia|cbn; apply (a_range _ _ _ _ _ P)]. }
  rewrite E2 in H. cbn [rbind] in H. exists s1, ctr, s2, b. split; [exact E1|]. split; [exact P|]. split; [exact E2|]. split; [exact P2|].
  destruct b; injection H as <- <-; [left; auto|right]. destruct (cp_false _ _ _ _ _ P2 eq_refl) as [-> _]. auto.
Qed.

Lemma exct_told (s s' : st) ls p M b : Inv C s -> cache_ok C s -> dlevel s = 0 -> (forall q, In q ls -> lvar q < nv s) ->
  new_exct_one s ls = Ok (s', p) -> NoDup ls -> unasserted s ls -> smodels C s M -> (lvar p < nv s -> mlit M p = b) -> (b = true -> exactly_one M ls) ->
  exists M', agree (nv s) M M' /\ smodels C s' M' /\ mlit M' p = b.
Proof.
  intros HI Hc Hd Hr E Hn Hu HM Hp Hb. destruct (exct_cases s s' ls p HI Hc Hd Hr Hu E) as (k & Ek & Hk & [(-> & Hlt & _)|(s1 & ctr & s2 & b2 & E1 & P & E2 & P2 & H)]).
  { exists M. split; [intros v _; reflexivity|]. auto. }
  assert (Hkr : forall q, In q k -> lvar q < nv s) by (intros q Hq; apply Hr, Hk, Hq).
  assert (Hnv : 0 < nv s) by apply (t_nv s (i_t _ _ HI)).
  destruct H as [(-> & -> & ->)|(-> & -> & ->)].
  - destruct (amo_told s s1 k ctr M b HI Hc Hd Hkr E1) as (M1 & Ag & S1 & Ec).
    { eapply amo_filter_sub; [exact Ek|]. eapply Permutation_NoDup; [apply (sort_by_perm lvar)|exact Hn]. }
    { intros q Hq. destruct (Hk q Hq) as [_ ->]. discriminate. } { exact HM. } { exact Hp. }
    { intros Eb. destruct (Hb Eb) as [H1 _]. intros x y Hx Hy. apply H1; apply Hk; assumption. }
    exists M1. split; [exact Ag|]. split; [|exact Ec]. apply smodels_expr, (cp_true _ _ _ _ _ P2 eq_refl). split; [exact S1|].
    destruct b.
    + destruct (Hb eq_refl) as [_ (q & Hq & Eq)].
      destruct (amo_filter_all (value s) (sort_by lvar ls) None) as (k' & E' & H'); [intros x Hx; apply Hu; apply sort_by_In in Hx; exact Hx|].
      assert (k' = k) by congruence. subst k'. assert (Hqk : In q k).
      { destruct (H' q) as [?|[Hf|?]]; [apply sort_by_In; exact Hq|assumption| |discriminate].
        exfalso. apply value_false_true in Hf. assert (L0 : level s (lvar q) = 0) by (pose proof (level_le s (i_t _ _ HI) (lvar q)); lia).
        pose proof (sm_facts _ _ _ HM _ Hf L0) as F. rewrite mlit_negl, Eq in F. discriminate. }
      exists q. split; [apply in_or_app; left; exact Hqk|]. rewrite <- (mlit_agree M M1 q (nv s) Ag (Hr q Hq)). exact Eq.
    + exists (negl ctr). split; [apply in_or_app; right; left; reflexivity|]. rewrite mlit_negl, Ec. reflexivity.
  - destruct (a_cons _ _ _ _ _ P M HM) as (M1 & Ag & S1). exists M1. split; [exact Ag|]. split; [exact S1|].
    rewrite <- (mlit_agree M M1 FALSE_lit (nv s) Ag Hnv). apply Hp, Hnv.
Qed.

Lemma amo_source (s s' : st) ls p : Inv C s -> cache_ok C s -> dlevel s = 0 -> (forall q, In q ls -> lvar q < nv s) ->
  new_at_most_one s ls = Ok (s', p) -> source s ls p /\ entries s s' p.
Proof.
  intros HI Hc Hd Hr E. destruct (amo_shape (S (length ls)) s s' ls p ltac:(lia) HI Hc Hd Hr E) as [A B]. split.
  - destruct A as [?|[?|(l & El & _ & Hi)]]; [left; assumption|right; left; assumption|]. right; right; right. exists (OAmo l). split; [exact Hi|].
    intros q Hq. apply (sort_by_In lvar). eapply amo_filter_in; eassumption.
  - intros k e Hi. destruct (B k e Hi) as [?|[?|[(l & _ & _ & _ & ->)|(o & Eo & Ho & _)]]]; eauto 10.
Qed.
Lemma exct_source (s s' : st) ls p M : Inv C s -> cache_ok C s -> dlevel s = 0 -> (forall q, In q ls -> lvar q < nv s) -> unasserted s ls -> smodels C s M ->
  new_exct_one s ls = Ok (s', p) -> source s ls p /\ entries s s' p.
Proof.
  intros HI Hc Hd Hr Hu HM E. destruct (exct_cases s s' ls p HI Hc Hd Hr Hu E) as (k & Ek & Hk & [(-> & Hlt & Hs)|(s1 & ctr & s2 & b2 & E1 & P & E2 & P2 & H)]).
  { split; [exact Hs|intros ? ?; auto]. }
  assert (Hkr : forall q, In q k -> lvar q < nv s) by (intros q Hq; apply Hr, Hk, Hq).
  destruct (amo_source s s1 k ctr HI Hc Hd Hkr E1) as [A B].
  destruct H as [(-> & -> & ->)|(-> & -> & ->)].
  - split.
    + destruct A as [?|[?|[(q & Hq & Eq)|(o & Hi & Ho)]]]; [left; assumption|right; left; assumption| |].
      * right; right; left. exists q. split; [apply Hk, Hq|exact Eq].
      * right; right; right. exists o. split; [exact Hi|]. intros q Hq. apply Hk, Ho, Hq.
    + intros k0 e Hi. apply add_exprs in Hi as [Hi|[_ ->]]; [|auto]. apply clause_keeps in E2 as [E2 _]. rewrite E2 in Hi. apply B, Hi.
  - split; [right; left; reflexivity|].
    assert (Ek2 : amo_filter (value s) None (sort_by lvar k) = Some k).
    { assert (Es2 : sort_by lvar k = k).
      { apply (sort_by_id_aux lvar k []). cbn [app]. eapply amo_filter_sorted; [exact Ek|]. exact (sort_by_sorted lvar ls). }
      rewrite Es2. eapply amo_filter_idem, Ek. }
    destruct (amo_cases s s1 k ctr k HI Hc E1 Ek2) as [[-> _]|[L2 Hn]]; [intros ? ?; auto|]. exfalso.
    destruct (a_fresh _ _ _ _ _ P k Ek2 L2 Hn M false HM ltac:(discriminate)) as (M1 & _ & S1 & Ec).
    destruct (cp_false _ _ _ _ _ P2 eq_refl) as [_ Hno]. apply (Hno M1 S1). exists (negl ctr). split; [apply in_or_app; right; left; reflexivity|].
    rewrite mlit_negl, Ec. reflexivity.
Qed.

(** ** Histories *)
(** What the client has been told by one call. *)
Definition told (e : event) (M : nat -> bool) : Prop :=
  match ev_call e, ev_ret e with
  | CClause ls, RBool true => exists p, In p ls /\ mlit M p = true
  | CNext, RBool _ => ev_decs e <> [] -> exists d, In d (ev_decs e) /\ mlit M d = false
  | CConj ls, RLit p => mlit M p = true <-> (forall q, In q ls -> mlit M q = true)
  | CDisj ls, RLit p => mlit M p = true <-> (exists q, In q ls /\ mlit M q = true)
  | CEq l r, RLit p => (mlit M p = true -> mlit M l = mlit M r) /\ (mlit M l = true -> mlit M r = true -> mlit M p = true)
  | CAmo ls, RLit p => mlit M p = true -> at_most_one M ls
  | CExct ls, RLit p => mlit M p = true -> exactly_one M ls
  | _, _ => True
  end.
(** The variables the client knows: those it started with and those it was given. *)
Definition seen (s0 : st) (tr : list event) (v : nat) : Prop :=
  v < nv s0 \/ exists e, In e tr /\ match ev_ret e with RVar w => v = w | RLit p => v = lvar p | _ => False end.
(** Literals of known variables only; no repeated literal and none already true under an at-most-one
    or exactly-one; an equality between an assigned and an unassigned literal only with equal signs. *)
Definition careful (V : nat -> Prop) (s : st) (c : call) : Prop :=
  match c with
  | CClause ls | CConj ls | CDisj ls => forall q, In q ls -> V (lvar q)
  | CEq l r => V (lvar l) /\ V (lvar r) /\ sign_ok s l r
  | CAmo ls | CExct ls => (forall q, In q ls -> V (lvar q)) /\ NoDup ls /\ unasserted s ls
  | CNext => forall d, In d (decisions s) -> V (lvar d)
  | _ => True
  end.
Inductive CTrace (s0 : st) : list event -> st -> Prop :=
| CT_init : CTrace s0 [] s0
| CT_step fuel tr s c s' r : CTrace s0 tr s -> legal C s c -> careful (seen s0 tr) s c -> step (ops := ops) fuel s c = Ok (s', r) -> alive C s' r ->
    CTrace s0 (mk_ev c (decisions s) r :: tr) s'.
Lemma ctrace_trace s0 tr s : CTrace s0 tr s -> Trace C s0 tr s.
Proof. induction 1; [constructor|econstructor; eassumption]. Qed.
Lemma ctrace_good s0 tr s : good C s0 -> CTrace s0 tr s -> good C s.
Proof. intros G H. eapply reach_good; [exact G|]. eapply trace_reach, ctrace_trace, H. Qed.

Lemma seen_cons s0 e tr v : seen s0 tr v -> seen s0 (e :: tr) v.
Proof. intros [H|(x & Hx & H)]; [left; exact H|right]. exists x. split; [right; exact Hx|exact H]. Qed.

(** Calls that are not expressions leave the cache alone. *)
Definition plain (c : call) : Prop := match c with CVar | CEq _ _ | CConj _ | CDisj _ | CAmo _ | CExct _ => False | _ => True end.
Lemma plain_keeps fuel (s s' : st) c r : good C s -> legal C s c -> plain c -> step (ops := ops) fuel s c = Ok (s', r) ->
  exprs s' = exprs s /\ nv s' = nv s /\ (forall v, r <> RVar v) /\ (forall p, r <> RLit p).
Proof.
  intros G L Hp E. pose proof (g_inv _ _ G) as HI.
  assert (K : forall x y : st, (exprs x = exprs s /\ nv x = nv s) -> Ok (x, r) = Ok (y, r) -> exprs y = exprs s /\ nv y = nv s) by (intros x y H H'; injection H' as <-; exact H).
  destruct c; cbn [step legal plain] in *; try destruct Hp.
  - destruct (new_clause s ls) as [[s1 b]| |] eqn:E1; cbn [rbind] in E; try discriminate. injection E as <- <-. apply clause_keeps in E1 as [A B].
    split; [exact A|]. split; [exact B|]. split; discriminate.
  - pose proof (propagate_ok C (dlevel s) fuel s HI (le_n _)) as H. destruct (propagate ops fuel s) as [[s1 b]| |]; cbn [rbind] in E; try discriminate.
    injection E as <- <-. split; [apply H|]. split; [apply H|]. split; discriminate.
  - destruct L as (Hq & Hs & Hr). pose proof (quiet_of C s G Hq Hs) as Q. assert (Hl : lvar p < nv s) by (apply Hr; left; reflexivity).
    rewrite (assume_eq C) in E by assumption. destruct (assumed_ok C s p Q Hl) as (HIa & HMa & Hga).
    assert (Hna : nv (@assumed T ops s p) = nv s) by apply (gr_nv _ _ Hga).
    assert (Hxa : exprs (@assumed T ops s p) = exprs s) by apply (gr_exprs _ _ Hga).
    pose proof (propagate_ok C (dlevel (@assumed T ops s p)) fuel (@assumed T ops s p) HIa (le_n _)) as H.
    assert (Hpr : forall s1 b, propagate ops fuel (@assumed T ops s p) = Ok (s1, b) -> exprs s1 = exprs s /\ nv s1 = nv s).
    { intros s1 b E1. rewrite E1 in H. rewrite (pp_exprs _ _ _ _ H), (pp_nv _ _ _ _ H). auto. }
    destruct (value s p).
    + cbn [rbind] in E. injection E as <- <-. split; [reflexivity|]. split; [reflexivity|]. split; discriminate.
    + destruct (propagate ops fuel (@assumed T ops s p)) as [[s1 b]| |]; cbn [rbind] in E; try discriminate. injection E as <- <-.
      destruct (Hpr _ _ eq_refl). split; [assumption|]. split; [assumption|]. split; discriminate.
    + destruct (propagate ops fuel (@assumed T ops s p)) as [[s1 b]| |]; cbn [rbind] in E; try discriminate. injection E as <- <-.
      destruct (Hpr _ _ eq_refl). split; [assumption|]. split; [assumption|]. split; discriminate.
  - destruct (g_up _ _ G L) as [Hq Hs].
    destruct (pop_ok C s (Inv_InvX C s HI Hq) L) as (s1 & rem & E1 & _ & _ & _ & HU & _). rewrite E1 in E. cbn [rbind] in E. injection E as <- <-.
    split; [apply HU|]. split; [apply HU|]. split; discriminate.
  - destruct L as (Hq & Hs & Hr). pose proof (quiet_of C s G Hq Hs) as Q. pose proof (check_ok C fuel s ls Q Hr) as H.
    destruct (check ops fuel s ls) as [[s1 b]| |]; cbn [rbind] in E; try discriminate. injection E as <- <-.
    destruct H as (_ & _ & Hn & Hx & _). split; [exact Hx|]. split; [exact Hn|]. split; discriminate.
  - destruct (Nat.eq_dec (dlevel s) 0) as [Hd|Hd].
    + rewrite (next_root fuel s Hd) in E. cbn [rbind] in E. injection E as <- <-. split; [reflexivity|]. split; [reflexivity|]. split; discriminate.
    + destruct (g_up _ _ G Hd) as [Hq Hs]. pose proof (quiet_of C s G Hq Hs) as Q. pose proof (next_ok C fuel s Q L Hd) as H.
      destruct (next ops fuel s) as [[s1 b]| |]; cbn [rbind] in E; try discriminate. injection E as <- <-.
      destruct H as (_ & _ & Hn & Hx & _). split; [exact Hx|]. split; [exact Hn|]. split; discriminate.
  - pose proof (simplify_db_ok C fuel s HI L) as H. destruct (simplify_db ops fuel s) as [[s1 b]| |]; cbn [rbind] in E; try discriminate. injection E as <- <-.
    destruct H as (_ & _ & Hn & Hx & _). split; [exact Hx|]. split; [exact Hn|]. split; discriminate.
  - unfold listen in E. destruct (v <? nv s); cbn [guard rbind] in E; [|discriminate].
    assert (K0 : exprs s' = exprs s /\ nv s' = nv s /\ r = RUnit).
    { destruct (is_undef s (mk_lit v true)); [destruct (memn l (listening s v))|]; cbn [rbind] in E; injection E as <- <-; auto. }
    destruct K0 as (A & B & ->). split; [exact A|]. split; [exact B|]. split; discriminate.
Qed.

Lemma told_said e M : plain (ev_call e) -> told e M <-> said (ev_call e) (ev_decs e) (ev_ret e) M.
Proof. destruct e as [[] ds []]; cbn; try tauto. Qed.

(** Every model respects what was told. *)
Lemma step_told fuel (s s' : st) c r V : good C s -> legal C s c -> careful V s c -> step (ops := ops) fuel s c = Ok (s', r) ->
  forall M, smodels C s' M -> smodels C s M /\ told (mk_ev c (decisions s) r) M.
Proof.
  intros G L HV E M HM. pose proof (step_ok C fuel s c G L) as HS. rewrite E in HS. destruct HS as (_ & _ & H1 & _).
  destruct (H1 M HM) as [HM0 Hs]. split; [exact HM0|]. pose proof (g_inv _ _ G) as HI. pose proof (g_cache _ _ G) as Hc.
  destruct c; cbn [step legal careful] in *; try (apply told_said; [exact Logic.I|exact Hs]).
  - destruct r; exact Logic.I.
  - destruct L as [Hd Hr]. destruct HV as (_ & _ & Hsg).
    destruct (new_eq_ok C s l r0 HI Hc Hd) as (s1 & p & E1 & _ & _ & _ & Hm); [apply Hr; left; reflexivity|apply Hr; right; left; reflexivity|].
    rewrite E1 in E. cbn [rbind] in E. injection E as <- <-. apply (Hm Hsg), HM.
  - destruct r; try exact Logic.I. cbn [said told ev_call ev_ret] in *. rewrite Hs. apply forallb_forall.
  - destruct r; try exact Logic.I. cbn [said told ev_call ev_ret] in *. rewrite Hs. apply existsb_exists.
  - destruct L as [Hd Hr]. destruct HV as (_ & _ & Hu). destruct (amo_f_ok C (S (length ls)) s ls ltac:(lia) HI Hc Hd Hr) as (s1 & p & E1 & P).
    unfold new_at_most_one in E. rewrite E1 in E. cbn [rbind] in E. injection E as <- <-. exact (a_sound _ _ _ _ _ P Hu M HM).
  - destruct L as [Hd Hr]. destruct HV as (_ & _ & Hu). destruct (exct_ok C s ls HI Hc Hd Hr) as (s1 & p & E1 & P).
    rewrite E1 in E. cbn [rbind] in E. injection E as <- <-. exact (x_sound _ _ _ _ _ P Hu M HM).
Qed.
Theorem full_sound s0 tr s : good C s0 -> CTrace s0 tr s -> forall M, smodels C s M -> smodels C s0 M /\ forall e, In e tr -> told e M.
Proof.
  intros G0 H. induction H as [|fuel tr s c s' r HR IH HL HV HE HA]; intros M HM; [split; [exact HM|intros e []]|].
  destruct (step_told fuel s s' c r _ (ctrace_good _ _ _ G0 HR) HL HV HE M HM) as [HM0 Ht]. destruct (IH M HM0) as [A B].
  split; [exact A|]. intros e [<-|He]; [exact Ht|apply B, He].
Qed.

(** The cache gives known answers to questions about known variables. *)
Definition seen_ok (V : nat -> Prop) (s : st) : Prop :=
  (forall v, V v -> v < nv s) /\ V 0 /\
  ((exists M, smodels C s M) -> forall o e, In (key_of o, e) (exprs s) -> (forall q, In q (op_lits o) -> V (lvar q)) -> V (lvar e)).

Lemma op_same_lits o o' : op_same o o' -> forall q, In q (op_lits o) <-> In q (op_lits o').
Proof.
  destruct o, o'; cbn [op_same]; intros E; try discriminate; try (injection E as <-; tauto).
  destruct E as [[-> ->]|[-> ->]]; cbn; tauto.
Qed.

(** One expression: the new answer becomes known. *)
Lemma seen_step V (s s' : st) ls p : seen_ok V s -> cache_ok C s -> cache_ok C s' -> nv s <= nv s' -> lvar p < nv s' ->
  (forall M, smodels C s' M -> smodels C s M) -> (forall q, In q ls -> V (lvar q)) ->
  ((exists M, smodels C s M) -> source s ls p /\ entries s s' p) ->
  seen_ok (fun v => V v \/ v = lvar p) s'.
Proof.
  intros (S1 & S0 & S2) Hc Hc' Hn Hp Hmono Hl Hse. split; [|split; [left; exact S0|]].
  { intros v [Hv| ->]; [specialize (S1 v Hv); lia|exact Hp]. }
  intros (M & HM) o e Hi Ho. pose proof (Hmono M HM) as HM0. destruct (Hse (ex_intro _ M HM0)) as [Hs He]. specialize (S2 (ex_intro _ M HM0)).
  assert (Hsp : nv s <= lvar p \/ V (lvar p)).
  { destruct Hs as [?|[E0|[(q & Hq & Eq)|(o' & Hi' & Ho')]]]; [auto|right; rewrite E0; exact S0|right; rewrite <- Eq; apply Hl, Hq|].
    right. apply (S2 o' p Hi'). intros q Hq. apply Hl, Ho', Hq. }
  destruct (He _ _ Hi) as [Hold|[(v & Ev)|[->|(o' & Eo & a & b & Ha & Hb & Hab & La & Lb)]]].
  - left. apply (S2 o e Hold). intros q Hq. destruct (Ho q Hq) as [?|Eq]; [assumption|].
    destruct (Hc _ _ Hold) as (o' & Eo & Hr & _). apply key_of_inj in Eo. specialize (Hr q (proj1 (op_same_lits _ _ Eo q) Hq)).
    destruct Hsp as [?|Hv]; [lia|rewrite Eq; exact Hv].
  - change (key_var v) with (key_of (OVar v)) in Ev. apply key_of_inj in Ev. destruct o; cbn in Ev; try discriminate. injection Ev as ->.
    destruct (Hc' _ _ Hi) as (o' & Eo & _ & _ & Hm). apply key_of_inj in Eo. destruct o'; cbn in Eo; try discriminate. injection Eo as <-.
    specialize (Hm M HM). cbn in Hm. subst e. apply (Ho (mk_lit v true)). left. reflexivity.
  - right. reflexivity.
  - apply key_of_inj in Eo. pose proof (op_same_lits _ _ Eo) as Hlit.
    exfalso. apply Hab. destruct (Ho a (proj2 (Hlit a) Ha)) as [Hv|Ea]; [specialize (S1 _ Hv); lia|].
    destruct (Ho b (proj2 (Hlit b) Hb)) as [Hv|Eb]; [specialize (S1 _ Hv); lia|]. congruence.
Qed.

Lemma source_seen V (s : st) ls p : seen_ok V s -> (exists M, smodels C s M) -> (forall q, In q ls -> V (lvar q)) -> source s ls p ->
  nv s <= lvar p \/ V (lvar p).
Proof.
  intros (S1 & S0 & S2) HM Hl [?|[E0|[(q & Hq & Eq)|(o' & Hi' & Ho')]]]; [auto|right; rewrite E0; exact S0|right; rewrite <- Eq; apply Hl, Hq|].
  right. apply (S2 HM o' p Hi'). intros q Hq. apply Hl, Ho', Hq.
Qed.
Lemma seen_ok_ext V V' (s : st) : (forall v, V v <-> V' v) -> seen_ok V s -> seen_ok V' s.
Proof.
  intros H (A & B & D). split; [intros v Hv; apply A, H, Hv|]. split; [apply H, B|]. intros HM o e Hi Ho. apply H, (D HM o e Hi). intros q Hq. apply H, Ho, Hq.
Qed.
Lemma seen_ok_same V (s s' : st) : exprs s' = exprs s -> nv s <= nv s' -> (forall M, smodels C s' M -> smodels C s M) -> seen_ok V s -> seen_ok V s'.
Proof.
  intros Ex Hn Hm (A & B & D). split; [intros v Hv; specialize (A v Hv); lia|]. split; [exact B|]. intros (M & HM) o e Hi. rewrite Ex in Hi. apply D; [|exact Hi].
  exists M. apply Hm, HM.
Qed.
Lemma seen_lit s0 tr c ds p v : seen s0 (mk_ev c ds (RLit p) :: tr) v <-> seen s0 tr v \/ v = lvar p.
Proof.
  split.
  - intros [H|(e & [<-|He] & H)]; [left; left; exact H|right; exact H|left; right; eauto].
  - intros [H| ->]; [apply seen_cons, H|]. right. eexists. split; [left; reflexivity|]. reflexivity.
Qed.
Lemma seen_var s0 tr c ds w v : seen s0 (mk_ev c ds (RVar w) :: tr) v <-> seen s0 tr v \/ v = w.
Proof.
  split.
  - intros [H|(e & [<-|He] & H)]; [left; left; exact H|right; exact H|left; right; eauto].
  - intros [H| ->]; [apply seen_cons, H|]. right. eexists. split; [left; reflexivity|]. reflexivity.
Qed.
Lemma seen_other s0 tr c ds r v : (forall w, r <> RVar w) -> (forall p, r <> RLit p) -> seen s0 (mk_ev c ds r :: tr) v <-> seen s0 tr v.
Proof.
  intros H1 H2. split; [|apply seen_cons]. intros [H|(e & [<-|He] & H)]; [left; exact H|cbn in H|right; eauto].
  destruct r as [w| |p|]; [destruct (H1 w eq_refl)|destruct H|destruct (H2 p eq_refl)|destruct H].
Qed.

(** One call, seen from a model [M] of what was told and a model [M0] of the state before it. *)
Definition lit_call (c : call) : option (list lit) :=
  match c with CEq l r => Some [l; r] | CConj ls | CDisj ls | CAmo ls | CExct ls => Some ls | _ => None end.
Lemma full_step fuel (s s' : st) V c r : good C s -> legal C s c -> careful V s c -> step (ops := ops) fuel s c = Ok (s', r) -> seen_ok V s ->
  let V' v := V v \/ match r with RVar w => v = w | RLit p => v = lvar p | _ => False end in
  seen_ok V' s' /\
  forall M M0, smodels C s M0 -> (forall v, V v -> M0 v = M v) -> told (mk_ev c (decisions s) r) M ->
    exists M1, smodels C s' M1 /\ (forall v, V' v -> M1 v = M v).
Proof.
  intros G L HV E HS. pose proof (g_inv _ _ G) as HI. pose proof (g_cache _ _ G) as Hc. cbn zeta.
  pose proof (step_ok C fuel s c G L) as HO. rewrite E in HO. destruct HO as (_ & Hnv & Hm1 & Hm2).
  assert (Hlit : forall M M0, (forall v, V v -> M0 v = M v) -> forall q, V (lvar q) -> mlit M0 q = mlit M q) by (intros M M0 H q Hq; unfold mlit; rewrite (H _ Hq); reflexivity).
  assert (Hplain : plain c -> (forall M M0, (forall v, V v -> M0 v = M v) -> told (mk_ev c (decisions s) r) M -> told (mk_ev c (decisions s) r) M0) ->
    seen_ok (fun v => V v \/ match r with RVar w => v = w | RLit p => v = lvar p | _ => False end) s' /\
    forall M M0, smodels C s M0 -> (forall v, V v -> M0 v = M v) -> told (mk_ev c (decisions s) r) M ->
      exists M1, smodels C s' M1 /\ (forall v, V v \/ match r with RVar w => v = w | RLit p => v = lvar p | _ => False end -> M1 v = M v)).
  { intros Hp Hst. destruct (plain_keeps fuel s s' c r G L Hp E) as (Ex & En & Hr1 & Hr2).
    assert (Hr : forall v, match r with RVar w => v = w | RLit p => v = lvar p | _ => False end -> False).
    { intros v. destruct r as [w| |p|]; [destruct (Hr1 w eq_refl)|auto|destruct (Hr2 p eq_refl)|auto]. }
    split; [eapply seen_ok_ext; [|eapply seen_ok_same; [exact Ex|lia|intros M HM; apply Hm1, HM|exact HS]]|].
    { intros v. split; [auto|]. intros [?|H]; [assumption|destruct (Hr v H)]. }
    intros M M0 HM HA Ht. exists M0. split; [|intros v [Hv|Hv]; [apply HA, Hv|destruct (Hr v Hv)]].
    apply Hm2; [destruct c; try exact Logic.I; destruct Hp|exact HM|]. apply (told_said (mk_ev c (decisions s) r) M0 Hp). eapply Hst; eassumption. }
  assert (Hexp : forall ls s1 p, s1 = s' -> r = RLit p -> cache_ok C s' -> lvar p < nv s' -> (forall q, In q ls -> V (lvar q)) ->
     ((exists M, smodels C s M) -> source s ls p /\ entries s s' p) ->
     seen_ok (fun v => V v \/ match r with RVar w => v = w | RLit p => v = lvar p | _ => False end) s').
  { intros ls s1 p _ -> Hc' Hp Hl Hse. apply (seen_step V s s' ls p); auto. intros M HM. apply Hm1, HM. }
  destruct c; cbn [step legal careful] in *.
  - (* new_var *)
    clear Hplain. destruct (new_var_ok C s HI) as [Ev Vp]. destruct (new_var_ext C s HI Hc) as (HE & _ & _). destruct (new_var s) as [s1 w]. cbn [fst snd] in *. injection E as <- <-. subst w.
    split.
    + destruct HS as (S1 & S0 & S2). split; [|split; [auto|]].
      * intros v [Hv| ->]; [specialize (S1 v Hv)|]; rewrite (vp_nv _ _ _ Vp); lia.
      * intros (M & HM) o e Hi Ho. rewrite (vp_exprs _ _ _ Vp) in Hi. apply in_app_or in Hi as [Hi|[Hi|[]]].
        -- left. apply (S2 (ex_intro _ M (e_mono _ _ _ HE M HM)) o e Hi). intros q Hq. destruct (Ho q Hq) as [?|Eq]; [assumption|].
           exfalso. destruct (Hc _ _ Hi) as (o' & Eo & Hr & _). apply key_of_inj in Eo. specialize (Hr q (proj1 (op_same_lits _ _ Eo q) Hq)). lia.
        -- injection Hi as _ <-. right. reflexivity.
    + intros M M0 HM HA _. exists (upd M0 (nv s) (M (nv s))). split.
      * apply (vp_models _ _ _ Vp). eapply smodels_agree; [exact HI| |exact HM]. intros v Hv. rewrite upd_neq by lia. reflexivity.
      * intros v [Hv| ->]; [|apply upd_eq]. rewrite upd_neq; [apply HA, Hv|]. pose proof (proj1 HS v Hv). lia.
  - apply Hplain; [exact Logic.I|]. intros M M0 HA. unfold told. cbn. destruct r as [|[]| |]; auto. intros (q & Hq & Eq). exists q. split; [exact Hq|].
    rewrite (Hlit M M0 HA q (HV q Hq)). exact Eq.
  - apply Hplain; [exact Logic.I|]. intros M M0 _. cbn. auto.
  - apply Hplain; [exact Logic.I|]. intros M M0 _. cbn. auto.
  - apply Hplain; [exact Logic.I|]. intros M M0 _. cbn. auto.
  - apply Hplain; [exact Logic.I|]. intros M M0 _. cbn. auto.
  - apply Hplain; [exact Logic.I|]. intros M M0 HA. unfold told. cbn. destruct r; auto. intros H Hd. destruct (H Hd) as (d & Hq & Eq). exists d. split; [exact Hq|].
    rewrite (Hlit M M0 HA d (HV d Hq)). exact Eq.
  - apply Hplain; [exact Logic.I|]. intros M M0 _. cbn. auto.
  - (* new_eq *)
    clear Hplain. destruct L as [Hd Hr]. destruct HV as (Vl & Vr & Hsg).
    destruct (new_eq_ok C s l r0 HI Hc Hd) as (s1 & p & E1 & HE & _ & Hp & Hm); [apply Hr; left; reflexivity|apply Hr; right; left; reflexivity|].
    rewrite E1 in E. cbn [rbind] in E. injection E as <- <-. destruct (eq_source s s1 l r0 p HI E1) as [Hs He].
    assert (Hl : forall q, In q [l; r0] -> V (lvar q)) by (intros q [<-|[<-|[]]]; assumption).
    split; [apply (Hexp [l; r0] s1 p); auto; apply HE|]. intros M M0 HM HA Ht. cbn in Ht.
    destruct (source_seen V s [l; r0] p HS (ex_intro _ M0 HM) Hl Hs) as [Hf|Hv].
    + exists (upd M0 (lvar p) (M (lvar p))). assert (Hag : agree (nv s) M0 (upd M0 (lvar p) (M (lvar p)))) by (intros v Hv; rewrite upd_neq by lia; reflexivity).
      assert (HV' : forall v, V v \/ v = lvar p -> upd M0 (lvar p) (M (lvar p)) v = M v).
      { intros v [Hv| ->]; [|apply upd_eq]. rewrite upd_neq; [apply HA, Hv|]. pose proof (proj1 HS v Hv). lia. }
      split; [|exact HV']. apply (Hm Hsg). split; [eapply smodels_agree; [exact HI|exact Hag|exact HM]|]. cbn [op_means].
      assert (HL : forall q, V (lvar q) \/ lvar q = lvar p -> mlit (upd M0 (lvar p) (M (lvar p))) q = mlit M q) by (intros q Hq; unfold mlit; rewrite (HV' _ Hq); reflexivity).
      rewrite !HL by auto. exact Ht.
    + exists M0. split; [|intros v [?| ->]; apply HA; assumption]. apply (Hm Hsg). split; [exact HM|]. cbn [op_means]. rewrite !(Hlit M M0 HA) by assumption. exact Ht.
  - (* new_conj *)
    clear Hplain. destruct L as [Hd Hr]. destruct (new_conj_ok C s ls HI Hc Hd Hr) as (s1 & p & E1 & HE & Hcons & Hp & Hm & _).
    rewrite E1 in E. cbn [rbind] in E. injection E as <- <-.
    split; [apply (Hexp ls s1 p); auto; [apply HE|intros _; apply (conj_source s s1 ls p HI E1)]|]. intros M M0 HM HA Ht. cbn in Ht.
    destruct (Hcons M0 HM) as (M1 & Ag & S1). exists M1. split; [exact S1|].
    assert (HV1 : forall v, V v -> M1 v = M v) by (intros v Hv; rewrite <- Ag; [apply HA, Hv|apply (proj1 HS), Hv]).
    intros v [Hv| ->]; [apply HV1, Hv|]. assert (Ep : mlit M1 p = mlit M p).
    { apply Hm in S1 as [_ ->]. apply eq_true_iff_eq. rewrite Ht, forallb_forall. split; intros H q Hq; specialize (H q Hq); [rewrite <- (Hlit M M1 HV1)|rewrite (Hlit M M1 HV1)]; auto. }
    apply mlit_var, Ep.
  - (* new_disj *)
    clear Hplain. destruct L as [Hd Hr]. destruct (new_disj_ok C s ls HI Hc Hd Hr) as (s1 & p & E1 & HE & Hcons & Hp & Hm).
    rewrite E1 in E. cbn [rbind] in E. injection E as <- <-.
    split; [apply (Hexp ls s1 p); auto; [apply HE|intros _; apply (disj_source s s1 ls p HI E1)]|]. intros M M0 HM HA Ht. cbn in Ht.
    destruct (Hcons M0 HM) as (M1 & Ag & S1). exists M1. split; [exact S1|].
    assert (HV1 : forall v, V v -> M1 v = M v) by (intros v Hv; rewrite <- Ag; [apply HA, Hv|apply (proj1 HS), Hv]).
    intros v [Hv| ->]; [apply HV1, Hv|]. assert (Ep : mlit M1 p = mlit M p).
    { apply Hm in S1 as [_ ->]. apply eq_true_iff_eq. rewrite Ht, existsb_exists. split; intros (q & Hq & Eq); exists q; (split; [exact Hq|]); [rewrite <- (Hlit M M1 HV1)|rewrite (Hlit M M1 HV1)]; auto. }
    apply mlit_var, Ep.
  - (* at most one *)
    clear Hplain. destruct L as [Hd Hr]. destruct HV as (Vl & Hnd & Hu).
    destruct (amo_f_ok C (S (length ls)) s ls ltac:(lia) HI Hc Hd Hr) as (s1 & p & E1 & P). change (new_amo_f (S (length ls)) s ls) with (new_at_most_one s ls) in E1.
    rewrite E1 in E. cbn [rbind] in E. injection E as <- <-. destruct (amo_source s s1 ls p HI Hc Hd Hr E1) as [Hs He].
    split; [apply (Hexp ls s1 p); auto; [apply (e_cache _ _ _ (a_ext _ _ _ _ _ P))|apply (a_range _ _ _ _ _ P)]|]. intros M M0 HM HA Ht. cbn in Ht.
    destruct (amo_told s s1 ls p M0 (mlit M p) HI Hc Hd Hr E1 Hnd Hu HM) as (M1 & Ag & S1 & Ep).
    { intros Hlt. apply (Hlit M M0 HA). destruct (source_seen V s ls p HS (ex_intro _ M0 HM) Vl Hs); [lia|assumption]. }
    { intros Eb x y Hx Hy Ex Ey. rewrite (Hlit M M0 HA) in Ex, Ey by auto. apply (Ht Eb); assumption. }
    exists M1. split; [exact S1|]. intros v [Hv| ->]; [rewrite <- Ag; [apply HA, Hv|apply (proj1 HS), Hv]|].
    apply mlit_var, Ep.
  - (* exactly one *)
    clear Hplain. destruct L as [Hd Hr]. destruct HV as (Vl & Hnd & Hu).
    destruct (exct_ok C s ls HI Hc Hd Hr) as (s1 & p & E1 & P).
    rewrite E1 in E. cbn [rbind] in E. injection E as <- <-.
    split; [apply (Hexp ls s1 p); auto; [apply (e_cache _ _ _ (x_ext _ _ _ _ _ P))|apply (x_range _ _ _ _ _ P)|intros (M & HM); apply (exct_source s s1 ls p M HI Hc Hd Hr Hu HM E1)]|]. intros M M0 HM HA Ht. cbn in Ht.
    destruct (exct_source s s1 ls p M0 HI Hc Hd Hr Hu HM E1) as [Hs He].
    destruct (exct_told s s1 ls p M0 (mlit M p) HI Hc Hd Hr E1 Hnd Hu HM) as (M1 & Ag & S1 & Ep).
    { intros Hlt. apply (Hlit M M0 HA). destruct (source_seen V s ls p HS (ex_intro _ M0 HM) Vl Hs); [lia|assumption]. }
    { intros Eb. destruct (Ht Eb) as [H1 (q & Hq & Eq)]. split; [intros x y Hx Hy Ex Ey; rewrite (Hlit M M0 HA) in Ex, Ey by auto; apply H1; assumption|].
      exists q. split; [exact Hq|]. rewrite (Hlit M M0 HA) by auto. exact Eq. }
    exists M1. split; [exact S1|]. intros v [Hv| ->]; [rewrite <- Ag; [apply HA, Hv|apply (proj1 HS), Hv]|].
    apply mlit_var, Ep.
  - apply Hplain; [exact Logic.I|]. intros M M0 _. cbn. auto.
Qed.

Lemma seen_event s0 tr c ds r v : seen s0 (mk_ev c ds r :: tr) v <-> seen s0 tr v \/ match r with RVar w => v = w | RLit p => v = lvar p | _ => False end.
Proof.
  destruct r as [w|b|p|]; [apply seen_var| |apply seen_lit|]; (split; [intros H; left; eapply seen_other; [..|exact H]; discriminate|intros [H|[]]; apply seen_cons, H]).
Qed.
Theorem full_complete s0 tr s : good C s0 -> CTrace s0 tr s -> seen_ok (seen s0 tr) s /\
  forall M, smodels C s0 M -> (forall e, In e tr -> told e M) -> exists M', smodels C s M' /\ forall v, seen s0 tr v -> M' v = M v.
Proof.
  intros G0 H. induction H as [|fuel tr s c s' r HR IH HL HV HE HA].
  - split; [|intros M HM _; exists M; split; [exact HM|reflexivity]]. split; [|split; [left; apply (t_nv s0 (i_t _ _ (g_inv _ _ G0)))|]].
    + intros v [Hv|(e & [] & _)]. exact Hv.
    + intros _ o e Hi _. left. destruct (g_cache _ _ G0 _ _ Hi) as (_ & _ & _ & Hr & _). exact Hr.
  - destruct IH as [IH1 IH2]. destruct (full_step fuel s s' (seen s0 tr) c r (ctrace_good _ _ _ G0 HR) HL HV HE IH1) as [A B]. split.
    + eapply seen_ok_ext; [|exact A]. intros v. symmetry. apply seen_event.
    + intros M HM Ht. destruct (IH2 M HM) as (M0 & S0 & Ag); [intros e He; apply Ht; right; exact He|].
      destruct (B M M0 S0 Ag (Ht _ (or_introl eq_refl))) as (M1 & S1 & Ag1). exists M1. split; [exact S1|]. intros v Hv. apply Ag1. apply seen_event in Hv. exact Hv.
Qed.
End Full.
End Srt.
