(** The property lemmas of the reified constraints (statements in PropReify.v). *)
From Coq Require Import Permutation.
From Verif Require Import Base Keys Sat SatSpec SatInv SatMain SatApi Reify Amo Run.

Lemma conj_reified : forall T ops (C : contract ops) (s0 s : st T) ls, good C s0 -> Reach C s0 s -> dlevel s = 0 -> in_scope s ls ->
  exists s' p, new_conj s ls = Ok (s', p) /\
    (forall M, smodels C s' M <-> smodels C s M /\ (mlit M p = true <-> forall q, In q ls -> mlit M q = true)) /\
    (forall M, smodels C s M -> exists M', agree (nv s) M M' /\ smodels C s' M').
Proof.
  intros T ops C s0 s ls G0 HR Hd Hs. destruct (reach_good C s0 s G0 HR) as [HI Hc _].
  destruct (new_conj_ok C s ls HI Hc Hd Hs) as (s' & p & E & _ & Hcons & _ & Hm & _). exists s', p. split; [exact E|]. split; [|exact Hcons].
  intros M. rewrite Hm. rewrite <- forallb_forall. destruct (mlit M p), (forallb (mlit M) ls); intuition congruence.
Qed.
Lemma disj_reified : forall T ops (C : contract ops) (s0 s : st T) ls, good C s0 -> Reach C s0 s -> dlevel s = 0 -> in_scope s ls ->
  exists s' p, new_disj s ls = Ok (s', p) /\
    (forall M, smodels C s' M <-> smodels C s M /\ (mlit M p = true <-> exists q, In q ls /\ mlit M q = true)) /\
    (forall M, smodels C s M -> exists M', agree (nv s) M M' /\ smodels C s' M').
Proof.
  intros T ops C s0 s ls G0 HR Hd Hs. destruct (reach_good C s0 s G0 HR) as [HI Hc _].
  destruct (new_disj_ok C s ls HI Hc Hd Hs) as (s' & p & E & _ & Hcons & _ & Hm). exists s', p. split; [exact E|]. split; [|exact Hcons].
  intros M. rewrite Hm. rewrite <- existsb_exists. destruct (mlit M p), (existsb (mlit M) ls); intuition congruence.
Qed.
Lemma eq_reified : forall T ops (C : contract ops) (s0 s : st T) l r, good C s0 -> Reach C s0 s -> dlevel s = 0 -> in_scope s [l; r] ->
  exists s' p, new_eq s l r = Ok (s', p) /\
    (l = r \/ (value s l = LUndef <-> value s r = LUndef) \/ lsgn l = lsgn r ->
      forall M, smodels C s' M <-> smodels C s M /\
        (mlit M p = true -> mlit M l = mlit M r) /\ (mlit M l = true -> mlit M r = true -> mlit M p = true)) /\
    (forall M, smodels C s M -> exists M', agree (nv s) M M' /\ smodels C s' M').
Proof.
  intros T ops C s0 s l r G0 HR Hd Hs. destruct (reach_good C s0 s G0 HR) as [HI Hc _].
  destruct (new_eq_ok C s l r HI Hc Hd (Hs l (or_introl eq_refl)) (Hs r (or_intror (or_introl eq_refl)))) as (s' & p & E & _ & Hcons & _ & Hm).
  exists s', p. split; [exact E|]. split; [exact Hm|exact Hcons].
Qed.
Lemma amo_sound : forall T ops (C : contract ops) (s0 s : st T) ls, good C s0 -> Reach C s0 s -> dlevel s = 0 -> in_scope s ls ->
  exists s' p, new_at_most_one s ls = Ok (s', p) /\
    ((forall q, In q ls -> value s q <> LTrue) -> forall M, smodels C s' M -> mlit M p = true ->
       forall x y, In x ls -> In y ls -> mlit M x = true -> mlit M y = true -> x = y) /\
    (forall M, smodels C s' M -> smodels C s M) /\
    (forall M, smodels C s M -> exists M', agree (nv s) M M' /\ smodels C s' M').
Proof.
  intros T ops C s0 s ls G0 HR Hd Hs. destruct (reach_good C s0 s G0 HR) as [HI Hc _].
  destruct (amo_f_ok C (S (length ls)) s ls ltac:(lia) HI Hc Hd Hs) as (s' & p & E & P). exists s', p. split; [exact E|].
  split; [exact (a_sound _ _ _ _ _ P)|]. split; [apply P|apply P].
Qed.
(** Distinct unassigned literals are all kept. *)
Lemma filter_keeps v : forall ls p, (forall q, In q ls -> v q = LUndef) -> NoDup (map lvar ls) ->
  (forall q x, In q ls -> p = Some x -> lvar x <> lvar q) -> amo_filter v p ls = Some ls.
Proof.
  induction ls as [|q r IH]; intros p Hu Hn Hp; [reflexivity|]. cbn [amo_filter]. rewrite (Hu q (or_introl eq_refl)). cbn [lbool_eqb negb andb].
  assert (E : is_lit p q = false).
  { unfold is_lit. destruct p as [x|]; [|reflexivity]. destruct (lit_eqb_spec x q) as [->|]; [|reflexivity]. exfalso. exact (Hp q q (or_introl eq_refl) eq_refl eq_refl). }
  rewrite E. cbn [negb]. cbn in Hn. inversion Hn as [|a l Ha Hl Eq]; subst. rewrite (IH (Some q)); [reflexivity| |exact Hl|].
  - intros x Hx. apply Hu. right; exact Hx.
  - intros x y Hx Hy. inversion Hy; subst. intros H. apply Ha. rewrite H. apply in_map, Hx.
Qed.
Lemma sort_keeps T (s : st T) ls : (forall q, In q ls -> value s q = LUndef) -> NoDup (map lvar ls) -> amo_filter (value s) None (sort_by lvar ls) = Some (sort_by lvar ls).
Proof.
  intros Hu Hn. pose proof (sort_by_perm lvar ls) as HP. apply filter_keeps.
  - intros q Hq. apply Hu. eapply Permutation_in; [apply Permutation_sym|]; eassumption.
  - eapply Permutation_NoDup; [apply Permutation_map, HP|exact Hn].
  - intros q x _ E. discriminate.
Qed.
Lemma amo_free : forall T ops (C : contract ops) (s0 s : st T) ls s' p, good C s0 -> Reach C s0 s -> dlevel s = 0 -> in_scope s ls ->
  NoDup (map lvar ls) -> 2 <= List.length ls -> (forall q, In q ls -> value s q = LUndef) ->
  (forall e, ~ In (key_amo (sort_by lvar ls), e) (exprs s)) ->
  new_at_most_one s ls = Ok (s', p) -> forall M c, smodels C s M ->
  (c = true -> forall x y, In x ls -> In y ls -> mlit M x = true -> mlit M y = true -> x = y) ->
  exists M', agree (nv s) M M' /\ smodels C s' M' /\ mlit M' p = c.
Proof.
  intros T ops C s0 s ls s' p G0 HR Hd Hs Hn Hl Hu Hk E M c HM Hc. destruct (reach_good C s0 s G0 HR) as [HI Hca _].
  destruct (amo_f_ok C (S (length ls)) s ls ltac:(lia) HI Hca Hd Hs) as (s1 & p1 & E1 & P). unfold new_at_most_one in E. rewrite E in E1. inversion E1; subst.
  pose proof (sort_by_perm lvar ls) as HP.
  apply (a_fresh _ _ _ _ _ P _ (sort_keeps _ s ls Hu Hn)); [rewrite <- (Permutation_length HP); exact Hl|exact Hk|exact HM|].
  intros ->. apply amo_pos_of; [eapply Permutation_NoDup; [exact HP|eapply NoDup_map_inv, Hn]|].
  intros x y Hx Hy. apply Hc; [reflexivity| |]; (eapply Permutation_in; [apply Permutation_sym, HP|assumption]).
Qed.
Lemma exct_sound : forall T ops (C : contract ops) (s0 s : st T) ls, good C s0 -> Reach C s0 s -> dlevel s = 0 -> in_scope s ls ->
  exists s' p, new_exct_one s ls = Ok (s', p) /\
    ((forall q, In q ls -> value s q <> LTrue) -> forall M, smodels C s' M -> mlit M p = true ->
       (forall x y, In x ls -> In y ls -> mlit M x = true -> mlit M y = true -> x = y) /\ exists x, In x ls /\ mlit M x = true) /\
    (forall M, smodels C s' M -> smodels C s M) /\
    (NoDup (map lvar ls) -> (forall q, In q ls -> value s q = LUndef /\ lsgn q = true) ->
     (forall e, ~ In (key_amo (sort_by lvar ls), e) (exprs s)) ->
     forall M, smodels C s M -> exists M', agree (nv s) M M' /\ smodels C s' M').
Proof.
  intros T ops C s0 s ls G0 HR Hd Hs. destruct (reach_good C s0 s G0 HR) as [HI Hc _].
  destruct (exct_ok C s ls HI Hc Hd Hs) as (s' & p & E & P). exists s', p. split; [exact E|].
  split; [exact (x_sound _ _ _ _ _ P)|]. split; [apply P|]. intros Hn Hu Hk.
  apply (x_cons _ _ _ _ _ P (sort_by lvar ls)); [apply sort_keeps; [intros q Hq; apply Hu, Hq|exact Hn]| |exact Hk].
  intros _ q Hq. apply Hu. eapply Permutation_in; [apply Permutation_sym, sort_by_perm|exact Hq].
Qed.
