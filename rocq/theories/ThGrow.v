(** Replacing a theory of the network by one with more constraints (new numeric variables, new
    atoms). *)
From Verif Require Import Base Keys Sat SatSpec SatInv SatPop SatImp SatRec SatAn SatProp SatLoop SatMain SatApi SatApi2 SatNext SatSimp Reify Amo Run.

Section Grow.
Context {T : Type} {ops : theory_ops T} (C : contract ops).
Notation st := (st T).

Definition grow_st (s : st) (i : nat) (t1 : T) (Vo : option nat) : st :=
  set_theories (set_nth (theories s) i t1) (match Vo with Some w => bind s w i | None => s end).

Lemma bind_eq (s : st) w i : bind s w i = set_bounds (if memn i (bounds s w) then bounds s else upd (bounds s) w (bounds s w ++ [i])) s.
Proof. unfold bind. destruct (memn i (bounds s w)); [destruct s; reflexivity|reflexivity]. Qed.

Theorem grow_ok (s : st) i t t1 Vo : good C s -> nth_error (theories s) i = Some t ->
  (forall w, th_atom C t1 w <-> th_atom C t w \/ Vo = Some w) ->
  (forall w, Vo = Some w -> 0 < w < nv s /\ assigns s w = LUndef /\ ~ th_atom C t w) ->
  (forall vs, length vs = S (dlevel s) -> th_inv C t vs -> (forall l, In l (last vs []) -> value s l = LTrue /\ level s (lvar l) = 0) -> th_inv C t1 vs) ->
  (th_feas C t -> th_feas C t1) ->
  (forall M, M 0 = false -> th_model C t1 M -> th_model C t M) ->
  (forall n v, th_fixed C t1 n v -> th_fixed C t n v) ->
  good C (grow_st s i t1 Vo) /\ (settled C s -> settled C (grow_st s i t1 Vo)) /\ forall M, smodels C (grow_st s i t1 Vo) M <-> smodels C s M /\ th_model C t1 M.
Proof.
  intros G Ei Hat HVo Hinv Hfeas Hmod Hfix. assert (Hi : i < length (theories s)) by (apply nth_error_Some; congruence).
  pose (bs := match Vo with Some w => if memn i (bounds s w) then bounds s else upd (bounds s) w (bounds s w ++ [i]) | None => bounds s end).
  assert (E : grow_st s i t1 Vo = set_theories (set_nth (theories s) i t1) (set_bounds bs s)).
  { unfold grow_st, bs. destruct Vo as [w|]; [rewrite bind_eq; reflexivity|destruct s; reflexivity]. }
  assert (Hbs : forall j w, In j (bs w) <-> In j (bounds s w) \/ (j = i /\ Vo = Some w)).
  { intros j w. unfold bs. destruct Vo as [u|]; [|split; [auto|intros [H|[_ H]]; [exact H|discriminate]]].
    destruct (memn i (bounds s u)) eqn:Em.
    - apply memn_In in Em. split; [auto|]. intros [H|[-> H]]; [exact H|]. inversion H; subst. exact Em.
    - unfold upd. destruct (Nat.eqb_spec w u) as [->|Hn].
      + rewrite in_app_iff. cbn. split; [intros [H|[H|[]]]; auto|intros [H|[-> _]]; auto].
      + split; [auto|]. intros [H|[_ H]]; [exact H|congruence]. }
  assert (Hbn : forall w, NoDup (bs w)).
  { intros w. pose proof (h_nodup _ _ _ _ (i_h _ _ (g_inv _ _ G))) as ND. unfold bs. destruct Vo as [u|]; [|apply ND]. destruct (memn i (bounds s u)) eqn:Em; [apply ND|].
    unfold upd. destruct (w =? u); [|apply ND]. apply memn_nIn in Em. apply (Permutation_NoDup (Permutation_cons_append _ _)). constructor; [exact Em|apply ND]. }
  rewrite E. set (s' := set_theories (set_nth (theories s) i t1) (set_bounds bs s)).
  assert (HM : forall M, smodels C s' M <-> smodels C s M /\ th_model C t1 M).
  { intros M. split.
    - intros [A B D F]. cbn in F. assert (H1 : th_model C t1 M) by (apply F; apply (nth_error_In _ i); rewrite nth_set_nth by exact Hi; rewrite Nat.eqb_refl; reflexivity).
      split; [|exact H1]. constructor; [exact A|exact B|exact D|]. intros u Hu. apply In_nth_error in Hu as (j & Ej). destruct (Nat.eq_dec j i) as [->|Hj].
      + rewrite Ei in Ej. inversion Ej; subst. apply Hmod; assumption.
      + apply F. apply (nth_error_In _ j). rewrite nth_set_nth by exact Hi. destruct (Nat.eqb_spec j i); [congruence|exact Ej].
    - intros [[A B D F] H1]. constructor; [exact A|exact B|exact D|]. intros u Hu. cbn in Hu. apply In_nth_error in Hu as (j & Ej). rewrite nth_set_nth in Ej by exact Hi.
      revert Ej. destruct (Nat.eqb_spec j i) as [->|Hj]; intros Ej; [inversion Ej; subst; exact H1|]. apply F, (nth_error_In _ j), Ej. }
  assert (HS : settled C s -> settled C s').
  { intros Q2 u Hu. cbn [theories s' set_theories] in Hu. apply In_nth_error in Hu as (j & Ej). rewrite nth_set_nth in Ej by exact Hi.
    revert Ej. destruct (Nat.eqb_spec j i) as [->|Hj]; intros Ej; [inversion Ej; subst; apply Hfeas, Q2, (nth_error_In _ i), Ei|apply Q2, (nth_error_In _ j), Ej]. }
  split; [|split; [exact HS|exact HM]]. destruct G as [[A B D F Hq [J1 J2 J3 J4 J5 J6]] K1 K2]. constructor.
  - constructor.
    + destruct A; constructor; assumption.
    + destruct B; constructor; assumption.
    + destruct D; constructor; assumption.
    + exact F.
    + destruct Hq; constructor; assumption.
    + constructor.
      * intros j u Ej. cbn [theories s' set_theories] in Ej. rewrite nth_set_nth in Ej by exact Hi. revert Ej. destruct (Nat.eqb_spec j i) as [->|Hj]; intros Ej.
        -- inversion Ej; subst u. destruct (J1 i t Ei) as (vs & V1 & V2 & V3 & V4). exists vs. split; [|split; [exact V2|split; [exact V3|]]].
           ++ apply Hinv; [exact V2|exact V1|]. intros l Hl.
              assert (Hne : vs <> []) by (intros ->; discriminate V2). destruct (exists_last Hne) as (vs0 & v0 & ->).
              rewrite last_last in Hl. rewrite app_length in V2. cbn in V2.
              destruct (V3 (length vs0) v0 l) as [R1 R2]; [rewrite nth_error_app2, Nat.sub_diag by lia; reflexivity|left; exact I|exact Hl|].
              split; [exact R1|]. rewrite R2. lia.
           ++ intros l Hl Hv. apply Hat in Hl as [Hl|Hl]; [apply V4; assumption|]. destruct (HVo _ Hl) as (_ & Hu & _).
              assert (Hx : value s l = LUndef) by (apply value_undef, Hu). change (value s l = LTrue) in Hv. congruence.
        -- exact (J1 j u Ej).
      * intros j u w Ej Hw. cbn [theories s' set_theories] in Ej. rewrite nth_set_nth in Ej by exact Hi. revert Ej. destruct (Nat.eqb_spec j i) as [->|Hj]; intros Ej; [|exact (J2 j u w Ej Hw)].
        inversion Ej; subst u. apply Hat in Hw as [Hw|Hw]; [exact (J2 i t w Ei Hw)|apply (HVo w Hw)].
      * intros j u w Ej Hw Hc. cbn [bounds s' set_theories set_bounds]. apply Hbs. cbn [theories s' set_theories] in Ej. rewrite nth_set_nth in Ej by exact Hi. revert Ej. destruct (Nat.eqb_spec j i) as [->|Hj]; intros Ej.
        -- inversion Ej; subst u. apply Hat in Hw as [Hw|Hw]; [left; exact (J3 i t w Ei Hw Hc)|right; auto].
        -- left. exact (J3 j u w Ej Hw Hc).
      * intros j w Hj. cbn [bounds s' set_theories set_bounds] in Hj. apply Hbs in Hj. cbn [theories s' set_theories]. rewrite nth_set_nth by exact Hi. destruct (Nat.eqb_spec j i) as [->|Hn].
        -- exists t1. split; [reflexivity|]. apply Hat. destruct Hj as [Hj|[_ Hj]]; [left|right; exact Hj]. destruct (J4 i w Hj) as (u & Eu & Hu). rewrite Ei in Eu. inversion Eu; subst. exact Hu.
        -- destruct Hj as [Hj|[Hj _]]; [exact (J4 j w Hj)|congruence].
      * exact Hbn.
      * intros j u n w Ej Hf. cbn [theories s' set_theories] in Ej. rewrite nth_set_nth in Ej by exact Hi. revert Ej. destruct (Nat.eqb_spec j i) as [->|Hj]; intros Ej; [|exact (J6 j u n w Ej Hf)].
        inversion Ej; subst u. exact (J6 i t n w Ei (Hfix n w Hf)).
  - apply (cache_mono C s); [exact K1|reflexivity|cbn; lia|]. intros M Hm. apply HM, Hm.
  - intros Hd. destruct (K2 Hd) as [Q1 Q2]. split; [exact Q1|]. apply HS, Q2.
Qed.
End Grow.
