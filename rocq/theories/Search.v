(** Searching for a solution with the API: as long as some variable has no value, assume a literal of it.
    The loops below are the client's ([assume], [propagate], [next] are those of the core); which literal is assumed next is up to an
    arbitrary [chooser].  See also C36, C45, C67 for what a total assignment means for the theories. *)
From Verif Require Import Base Sat SatSpec SatInv SatPop SatImp SatRec SatAn SatProp SatLoop SatMain SatApi SatApi2 SatNext Reify Run SatFacts SatProps.

Section Search.
Context {T : Type} {ops : theory_ops T} (C : contract ops).
Notation st := (st T).

(** The choice may depend on the state and on how many choices have been made before. *)
Definition chooser := nat -> st -> option lit.
Definition chooses (pick : chooser) : Prop :=
  forall k s, match pick k s with Some p => lvar p < nv s /\ value s p = LUndef | None => total s end.

(** [n] bounds the number of decisions, [fuel] the length of each propagation. *)
Fixpoint solve (pick : chooser) (fuel n k : nat) (s : st) : res (st * bool) :=
  match n with
  | O => OOF
  | S n' =>
    match pick k s with
    | None => Ok (s, true)
    | Some p => '(s1, b) <- assume ops fuel s p ;; if b : bool then solve pick fuel n' (S k) s1 else Ok (s1, false)
    end
  end.
Definition search (pick : chooser) (fuel n : nat) (s : st) : res (st * bool) :=
  '(s1, b) <- propagate ops fuel s ;; if b : bool then solve pick fuel n 0 s1 else Ok (s1, false).
(** All the solutions, one after the other. *)
Fixpoint enumerate (pick : chooser) (fuel n m : nat) (s : st) : res (list (nat -> bool)) :=
  match m with
  | O => OOF
  | S m' =>
    '(s1, b) <- solve pick fuel n 0 s ;;
    if b : bool then '(s2, b2) <- next ops fuel s1 ;; if b2 : bool then l <- enumerate pick fuel n m' s2 ;; Ok (values s1 :: l) else Ok [values s1]
    else Ok []
  end.
Definition all_solutions (pick : chooser) (fuel n m : nat) (s : st) : res (list (nat -> bool)) :=
  '(s1, b) <- propagate ops fuel s ;; if b : bool then enumerate pick fuel n m s1 else Ok [].

(** Enough decisions for [v] variables, and enough fuel for each propagation. *)
Definition search_len (v : nat) : nat := S (2 * (v * v ^ v)).
Definition search_fuel (v : nat) : nat := S (S (2 * (v * v ^ v) + v)).

(** [th_decides]: a theory which has been told the value of all its atoms and has found no inconsistency has a solution for these values. *)
Definition th_decides : Prop := forall t vs M, th_inv C t vs -> th_feas C t ->
  (forall q, In q (concat vs) -> mlit M q = true) -> (forall v, th_atom C t v -> exists q, In q (concat vs) /\ lvar q = v) -> th_model C t M.

Lemma decs_len (s : st) p : InvT s -> decs_ok s -> lvar p < nv s -> value s p = LUndef -> S (dlevel s) <= nv s.
Proof.
  intros HT HD Hp Hu. unfold dlevel. rewrite <- (t_dec s HT). rewrite <- (map_length lvar (decisions s)).
  change (S (length (map lvar (decisions s)))) with (length (lvar p :: map lvar (decisions s))).
  rewrite <- (seq_length (nv s) 0). apply NoDup_incl_length.
  - constructor.
    + intros Hi. apply in_map_iff in Hi as (q & Eq & Hq). apply In_nth_error in Hq as (k & Ek). destruct (HD k q Ek) as [V _].
      apply value_undef in Hu. unfold value, vlit in V. rewrite Eq, Hu in V. discriminate.
    + apply NoDup_nth_error. rewrite map_length. intros i j Hi E. rewrite !nth_error_map in E.
      destruct (nth_error (decisions s) i) as [q|] eqn:Ei; [|apply nth_error_None in Ei; lia].
      destruct (nth_error (decisions s) j) as [r|] eqn:Ej; [|discriminate]. cbn in E. injection E as E.
      destruct (HD i q Ei) as [_ L1], (HD j r Ej) as [_ L2]. rewrite E in L1.
      assert (j < length (decisions s)) by (apply nth_error_Some; congruence). rewrite (t_dec s HT) in *. unfold dlevel in *. lia.
  - intros v [<-|Hv]; [apply in_seq; lia|]. apply in_map_iff in Hv as (q & <- & Hq). apply in_seq. pose proof (t_drange s HT q Hq). lia.
Qed.

Lemma decs_lev (s : st) : InvT s -> decs_ok s -> dlevel s <= nv s.
Proof.
  intros HT HD. unfold dlevel. rewrite <- (t_dec s HT), <- (map_length lvar (decisions s)), <- (seq_length (nv s) 0). apply NoDup_incl_length.
  - apply NoDup_nth_error. rewrite map_length. intros i j Hi E. rewrite !nth_error_map in E.
    destruct (nth_error (decisions s) i) as [q|] eqn:Ei; [|apply nth_error_None in Ei; lia].
    destruct (nth_error (decisions s) j) as [r|] eqn:Ej; [|discriminate]. cbn in E. injection E as E.
    destruct (HD i q Ei) as [_ L1], (HD j r Ej) as [_ L2]. rewrite E in L1.
    assert (j < length (decisions s)) by (apply nth_error_Some; congruence). rewrite (t_dec s HT) in *. unfold dlevel in *. lia.
  - intros v Hv. apply in_map_iff in Hv as (q & <- & Hq). apply in_seq. pose proof (t_drange s HT q Hq). lia.
Qed.

Lemma mu_assumed D (s : st) p : quiet C s -> lvar p < nv s -> value s p = LUndef -> mu D (@assumed T ops s p) < mu D s.
Proof.
  intros HQ Hp Hu. destruct (push_quiet C s p HQ Hp) as [[HIp Hqp _] _]. destruct (assumed_ok C s p HQ Hp) as (HIa & _ & Hg).
  pose proof (wt_bound D _ (i_t _ _ HIa)) as Hb. pose proof (qu_q _ _ HQ) as Hq.
  assert (Ea : @assumed T ops s p = enq (@push_st T ops s p) p None) by (unfold assumed; rewrite Hu; reflexivity).
  destruct (wt_grow D (@push_st T ops s p) (@assumed T ops s p) (i_t _ _ HIp) Hg) as (k & K1 & K2 & K3).
  { rewrite Ea. exists [p]. cbn [enq trail prop_q push_st]. split; [reflexivity|]. split; [|rewrite Hq; reflexivity].
    rewrite Hq. cbn. tauto. }
  change (wt D (@push_st T ops s p)) with (wt D s) in K1. change (wmax D (@push_st T ops s p)) with (wmax D s) in K3.
  rewrite Hqp in K2. cbn [length] in K2. assert (Hk : k = 1) by (rewrite Ea in K2; cbn [enq prop_q] in K2; rewrite app_length, Hqp in K2; cbn in K2; lia).
  unfold mu. rewrite Hq, K2, Hk. cbn [length]. lia.
Qed.
Lemma mu_bound (s : st) : prop_q s = [] -> mu (nv s) s < search_len (nv s).
Proof. intros Hq. unfold mu, search_len, wmax. rewrite Hq. cbn [length]. lia. Qed.

(** What a search keeps and what it achieves. *)
Record search_post (s s' : st) (b : bool) : Prop := {
  se_models : forall M, smodels C s' M <-> smodels C s M;
  se_nv : nv s' = nv s;
  se_decs : decs_ok s';
  se_true : b = true -> quiet C s' /\ total s';
  se_false : b = false -> doomed C s' }.

Context (pick : chooser) (HP : chooses pick).

Theorem solve_ok fuel : forall n k (s : st), quiet C s -> decs_ok s ->
  match solve pick fuel n k s with
  | UB => False
  | OOF => th_total C -> search_fuel (nv s) <= fuel -> n <= mu (nv s) s
  | Ok (s', b) => search_post s s' b
  end.
Proof.
  induction n as [|n IH]; intros k s HQ HD; cbn [solve]; [intros; lia|].
  specialize (HP k s) as Hk. destruct (pick k s) as [p|].
  - destruct Hk as [Hp Hu]. rewrite (assume_eq C fuel s p HQ Hp), Hu.
    destruct (assumed_ok C s p HQ Hp) as (HIa & HMa & Hga). pose proof (i_t _ _ (qu_inv _ _ HQ)) as HT.
    pose proof (decs_len s p HT HD Hp Hu) as Hlen.
    assert (Hda : dlevel (@assumed T ops s p) = S (dlevel s)) by (rewrite (grow_dlevel _ _ Hga); reflexivity).
    pose proof (propagate_ok_mu C (nv s) fuel _ HIa ltac:(lia)) as H. pose proof (mu_assumed (nv s) s p HQ Hp Hu) as Hmu.
    assert (Hnva : nv (@assumed T ops s p) = nv s) by (rewrite (gr_nv _ _ Hga); reflexivity).
    destruct (propagate ops fuel (@assumed T ops s p)) as [[s1 b]| |]; cbn [rbind]; [|exact H|].
    + destruct H as [H1 H2].
      assert (HS : step_post C (@assumed T ops s p) s1) by (destruct H1; constructor; assumption).
      assert (HD1 : decs_ok s1) by (apply (decs_step C _ s1 (i_t _ _ HIa) HS), decs_assumed; assumption).
      assert (Hnv : nv s1 = nv s) by (rewrite (pp_nv _ _ _ _ H1); exact Hnva).
      assert (HM : forall M, smodels C s1 M <-> smodels C s M) by (intros M; rewrite (pp_models _ _ _ _ H1); apply HMa).
      destruct b.
      * destruct (pp_true _ _ _ _ H1 eq_refl) as (A & B & D). assert (HQ1 : quiet C s1) by (constructor; assumption).
        specialize (IH (S k) s1 HQ1 HD1). destruct (solve pick fuel n (S k) s1) as [[s' b]| |]; [|exact IH|].
        -- destruct IH as [I1 I2 I3 I4 I5]. constructor; try assumption; [intros M; rewrite I1; apply HM|congruence].
        -- rewrite Hnv in IH. intros Ht Hf. specialize (IH Ht Hf). specialize (H2 eq_refl). lia.
      * constructor; try assumption; [discriminate|]. intros _. apply (pp_false _ _ _ _ H1 eq_refl).
    + intros Ht Hf. specialize (H Ht). exfalso. pose proof (mu_bound s (qu_q _ _ HQ)) as Hb. unfold search_len, search_fuel in *. lia.
  - constructor; auto; [tauto|discriminate].
Qed.

Lemma solve_fuel fuel fuel' : fuel <= fuel' -> forall n n' k (s : st) r, n <= n' -> quiet C s -> decs_ok s -> solve pick fuel n k s = Ok r -> solve pick fuel' n' k s = Ok r.
Proof.
  intros Hf. induction n as [|n IH]; intros n' k s r Hn HQ HD E; [discriminate|]. destruct n' as [|n']; [lia|]. cbn [solve] in *.
  specialize (HP k s) as Hk. destruct (pick k s) as [p|]; [|exact E]. destruct Hk as [Hp Hu].
  rewrite (assume_eq C fuel s p HQ Hp), Hu in E. rewrite (assume_eq C fuel' s p HQ Hp), Hu.
  destruct (assumed_ok C s p HQ Hp) as (HIa & HMa & Hga). pose proof (i_t _ _ (qu_inv _ _ HQ)) as HT.
  pose proof (propagate_ok C (dlevel (@assumed T ops s p)) fuel _ HIa (le_n _)) as H1.
  destruct (propagate ops fuel (@assumed T ops s p)) as [[s1 b]| |] eqn:Ep; cbn [rbind] in E; try discriminate.
  rewrite (propagate_fuel _ _ _ Ep _ Hf). cbn [rbind].
  assert (HS : step_post C (@assumed T ops s p) s1) by (destruct H1; constructor; assumption).
  assert (HD1 : decs_ok s1) by (apply (decs_step C _ s1 (i_t _ _ HIa) HS), decs_assumed; assumption).
  destruct b; [|exact E]. destruct (pp_true _ _ _ _ H1 eq_refl) as (A & B & D). apply IH; try assumption; [lia|constructor; assumption].
Qed.

(** What holds at each step of a search. *)
Lemma solve_inv (P : st -> Prop) fuel : (forall s p s', P s -> quiet C s -> lvar p < nv s -> value s p = LUndef -> assume ops fuel s p = Ok (s', true) -> P s') ->
  forall n k (s : st) s', P s -> quiet C s -> solve pick fuel n k s = Ok (s', true) -> P s'.
Proof.
  intros HS. induction n as [|n IH]; intros k s s' Hs HQ E; [discriminate|]. cbn [solve] in E.
  specialize (HP k s) as Hk. destruct (pick k s) as [p|]; [|injection E as <-; exact Hs]. destruct Hk as [Hp Hu].
  destruct (assume ops fuel s p) as [[s1 b]| |] eqn:Ea; cbn [rbind] in E; try discriminate. destruct b; [|discriminate].
  assert (HQ1 : quiet C s1).
  { pose proof Ea as Ea'. rewrite (assume_eq C fuel s p HQ Hp), Hu in Ea'. destruct (assumed_ok C s p HQ Hp) as (HIa & _ & _).
    pose proof (propagate_ok C _ fuel _ HIa (le_n _)) as H. rewrite Ea' in H. destruct (pp_true _ _ _ _ H eq_refl) as (A & B & D). constructor; assumption. }
  apply (IH (S k) s1 s'); [eapply HS; eassumption|exact HQ1|exact E].
Qed.
Lemma search_inv (P : st -> Prop) fuel n (s s' : st) : (forall s p s', P s -> quiet C s -> lvar p < nv s -> value s p = LUndef -> assume ops fuel s p = Ok (s', true) -> P s') ->
  (forall s1, propagate ops fuel s = Ok (s1, true) -> P s1) -> Inv C s -> search pick fuel n s = Ok (s', true) -> P s'.
Proof.
  intros HS H0 HI E. unfold search in E. destruct (propagate ops fuel s) as [[s1 b]| |] eqn:Ep; cbn [rbind] in E; try discriminate. destruct b; [|discriminate].
  pose proof (propagate_ok C _ fuel s HI (le_n _)) as H. rewrite Ep in H. destruct (pp_true _ _ _ _ H eq_refl) as (A & B & D).
  apply (solve_inv P fuel HS n 0 s1 s'); [apply H0; reflexivity|constructor; assumption|exact E].
Qed.

(** When everything has a value, the values are a model, the only one for these decisions. *)
Lemma total_model (s : st) : quiet C s -> total s -> th_decides -> smodels C s (values s).
Proof.
  intros [HI Hq Hs] Ht HTD. constructor.
  - unfold values. rewrite (t_a0 _ (i_t _ _ HI)). reflexivity.
  - apply (total_cls C s HI Hq Ht).
  - intros p Hp _. apply values_lit; congruence.
  - intros t Hin. pose proof (Hs t Hin) as Hfe. apply In_nth_error in Hin as (i & Ei).
    destruct (h_views _ _ _ _ (i_h _ _ HI) i t Ei) as (vs & HV & Hlen & Hv1 & Hv2).
    apply (HTD t vs (values s) HV Hfe).
    + intros q Hin. apply in_concat in Hin as (v & Hv & Hqv). apply In_nth_error in Hv as (j & Ej).
      destruct (Hv1 j v q Ej (or_introl Logic.I) Hqv) as [V _]. apply values_lit; congruence.
    + intros v Ha. pose proof (h_range _ _ _ _ (i_h _ _ HI) i t v Ei Ha) as Hr. specialize (Ht v (proj2 Hr)).
      set (l := mk_lit v (values s v)). assert (Hl : value s l = LTrue).
      { unfold l, value, vlit, values. cbn. destruct (assigns s v); congruence. }
      destruct (Hv2 l Ha Hl) as [Hp|(j & w & Ej & Hi & _)]; [rewrite Hq in Hp; destruct Hp|].
      exists l. split; [|reflexivity]. apply in_concat. exists w. split; [apply (nth_error_In _ _ Ej)|exact Hi].
Qed.
Lemma total_only (s : st) M : Inv C s -> total s -> smodels C s M -> (forall d, In d (decisions s) -> mlit M d = true) -> agree (nv s) M (values s).
Proof.
  intros HI Ht HM Hd v Hv. specialize (Ht v Hv). set (l := mk_lit v (values s v)). assert (Hl : value s l = LTrue).
  { unfold l, value, vlit, values. cbn. destruct (assigns s v); congruence. }
  assert (K : mlit M l = true). { apply (implied C s (i_t _ _ HI) (i_r _ _ HI) M HM l Hl). intros j d Ej _. apply Hd, (nth_error_In _ _ Ej). }
  unfold mlit, l in K. cbn in K. apply Bool.eqb_prop in K. exact K.
Qed.
Lemma decs_values (s : st) d : decs_ok s -> In d (decisions s) -> mlit (values s) d = true.
Proof. intros HD Hd. apply In_nth_error in Hd as (k & Ek). destruct (HD k d Ek) as [V _]. apply values_lit; congruence. Qed.

(** ** Searching from any state that can be reached. *)
Theorem search_decides (s0 s : st) : good C s0 -> Reach C s0 s -> decs_ok s -> th_total C -> th_decides ->
  exists s' b, (forall fuel n, search_fuel (nv s) <= fuel -> search_len (nv s) <= n -> search pick fuel n s = Ok (s', b)) /\ nv s' = nv s /\
  (b = true -> total s' /\ smodels C s (values s')) /\ (b = false -> forall M, ~ smodels C s M).
Proof.
  intros G0 HR HD HTt HTD. pose proof (g_inv _ _ (reach_good C _ _ G0 HR)) as HI. pose proof (i_t _ _ HI) as HT.
  pose proof (decs_lev s HT HD) as Hlev.
  assert (Hpw : nv s ^ dlevel s <= nv s ^ nv s) by (apply Nat.pow_le_mono_r; [pose proof (t_nv s HT); lia|lia]).
  pose proof (Nat.mul_le_mono_l _ _ (nv s) Hpw) as Hmul.
  destruct (SatMain.propagate_total C s (search_fuel (nv s)) HI HTt ltac:(unfold enough, search_fuel; lia)) as (s1 & b & E & P).
  assert (HS : step_post C s s1) by (destruct P; constructor; assumption). pose proof (decs_step C s s1 HT HS HD) as HD1.
  destruct b.
  - destruct (pp_true _ _ _ _ P eq_refl) as (A & B & D). assert (HQ1 : quiet C s1) by (constructor; assumption).
    pose proof (solve_ok (search_fuel (nv s)) (search_len (nv s)) 0 s1 HQ1 HD1) as HS1. pose proof (mu_bound s1 B) as Hb. rewrite (pp_nv _ _ _ _ P) in Hb, HS1.
    destruct (solve pick (search_fuel (nv s)) (search_len (nv s)) 0 s1) as [[s' b']| |] eqn:Es; [|contradiction|specialize (HS1 HTt (le_n _)); lia].
    exists s', b'. destruct HS1 as [I1 I2 I3 I4 I5]. split; [|split; [rewrite I2; apply (pp_nv _ _ _ _ P)|split]].
    + intros fuel n Hf Hn. unfold search. rewrite (propagate_fuel _ _ _ E _ Hf). cbn [rbind]. apply (solve_fuel _ _ Hf _ _ _ _ _ Hn HQ1 HD1 Es).
    + intros ->. destruct (I4 eq_refl) as [Q' T']. split; [exact T'|]. apply (pp_models _ _ _ _ P), I1. apply total_model; assumption.
    + intros -> M HM. apply (de_unsat _ _ (I5 eq_refl) M), I1, (pp_models _ _ _ _ P), HM.
  - exists s1, false. split; [|split; [apply (pp_nv _ _ _ _ P)|split; [discriminate|]]].
    + intros fuel n Hf Hn. unfold search. rewrite (propagate_fuel _ _ _ E _ Hf). reflexivity.
    + intros _ M HM. apply (de_unsat _ _ (pp_false _ _ _ _ P eq_refl) M), (pp_models _ _ _ _ P), HM.
Qed.

(** ** All the solutions. *)
(** Pairwise different on the first [n] variables. *)
Inductive distinct (n : nat) : list (nat -> bool) -> Prop :=
| di_nil : distinct n []
| di_cons M l : (forall M', In M' l -> ~ agree n M M') -> distinct n l -> distinct n (M :: l).

Fixpoint vectors (n : nat) : list (list bool) :=
  match n with O => [[]] | S n' => map (cons true) (vectors n') ++ map (cons false) (vectors n') end.
Lemma vectors_len n : length (vectors n) = 2 ^ n.
Proof. induction n as [|n IH]; [reflexivity|]. cbn [vectors]. rewrite app_length, !map_length, IH. cbn. lia. Qed.
Lemma vectors_in n : forall l, length l = n -> In l (vectors n).
Proof.
  induction n as [|n IH]; intros [|x l] E; try discriminate; [left; reflexivity|]. cbn in E. injection E as E. cbn [vectors]. apply in_or_app.
  destruct x; [left|right]; apply in_map, IH, E.
Qed.
Lemma distinct_len n l : distinct n l -> (forall M, In M l -> M 0 = false) -> length l <= 2 ^ (n - 1).
Proof.
  intros HD H0. set (f := fun M : nat -> bool => map M (seq 1 (n - 1))).
  assert (Hf : forall M M', M 0 = false -> M' 0 = false -> f M = f M' -> agree n M M').
  { intros M M' A B E v Hv. destruct v as [|v]; [congruence|]. unfold f in E.
    assert (K : nth_error (map M (seq 1 (n - 1))) v = nth_error (map M' (seq 1 (n - 1))) v) by (rewrite E; reflexivity).
    assert (Es : nth_error (seq 1 (n - 1)) v = Some (S v)).
    { rewrite (nth_error_nth' _ 0) by (rewrite seq_length; lia). rewrite seq_nth by lia. reflexivity. }
    rewrite !nth_error_map, Es in K. cbn in K. congruence. }
  rewrite <- (map_length f l), <- vectors_len. apply NoDup_incl_length.
  - induction HD as [|M l Hn HD IH]; [constructor|]. cbn [map]. constructor.
    + intros Hi. apply in_map_iff in Hi as (M' & E & Hi). apply (Hn M' Hi), Hf; [apply H0; left; reflexivity|apply H0; right; exact Hi|congruence].
    + apply IH. intros M' Hi. apply H0. right; exact Hi.
  - intros v Hv. apply in_map_iff in Hv as (M & <- & _). apply vectors_in. unfold f. rewrite map_length, seq_length. reflexivity.
Qed.

(** What a list of solutions must be. *)
Record solutions (n : nat) (P : (nat -> bool) -> Prop) (l : list (nat -> bool)) : Prop := {
  so_all : forall M, P M -> exists M', In M' l /\ agree n M M';
  so_only : forall M, In M l -> P M;
  so_once : distinct n l }.

Theorem enumerate_ok fuel n : th_decides -> forall m (s : st), quiet C s -> decs_ok s ->
  match enumerate pick fuel n m s with
  | UB => False
  | OOF => th_total C -> search_fuel (nv s) <= fuel -> search_len (nv s) <= n -> exists l, length l = m /\ distinct (nv s) l /\ forall M, In M l -> smodels C s M
  | Ok l => solutions (nv s) (smodels C s) l
  end.
Proof.
  intros HTD. induction m as [|m IH]; intros s HQ HD; cbn [enumerate].
  { intros _ _ _. exists []. split; [reflexivity|]. split; [constructor|intros M []]. }
  pose proof (solve_ok fuel n 0 s HQ HD) as HS. pose proof (mu_bound s (qu_q _ _ HQ)) as Hmu.
  destruct (solve pick fuel n 0 s) as [[s1 b]| |]; cbn [rbind]; [|exact HS|intros Ht Hf Hn; specialize (HS Ht Hf); lia].
  destruct HS as [M1 N1 D1 T1 F1]. destruct b.
  2:{ pose proof (de_unsat _ _ (F1 eq_refl)) as Hu. constructor; [|intros M []|constructor]. intros M HM. exfalso. apply (Hu M), M1, HM. }
  destruct (T1 eq_refl) as [Q1 Tot]. pose proof (total_model s1 Q1 Tot HTD) as Hm. pose proof (qu_inv _ _ Q1) as HI1.
  pose proof (total_only s1) as Hon.
  destruct (Nat.eq_dec (dlevel s1) 0) as [Hd|Hd].
  - rewrite (next_root fuel s1 Hd). cbn [rbind].
    assert (Ed : decisions s1 = []) by (pose proof (t_dec s1 (i_t _ _ HI1)) as E; fold (dlevel s1) in E; rewrite Hd in E; destruct (decisions s1); [reflexivity|discriminate]).
    constructor.
    + intros M HM. exists (values s1). split; [left; reflexivity|]. rewrite <- N1. apply Hon; [exact HI1|exact Tot|apply M1, HM|rewrite Ed; intros d []].
    + intros M [<-|[]]. apply M1, Hm.
    + constructor; [intros M' []|constructor].
  - pose proof (next_ok C fuel s1 Q1 D1 Hd) as HN.
    destruct (next ops fuel s1) as [[s2 b2]| |]; cbn [rbind]; [|exact HN|].
    + destruct HN as (NM & _ & Nnv & _ & D2 & _ & _ & Nt & Nf).
      assert (Hsplit : forall M, smodels C s M -> agree (nv s) M (values s1) \/ smodels C s2 M).
      { intros M HM. destruct (forallb (mlit M) (decisions s1)) eqn:Ef.
        - left. rewrite <- N1. apply Hon; [exact HI1|exact Tot|apply M1, HM|]. intros d Hi. rewrite forallb_forall in Ef. apply Ef, Hi.
        - right. apply NM. split; [apply M1, HM|]. destruct (existsb (fun d => negb (mlit M d)) (decisions s1)) eqn:Ee.
          + apply existsb_exists in Ee as (d & Hi & E). exists d. split; [exact Hi|]. destruct (mlit M d); [discriminate|reflexivity].
          + exfalso. assert (K : forallb (mlit M) (decisions s1) = true); [|congruence]. apply forallb_forall. intros d Hi.
            destruct (mlit M d) eqn:E; [reflexivity|]. assert (K : existsb (fun d => negb (mlit M d)) (decisions s1) = true); [|congruence].
            apply existsb_exists. exists d. rewrite E. auto. }
      assert (Hnew : forall M, smodels C s2 M -> ~ agree (nv s) (values s1) M).
      { intros M HM Ha. apply NM in HM as (_ & d & Hi & E). pose proof (decs_values s1 d D1 Hi) as K.
        rewrite (mlit_agree _ _ d (nv s) Ha) in K by (rewrite <- N1; apply (t_drange _ (i_t _ _ HI1) d Hi)). congruence. }
      assert (Hold : forall M, smodels C s2 M -> smodels C s M) by (intros M HM; apply NM in HM as [HM _]; apply M1, HM).
      destruct b2.
      * specialize (IH s2 (Nt eq_refl) D2). rewrite Nnv, N1 in IH. destruct (enumerate pick fuel n m s2) as [l| |]; cbn [rbind]; [|exact IH|].
        -- destruct IH as [I1 I2 I3]. constructor.
           ++ intros M HM. destruct (Hsplit M HM) as [Ha|HM2]; [exists (values s1); split; [left; reflexivity|exact Ha]|].
              destruct (I1 M HM2) as (M' & Hi & Ha). exists M'. split; [right; exact Hi|exact Ha].
           ++ intros M [<-|Hi]; [apply M1, Hm|apply Hold, I2, Hi].
           ++ constructor; [|exact I3]. intros M' Hi. apply Hnew, I2, Hi.
        -- intros Ht Hf Hn. destruct (IH Ht Hf Hn) as (l & L1 & L2 & L3). exists (values s1 :: l). split; [cbn; lia|]. split.
           ++ constructor; [|exact L2]. intros M' Hi. apply Hnew, L3, Hi.
           ++ intros M [<-|Hi]; [apply M1, Hm|apply Hold, L3, Hi].
      * pose proof (de_unsat _ _ (Nf eq_refl)) as Hu. constructor.
        -- intros M HM. destruct (Hsplit M HM) as [Ha|HM2]; [|destruct (Hu M HM2)]. exists (values s1). split; [left; reflexivity|exact Ha].
        -- intros M [<-|[]]. apply M1, Hm.
        -- constructor; [intros M' []|constructor].
    + intros Ht Hf Hn. specialize (HN Ht). exfalso. unfold enough in HN.
      pose proof (decs_lev s1 (i_t _ _ HI1) D1) as Hlev.
      assert (Hpw : nv s1 ^ dlevel s1 <= nv s1 ^ nv s1) by (apply Nat.pow_le_mono_r; [pose proof (t_nv s1 (i_t _ _ HI1)); lia|lia]).
      pose proof (Nat.mul_le_mono_l _ _ (nv s1) Hpw). rewrite <- N1 in Hf. unfold search_fuel in Hf. lia.
Qed.

Theorem all_solutions_ok (s0 s : st) : good C s0 -> Reach C s0 s -> decs_ok s -> th_decides ->
  forall fuel n m, all_solutions pick fuel n m s <> UB /\
  (forall l, all_solutions pick fuel n m s = Ok l -> solutions (nv s) (smodels C s) l) /\
  (th_total C -> search_fuel (nv s) <= fuel -> search_len (nv s) <= n -> 2 ^ (nv s - 1) < m -> exists l, all_solutions pick fuel n m s = Ok l).
Proof.
  intros G0 HR HD HTD fuel n m. pose proof (g_inv _ _ (reach_good C _ _ G0 HR)) as HI. pose proof (i_t _ _ HI) as HT. unfold all_solutions.
  pose proof (propagate_ok C (dlevel s) fuel s HI (le_n _)) as P. pose proof (mu_enough C s HI) as He.
  destruct (propagate ops fuel s) as [[s1 b]| |]; cbn [rbind]; [|contradiction|].
  - assert (HS : step_post C s s1) by (destruct P; constructor; assumption). pose proof (decs_step C s s1 HT HS HD) as HD1. pose proof (pp_nv _ _ _ _ P) as Hnv.
    destruct b.
    + destruct (pp_true _ _ _ _ P eq_refl) as (A & B & D). assert (HQ1 : quiet C s1) by (constructor; assumption).
      pose proof (enumerate_ok fuel n HTD m s1 HQ1 HD1) as HE. rewrite Hnv in HE.
      destruct (enumerate pick fuel n m s1) as [l| |]; [|contradiction|].
      * split; [discriminate|]. split; [|eauto]. intros l' E. injection E as <-. destruct HE as [E1 E2 E3]. constructor; [|intros M Hi; apply (pp_models _ _ _ _ P), E2, Hi|exact E3].
        intros M HM. apply E1, (pp_models _ _ _ _ P), HM.
      * split; [discriminate|]. split; [discriminate|]. intros Ht Hf Hn Hm. exfalso. destruct (HE Ht Hf Hn) as (l & L1 & L2 & L3).
        pose proof (distinct_len _ _ L2 ltac:(intros M Hi; apply (sm_false _ _ _ (L3 M Hi)))) as K. lia.
    + split; [discriminate|]. split; [|eauto]. intros l E. injection E as <-. pose proof (de_unsat _ _ (pp_false _ _ _ _ P eq_refl)) as Hu.
      constructor; [|intros M []|constructor]. intros M HM. exfalso. apply (Hu M), (pp_models _ _ _ _ P), HM.
  - split; [discriminate|]. split; [discriminate|]. intros Ht Hf _ _. exfalso. specialize (P Ht).
    pose proof (decs_lev s HT HD) as Hlev.
    assert (Hpw : nv s ^ dlevel s <= nv s ^ nv s) by (apply Nat.pow_le_mono_r; [pose proof (t_nv s HT); lia|lia]).
    pose proof (Nat.mul_le_mono_l _ _ (nv s) Hpw). unfold enough in He. unfold search_fuel in Hf. lia.
Qed.
End Search.
