(** Comparisons between expressions: substitution of the basic variables, immediate answers. *)
From Verif Require Import Base Sat SatSpec SatInv Lin Qe Lra LraTab LraVal LraInv LraChk LraPro LraCon LraNew.
From Coq Require Import Lqa.
Open Scope Q_scope.
Local Arguments Nat.ltb : simpl never.
Local Arguments Nat.eqb : simpl never.

(** ** lra_theory.cpp:63-73 *)
Lemma add_term_dom m e v : asc m -> dom (add_term m e) v -> dom m v \/ v = fst e.
Proof.
  intros Ha. unfold add_term, dom. destruct (mfind (fst e) m) as [d|] eqn:E; [destruct (qzero (d + snd e))|].
  - rewrite mdel_find by exact Ha. destruct (Nat.eqb_spec (fst e) v); [congruence|auto].
  - rewrite mput_find by exact Ha. destruct (Nat.eqb_spec (fst e) v); auto.
  - rewrite mput_find by exact Ha. destruct (Nat.eqb_spec (fst e) v); auto.
Qed.
Lemma add_term_keep m e v : asc m -> v <> fst e -> mfind v (add_term m e) = mfind v m.
Proof.
  intros Ha Hn. unfold add_term. destruct (mfind (fst e) m) as [d|] eqn:E; [destruct (qzero (d + snd e))|]; rewrite ?mdel_find, ?mput_find by exact Ha; destruct (Nat.eqb_spec (fst e) v); congruence.
Qed.
Lemma fold_add_dom : forall r m v, asc m -> dom (fold_left add_term r m) v -> dom m v \/ dom r v.
Proof.
  induction r as [|e r IH]; intros m v Ha H; cbn [fold_left] in H; [left; exact H|]. apply IH in H; [|apply add_term_asc, Ha]. destruct H as [H|H].
  - apply add_term_dom in H; [|exact Ha]. destruct H as [H| ->]; [left; exact H|right]. destruct e as [u c]. unfold dom; cbn. rewrite Nat.eqb_refl. discriminate.
  - right. destruct e as [u c]. unfold dom in *; cbn. destruct (Nat.eqb u v); [discriminate|exact H].
Qed.
Lemma fold_add_keep : forall r m v, asc m -> ~ dom r v -> mfind v (fold_left add_term r m) = mfind v m.
Proof.
  induction r as [|e r IH]; intros m v Ha H; cbn [fold_left]; [reflexivity|]. destruct e as [u c].
  assert (Hv : v <> u) by (intros ->; apply H; unfold dom; cbn; rewrite Nat.eqb_refl; discriminate).
  rewrite IH; [apply add_term_keep; [exact Ha|exact Hv]|apply add_term_asc, Ha|]. intros Hd. apply H. unfold dom in *; cbn. destruct (Nat.eqb_spec u v); [congruence|exact Hd].
Qed.

Section Subst.
Context (t : lra) (vs : list (list lit)) (HI : TInv t vs).
Record sub_inv (e0 e : lin) (todo : list nat) : Prop := {
  si_clean : lin_clean e;
  si_val : forall y, tsol (tab t) y -> lval y e == lval y e0;
  si_lt : forall v, dom (lvars e) v -> (v < nx t)%nat;
  si_todo : forall v, dom (lvars e) v -> gfind v (tab t) = None \/ In v todo;
  si_keep : forall v, In v todo -> gfind v (tab t) <> None -> mfind v (lvars e) = mfind v (lvars e0) }.
Lemma subst_step e0 e v todo : (forall u, In u (v :: todo) -> dom (lvars e0) u) -> NoDup (v :: todo) -> sub_inv e0 e (v :: todo) -> sub_inv e0 (subst_row t e v) todo.
Proof.
  intros Hd Hnd [A B D E F]. inversion Hnd as [|? ? Hnv Hnd']; subst. unfold subst_row. destruct (gfind v (tab t)) as [l|] eqn:Ev.
  - assert (Hrow := gfind_in _ _ _ Ev). assert (Hwf := ti_wf _ _ HI). destruct (wt_clean _ _ _ Hwf v l Hrow) as [L1 L2].
    assert (Hm := F v (or_introl eq_refl)). rewrite Ev in Hm. specialize (Hm ltac:(discriminate)). specialize (Hd v (or_introl eq_refl)) as Hdv. unfold dom in Hdv.
    destruct (mfind v (lvars e0)) as [c|] eqn:Ec; [|congruence]. rewrite Hm. destruct A as [A1 A2].
    assert (Hc : ~ c == 0) by (apply (A2 v c), mfind_in, Hm).
    assert (Ad : asc (mdel v (lvars e))) by (apply mdel_asc, A1).
    assert (Hr : forall u, dom (mmap (fun d => d * c) (lvars l)) u -> dom (lvars l) u) by (intros u; apply (mmap_dom)).
    constructor.
    + apply (lin_add_clean (mk_lin (mdel v (lvars e)) (lkt e)) (lin_mul l c)); [split; cbn [lvars]; [exact Ad|]|split; cbn [lvars lin_mul]; [apply mmap_asc, L1|]].
      * intros u d Hi. apply mdel_in in Hi as [_ Hi]; [|exact A1]. apply (A2 u d Hi).
      * apply mmap_nonzero; [|exact L2]. intros d Hdz Hz. apply Qmult_integral in Hz. tauto.
    + intros y Hy. rewrite <- (B y Hy), lin_add_in_ok by exact Ad. rewrite lin_mul_ok, <- (Hy v l Hrow). unfold lval; cbn [lvars lkt]. rewrite (msum_del y v (lvars e) c Hm). ring.
    + intros u Hu. cbn [lin_add_in lvars] in Hu. apply fold_add_dom in Hu; [|exact Ad]. destruct Hu as [Hu|Hu].
      * apply D. unfold dom in *. rewrite mdel_find in Hu by exact A1. destruct (Nat.eqb v u); [congruence|exact Hu].
      * apply (wt_var _ _ _ Hwf v l u Hrow), Hr, Hu.
    + intros u Hu. cbn [lin_add_in lvars] in Hu. apply fold_add_dom in Hu; [|exact Ad]. destruct Hu as [Hu|Hu].
      * unfold dom in Hu. rewrite mdel_find in Hu by exact A1. revert Hu. destruct (Nat.eqb_spec v u) as [->|Hn]; intros Hu; [congruence|]. destruct (E u Hu) as [H|[H|H]]; [left; exact H|congruence|right; exact H].
      * left. apply (wt_var _ _ _ Hwf v l u Hrow), Hr, Hu.
    + intros u Hu Hb. cbn [lin_add_in lvars]. rewrite fold_add_keep; [|exact Ad|].
      * rewrite mdel_find by exact A1. destruct (Nat.eqb_spec v u) as [->|]; [contradiction|]. apply F; [right; exact Hu|exact Hb].
      * intros Hx. apply Hr in Hx. apply Hb. apply (wt_var _ _ _ Hwf v l u Hrow Hx).
  - constructor; auto.
    + intros u Hu. destruct (E u Hu) as [H|[<-|H]]; auto.
    + intros u Hu. apply F. right; exact Hu.
Qed.
Lemma subst_fold e0 : forall todo e, (forall u, In u todo -> dom (lvars e0) u) -> NoDup todo -> sub_inv e0 e todo -> sub_inv e0 (fold_left (subst_row t) todo e) [].
Proof.
  induction todo as [|v todo IH]; intros e Hd Hnd H; cbn [fold_left]; [exact H|]. inversion Hnd as [|? ? _ Hnd']; subst. apply IH; [intros u Hu; apply Hd; right; exact Hu|exact Hnd'|].
  apply subst_step; assumption.
Qed.
Lemma asc_keys_nodup (m : qmap) : asc m -> NoDup (map fst m).
Proof.
  induction m as [|[k c] r IH]; intros H; cbn; [constructor|]. apply asc_tail in H as [H1 H2]. constructor; [|apply IH, H2].
  intros Hi. apply in_map_iff in Hi as ([k' d] & E & Hi). cbn in E. subst. pose proof (above_in _ _ H1 _ _ Hi). lia.
Qed.
Theorem subst_ok e : lin_clean e -> (forall v, dom (lvars e) v -> (v < nx t)%nat) ->
  lin_clean (subst_basic t e) /\ (forall y, tsol (tab t) y -> lval y (subst_basic t e) == lval y e) /\
  (forall v, dom (lvars (subst_basic t e)) v -> (v < nx t)%nat /\ gfind v (tab t) = None).
Proof.
  intros Hc Hv. assert (H : sub_inv e (subst_basic t e) []).
  { apply subst_fold; [intros u Hu; apply dom_fst, Hu|apply asc_keys_nodup, Hc|]. constructor; auto. - intros; reflexivity. - intros v Hd. right. apply dom_fst, Hd. }
  destruct H as [A B D E F]. split; [exact A|]. split; [exact B|]. intros v Hd. split; [apply D, Hd|]. destruct (E v Hd) as [H|[]]. exact H.
Qed.
End Subst.

Lemma sub_term_dom m e v : asc m -> dom (sub_term m e) v -> dom m v \/ v = fst e.
Proof.
  intros Ha. unfold sub_term, dom. destruct (mfind (fst e) m) as [d|] eqn:E; [destruct (qzero (d - snd e))|].
  - rewrite mdel_find by exact Ha. destruct (Nat.eqb_spec (fst e) v); [congruence|auto].
  - rewrite mput_find by exact Ha. destruct (Nat.eqb_spec (fst e) v); auto.
  - rewrite mput_find by exact Ha. destruct (Nat.eqb_spec (fst e) v); auto.
Qed.
Lemma fold_sub_dom : forall r m v, asc m -> dom (fold_left sub_term r m) v -> dom m v \/ dom r v.
Proof.
  induction r as [|e r IH]; intros m v Ha H; cbn [fold_left] in H; [left; exact H|]. apply IH in H; [|apply sub_term_asc, Ha]. destruct H as [H|H].
  - apply sub_term_dom in H; [|exact Ha]. destruct H as [H| ->]; [left; exact H|right]. destruct e as [u c]. unfold dom; cbn. rewrite Nat.eqb_refl. discriminate.
  - right. destruct e as [u c]. unfold dom in *; cbn. destruct (Nat.eqb u v); [discriminate|exact H].
Qed.

(** ** Comparisons. *)
(** What new_leq (Up), new_geq (Lo), new_lt (Up, strict), new_gt (Lo, strict) say. *)
Definition cmpP (s : side) (strict : bool) (a b : Q) : Prop :=
  match s, strict with Up, false => a <= b | Up, true => a < b | Lo, false => b <= a | Lo, true => b < a end.

Lemma right_hold s strict k q a b : a - b == q + k -> (bhold s (Some (cmp_right s strict k)) q <-> cmpP s strict a b).
Proof. intros E. unfold cmp_right, cmpP. destruct s, strict; cbn; split; intros H; lra. Qed.
Lemma right_ok s strict k : bok s (cmp_right s strict k).
Proof. unfold bok, cmp_right. destruct s, strict; cbn; lra. Qed.
Lemma cmp_sat_ok s strict c b q : cmp_sat s strict c b = true -> bhold s b q -> bhold s (Some c) q.
Proof.
  unfold cmp_sat. destruct b as [u|]; [|discriminate]. intros H. apply (bhold_weak s (Some c) (Some u)). cbn. destruct strict; [|exact H].
  apply negb_true_iff, sle_false in H. apply sle_iff, sltP_le, H.
Qed.
Lemma cmp_unsat_ok s strict k b q : bsgn (other s) b -> cmp_unsat s strict (cmp_right s strict k) b = true -> bhold (other s) b q -> ~ bhold s (Some (cmp_right s strict k)) q.
Proof.
  unfold cmp_unsat. destruct b as [[r e]|]; [|discriminate]. destruct strict; intros Hs H.
  - apply sle_iff in H. destruct s; cbn in *; unfold qle in H; cbn in H; intros A B; lra.
  - apply negb_true_iff, sle_false in H. destruct s; cbn in *; unfold qlt in H; cbn in H; intros A B; lra.
Qed.
(** Without variables, one of the two answers applies. *)
Lemma cmp_empty s strict c b : cmp_sat s strict c (Some b) = false -> cmp_unsat s strict c (Some b) = false -> False.
Proof.
  unfold cmp_sat, cmp_unsat. destruct strict; intros A B.
  - apply negb_false_iff, sle_iff in A. apply sle_false in B. apply (proj1 (sltP_other _ _ _)) in B. exact (sltP_irrefl _ _ (sle_lt_trans _ _ _ _ A B)).
  - apply negb_false_iff, sle_iff in B. apply sle_false in A. apply (proj1 (sleP_other _ _ _)) in B. exact (sltP_irrefl _ _ (slt_le_trans _ _ _ _ A B)).
Qed.
Lemma bhold_dec s b q : {bhold s b q} + {~ bhold s b q}.
Proof.
  destruct b as [[r e]|]; [|left; exact I]. destruct s; cbn.
  - destruct (Qlt_le_dec q r) as [H|H]; [right; intros [A _]; lra|]. destruct (Qlt_le_dec 0 e) as [He|He].
    + destruct (Qlt_le_dec r q) as [H2|H2]; [left; split; auto|right; intros [_ B]; specialize (B He); lra].
    + left. split; [exact H|]. intros; lra.
  - destruct (Qlt_le_dec r q) as [H|H]; [right; intros [A _]; lra|]. destruct (Qlt_le_dec e 0) as [He|He].
    + destruct (Qlt_le_dec q r) as [H2|H2]; [left; split; auto|right; intros [_ B]; specialize (B He); lra].
    + left. split; [exact H|]. intros; lra.
Qed.
Lemma bhold_qeq s a b q : qe_eqb a b = true -> bhold s (Some a) q <-> bhold s (Some b) q.
Proof.
  destruct a as [r e], b as [r' e']. unfold qe_eqb; cbn. intros H. apply andb_true_iff in H as [A B]. apply Qeq_bool_iff in A, B. destruct s; cbn; lra.
Qed.
Lemma find_asrt_ok t vs s x c p : TInv t vs -> find_asrt t s x c = Some p -> exists a, In (lvar p, a) (v_asrts t) /\ p = mk_lit (lvar p) true /\ a_op a = s /\ a_x a = x /\ qe_eqb (a_v a) c = true.
Proof.
  intros HI. unfold find_asrt. destruct (find _ (s_asrts t)) as [[[[s' x'] c'] p']|] eqn:E; [|discriminate]. intros H. assert (p' = p) by (cbn in H; congruence). subst p'. apply find_some in E as [E1 E2].
  cbn [fst snd] in E2. apply andb_true_iff in E2 as [E2 E4]. apply andb_true_iff in E2 as [E2 E3]. apply Nat.eqb_eq in E3. destruct (side_eqb_spec s' s); [|discriminate]. subst.
  destruct (ti_sas _ _ HI _ _ _ _ E1) as (a & A & B & D & F & G). exists a. split; [exact A|]. split; [rewrite B at 1; apply (ti_atom _ _ HI _ _ A)|]. rewrite G. auto.
Qed.
