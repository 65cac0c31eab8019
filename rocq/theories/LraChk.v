(** The consistency check of the linear real arithmetic theory. *)
From Verif Require Import Base Sat SatSpec Lin Qe Lra LraTab LraVal LraInv.
From Coq Require Import Lqa.
Open Scope Q_scope.
Local Arguments Nat.ltb : simpl never.
Local Arguments Nat.eqb : simpl never.

Lemma nonzero_row t vs x l : TInv t vs -> In (x, l) (tab t) -> nonzero (lvars l).
Proof. intros H Hi. apply (wt_clean _ _ _ (ti_wf _ _ H) _ _ Hi). Qed.

(** The bounds of the other variables of a violated row are incompatible with that of its own. *)
Section Row.
Context (t : lra) (vs : list (list lit)) (HI : TInv t vs) (xi : nat) (l : lin) (s : side) (Hi : In (xi, l) (tab t)).
Context (Hv : viol t s xi = true) (Hn : forall v c, In (v, c) (lvars l) -> room t (other (tside s c)) v = false).
Let g v c := bound t (tside (other s) c) v.

Lemma farkas : exists T b0, bsum g (lvars l) (Some (qe_of (lkt l))) = Some T /\ bound t s xi = Some b0 /\ sltP s T b0.
Proof.
  assert (H1 : forall v c, In (v, c) (lvars l) -> inb (tside s c) (g v c) (vals t v) /\ g v c <> None).
  { intros v c Hc. specialize (Hn v c Hc). unfold room in Hn. unfold g. rewrite tside_other. destruct (bound t (other (tside s c)) v) as [b|]; [|discriminate].
    split; [|discriminate]. apply negb_false_iff, sle_iff in Hn. apply (proj1 (sleP_other _ _ _)) in Hn. exact Hn. }
  assert (H2 := bsum_inb s g (vals t) (lvars l) (Some (qe_of (lkt l))) (qe_of (lkt l)) (nonzero_row t vs xi l HI Hi) (fun v c Hc => proj1 (H1 v c Hc)) (sleP_refl s (qe_of (lkt l)))).
  assert (H3 : bsum g (lvars l) (Some (qe_of (lkt l))) <> None) by (apply bsum_some; [discriminate|intros v c Hc; apply H1, Hc]).
  destruct (bsum g (lvars l) (Some (qe_of (lkt l)))) as [T|] eqn:ET; [|congruence]. exists T.
  unfold viol in Hv. destruct (bound t s xi) as [b0|] eqn:Eb; [|discriminate]. exists b0. split; [reflexivity|]. split; [reflexivity|].
  apply negb_true_iff, sle_false in Hv. refine (sle_lt_trans s _ _ _ _ Hv).
  destruct (vsol_row _ _ _ _ (ti_val _ _ HI) Hi) as [E1 E2].
  refine (inb_eq s (Some T) _ _ _ _ H2); cbn in *; lra.
Qed.
(** No model, as soon as all the reasons hold. *)
Lemma farkas_joint M y : M 0%nat = false -> joint t M y ->
  (forall v c, In (v, c) (lvars l) -> mlit M (breason t (other (tside s c)) v) = true) -> mlit M (breason t s xi) = true -> False.
Proof.
  intros HM HJ H1 H2. destruct farkas as (T & b0 & ET & Eb & Hlt). pose proof (ti_b _ _ HI) as HB.
  assert (A : bsgn (other s) (Some T) /\ bhold (other s) (Some T) (lkt l + msum y (lvars l))).
  { rewrite <- ET. apply bsum_hold; [exact (nonzero_row t vs xi l HI Hi)| |destruct s; cbn; lra|destruct s; cbn; lra].
    intros v c Hc. unfold g. split; [apply (b_sgn _ _ _ HB)|]. apply (bound_holds t vs HI (cb t) vs HB _ _ M y HM HJ). rewrite tside_other. apply H1, Hc. }
  destruct A as [A1 A2]. apply (bhold_conflict s b0 T (y xi)).
  - rewrite <- Eb. apply (b_sgn _ _ _ HB).
  - exact A1.
  - exact Hlt.
  - rewrite <- Eb. apply (bound_holds t vs HI (cb t) vs HB _ _ M y HM HJ H2).
  - eapply bhold_eq; [|exact A2]. destruct HJ as [HS _]. rewrite (HS _ _ Hi). unfold lval. ring.
Qed.
(** Nor extended values. *)
Lemma farkas_vals f us : vsol (tab t) us -> within f us ->
  (forall v c, In (v, c) (lvars l) -> f (other (tside s c)) v = cb t (other (tside s c)) v) -> f s xi = cb t s xi -> False.
Proof.
  intros HS HW H1 H2. destruct farkas as (T & b0 & ET & Eb & Hlt).
  assert (A : inb (other s) (Some T) (qe_add (qe_of (lkt l)) (qsum us (lvars l)))).
  { rewrite <- ET. apply bsum_inb; [exact (nonzero_row t vs xi l HI Hi)| |apply sleP_refl].
    intros v c Hc. unfold g, bound. rewrite tside_other, <- (H1 v c Hc). apply HW. }
  assert (B : inb s (Some b0) (us xi)) by (rewrite <- Eb; unfold bound; rewrite <- H2; apply HW).
  destruct (vsol_row _ _ _ _ HS Hi) as [E1 E2].
  assert (D : inb (other s) (Some T) (us xi)) by (refine (inb_eq _ (Some T) _ _ _ _ A); cbn in *; lra).
  cbn in B, D. apply (proj1 (sleP_other _ _ _)) in D. apply (sltP_irrefl s T). eapply slt_le_trans; [exact Hlt|]. eapply sleP_trans; eassumption.
Qed.
End Row.

(** A step keeps the constraints, the bounds and the layers. *)
Record kept (t t' : lra) : Prop := {
  k_same : same t t';
  k_cb : cb t' = cb t;
  k_aw : aw t' = aw t;
  k_xe : xexprs t' = xexprs t;
  k_sa : s_asrts t' = s_asrts t;
  k_lay : layers t' = layers t }.
Lemma kept_refl t : kept t t.
Proof. constructor; auto. apply same_refl. Qed.
Lemma kept_trans a b c : kept a b -> kept b c -> kept a c.
Proof. intros [A1 A2 A3 A4 A5 A6] [B1 B2 B3 B4 B5 B6]. constructor; try congruence. eapply same_trans; eassumption. Qed.
Lemma kept_loose t t' x : kept t t' -> loose t x -> loose t' x.
Proof. intros [K1 K2 K3 K4 K5 K6] (A & l & H). split; [congruence|]. exists l. unfold rootcb, bound in *. rewrite K2, K4, K6. exact H. Qed.
Lemma kept_TInv t t' vs : TInv t vs -> kept t t' -> (forall x l, In (x, l) (tab t') -> ~ lkt l == 0 -> exists k, In (x, k) (tab t) /\ ~ lkt k == 0) -> wf_tab (nx t') (tab t') (tw t') -> (forall x l, In (x, l) (tab t') -> lvars l <> []) ->
  vsol (tab t') (vals t') -> (forall s x, gfind x (tab t') = None -> inb s (bound t' s x) (vals t' x)) -> TInv t' vs.
Proof.
  intros [I1 I2 I3 I4 I5 I6 I7 I8 Ik I9 I10 I11 I12] K Hk H1 H2 H3 H4. pose proof K as [K1 K2 K3 K4 K5 K6]. constructor; auto.
  - rewrite (sm_va _ _ K1), (sm_nx _ _ K1). exact I5.
  - rewrite (sm_va _ _ K1). exact I6.
  - rewrite (sm_va _ _ K1), K3. exact I7.
  - rewrite K4, (sm_nx _ _ K1). intros l x Hx. destruct (I8 l x Hx) as [A B]. split; [exact A|]. intros k y Hy. apply B, (sm_solk _ _ K1), Hy.
  - intros x l Hx Hn. destruct (Hk x l Hx Hn) as (k & A & B). exact (kept_loose t t' x K (Ik x k A B)).
  - rewrite (sm_va _ _ K1), K5. exact I9.
  - rewrite (sm_fa _ _ K1). exact I10.
  - rewrite K2. apply (BInv_ext t t' (cb t)); auto.
  - rewrite K2, K6. apply (LS_ext t t' K1 _ _ (cb t)); auto.
Qed.

Lemma find_none_all {A} (f : A -> bool) l : find f l = None -> forall x, In x l -> f x = false.
Proof. intros H x Hx. exact (find_none f l H x Hx). Qed.

(** One pivoting step (lra_theory.cpp:272-304). *)
Lemma fix_row_ok t vs s xi l : TInv t vs -> In (xi, l) (tab t) -> viol t s xi = true -> lkt l == 0 ->
  (exists t', fix_row t s xi l = Ok (t', None) /\ kept t t' /\ TInv t' vs) \/
  (exists c, fix_row t s xi l = Ok (t, Some c) /\ (forall v k, In (v, k) (lvars l) -> room t (other (tside s k)) v = false) /\
     c = map (fun e => negl (breason t (other (tside s (snd e))) (fst e))) (lvars l) ++ [negl (breason t s xi)]).
Proof.
  intros HI Hi Hv Hkt. unfold fix_row. destruct (find (fun e => room t (other (tside s (snd e))) (fst e)) (lvars l)) as [[xj cj]|] eqn:Ef.
  2:{ right. eexists. split; [reflexivity|]. split; [|reflexivity]. intros v k Hk. exact (find_none_all _ _ Ef (v, k) Hk). }
  left. apply find_some in Ef as [Hj Hroom]. cbn [fst snd] in Hroom.
  pose proof (ti_wf _ _ HI) as Hwf. apply (min_iff _ (proj1 (wt_clean _ _ _ Hwf _ _ Hi))) in Hj.
  assert (Hb : exists b, bound t s xi = Some b) by (unfold viol in Hv; destruct (bound t s xi) as [b|]; [eauto|discriminate]). destruct Hb as [b Hb]. rewrite Hb.
  destruct (pivot_and_update_ok t (nx t) xi xj l cj b Hwf Hi Hj (ti_val _ _ HI)) as (vs' & tb2 & w2 & -> & P & S & Vi & Vj & Vo). cbn [rbind].
  eexists. split; [reflexivity|]. assert (K : kept t (set_tab tb2 w2 (set_vals vs' t))).
  { constructor; try reflexivity. constructor; try reflexivity. apply P. }
  split; [exact K|]. apply (kept_TInv t); [exact HI|exact K| |apply P| | |].
  - cbn [tab set_tab]. intros r k Hr Hn. apply (gin_iff _ (wt_asc _ _ _ (pv_wf _ _ _ _ _ _ _ _ _ P))) in Hr. rewrite (pv_find _ _ _ _ _ _ _ _ _ P) in Hr. destruct (Nat.eqb_spec r xj) as [->|Hrj].
    + exfalso. apply Hn. inversion Hr. subst k. apply (ent_kt (nx t) (tab t) (tw t) xi xj l cj); assumption.
    + destruct (Nat.eqb_spec r xi) as [->|Hri]; [discriminate|]. destruct (gfind r (tab t)) as [k0|] eqn:Ek; [|discriminate]. inversion Hr. subst k. exists k0. split; [apply gfind_in, Ek|].
      intros F. apply Hn. rewrite <- F. apply (prow_kt (nx t) (tab t) (tw t) xi xj l cj); assumption.
  - cbn [tab set_tab]. apply (indep_iff (nx t) tb2 w2 (pv_wf _ _ _ _ _ _ _ _ _ P)). intros r k Hr.
    apply (gin_iff _ (wt_asc _ _ _ (pv_wf _ _ _ _ _ _ _ _ _ P))) in Hr. rewrite (pv_find _ _ _ _ _ _ _ _ _ P) in Hr. destruct (Nat.eqb_spec r xj) as [->|Hrj].
    + (* the entering variable *)
      exists (extk 0 (tab t) (upd (fun _ => 0) xj 1)). split; [apply P; eapply extk_sol, Hwf|]. unfold extk. rewrite (xj_nonbasic _ _ _ _ _ _ _ Hwf Hi Hj), upd_eq. discriminate.
    + destruct (Nat.eqb_spec r xi) as [->|Hri]; [discriminate|]. destruct (gfind r (tab t)) as [k0|] eqn:Ek; [|discriminate]. apply gfind_in in Ek.
      destruct (proj2 (indep_iff (nx t) (tab t) (tw t) Hwf) (ti_ne _ _ HI) r k0 Ek) as (y & Hy & Hyn). exists y. split; [apply P, Hy|exact Hyn].
  - cbn [tab set_tab set_vals vals]. destruct S as [S1 S2]. split; [apply tsolk_1|]; apply P; [apply tsolk_1|]; assumption.
  - intros s' x. cbn [tab set_tab set_vals vals]. unfold bound; cbn [cb set_tab set_vals]. fold (bound t s' x). rewrite (pv_find _ _ _ _ _ _ _ _ _ P). destruct (Nat.eqb_spec x xj) as [->|Hxj]; [discriminate|].
    destruct (Nat.eqb_spec x xi) as [->|Hxi].
    + intros _. rewrite Vi. destruct (side_eqb_spec s' s) as [->|Hs]; [rewrite Hb; apply sleP_refl|].
      assert (Es : s' = other s) by (destruct s, s'; cbn; congruence). subst s'. destruct (bound t (other s) xi) as [b'|] eqn:Eb'; [|exact I]. cbn. apply sleP_other.
      exact (b_ok _ _ _ (ti_b _ _ HI) s xi b b' Hb Eb').
    + destruct (gfind x (tab t)) eqn:Ex; [discriminate|]. intros _. rewrite Vo by assumption. apply (ti_nb _ _ HI). exact Ex.
Qed.

(** The row that the check picks has no known term: the variables of the expressions with a known term are
    out of their bounds only if an older variable is. *)
Lemma gasc_first {A} (f : nat * A -> bool) : forall (tb : list (nat * A)) x a, gasc tb -> find f tb = Some (x, a) -> forall v b, In (v, b) tb -> (v < x)%nat -> f (v, b) = false.
Proof.
  induction tb as [|[k c] tb IH]; intros x a Ha Hf v b Hi Hlt; [destruct Hi|]. cbn [find] in Hf. destruct (f (k, c)) eqn:E.
  - inversion Hf; subst. destruct Hi as [Hi|Hi]; [inversion Hi; lia|]. cbn in Ha. pose proof (gabove_in _ _ Ha _ _ Hi). lia.
  - destruct Hi as [Hi|Hi]; [inversion Hi; subst; exact E|]. apply (IH x a); auto. eapply gabove_asc. exact Ha.
Qed.
Lemma picked_kt t vs s xi l : TInv t vs -> find (fun e => viol t Lo (fst e) || viol t Up (fst e)) (tab t) = Some (xi, l) -> viol t s xi = true -> lkt l == 0.
Proof.
  intros HI Hf Hv. destruct (Qeq_dec (lkt l) 0) as [|Hn]; [assumption|]. exfalso. destruct (find_some _ _ Hf) as [Hi _].
  destruct (loose_viol t vs s xi HI (ti_kt _ _ HI xi l Hi Hn) Hv) as (v & k & Hlt & Hk & Hvv).
  pose proof (gasc_first _ _ _ _ (wt_asc _ _ _ (ti_wf _ _ HI)) Hf v k Hk Hlt) as E. cbn [fst] in E. congruence.
Qed.

(** lra_theory.cpp:258-306 *)
Lemma lra_check_ok : forall fuel t vs, TInv t vs ->
  match lra_check fuel t with
  | UB => False | OOF => True
  | Ok (t', cf) => kept t t' /\ TInv t' vs /\
    match cf with
    | None => within (cb t') (vals t')
    | Some c => exists s xi l, In (xi, l) (tab t') /\ viol t' s xi = true /\ (forall v k, In (v, k) (lvars l) -> room t' (other (tside s k)) v = false) /\
       c = map (fun e => negl (breason t' (other (tside s (snd e))) (fst e))) (lvars l) ++ [negl (breason t' s xi)]
    end
  end.
Proof.
  induction fuel as [|fuel IH]; intros t vs HI; cbn [lra_check]; [exact I|].
  destruct (find (fun e => viol t Lo (fst e) || viol t Up (fst e)) (tab t)) as [[xi l]|] eqn:Ef.
  - pose proof Ef as Ef0. apply find_some in Ef as [Hi Hv]. cbn [fst] in Hv. apply orb_true_iff in Hv. set (s := if viol t Lo xi then Lo else Up).
    assert (Hs : viol t s xi = true) by (unfold s; destruct (viol t Lo xi) eqn:E; [exact E|destruct Hv; [discriminate|assumption]]).
    assert (Hkt : lkt l == 0) by exact (picked_kt t vs s xi l HI Ef0 Hs).
    destruct (fix_row_ok t vs s xi l HI Hi Hs Hkt) as [(t1 & -> & K & I1)|(c & -> & Hn & Hc)]; cbn [rbind].
    + specialize (IH t1 vs I1). destruct (lra_check fuel t1) as [[t' cf]| |]; [|exact IH|exact I]. destruct IH as (A & B & D). split; [eapply kept_trans; eassumption|]. auto.
    + split; [apply kept_refl|]. split; [exact HI|]. exists s, xi, l. auto.
  - split; [apply kept_refl|]. split; [exact HI|]. intros s x. destruct (gfind x (tab t)) as [l|] eqn:Ex; [|apply (ti_nb _ _ HI), Ex].
    apply gfind_in in Ex. pose proof (find_none_all _ _ Ef (x, l) Ex) as Hv. cbn [fst] in Hv. apply orb_false_iff in Hv as [H1 H2].
    assert (Hv : viol t s x = false) by (destruct s; assumption). unfold viol in Hv. fold (bound t s x). destruct (bound t s x) as [b|]; [|exact I].
    apply negb_false_iff, sle_iff in Hv. exact Hv.
Qed.

(** The explanation of a conflict. *)
Lemma check_conflict t v vs (val : lv) s xi l c : TInv t (v :: vs) -> In (xi, l) (tab t) -> viol t s xi = true ->
  (forall v k, In (v, k) (lvars l) -> room t (other (tside s k)) v = false) ->
  c = map (fun e => negl (breason t (other (tside s (snd e))) (fst e))) (lvars l) ++ [negl (breason t s xi)] ->
  (forall q, val (negl q) = lneg (val q)) -> val TRUE_lit = LTrue -> (forall q, In q (concat (v :: vs)) -> val q = LTrue) ->
  (2 <= length c)%nat /\ Forall (fun q => val q = LFalse) c /\ (forall M y, M 0%nat = false -> joint t M y -> mcl M c) /\
  (vs <> [] -> exists q, In q v /\ In (negl q) c).
Proof.
  intros HI Hi Hv Hn -> Hval HT HV. set (r := fun e : nat * Q => negl (breason t (other (tside s (snd e))) (fst e))).
  assert (Hrt : forall s x, val (breason t s x) = LTrue) by (intros; apply (reason_true t (cb t) (v :: vs) val (ti_b _ _ HI) HT HV)).
  split; [|split; [|split]].
  - rewrite app_length, map_length. cbn. pose proof (ti_ne _ _ HI xi l Hi). destruct (lvars l); [congruence|cbn; lia].
  - apply Forall_app. split; [|constructor; [|constructor]].
    + apply Forall_forall. intros q Hq. apply in_map_iff in Hq as (e & <- & _). unfold r. rewrite Hval, Hrt. reflexivity.
    + rewrite Hval, Hrt. reflexivity.
  - intros M y HM HJ. destruct (existsb (mlit M) (map r (lvars l) ++ [negl (breason t s xi)])) eqn:E; [apply existsb_exists in E as (q & A & B); exists q; auto|].
    exfalso. assert (HE : forall q, In q (map r (lvars l) ++ [negl (breason t s xi)]) -> mlit M q = false).
    { intros q Hq. destruct (mlit M q) eqn:Eq; [|reflexivity]. rewrite <- E. symmetry. apply existsb_exists. eauto. }
    apply (farkas_joint t (v :: vs) HI xi l s Hi Hv Hn M y HM HJ).
    + intros u k Hu. apply negb_false_iff. rewrite <- mlit_negl. apply HE, in_or_app. left. apply in_map_iff. exists (u, k). auto.
    + apply negb_false_iff. rewrite <- mlit_negl. apply HE, in_or_app. right. left; reflexivity.
  - intros Hvs. pose proof (ti_ls _ _ HI) as HL. destruct (layers t) as [|L Ls], vs as [|w vs]; try congruence; cbn in HL; [destruct HL|].
    destruct HL as (_ & _ & (us & HS & HW) & _ & Hin & _).
    destruct (existsb (fun q => existsb (lit_eqb q) v) (map (fun q => negl q) (map r (lvars l) ++ [negl (breason t s xi)]))) eqn:E.
    { apply existsb_exists in E as (q & A & B). apply existsb_exists in B as (q' & B & D). destruct (lit_eqb_spec q q') as [<-|]; [|discriminate].
      apply in_map_iff in A as (q0 & <- & A). exists (negl q0). rewrite negl_invol. auto. }
    exfalso. assert (HE : forall s' x', In (negl (breason t s' x')) (map r (lvars l) ++ [negl (breason t s xi)]) -> ~ In (breason t s' x') v).
    { intros s' x' A B. rewrite <- not_true_iff_false in E. apply E, existsb_exists. exists (breason t s' x'). split.
      - apply in_map_iff. exists (negl (breason t s' x')). rewrite negl_invol. auto.
      - apply existsb_exists. exists (breason t s' x'). split; [exact B|apply lit_eqb_refl]. }
    apply (farkas_vals t (v :: w :: vs) HI xi l s Hi Hv Hn (undo L (cb t)) us HS HW).
    + intros u k Hu. destruct (Hin (other (tside s k)) u) as [D|D]; [congruence|]. destruct (HE (other (tside s k)) u); [|exact D].
      apply in_or_app. left. apply in_map_iff. exists (u, k). auto.
    + destruct (Hin s xi) as [D|D]; [congruence|]. destruct (HE s xi); [|exact D]. apply in_or_app. right. left; reflexivity.
Qed.
