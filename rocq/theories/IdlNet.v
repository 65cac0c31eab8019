(** The calls of a network with integer difference logic, with the integers of a machine. *)
From Verif Require Import Base Sat Run ThRel Lin Qe Dw Dl DlClo DlTight DlEdge DlTh DlFacts DlVal DlApi DlSpec DlQ DlNet Para NvMono Idl IdlBd IdlSim IdlRun.
From Coq Require Import Lqa QArith.Qabs.
Open Scope nat_scope. Open Scope Z_scope.
Local Arguments Nat.ltb : simpl never.
Local Arguments Nat.eqb : simpl never.
Local Arguments Z.mul : simpl never.
Local Arguments Z.add : simpl never.
Local Arguments Z.sub : simpl never.
Local Arguments Z.opp : simpl never.
Local Arguments Z.leb : simpl never.
Local Arguments Z.ltb : simpl never.

Section Net.
Context {sr : sorter}.
Variables (mx M : Z) (N : nat).
Notation inf := (inf mx).
Notation idl := Idl.idl.
Notation B := (Z.of_nat N * (M + 1)).
Hypothesis HM : 1 <= M.
Hypothesis Hroom : (2 * Z.of_nat N + 1) * (M + 1) < inf.
Notation Rr := (Ri mx M N).
Notation HB := (HB mx M N HM Hroom).
Notation Hinf := (Hinf mx M N Hroom).
Notation gx := (fun s i v v1 k => new_distance2 Zw s i v v1 k (-1)).
Ltac fits := rewrite (fit_ok mx) by (pose proof (Hmx mx); pose proof HB; pose proof Hinf; lia); cbn [rbind].

(** ** The two networks: one theory with [n] variables each, and whatever literal controls a constraint exists. *)
Definition mrel (n : nat) (s : st (dl Z)) (u : st idl) : Prop := rel Rr s u /\ exists t, theories s = [t] /\ nvars t = n /\ forall v, atom t v -> (v < nv s)%nat.
Definition mpair {A} (n : nat) (x : st (dl Z) * A) (y : st idl * A) : Prop := mrel n (fst x) (fst y) /\ snd y = snd x.
Lemma mrel_one n s u : mrel n s u -> exists t m, theories s = [t] /\ theories u = [m] /\ Rr t m /\ nvars t = n /\ (forall v, atom t v -> (v < nv s)%nat) /\ nv u = nv s.
Proof.
  intros ((ths & L & G & -> & F) & t & Et & En & Ha). rewrite Et in F. inversion F as [|? m ? l H Hl]; subst. inversion Hl; subst. exists t, m. auto 10.
Qed.
Lemma mrel_step n s u c fl : mrel n s u -> rr (mpair n) (step (ops := dl_ops Zw) fl s c) (step (ops := idl_ops mx) fl u c).
Proof.
  intros [HR (t & Et & En & Ha)].
  pose proof (pa_step Rr (dl_ops Zw) (idl_ops mx) eq_refl (Ri_prop mx M N HM Hroom) (Ri_check mx M N HM Hroom) (Ri_push mx M N) (Ri_pop mx M N) fl c s u HR) as H.
  destruct (step (ops := dl_ops Zw) fl s c) as [[s1 r]| |] eqn:E; cbn [rr] in H |- *; [|exact H|exact H]. destruct (step (ops := idl_ops mx) fl u c) as [[u1 r']| |]; try (destruct H; fail). destruct H as [H1 H2]. cbn [fst snd] in *.
  split; [|auto]. split; [exact H1|]. cbn [fst]. pose proof (sh_step Zw fl s s1 c r E) as Es. rewrite Et in Es. pose proof (nv_step (dl_ops Zw) fl s s1 c r E) as Hn.
  destruct (theories s1) as [|t1 [|]]; try discriminate Es. injection Es as E1 E2. exists t1. split; [reflexivity|]. split; [congruence|]. intros v (c0 & Hc & Ev). rewrite E2 in Hc. specialize (Ha v (ex_intro _ c0 (conj Hc Ev))). lia.
Qed.
Lemma m_conj n s u ls : mrel n s u -> rr (mpair n) (new_conj s ls) (new_conj u ls).
Proof.
  intros [HR (t & Et & En & Ha)]. pose proof (pa_new_conj Rr s u ls HR) as H. destruct (new_conj s ls) as [[s1 r]| |] eqn:E; cbn [rr] in H |- *; [|exact H|exact H]. destruct (new_conj u ls) as [[u1 r']| |]; try (destruct H; fail). destruct H as [H1 H2]. cbn [fst snd] in *.
  split; [|auto]. split; [exact H1|]. cbn [fst]. exists t. rewrite (K_new_conj _ _ _ _ E). split; [exact Et|]. split; [exact En|]. intros v Hv. specialize (Ha v Hv). pose proof (N_new_conj _ _ _ _ E) as Hnn. lia.
Qed.
Lemma m_var n s u : mrel n s u -> (n < N)%nat -> rr (mpair (S n)) (dl_new_var Zw s 0) (i_new_var mx u 0).
Proof.
  intros HR Hlt. destruct (mrel_one _ _ _ HR) as (t & m & Et & Em & H & En & Ha & Env). unfold dl_new_var, i_new_var, dl_th, i_th. rewrite Et, Em. cbn [nth_error].
  destruct (Ri_var mx M N t m H ltac:(lia)) as [H1 E]. assert (Ec : nvars (fst (t_dl_var Zw t)) = S n /\ dcons (fst (t_dl_var Zw t)) = dcons t) by (unfold t_dl_var; cbn [fst cap nvars]; destruct (Nat.eqb (cap t) (nvars t)); cbn; auto). destruct Ec as [Ec1 Ec2].
  destruct (t_dl_var Zw t) as [t1 x], (i_var mx m) as [m1 y]. cbn [fst snd rr] in *. subst y. split; [|reflexivity]. cbn [fst]. destruct HR as [(ths & L & G & -> & F) _]. cbn [theories mpw] in Em. subst ths. split.
  - exists [m1], L, G. split; [unfold i_put; reflexivity|]. unfold dl_put. cbn [theories set_theories]. rewrite Et. cbn. auto.
  - exists t1. unfold dl_put. cbn [theories set_theories nv]. rewrite Et. cbn. split; [reflexivity|]. split; [exact Ec1|]. intros v (c & Hc & Ev). rewrite Ec2 in Hc. apply Ha. exists c. auto.
Qed.
Lemma m_dist n s u from to w : mrel n s u -> (from < n)%nat -> (to < n)%nat -> Z.abs w <= M -> rr (mpair n) (new_distance Zw s 0 from to w) (i_new_distance mx u 0 from to w).
Proof.
  intros HR Hf Ht Hw. destruct (mrel_one _ _ _ HR) as (t & m & Et & Em & H & En & Ha & Env). pose proof H as (R & Hs & Hn & v & vs & HD). pose proof (reach_core ZL t _ HD) as HC. pose proof (Ri_all M N HM t v vs HD Hs Hn) as Hb. pose proof Hinf. pose proof HB.
  unfold new_distance, i_new_distance, dl_th, i_th. rewrite Et, Em. cbn [nth_error]. rewrite (rp_cap _ _ _ R). apply rr_guard. intros _. fits. rewrite !(rp_d _ _ _ R). change (wneg Zw w) with (- w).
  destruct (dist_lt Zw (dists t to from) (Some (- w))) eqn:D1; pose proof D1 as D1'; rewrite (lt_code mx M B HM HB Hinf _ _ B (Hb _ _)) in D1' by lia; rewrite D1'; [split; [exact HR|reflexivity]|].
  destruct (dist_le Zw (dists t from to) (Some w)) eqn:D2; pose proof D2 as D2'; rewrite (le_code mx M B HM HB Hinf) in D2' by lia; rewrite D2'; [split; [exact HR|reflexivity]|].
  assert (Hne : from <> to). { intros ->. pose proof (cl_diag ZL _ (dc_closed ZL _ _ HC) to) as E0. rewrite E0 in D1, D2. unfold dist_lt in D1. unfold dist_le in D2. cbn in D1, D2. lia. }
  pose proof HR as [HR1 _]. destruct (pa_new_var Rr s u HR1) as [H2 E2]. destruct (new_var s) as [s1 x] eqn:Es, (new_var u) as [u1 y]. cbn [fst snd rr] in *. subst y. split; [|reflexivity]. cbn [fst].
  assert (Ex : x = nv s /\ nv s1 = S (nv s) /\ theories s1 = [t]) by (unfold new_var in Es; injection Es as <- <-; cbn; auto). destruct Ex as (Ex & En1 & Et1).
  assert (Hadd : Rr (add_con t (mk_dcon (mk_lit x true) from to w)) (i_add m (mk_dcon (mk_lit x true) from to w))).
  { apply Ri_add; [exact H|exact Hw| |]; cbn [c_b c_w c_from c_to lvar]; [|intros Hx; apply Ha in Hx; lia]. unfold good_con. cbn. repeat split; auto; lia. }
  assert (Eb : forall (D : Type) (z : st D) a b, theories (bind z a b) = theories z /\ nv (bind z a b) = nv z) by (intros D z a b; unfold bind; destruct (memn b (bounds z a)); split; reflexivity).
  destruct H2 as (ths & L & G & -> & F). rewrite Et1 in F. inversion F as [|? m' ? l Hm' Hl]; subst. inversion Hl; subst. split.
  - exists [i_add m (mk_dcon (mk_lit (nv s) true) from to w)], L, G. split.
    + unfold i_put, bind. cbn [bounds mpw]. destruct (memn 0 (bounds s1 (nv s))); reflexivity.
    + unfold dl_put. cbn [theories set_theories]. rewrite (proj1 (Eb _ _ _ _)), Et1. cbn. constructor; [exact Hadd|constructor].
  - exists (add_con t (mk_dcon (mk_lit (nv s) true) from to w)). unfold dl_put. cbn [theories set_theories nv]. rewrite (proj1 (Eb _ _ _ _)), (proj2 (Eb _ _ _ _)), Et1. split; [reflexivity|]. split; [reflexivity|].
    intros a (c & Hc & Ev). cbn in Hc. apply in_app_or in Hc as [Hc|[<-|[]]]; [|cbn in Ev; lia]. specialize (Ha a (ex_intro _ c (conj Hc Ev))). lia.
Qed.
Lemma m_dist2 n s u from to mn mxd : mrel n s u -> (from < n)%nat -> (to < n)%nat -> Z.abs mn <= M -> Z.abs mxd <= M -> rr (mpair n) (new_distance2 Zw s 0 from to mn mxd) (i_new_distance2 mx u 0 from to mn mxd).
Proof.
  intros HR Hf Ht H1 H2. unfold new_distance2, i_new_distance2. fits. change (wneg Zw mn) with (- mn). apply (rr_bind (mpair n)); [apply m_dist; auto; lia|]. intros [s1 p] [u1 p'] [K1 E1]. cbn [fst snd] in *. subst p'.
  apply (rr_bind (mpair n)); [apply m_dist; auto; lia|]. intros [s2 q] [u2 q'] [K2 E2]. cbn [fst snd] in *. subst q'. apply m_conj, K2.
Qed.
Definition opair (n : nat) (s : st (dl Z)) (u : st idl) (x : option (st (dl Z) * lit)) (y : option (st idl * lit)) : Prop :=
  match x, y with Some a, Some b => mpair n a b | None, None => True | _, _ => False end.
Lemma m_may n s u r q : rr (mpair n) r q -> rr (opair n s u) (may r) (may q).
Proof. intros H. unfold may. apply (rr_bind (mpair n)); [exact H|]. intros a b K. exact K. Qed.
Lemma m_eq n s u v v1 k : mrel n s u -> (v < n)%nat -> (v1 < n)%nat -> Z.abs k < M -> rr (opair n s u) (eq_at Zw s 0 v v1 k) (i_eq_at mx u 0 v v1 k).
Proof.
  intros HR Hf Ht Hk. destruct (mrel_one _ _ _ HR) as (t & m & Et & Em & H & En & Ha & Env). pose proof H as (R & Hs & Hn & w & vs & HD). pose proof (Ri_all M N HM t w vs HD Hs Hn) as Hb. pose proof Hinf. pose proof HB.
  unfold eq_at, i_eq_at, dl_th, i_th. rewrite Et, Em. cbn [nth_error]. rewrite (rp_cap _ _ _ R). apply rr_guard. intros _. unfold i_distance. rewrite !(rp_d _ _ _ R).
  assert (Hcb : forall i j, Z.abs (code mx (dists t i j)) <= inf). { intros i j. unfold code. specialize (Hb i j). destruct (dists t i j) as [x|]; [specialize (Hb x eq_refl)|]; lia. }
  pose proof (Hcb v1 v). fits.
  assert (Ew : within Zw (distance Zw t v v1) k = (Z.leb (- code mx (dists t v1 v)) k && Z.leb k (code mx (dists t v v1)))%bool).
  { unfold within, distance. cbn [fst snd]. f_equal; [destruct (dists t v1 v)|destruct (dists t v v1)]; cbn [option_map code]; try reflexivity; symmetry; apply Z.leb_le; lia. }
  rewrite Ew. clear Ew. match goal with |- context [if ?b then _ else _] => destruct b end; [|split; [exact HR|reflexivity]]. apply m_may.
  apply (rr_bind (mpair n)); [apply m_dist; auto; lia|]. intros [s1 p] [u1 p'] [K1 E1]. cbn [fst snd] in *. subst p'. unfold i_neg. fits. change (wneg Zw k) with (- k).
  apply (rr_bind (mpair n)); [apply m_dist; auto; lia|]. intros [s2 q] [u2 q'] [K2 E2]. cbn [fst snd] in *. subst q'. apply m_conj, K2.
Qed.

(** ** Comparisons: the constant is less than [M] times any coefficient. *)
Definition small_diff (n : nat) (l : lin) : Prop := forall v c, In (v, c) (lvars l) -> (v < n)%nat /\ (Qabs (lkt l) < inject_Z M * Qabs c)%Q.
Lemma small_quot (a c : Q) k : (Qabs a < inject_Z M * Qabs c)%Q -> z_of_q (a / c)%Q = Some k -> Z.abs k < M.
Proof.
  intros H E. apply z_of_q_ok in E. assert (Hc : ~ (c == 0)%Q). { intros Hc. rewrite Hc in H. change (Qabs 0) with 0%Q in H. pose proof (Qabs_nonneg a). lra. }
  assert (Ea : (a == inject_Z k * c)%Q) by (rewrite <- E; field; exact Hc). rewrite Ea, Qabs_Qmult in H. assert (Hp : (0 < Qabs c)%Q).
  { destruct (Qlt_le_dec 0 (Qabs c)) as [|Hn]; [assumption|]. exfalso. apply Hc. revert Hn. apply Qabs_case; intros; lra. }
  apply Qmult_lt_r in H; [|exact Hp]. change (Qabs (inject_Z k)) with (inject_Z (Z.abs k)) in H. rewrite <- Zlt_Qlt in H. exact H.
Qed.
Definition small_form (n : nat) (f : option (dform (D := Z))) : Prop :=
  match f with Some (DOne _ v k) => (v < n)%nat /\ Z.abs k < M | Some (DTwo _ v v1 k) => (v < n)%nat /\ (v1 < n)%nat /\ Z.abs k < M | _ => True end.
Lemma small_dl n l : small_diff n l -> small_form n (dl_form Zw l).
Proof.
  intros H. unfold dl_form, small_form, small_diff in *. destruct (lvars l) as [|[v c] [|[v1 c1] [|? ?]]]; auto.
  - destruct (H v c (or_introl eq_refl)) as [H1 H2]. cbn [wofq Zw]. destruct (z_of_q _) eqn:E; [|exact Logic.I]. split; [exact H1|]. eapply small_quot; eassumption.
  - destruct (H v c (or_introl eq_refl)) as [H1 H2]. destruct (H v1 c1 (or_intror (or_introl eq_refl))) as [H3 _]. destruct (negb _); [exact Logic.I|]. cbn [wofq Zw]. destruct (z_of_q _) eqn:E; [|exact Logic.I]. split; [exact H1|]. split; [exact H3|]. eapply small_quot; eassumption.
Qed.
Lemma m_rel n s u r e1 e2 : mrel n s u -> small_diff n (lin_sub e1 e2) -> rr (opair n s u) (new_rel (W := Zw) gx r s e1 e2) (i_rel mx r u e1 e2).
Proof.
  intros HR Hs. apply small_dl in Hs. assert (H0 : (0 < n)%nat). { destruct (mrel_one _ _ _ HR) as (t & m & _ & _ & (_ & _ & _ & v & vs & HD) & En & _). pose proof (dc_n ZL _ _ (reach_core ZL t _ HD)). lia. }
  unfold new_rel, i_rel. destruct r; [unfold dl_new_lt, i_new_lt|unfold dl_new_leq, i_new_leq|unfold dl_new_eq, i_new_eq|unfold dl_new_geq, i_new_geq|unfold new_gt_with, i_new_gt]; destruct (dl_form Zw (lin_sub e1 e2)) as [[k|[|] v k|[|] v v1 k]|]; cbn [small_form] in Hs; try exact Logic.I; try (split; [exact HR|reflexivity]);
    unfold i_dec, i_neg, i_negdec; repeat fits; cbn [wadd wneg wunit Zw]; rewrite <- ?Z.add_opp_r; try (apply m_eq; [exact HR|lia..]); apply m_may; first [apply m_dist; [exact HR|lia..]|apply m_dist2; [exact HR|lia..]].
Qed.
End Net.
