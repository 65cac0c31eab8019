(** Consequences of the invariants of the linear real arithmetic theory, in the form of the properties. *)
From Verif Require Import Base Keys Sat SatSpec SatInv SatPop SatLoop SatMain SatApi SatNext Reify Amo Run SatProps.
From Verif Require Import Lin Qe Lra LraTab LraVal LraInv LraChk LraTerm LraPro LraCon ThGrow LraNew LraCmp ThRel LraApi LraRun LraEnd LraEq LraTh LraExec Exec.
From Coq Require Import Lqa.
Open Scope Q_scope.
Local Arguments Nat.ltb : simpl never.
Local Arguments Nat.eqb : simpl never.
Section Srt.
Context {sr : sorter}.

(** Equality of extended values. *)
Definition qe_eq (a b : qe) : Prop := fst a == fst b /\ snd a == snd b.
(** Within the bounds. *)
Definition in_bounds (t : lra) (x : nat) (v : qe) : Prop := inb Lo (bound t Lo x) v /\ inb Up (bound t Up x) v.
Definition real_in (t : lra) (x : nat) (q : Q) : Prop := bhold Lo (bound t Lo x) q /\ bhold Up (bound t Up x) q.

Lemma bound_lin_val t l s : lin_clean l -> (forall x, In x (map fst (lvars l)) -> in_bounds t x (vals t x)) -> inb s (bound_lin t s l) (val_lin t l).
Proof.
  intros [_ Hz] H. rewrite bound_lin_sum. destruct (val_lin_sum t l) as [A B].
  assert (E : inb s (bsum (fun v c => bound t (tside s c) v) (lvars l) (Some (qe_of (lkt l)))) (qe_add (qe_of (lkt l)) (qsum (vals t) (lvars l)))).
  { apply bsum_inb; [exact Hz| |apply sleP_refl]. intros v c Hi. assert (Hv : In v (map fst (lvars l))) by (change v with (fst (v, c)); apply in_map, Hi). destruct (H v Hv) as [H1 H2]. destruct (tside s c); assumption. }
  refine (inb_eq s _ _ _ _ _ E); cbn [qe_add qe_of fst snd]; [symmetry; exact A|rewrite B; ring].
Qed.
Lemma bound_lin_real t vs l s y : TInv t vs -> lin_clean l -> (forall x, In x (map fst (lvars l)) -> real_in t x (y x)) -> bhold s (bound_lin t s l) (lval y l).
Proof.
  intros HI [_ Hz] H. rewrite bound_lin_sum. apply (bhold_eq s _ (lkt l + msum y (lvars l))); [unfold lval; ring|]. apply bsum_hold; [exact Hz| | |].
  - intros v c Hi. assert (Hv : In v (map fst (lvars l))) by (change v with (fst (v, c)); apply in_map, Hi). destruct (H v Hv) as [H1 H2]. split; [apply (b_sgn _ _ _ (ti_b _ _ HI))|]. destruct (tside s c); assumption.
  - destruct s; cbn; lra.
  - destruct s; cbn; lra.
Qed.

(** matches *)
Lemma matches_ext t l0 l1 : lin_clean l0 -> lin_clean l1 -> matches t l0 l1 = false ->
  (forall x, In x (map fst (lvars l0) ++ map fst (lvars l1)) -> in_bounds t x (vals t x)) -> ~ qe_eq (val_lin t l0) (val_lin t l1).
Proof.
  intros H0 H1 HM H [E1 E2].
  assert (A : forall s, inb s (bound_lin t s l0) (val_lin t l0)) by (intros s; apply bound_lin_val; [exact H0|]; intros x Hx; apply H, in_or_app; left; exact Hx).
  assert (B : forall s, inb s (bound_lin t s l1) (val_lin t l1)) by (intros s; apply bound_lin_val; [exact H1|]; intros x Hx; apply H, in_or_app; right; exact Hx).
  unfold matches in HM. apply andb_false_iff in HM as [HM|HM].
  - specialize (A Up). specialize (B Lo). destruct (bound_lin t Up l0) as [u|]; [|discriminate]. destruct (bound_lin t Lo l1) as [l|]; [|discriminate]. apply qe_leb_false in HM. cbn in A, B. unfold qle, qlt in *. lra.
  - specialize (A Lo). specialize (B Up). destruct (bound_lin t Lo l0) as [l|]; [|discriminate]. destruct (bound_lin t Up l1) as [u|]; [|discriminate]. apply qe_leb_false in HM. cbn in A, B. unfold qle, qlt in *. lra.
Qed.
Lemma bhold_cross l u q : bhold Lo (Some l) q -> bhold Up (Some u) q -> bsgn Lo (Some l) -> bsgn Up (Some u) -> qlt u l -> False.
Proof. destruct l as [a b], u as [c d]. unfold qlt. cbn. intros [A1 A2] [B1 B2] S1 S2 [H|[H H']]; [lra|]. destruct (Qlt_le_dec 0 b) as [Hb|Hb]; [specialize (A2 Hb); lra|]. destruct (Qlt_le_dec d 0) as [Hd|Hd]; [specialize (B2 Hd); lra|]. lra. Qed.
Lemma matches_real t vs l0 l1 y : TInv t vs -> lin_clean l0 -> lin_clean l1 -> matches t l0 l1 = false ->
  (forall x, In x (map fst (lvars l0) ++ map fst (lvars l1)) -> real_in t x (y x)) -> ~ lval y l0 == lval y l1.
Proof.
  intros HI H0 H1 HM H E.
  assert (A : forall s, bhold s (bound_lin t s l0) (lval y l0)) by (intros s; apply (bound_lin_real t vs); auto; intros x Hx; apply H, in_or_app; left; exact Hx).
  assert (B : forall s, bhold s (bound_lin t s l1) (lval y l0)) by (intros s; apply (bhold_eq s _ (lval y l1)); [symmetry; exact E|]; apply (bound_lin_real t vs); auto; intros x Hx; apply H, in_or_app; right; exact Hx).
  assert (S0 : forall s, bsgn s (bound_lin t s l0)) by (intros s; apply (bound_lin_sgn t vs); assumption).
  assert (S1 : forall s, bsgn s (bound_lin t s l1)) by (intros s; apply (bound_lin_sgn t vs); assumption).
  unfold matches in HM. apply andb_false_iff in HM as [HM|HM].
  - specialize (A Up). specialize (B Lo). specialize (S0 Up). specialize (S1 Lo). destruct (bound_lin t Up l0) as [u|]; [|discriminate]. destruct (bound_lin t Lo l1) as [l|]; [|discriminate]. apply qe_leb_false in HM. eapply bhold_cross; eassumption.
  - specialize (A Lo). specialize (B Up). specialize (S0 Lo). specialize (S1 Up). destruct (bound_lin t Lo l0) as [l|]; [|discriminate]. destruct (bound_lin t Up l1) as [u|]; [|discriminate]. apply qe_leb_false in HM. eapply bhold_cross; eassumption.
Qed.

(** pivot *)
Lemma pivot_sound (t : lra) n xi xj l : wf_tab n (tab t) (tw t) -> In (xi, l) (tab t) -> In xj (map fst (lvars l)) ->
  exists t', pivot t xi xj = Ok t' /\ wf_tab n (tab t') (tw t') /\ is_basic t' xj = true /\ is_basic t' xi = false /\
    (forall x, x <> xi -> x <> xj -> is_basic t' x = is_basic t x) /\ (forall y, tsol (tab t') y <-> tsol (tab t) y) /\ cb t' = cb t /\ vals t' = vals t.
Proof.
  intros Hwf Hi Hj. apply dom_fst in Hj. unfold dom in Hj. destruct (mfind xj (lvars l)) as [cf|] eqn:Ej; [|congruence].
  destruct (pivot_ok t n xi xj l cf Hwf Hi Ej) as (tb2 & w2 & E & [P1 P2 P3]). exists (set_tab tb2 w2 t). split; [exact E|]. split; [exact P1|].
  assert (Hne : xi <> xj) by apply (xi_xj _ _ _ _ _ _ _ Hwf Hi Ej).
  unfold is_basic. cbn [tab set_tab]. split; [rewrite P2, Nat.eqb_refl; reflexivity|]. split; [rewrite P2; destruct (Nat.eqb_spec xi xj); [contradiction|]; rewrite Nat.eqb_refl; reflexivity|].
  split; [|split; [intros y; rewrite <- !tsolk_1; apply P3|split; reflexivity]]. intros x Hx1 Hx2. rewrite P2. destruct (Nat.eqb_spec x xj); [contradiction|]. destruct (Nat.eqb_spec x xi); [contradiction|]. destruct (gfind x (tab t)); reflexivity.
Qed.

(** values *)
Lemma row_values t vs x l : TInv t vs -> In (x, l) (tab t) -> qe_eq (vals t x) (val_lin t l).
Proof.
  intros HI Hi. destruct (val_lin_sum t l) as [A B]. destruct (vsol_row (tab t) (vals t) x l (ti_val _ _ HI) Hi) as [D E].
  split; [rewrite A, D; ring|rewrite B, E; reflexivity].
Qed.
Lemma nb_values t vs x : TInv t vs -> is_basic t x = false -> in_bounds t x (vals t x).
Proof. intros HI Hb. unfold is_basic in Hb. destruct (gfind x (tab t)) eqn:E; [discriminate|]. split; apply (ti_nb _ _ HI), E. Qed.

Lemma bhold_inb s b q : bhold s b q -> inb s b (q, 0).
Proof. destruct b as [[r e]|]; [|auto]. destruct s; cbn; unfold qle; cbn; intros [A B]. - destruct (Qlt_le_dec 0 e) as [He|He]; [specialize (B He); lra|lra]. - destruct (Qlt_le_dec e 0) as [He|He]; [specialize (B He); lra|lra]. Qed.
Lemma msum_plus x y m : msum (fun v => x v + y v) m == msum x m + msum y m.
Proof. induction m as [|[v c] m IH]; cbn [msum]; [ring|]. rewrite IH. ring. Qed.
Lemma msum_zero m : msum (fun _ => 0) m == 0.
Proof. induction m as [|[v c] m IH]; cbn [msum]; [reflexivity|]. rewrite IH. ring. Qed.

Section Th.
Context (ord : nat -> list nat -> list nat) (Hord : forall k l, Permutation l (ord k l)).
Notation TReach := (TReach ord).

Lemma prop_clauses t v vs val p t' ls cf : TReach t (v :: vs) -> atoms t (lvar p) -> vals_of val (p :: concat (v :: vs)) -> lra_prop ord t val p = Ok (t', ls, cf) ->
  forall c, In c ls \/ cf = Some c -> forall M y, M 0%nat = false -> joint t M y -> mcl M c.
Proof.
  intros HR Ha [Hn HT HV] E c Hc M y HM HJ. pose proof (TReach_inv ord Hord t _ HR) as HI.
  destruct (lra_prop_ok ord Hord t v vs val p y HI Ha Hn HT) as (t2 & l2 & c2 & E2 & _ & _ & val' & HL & HC); [intros q Hq; apply HV; right; exact Hq|apply HV; left; reflexivity|].
  rewrite E in E2. assert (l2 = ls /\ c2 = cf) as [-> ->] by (split; congruence). destruct Hc as [Hc|Hc].
  - clear HC E E2. induction HL as [|val0 l0 tl r v1 A B D F G H HL IH]; [destruct Hc|]. destruct Hc as [<-|Hc]; [apply H; assumption|].
    apply IH; try assumption.
    + clear - Hn A. apply ov_vneg, Hn.
    + unfold ov. destruct (lit_eqb_spec TRUE_lit l0) as [K|K]; [subst; congruence|]. destruct (lit_eqb_spec TRUE_lit (negl l0)) as [K'|K']; [|exact HT].
      exfalso. assert (E0 : l0 = negl TRUE_lit) by (rewrite K', negl_invol; reflexivity). rewrite E0, Hn, HT in A. discriminate.
    + intros q Hq. unfold ov. pose proof (HV q Hq) as Hq'. destruct (lit_eqb_spec q l0) as [K|K]; [reflexivity|]. destruct (lit_eqb_spec q (negl l0)) as [K'|K']; [|exact Hq'].
      exfalso. subst q. rewrite Hn, A in Hq'. discriminate.
  - apply (HC c Hc); assumption.
Qed.
Lemma prop_done t v vs val p : TReach t (v :: vs) -> atoms t (lvar p) -> vals_of val (p :: concat (v :: vs)) ->
  exists t' ls cf, lra_prop ord t val p = Ok (t', ls, cf) /\ (forall y, tsol (tab t') y <-> tsol (tab t) y) /\ exists vs', TInv t' vs'.
Proof.
  intros HR Ha [Hn HT HV]. pose proof (TReach_inv ord Hord t _ HR) as HI.
  destruct (lra_prop_ok ord Hord t v vs val p (fun _ => 0) HI Ha Hn HT) as (t2 & l2 & c2 & E2 & S & (v' & I' & _) & _); [intros q Hq; apply HV; right; exact Hq|apply HV; left; reflexivity|].
  exists t2, l2, c2. split; [exact E2|]. split; [apply (sm_sol _ _ S)|]. exists (v' :: vs). exact I'.
Qed.
Lemma check_true t vs fl t' : TReach t vs -> lra_check fl t = Ok (t', None) ->
  (forall s x, bound t' s x = bound t s x) /\ (forall y, tsol (tab t') y <-> tsol (tab t) y) /\
  (forall x, in_bounds t x (vals t' x)) /\ (forall x l, In (x, l) (tab t') -> qe_eq (vals t' x) (val_lin t' l)) /\
  exists d0, 0 < d0 /\ forall d, 0 < d -> d <= d0 -> tsol (tab t) (fun x => at_eps d (vals t' x)) /\ forall x, real_in t x (at_eps d (vals t' x)).
Proof.
  intros HR E. pose proof (TReach_inv ord Hord t _ HR) as HI. pose proof (lra_check_ok fl t vs HI) as H. rewrite E in H. destruct H as (K & I1 & HW).
  assert (EB : forall s x, bound t' s x = bound t s x) by (destruct (check_kept fl t t' None E) as (A & _ & _); intros s x; unfold bound; rewrite A; reflexivity).
  split; [exact EB|]. split; [apply (sm_sol _ _ (k_same _ _ K))|]. split; [intros x; split; rewrite <- EB; apply HW|]. split; [intros x l; apply (row_values t' vs x l I1)|].
  destruct (vals_real t' vs I1 HW) as (d0 & P & H). exists d0. split; [exact P|]. intros d Hd Hle. destruct (H d Hd Hle) as [A B]. split; [apply (sm_sol _ _ (k_same _ _ K)), A|]. intros x. split; rewrite <- EB; apply B.
Qed.
Lemma check_false t v vs fl t' c val : TReach t (v :: vs) -> vals_of val (concat (v :: vs)) -> lra_check fl t = Ok (t', Some c) ->
  (forall q, In q c -> val q = LFalse) /\ (forall M y, M 0%nat = false -> joint t M y -> mcl M c) /\ (forall y, tsol (tab t) y -> ~ forall x, real_in t x (y x)).
Proof.
  intros HR [Hn HT HV] E. pose proof (TReach_inv ord Hord t _ HR) as HI. pose proof (lra_check_ok fl t _ HI) as H. rewrite E in H. destruct H as (K & I1 & s & xi & l & Hi & Hv & Hr & Hc).
  destruct (check_conflict t' v vs val s xi l c I1 Hi Hv Hr Hc Hn HT HV) as (A & B & D & F). pose proof (k_same _ _ K) as S.
  split; [rewrite Forall_forall in B; exact B|]. split; [intros M y HM HJ; apply (D M y HM), (same_joint t t' M y S), HJ|].
  intros y Hy Hb. assert (EB : forall s x, bound t' s x = bound t s x) by (destruct (check_kept fl t t' (Some c) E) as (A1 & _ & _); intros s0 x; unfold bound; rewrite A1; reflexivity).
  apply (farkas_vals t' _ I1 xi l s Hi Hv Hr (cb t') (fun x => (y x, 0))); auto.
  - split; [apply (sm_sol _ _ S), Hy|]. apply (sm_solk _ _ S). intros x k Hk. unfold eps, lvalk. cbn [snd]. rewrite msum_zero. ring.
  - intros s0 x. change (fst (cb t' s0 x)) with (bound t' s0 x). rewrite EB. apply bhold_inb. destruct s0; apply Hb.
Qed.
Lemma check_safe t vs fl : TReach t vs -> lra_check fl t <> UB.
Proof. intros HR E. pose proof (lra_check_ok fl t vs (TReach_inv ord Hord t _ HR)) as H. rewrite E in H. exact H. Qed.
Lemma pop_restores t0 t : Since ord t0 1 t -> layers (lra_pop t) = layers t0 /\ forall s x, (x < nx t0)%nat -> bound (lra_pop t) s x = bound t0 s x /\ breason (lra_pop t) s x = breason t0 s x.
Proof.
  intros HS. destruct (since_inv ord t0 1 t HS) as [A B (top & L1 & L2 & L3)]. destruct top as [|L [|? ?]]; try discriminate L1. unfold lra_pop. rewrite L2. cbn [app]. split; [reflexivity|].
  intros s x Hx. specialize (L3 s x Hx). cbn [unwind] in L3. unfold bound, breason. cbn [cb set_layers set_cb]. rewrite L3. auto.
Qed.
End Th.

Section Hist.
Context (ord : nat -> list nat -> list nat) (Hord : forall k l, Permutation l (ord k l)) (fuel : lra -> nat).
Notation C := (lraT ord Hord fuel).
Notation ops := (lra_ops ord fuel).
Notation LTrace := (LTrace ord Hord fuel).

Lemma slack_sol tr s : LTrace tr s -> forall t, theories s = [t] -> forall y, tsol (tab t) y -> forall e l x, In e tr -> lev_call e = LSlack l -> lev_ret e = LX x -> y x == lval y l.
Proof.
  induction 1 as [|fl tr s c s' r HT IH HL HE HA]; intros t' Et' y Hy e l x He Ec Er; [destruct He|].
  destruct (ltrace_good _ _ _ _ _ HT) as [G (t & Et)]. destruct (lstep_ok ord Hord fuel fl s s' c r (ltrace_good _ _ _ _ _ HT) HL HE HA) as (_ & _ & H & _). destruct (H t t' Et Et') as [Gw K].
  destruct He as [<-|He]; cbn [lev_call lev_ret] in *.
  - subst c r. apply K, Hy.
  - apply (IH t Et y (gw_tsol _ _ Gw y Hy) e l x He Ec Er).
Qed.
Lemma slack_value tr s : LTrace tr s -> exists t, theories s = [t] /\ forall e l x, In e tr -> lev_call e = LSlack l -> lev_ret e = LX x -> qe_eq (vals t x) (val_lin t l).
Proof.
  intros HT. destruct (ltrace_good _ _ _ _ _ HT) as [G (t & Et)]. exists t. split; [exact Et|]. intros e l x He Ec Er.
  destruct (h_views _ _ _ _ (i_h _ _ (g_inv _ _ G)) 0%nat t) as (vs & [HI _] & _); [rewrite Et; reflexivity|]. destruct (ti_val _ _ HI) as [V1 V2].
  pose proof (slack_sol tr s HT t Et _ V1 e l x He Ec Er) as A. destruct (val_lin_sum t l) as [D E].
  assert (V3 : tsol (tab t) (fun v => rat (vals t) v + eps (vals t) v)).
  { intros z k Hk. specialize (V1 z k Hk). specialize (V2 z k Hk). unfold lval, lvalk in *. rewrite V1, V2, msum_plus. ring. }
  pose proof (slack_sol tr s HT t Et _ V3 e l x He Ec Er) as B. unfold lval in A, B. cbv beta in B. rewrite msum_plus in B.
  unfold qe_eq, qsum in *. cbn [fst snd] in D, E. unfold rat, eps in *. split; lra.
Qed.
End Hist.

(** ** Termination *)
Lemma rfold_total {A B} (f : A -> B -> res A) : (forall a b, f a b <> OOF) -> forall l b, rfold f l b <> OOF.
Proof. intros H. induction l as [|a l IH]; intros b; cbn; [discriminate|]. specialize (H b a). destruct (f b a); cbn; [apply IH|discriminate|congruence]. Qed.
Lemma row_of_total t r : row_of t r <> OOF.
Proof. unfold row_of. destruct (gfind r (tab t)); discriminate. Qed.
Lemma update_total t x v : update t x v <> OOF.
Proof.
  unfold update. destruct (negb (is_basic t x)); cbn [guard]; [|discriminate].
  assert (H : rfold (shift_row t x (qe_sub v (vals t x))) (tw t x) (vals t) <> OOF).
  { apply rfold_total. intros vs r. unfold shift_row, row_coef. pose proof (row_of_total t r). destruct (row_of t r) as [l| |]; cbn; try congruence. destruct (mfind x (lvars l)); cbn; discriminate. }
  destruct (rfold _ _ _); cbn; congruence.
Qed.
Lemma rows_prop_total t s x : forall rs val, rows_prop t s x rs val <> OOF.
Proof.
  induction rs as [|r rs IH]; intros val; cbn [rows_prop]; [discriminate|].
  assert (H : row_prop t s x r val <> OOF).
  { unfold row_prop. pose proof (row_of_total t r). destruct (row_of t r) as [l| |]; cbn; try congruence. destruct (mfind x (lvars l)) as [c0|]; [|discriminate]. cbv zeta. destruct (row_sum _ _ _ _ _ _) as [[tot why]|]; [|discriminate]. destruct (bsle _ _ _); discriminate. }
  destruct (row_prop t s x r val) as [[[v1 l1] [c|]]| |]; cbn; try congruence. specialize (IH v1). destruct (rows_prop t s x rs v1) as [[[v2 l2] c2]| |]; cbn; congruence.
Qed.
Lemma assert_total ord t s x v p val : assert_bound ord t s x v p val <> OOF.
Proof.
  unfold assert_bound. destruct (bsle s (Some v) (bound t s x)); [discriminate|]. destruct (match bound t (other s) x with Some b0 => negb (sle s v b0) | None => false end); [discriminate|].
  cbv zeta. set (t1 := set_cb _ _). assert (H : (if negb (sle s v (vals t1 x)) && negb (is_basic t1 x) then update t1 x v else Ok t1) <> OOF) by (destruct (negb _ && negb _); [apply update_total|discriminate]).
  destruct (if negb (sle s v (vals t1 x)) && negb (is_basic t1 x) then update t1 x v else Ok t1) as [t2| |]; cbn [rbind]; try congruence.
  destruct (tell _ _ _ _ _) as [[v1 l1] [c1|]]; [discriminate|]. match goal with |- context [rows_prop ?a ?b ?c ?d ?e] => pose proof (rows_prop_total a b c d e); destruct (rows_prop a b c d e) as [[[v2 l2] c2]| |] end; cbn; congruence.
Qed.
Lemma lra_prop_total ord t val p : lra_prop ord t val p <> OOF.
Proof. unfold lra_prop. destruct (gfind (lvar p) (v_asrts t)) as [a|]; [|discriminate]. destruct (val (a_b a)); try apply assert_total. discriminate. Qed.
Lemma lra_total ord Hord fuel : (forall t, (6 ^ nx t <= fuel t)%nat) -> th_total (lraT ord Hord fuel).
Proof.
  intros Hf. split.
  - intros t vs val p _ _ _ _ _ _ _ _. apply lra_prop_total.
  - intros t vs val [HI _] _ _ _. cbn [th_check lra_ops]. apply (lra_check_total t vs _ HI), Hf.
Qed.

Lemma lra_check_fuel : forall fl t r, lra_check fl t = Ok r -> forall fl', (fl <= fl')%nat -> lra_check fl' t = Ok r.
Proof.
  induction fl as [|fl IH]; intros t r E fl' Hf; [discriminate|]. destruct fl' as [|fl']; [lia|]. cbn [lra_check] in E |- *.
  destruct (find _ _) as [[x l]|]; [|exact E]. destruct (fix_row _ _ _ _) as [[t' [c|]]| |]; cbn [rbind] in E |- *; try discriminate; try exact E. apply (IH _ _ E). lia.
Qed.
Lemma check_returns ord (Hord : forall k l, Permutation l (ord k l)) t vs : TReach ord t vs -> exists t' cf, forall fl, (6 ^ nx t <= fl)%nat -> lra_check fl t = Ok (t', cf).
Proof.
  intros HR. pose proof (TReach_inv ord Hord t vs HR) as HI. pose proof (lra_check_total t vs (6 ^ nx t) HI (le_n _)) as H. pose proof (lra_check_ok (6 ^ nx t) t vs HI) as K.
  destruct (lra_check (6 ^ nx t) t) as [[t' cf]| |] eqn:E; [|contradiction|congruence]. exists t', cf. intros fl Hf. exact (lra_check_fuel _ _ _ E fl Hf).
Qed.
Lemma network_returns ord Hord fuel tr s : (forall t, (6 ^ nx t <= fuel t)%nat) -> LTrace ord Hord fuel tr s ->
  exists s' b, forall fl, (2 * (nv s * nv s ^ dlevel s) + nv s < fl)%nat -> propagate (lra_ops ord fuel) fl s = Ok (s', b).
Proof.
  intros Hf HT. destruct (ltrace_good _ _ _ _ _ HT) as [G _]. exact (terminates _ _ _ s s G (R_init _ s) (lra_total ord Hord fuel Hf)).
Qed.
End Srt.
