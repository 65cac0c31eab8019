(** Termination of the consistency check of the linear real arithmetic theory (lra_theory.cpp:258-306).
    The leaving variable is the smallest basic variable out of its bounds, the entering one the smallest suitable variable of its
    row: Bland's rule.  A run of pivoting steps that came back to the same basis with the same values would contradict it; the number of
    bases, and of the values that the non-basic variables can take, is finite. *)
From Verif Require Import Base Sat SatSpec Lin Qe Lra LraTab LraVal LraInv LraChk.
From Coq Require Import Lqa ListDec.
Open Scope Q_scope.
Open Scope nat_scope.
Local Arguments Nat.ltb : simpl never.
Local Arguments Nat.eqb : simpl never.

(** The choice made at the head of the loop: the side, the leaving variable, its row and the entering variable. *)
Definition pick (t : lra) : option (side * nat * lin * nat) :=
  match find (fun e => viol t Lo (fst e) || viol t Up (fst e)) (tab t) with
  | None => None
  | Some (xi, l) =>
    let s := if viol t Lo xi then Lo else Up in
    match find (fun e => room t (other (tside s (snd e))) (fst e)) (lvars l) with
    | None => None
    | Some (xj, _) => Some (s, xi, l, xj)
    end
  end.
Definition advance (t : lra) : lra :=
  match pick t with
  | Some (s, xi, l, _) => match fix_row t s xi l with Ok (t1, None) => t1 | _ => t end
  | None => t
  end.

(** The first element of an ascending map that satisfies a test is the smallest one. *)
Lemma find_first_g {A} (f : nat * A -> bool) : forall m k a, gasc m -> find f m = Some (k, a) -> forall v b, In (v, b) m -> v < k -> f (v, b) = false.
Proof.
  induction m as [|[k0 a0] r IH]; intros k a Ha Hf v b Hi Hlt; [destruct Hi|]. apply gasc_tail in Ha as [Hab Hr]. cbn [find] in Hf. destruct (f (k0, a0)) eqn:E.
  - inversion Hf; subst. destruct Hi as [H|H]; [inversion H; subst; lia|]. pose proof (gabove_in _ _ Hab _ _ H). lia.
  - destruct Hi as [H|H]; [inversion H; subst; exact E|]. exact (IH k a Hr Hf v b H Hlt).
Qed.
Lemma above_g v m : above v m <-> gabove v m.
Proof. revert v. induction m as [|[k c] r IH]; intros v; cbn; [tauto|]. rewrite IH. tauto. Qed.
Lemma asc_g m : asc m <-> gasc m.
Proof. destruct m as [|[k c] r]; cbn; [tauto|apply above_g]. Qed.

(** What a step is. *)
Record pstep (t : lra) (s : side) (xi xj : nat) (t' : lra) : Prop := {
  ps_row : exists l c, In (xi, l) (tab t) /\ mfind xj (lvars l) = Some c /\ room t (other (tside s c)) xj = true /\
    forall v k, In (v, k) (lvars l) -> v < xj -> room t (other (tside s k)) v = false;
  ps_viol : viol t s xi = true;
  ps_least : forall y s', gfind y (tab t) <> None -> y < xi -> viol t s' y = false;
  ps_kept : kept t t';
  ps_basis : forall y, gfind y (tab t') = None <-> y = xi \/ (y <> xj /\ gfind y (tab t) = None);
  ps_new : bound t s xi = Some (vals t' xi);
  ps_old : forall y, gfind y (tab t) = None -> y <> xj -> vals t' y = vals t y }.

Lemma pick_step t vs s xi l xj : TInv t vs -> pick t = Some (s, xi, l, xj) ->
  pstep t s xi xj (advance t) /\ TInv (advance t) vs /\ fix_row t s xi l = Ok (advance t, None) /\
  find (fun e => viol t Lo (fst e) || viol t Up (fst e)) (tab t) = Some (xi, l) /\ s = (if viol t Lo xi then Lo else Up).
Proof.
  intros HI Hp. unfold advance. rewrite Hp. unfold pick in Hp.
  destruct (find (fun e => viol t Lo (fst e) || viol t Up (fst e)) (tab t)) as [[xi' l']|] eqn:Ef; [|discriminate].
  destruct (find (fun e => room t (other (tside _ (snd e))) (fst e)) (lvars l')) as [[xj' cj]|] eqn:Er; [|discriminate].
  inversion Hp; subst xi' l' xj'. clear Hp. rename H0 into Es. rewrite Es in Er.
  pose proof (ti_wf _ _ HI) as Hwf. pose proof (find_some _ _ Ef) as [Hi Hv]. cbn [fst] in Hv. apply orb_true_iff in Hv.
  assert (Hs : viol t s xi = true) by (rewrite <- Es; destruct (viol t Lo xi) eqn:E; [exact E|destruct Hv; [discriminate|assumption]]).
  pose proof (find_some _ _ Er) as [Hj Hroom]. cbn [fst snd] in Hroom.
  pose proof (wt_clean _ _ _ Hwf _ _ Hi) as [Hasc _]. pose proof (proj1 (min_iff _ Hasc _ _) Hj) as Hjf.
  assert (Hb : exists b, bound t s xi = Some b) by (unfold viol in Hs; destruct (bound t s xi) as [b|]; [eauto|discriminate]). destruct Hb as [b Hb].
  destruct (fix_row_ok t vs s xi l HI Hi Hs (picked_kt t vs s xi l HI Ef Hs)) as [(t' & E & K & I1)|(c & E & Hn & _)].
  2:{ exfalso. specialize (Hn xj cj Hj). congruence. }
  rewrite Es, E. split; [|split; [exact I1|auto]].
  unfold fix_row in E. rewrite Er, Hb in E.
  destruct (pivot_and_update_ok t (nx t) xi xj l cj b Hwf Hi Hjf (ti_val _ _ HI)) as (vs' & tb2 & w2 & E2 & P & S & Vi & Vj & Vo).
  rewrite E2 in E. cbn [rbind] in E. inversion E; subst t'. clear E.
  constructor; try assumption.
  - exists l, cj. split; [exact Hi|]. split; [exact Hjf|]. split; [exact Hroom|]. intros v k Hk Hlt.
    exact (find_first_g _ (lvars l) xj cj (proj1 (asc_g _) Hasc) Er v k Hk Hlt).
  - intros y s' Hy Hlt. destruct (gfind y (tab t)) as [k|] eqn:Ek; [|congruence]. apply gfind_in in Ek.
    pose proof (find_first_g _ (tab t) xi l (wt_asc _ _ _ Hwf) Ef y k Ek Hlt) as H. cbn [fst] in H. apply orb_false_iff in H as [H1 H2]. destruct s'; assumption.
  - intros y. cbn [tab set_tab]. rewrite (pv_find _ _ _ _ _ _ _ _ _ P). pose proof (xi_xj (nx t) (tab t) (tw t) xi xj l cj Hwf Hi Hjf) as Hne.
    destruct (Nat.eqb_spec y xj) as [->|H1]; [split; [discriminate|intros [H|[H _]]; congruence]|].
    destruct (Nat.eqb_spec y xi) as [->|H2]; [tauto|]. destruct (gfind y (tab t)); split; intros H; try discriminate; try tauto. destruct H as [H|[_ H]]; congruence.
  - cbn [vals set_tab set_vals]. rewrite Vi. exact Hb.
Qed.

(** ** Runs. *)
Fixpoint nth_t (t : lra) (n : nat) : lra := match n with 0 => t | S m => advance (nth_t t m) end.
Definition pside t := match pick t with Some (s, _, _, _) => s | None => Lo end.
Definition pout t := match pick t with Some (_, xi, _, _) => xi | None => 0 end.
Definition pin t := match pick t with Some (_, _, _, xj) => xj | None => 0 end.
Lemma nth_shift t n : nth_t (advance t) n = advance (nth_t t n).
Proof. induction n as [|n IH]; cbn [nth_t]; [reflexivity|]. rewrite IH. reflexivity. Qed.
(** The check runs out of fuel only if there are that many steps. *)
Lemma oof_run : forall fuel t vs, TInv t vs -> lra_check fuel t = OOF -> forall n, n < fuel -> pick (nth_t t n) <> None.
Proof.
  induction fuel as [|f IH]; intros t vs HI H n Hn; [lia|]. cbn [lra_check] in H.
  destruct (find (fun e => viol t Lo (fst e) || viol t Up (fst e)) (tab t)) as [[xi l]|] eqn:Ef; [|discriminate].
  destruct (pick t) as [[[[s' xi'] l'] xj]|] eqn:Ep.
  - destruct (pick_step t vs s' xi' l' xj HI Ep) as (P & HI' & E & Ef' & Es). rewrite Ef' in Ef. inversion Ef; subst xi' l'. rewrite <- Es, E in H. cbn [rbind] in H.
    destruct n as [|n]; cbn [nth_t]; [congruence|]. rewrite <- nth_shift. apply (IH (advance t) vs HI' H). lia.
  - exfalso. unfold pick in Ep. rewrite Ef in Ep. unfold fix_row in H.
    destruct (find (fun e => room t (other (tside _ (snd e))) (fst e)) (lvars l)) as [[? ?]|]; [discriminate|]. cbn [rbind] in H. discriminate.
Qed.

Section Cycle.
Context (t0 : lra) (vs : list (list lit)) (HI0 : TInv t0 vs) (N : nat) (HP : forall n, n < N -> pick (nth_t t0 n) <> None).
Let f := nth_t t0.
Let so n := pside (f n).
Let xo n := pout (f n).
Let xn n := pin (f n).
Lemma run_inv : forall n, n <= N -> TInv (f n) vs.
Proof.
  induction n as [|n IH]; intros Hn; [exact HI0|]. specialize (IH ltac:(lia)). pose proof (HP n Hn) as H. cbn. fold f.
  destruct (pick (nth_t t0 n)) as [[[[s xi] l] xj]|] eqn:E; [|congruence]. apply (pick_step (f n) vs s xi l xj IH E).
Qed.
Lemma run_step n : n < N -> pstep (f n) (so n) (xo n) (xn n) (f (S n)).
Proof.
  intros Hn. pose proof (HP n Hn) as H. pose proof (run_inv n ltac:(lia)) as HI. unfold so, xo, xn, pside, pout, pin. unfold f in *. cbn [nth_t].
  destruct (pick (nth_t t0 n)) as [[[[s xi] l] xj]|] eqn:E; [|congruence]. apply (pick_step (nth_t t0 n) vs s xi l xj HI E).
Qed.
Lemma run_kept : forall n, n <= N -> kept t0 (f n).
Proof. induction n as [|n IH]; intros Hn; [apply kept_refl|]. eapply kept_trans; [apply IH; lia|apply (run_step n), Hn]. Qed.
Lemma run_bound n s x : n <= N -> bound (f n) s x = bound t0 s x.
Proof. intros Hn. unfold bound. rewrite (k_cb _ _ (run_kept n Hn)). reflexivity. Qed.

Definition basic n x : bool := match gfind x (tab (f n)) with None => false | Some _ => true end.
Lemma basic_false n x : basic n x = false <-> gfind x (tab (f n)) = None.
Proof. unfold basic. destruct (gfind x (tab (f n))); split; congruence. Qed.
Lemma out_ne n : n < N -> xo n <> xn n.
Proof.
  intros Hn. destruct (ps_row _ _ _ _ _ (run_step n Hn)) as (l & c & Hi & Hj & _).
  exact (xi_xj (nx (f n)) (tab (f n)) (tw (f n)) (xo n) (xn n) l c (ti_wf _ _ (run_inv n ltac:(lia))) Hi Hj).
Qed.
Lemma out_basic n : n < N -> basic n (xo n) = true.
Proof.
  intros Hn. destruct (ps_row _ _ _ _ _ (run_step n Hn)) as (l & c & Hi & _). unfold basic.
  rewrite (gasc_in_find _ (wt_asc _ _ _ (ti_wf _ _ (run_inv n ltac:(lia)))) _ _ Hi). reflexivity.
Qed.
Lemma in_nonbasic n : n < N -> basic n (xn n) = false.
Proof.
  intros Hn. destruct (ps_row _ _ _ _ _ (run_step n Hn)) as (l & c & Hi & Hj & _). apply basic_false.
  exact (xj_nonbasic (nx (f n)) (tab (f n)) (tw (f n)) (xo n) (xn n) l c (ti_wf _ _ (run_inv n ltac:(lia))) Hi Hj).
Qed.
Lemma basic_S n x : n < N -> basic (S n) x = if Nat.eqb x (xo n) then false else if Nat.eqb x (xn n) then true else basic n x.
Proof.
  intros Hn. pose proof (ps_basis _ _ _ _ _ (run_step n Hn) x) as H. pose proof (out_ne n Hn).
  destruct (Nat.eqb_spec x (xo n)) as [->|H1]; [apply basic_false; tauto|]. destruct (Nat.eqb_spec x (xn n)) as [->|H2].
  - destruct (basic (S n) (xn n)) eqn:E; [reflexivity|]. apply basic_false in E. tauto.
  - destruct (basic n x) eqn:E.
    + destruct (basic (S n) x) eqn:E'; [reflexivity|]. apply basic_false in E'. apply H in E' as [E'|[_ E']]; [congruence|]. apply basic_false in E'. congruence.
    + apply basic_false. apply basic_false in E. tauto.
Qed.

(** How the value of a non-basic variable was set: [None], it is the initial one. *)
Fixpoint tag (n : nat) (x : nat) : option side :=
  match n with 0 => None | S m => if Nat.eqb x (xo m) then Some (so m) else tag m x end.
Lemma tag_val : forall n x, n <= N -> basic n x = false ->
  match tag n x with Some s => bound t0 s x = Some (vals (f n) x) | None => vals (f n) x = vals t0 x end.
Proof.
  induction n as [|n IH]; intros x Hn Hb; [reflexivity|]. pose proof (run_step n Hn) as P. rewrite basic_S in Hb by exact Hn. cbn [tag].
  destruct (Nat.eqb_spec x (xo n)) as [->|H1].
  - rewrite <- (run_bound n) by lia. apply P.
  - destruct (Nat.eqb_spec x (xn n)) as [->|H2]; [discriminate|]. rewrite (ps_old _ _ _ _ _ P x (proj1 (basic_false _ _) Hb) H2). apply IH; [lia|exact Hb].
Qed.
(** A variable larger than all the moving ones. *)
Lemma still p : forall n x, p <= n <= N -> (forall i, p <= i < n -> x <> xo i /\ x <> xn i) -> basic n x = basic p x /\ (basic p x = false -> vals (f n) x = vals (f p) x).
Proof.
  intros n x [Hpn HnN]. induction n as [|n IH]; intros H; [assert (p = 0) by lia; subst; auto|].
  destruct (Nat.eq_dec p (S n)) as [->|Hne]; [auto|]. specialize (IH ltac:(lia) ltac:(lia) ltac:(intros; apply H; lia)). destruct IH as [A B].
  destruct (H n ltac:(lia)) as [H1 H2]. rewrite basic_S by lia. destruct (Nat.eqb_spec x (xo n)); [congruence|]. destruct (Nat.eqb_spec x (xn n)); [congruence|].
  split; [exact A|]. intros Hb. rewrite (ps_old _ _ _ _ _ (run_step n ltac:(lia)) x); [apply B, Hb|apply basic_false; congruence|assumption].
Qed.

(** The heart of Bland's argument: [r] leaves at [i] towards side [s] and enters at [j] with that bound as its value; it
    is the largest variable that moves between [p] and [q]. *)
Lemma bland p q r i j s : p <= i < q -> p <= j < q -> q <= N -> (forall k, p <= k < q -> xo k <= r /\ xn k <= r) ->
  xo i = r -> so i = s -> xn j = r -> bound t0 s r = Some (vals (f j) r) -> False.
Proof.
  intros Hi Hj HqN Hmax Er Es Ej Hval.
  pose proof (run_inv i ltac:(lia)) as Ii. pose proof (run_inv j ltac:(lia)) as Ij.
  pose proof (run_step i ltac:(lia)) as Pi. pose proof (run_step j ltac:(lia)) as Pj.
  destruct (ps_row _ _ _ _ _ Pj) as (l & c & Hl & Hc & Hroom & Hfirst). rewrite Ej in *. set (x := xo j) in *. set (g := so j) in *.
  pose proof (ti_wf _ _ Ij) as Hwf. pose proof (wt_clean _ _ _ Hwf _ _ Hl) as [Hasc Hnz].
  assert (Hrj : gfind r (tab (f j)) = None) by (apply basic_false; rewrite <- Ej; apply in_nonbasic; lia).
  assert (Hxr : x < r).
  { assert (x <> r) by (rewrite <- Ej; apply out_ne; lia). pose proof (proj1 (Hmax j Hj)). unfold x in *. lia. }
  (* the values at [i] of the variables below [r] are within their bounds *)
  assert (Hin : forall s' y, y < r -> inb s' (bound t0 s' y) (vals (f i) y)).
  { intros s' y Hy. destruct (gfind y (tab (f i))) as [k|] eqn:Ey.
    - assert (Hv : viol (f i) s' y = false) by (apply (ps_least _ _ _ _ _ Pi); [congruence|rewrite Er; exact Hy]).
      unfold viol in Hv. rewrite run_bound in Hv by lia. destruct (bound t0 s' y) as [b|]; [|exact I]. apply negb_false_iff, sle_iff in Hv. exact Hv.
    - rewrite <- (run_bound i) by lia. apply (ti_nb _ _ Ii), Ey. }
  (* the sides agree *)
  assert (Hss : s = tside g c).
  { unfold room in Hroom. rewrite run_bound in Hroom by lia. destruct (side_eqb_spec s (other (tside g c))) as [E|E].
    - rewrite <- E, Hval in Hroom. apply negb_true_iff in Hroom. rewrite <- not_true_iff_false in Hroom. destruct Hroom. apply sle_iff, sleP_refl.
    - destruct s, (tside g c); cbn in E; congruence. }
  (* every term moved against the violation *)
  assert (Hterm : forall v k, In (v, k) (lvars l) -> inb (tside (other g) k) (Some (vals (f j) v)) (vals (f i) v)).
  { intros v k Hk. rewrite tside_other. cbn. apply sleP_other. assert (Hvn : gfind v (tab (f j)) = None).
    { apply (wt_var _ _ _ Hwf x l v Hl). apply (proj1 (min_iff _ Hasc _ _)) in Hk. unfold dom. congruence. }
    destruct (lt_eq_lt_dec v r) as [[Hlt| ->]|Hgt].
    - specialize (Hfirst v k Hk Hlt). unfold room in Hfirst. rewrite run_bound in Hfirst by lia. specialize (Hin (other (tside g k)) v Hlt).
      destruct (bound t0 (other (tside g k)) v) as [b|]; [|discriminate]. apply negb_false_iff, sle_iff in Hfirst. cbn in Hin.
      apply (proj1 (sleP_other _ _ _)) in Hfirst. apply (proj1 (sleP_other _ _ _)) in Hin. eapply sleP_trans; eassumption.
    - apply (proj1 (min_iff _ Hasc _ _)) in Hk. assert (k = c) by congruence. subst k. rewrite <- Hss.
      pose proof (ps_viol _ _ _ _ _ Pi) as Hv. rewrite Er, Es in Hv. unfold viol in Hv. rewrite run_bound, Hval in Hv by lia.
      apply negb_true_iff, sle_false in Hv. apply sltP_le, Hv.
    - assert (Heq : vals (f i) v = vals (f j) v).
      { assert (Hmv : forall n, p <= n < q -> v <> xo n /\ v <> xn n) by (intros n Hn; pose proof (Hmax n Hn); lia).
        destruct (still p i v ltac:(lia) ltac:(intros; apply Hmv; lia)) as [A1 A2]. destruct (still p j v ltac:(lia) ltac:(intros; apply Hmv; lia)) as [B1 B2].
        apply basic_false in Hvn. rewrite A2, B2 by congruence. reflexivity. }
      rewrite Heq. apply sleP_refl. }
  pose proof (bsum_inb (other g) (fun v _ => Some (vals (f j) v)) (vals (f i)) (lvars l) (Some (qe_of 0)) (qe_of 0) Hnz Hterm (sleP_refl _ _)) as HS.
  (* the rows hold at both moments *)
  pose proof (vsol_row _ _ _ _ (ti_val _ _ Ij) Hl) as [R1 R2].
  assert (HV : vsol (tab (f j)) (vals (f i))).
  { apply (same_vsol t0); [apply (k_same _ _ (run_kept j ltac:(lia)))|]. apply (same_vsol t0 (f i)); [apply (k_same _ _ (run_kept i ltac:(lia)))|apply Ii]. }
  pose proof (vsol_row _ _ _ _ HV Hl) as [R3 R4].
  assert (HB : forall m a, exists b, bsum (fun v _ => Some (vals (f j) v)) m (Some a) = Some b /\ (fst b == fst a + msum (rat (vals (f j))) m)%Q /\ (snd b == snd a + msum (eps (vals (f j))) m)%Q).
  { induction m as [|[v k] m IHm]; intros a; [exists a; cbn; split; [reflexivity|]; split; ring|]. destruct (IHm (qe_add a (qe_scale k (vals (f j) v)))) as (b & E1 & E2 & E3).
    exists b. split; [exact E1|]. cbn [msum]. rewrite E2, E3. unfold rat, eps. cbn. split; ring. }
  destruct (HB (lvars l) (qe_of 0)) as (b & Eb & E1 & E2). rewrite Eb in HS. cbn in HS. apply (proj1 (sleP_other _ _ _)) in HS.
  pose proof (ps_viol _ _ _ _ _ Pj) as Hv. fold x g in Hv. unfold viol in Hv. rewrite run_bound in Hv by lia. pose proof (Hin g x Hxr) as Hb.
  destruct (bound t0 g x) as [bx|]; [|discriminate]. apply negb_true_iff, sle_false in Hv. cbn in Hb. cbn [qsum fst snd] in *. change (fst (qe_of 0)) with 0%Q in *. change (snd (qe_of 0)) with 0%Q in *.
  destruct g; cbn in *; unfold qlt, qle in *; cbn in *; unfold qsum in *; cbn in *; lra.
Qed.

Lemma tag_from p r : forall n s, p <= n <= N -> tag n r = Some s -> (exists i, p <= i < n /\ xo i = r /\ so i = s) \/ (tag p r = Some s /\ forall i, p <= i < n -> xo i <> r).
Proof.
  induction n as [|n IH]; intros s Hn Ht; [assert (p = 0) by lia; subst; right; split; [exact Ht|lia]|].
  destruct (Nat.eq_dec p (S n)) as [->|Hne]; [right; split; [exact Ht|lia]|]. cbn [tag] in Ht. destruct (Nat.eqb_spec r (xo n)) as [->|H].
  - left. exists n. inversion Ht. split; [lia|auto].
  - destruct (IH s ltac:(lia) Ht) as [(i & A & B)|[A B]]; [left; exists i; split; [lia|exact B]|]. right. split; [exact A|]. intros i Hi. destruct (Nat.eq_dec i n) as [->|]; [congruence|apply B; lia].
Qed.
Lemma tag_none p r : forall n, p <= n <= N -> tag n r = None -> forall i, p <= i < n -> xo i <> r.
Proof.
  induction n as [|n IH]; intros Hn Ht i Hi; [lia|]. cbn [tag] in Ht. destruct (Nat.eqb_spec r (xo n)) as [->|H]; [discriminate|].
  destruct (Nat.eq_dec i n) as [->|]; [congruence|]. apply IH; [lia|exact Ht|lia].
Qed.
(** A variable that does not leave stays basic once it is. *)
Lemma stays r : forall p q, p <= q <= N -> (forall i, p <= i < q -> xo i <> r) -> basic p r = true -> basic q r = true.
Proof.
  intros p q Hq. induction q as [|q IH]; intros H Hb; [assert (p = 0) by lia; subst; exact Hb|].
  destruct (Nat.eq_dec p (S q)) as [->|]; [exact Hb|]. rewrite basic_S by lia. destruct (Nat.eqb_spec r (xo q)) as [E|]; [destruct (H q ltac:(lia)); congruence|].
  destruct (Nat.eqb r (xn q)); [reflexivity|]. apply IH; [lia|intros; apply H; lia|exact Hb].
Qed.
Lemma enters r : forall p q, p <= q <= N -> basic p r = false -> basic q r = true -> exists j, p <= j < q /\ xn j = r.
Proof.
  intros p q Hq Hp. induction q as [|q IH]; intros Hb; [assert (p = 0) by lia; subst; congruence|].
  destruct (Nat.eq_dec p (S q)) as [->|]; [congruence|]. rewrite basic_S in Hb by lia. destruct (Nat.eqb r (xo q)); [discriminate|].
  destruct (Nat.eqb_spec r (xn q)) as [->|]; [exists q; split; [lia|reflexivity]|]. destruct (IH ltac:(lia) Hb) as (j & A & B). exists j. split; [lia|exact B].
Qed.
Lemma max_moving p : forall n, p < n -> exists r, (exists k, p <= k < n /\ (xo k = r \/ xn k = r)) /\ forall k, p <= k < n -> xo k <= r /\ xn k <= r.
Proof.
  induction n as [|n IH]; intros Hp; [lia|]. destruct (Nat.eq_dec p n) as [->|].
  - exists (Nat.max (xo n) (xn n)). split; [exists n; split; [lia|lia]|]. intros k Hk. assert (k = n) by lia. subst. lia.
  - destruct (IH ltac:(lia)) as (r & (k & Hk & E) & M). exists (Nat.max r (Nat.max (xo n) (xn n))). split.
    + destruct (Nat.max_spec r (Nat.max (xo n) (xn n))) as [[_ ->]|[_ ->]]; [exists n; split; [lia|lia]|exists k; split; [lia|exact E]].
    + intros i Hi. destruct (Nat.eq_dec i n) as [->|]; [lia|]. specialize (M i ltac:(lia)). lia.
Qed.

Lemma no_cycle p q : p < q <= N -> (forall x, basic p x = basic q x) -> (forall x, tag p x = tag q x) -> False.
Proof.
  intros Hq HB HT. destruct (max_moving p q ltac:(lia)) as (r & (k & Hk & Ek) & Hmax).
  (* [r] enters at some point *)
  assert (Hj : exists j, p <= j < q /\ xn j = r).
  { destruct Ek as [Ek|Ek]; [|exists k; auto]. assert (Hk1 : basic (S k) r = false) by (rewrite basic_S, Ek, Nat.eqb_refl by lia; reflexivity).
    assert (Hk0 : basic k r = true) by (rewrite <- Ek; apply out_basic; lia).
    destruct (basic p r) eqn:Ep.
    - destruct (enters r (S k) q ltac:(lia) Hk1 ltac:(rewrite <- HB; exact Ep)) as (j & A & B). exists j. split; [lia|exact B].
    - destruct (enters r p k ltac:(lia) Ep Hk0) as (j & A & B). exists j. split; [lia|exact B]. }
  destruct Hj as (j & Hj & Ej). assert (Hbj : basic j r = false) by (rewrite <- Ej; apply in_nonbasic; lia).
  assert (Hbj1 : basic (S j) r = true).
  { rewrite basic_S by lia. rewrite <- Ej. rewrite Nat.eqb_refl. destruct (Nat.eqb_spec (xn j) (xo j)) as [E|]; [destruct (out_ne j ltac:(lia)); congruence|reflexivity]. }
  (* [r] leaves in the interval *)
  assert (Hsome : ~ forall i, p <= i < q -> xo i <> r).
  { intros Hno. assert (Hq' : basic q r = true) by (apply (stays r (S j)); [lia|intros; apply Hno; lia|exact Hbj1]).
    assert (Hp' : basic p r = true) by (rewrite HB; exact Hq'). assert (basic j r = true) by (apply (stays r p); [lia|intros; apply Hno; lia|exact Hp']). congruence. }
  pose proof (tag_val j r ltac:(lia) Hbj) as Hv. destruct (tag j r) as [s|] eqn:Et.
  - assert (Hi : exists i, p <= i < q /\ xo i = r /\ so i = s).
    { destruct (tag_from p r j s ltac:(lia) Et) as [(i & A & B)|[A _]]; [exists i; split; [lia|exact B]|].
      rewrite HT in A. destruct (tag_from p r q s ltac:(lia) A) as [(i & B & D)|[_ B]]; [exists i; split; [lia|exact D]|]. destruct (Hsome B). }
    destruct Hi as (i & Hi & Eo & Es). exact (bland p q r i j s Hi Hj ltac:(lia) Hmax Eo Es Ej Hv).
  - assert (Hp : tag p r = None).
    { destruct (tag p r) as [s|] eqn:E; [|reflexivity]. exfalso. assert (G : forall n, p <= n <= N -> tag n r <> None); [|apply (G j); [lia|exact Et]].
      induction n as [|n IH]; intros Hn; [assert (p = 0) by lia; subst; congruence|]. destruct (Nat.eq_dec p (S n)) as [<-|]; [congruence|].
      cbn [tag]. destruct (Nat.eqb r (xo n)); [discriminate|]. apply IH. lia. }
    rewrite HT in Hp. apply Hsome. exact (tag_none p r q ltac:(lia) Hp).
Qed.

(** ** Finitely many configurations. *)
Definition symbols : list (bool * option side) := list_prod [true; false] [None; Some Lo; Some Up].
Fixpoint words (n : nat) : list (list (bool * option side)) :=
  match n with 0 => [[]] | S m => map (fun e => fst e :: snd e) (list_prod symbols (words m)) end.
Lemma words_length n : length (words n) = 6 ^ n.
Proof. induction n as [|n IH]; [reflexivity|]. cbn [words Nat.pow]. rewrite map_length, prod_length, IH. reflexivity. Qed.
Lemma words_in (g : nat -> bool * option side) : forall l, In (map g l) (words (length l)).
Proof.
  induction l as [|a l IH]; [left; reflexivity|]. cbn [map words length]. apply in_map_iff. exists (g a, map g l). split; [reflexivity|]. apply in_prod; [|exact IH].
  unfold symbols. destruct (g a) as [[] [[]|]]; apply in_prod; cbn; auto.
Qed.
Definition conf (n : nat) : list (bool * option side) := map (fun x => (basic n x, tag n x)) (seq 0 (nx t0)).
Lemma conf_dec (a b : list (bool * option side)) : {a = b} + {a <> b}.
Proof. repeat decide equality. Qed.
Lemma split_map {A B} (g : A -> B) : forall l a (m1 m2 : list B), map g l = m1 ++ a :: m2 -> exists l1 x l2, l = l1 ++ x :: l2 /\ m1 = map g l1 /\ g x = a /\ m2 = map g l2.
Proof.
  intros l a m1. revert l. induction m1 as [|b m1 IH]; intros [|x l] m2 E; cbn in E; try discriminate.
  - inversion E; subst. exists [], x, l. auto.
  - inversion E; subst. destruct (IH l m2 H1) as (l1 & y & l2 & -> & -> & <- & ->). exists (x :: l1), y, l2. auto.
Qed.
Lemma repeats : 6 ^ nx t0 <= N -> exists p q, p < q <= N /\ conf p = conf q.
Proof.
  intros HN. set (L := map conf (seq 0 (S N))). assert (Hnd : ~ NoDup L).
  { intros Hnd. assert (Hincl : incl L (words (nx t0))).
    { intros w Hw. apply in_map_iff in Hw as (n & <- & _). unfold conf. pose proof (words_in (fun x => (basic n x, tag n x)) (seq 0 (nx t0))) as H. rewrite seq_length in H. exact H. }
    pose proof (NoDup_incl_length Hnd Hincl) as H. unfold L in H. rewrite map_length, seq_length, words_length in H. lia. }
  assert (HD : exists a l1 l2 l3, L = l1 ++ a :: l2 ++ a :: l3).
  { clear HN. revert Hnd. generalize L. clear. induction L as [|a L IH]; intros Hnd; [destruct Hnd; constructor|]. destruct (in_dec conf_dec a L) as [Hi|Hi].
    - apply in_split in Hi as (l2 & l3 & ->). exists a, [], l2, l3. reflexivity.
    - destruct IH as (b & l1 & l2 & l3 & ->); [intros H; apply Hnd; constructor; assumption|]. exists b, (a :: l1), l2, l3. reflexivity. }
  destruct HD as (a & l1 & l2 & l3 & E). unfold L in E. apply split_map in E as (m1 & p & m2 & E & _ & Ep & E2). symmetry in E2. apply split_map in E2 as (m3 & q & m4 & -> & _ & Eq & _).
  exists p, q. split; [|congruence]. assert (Hs : forall m a0 len, seq a0 len = m ++ p :: m3 ++ q :: m4 -> p < q < a0 + len).
  { induction m as [|u m IHm]; intros a0 [|len] Hs; cbn in Hs; try discriminate.
    - inversion Hs; subst. assert (Hq : In q (seq (S p) len)) by (rewrite H1; apply in_or_app; right; left; reflexivity). apply in_seq in Hq. lia.
    - inversion Hs; subst. specialize (IHm (S u) len H1). lia. }
  specialize (Hs m1 0 (S N) E). lia.
Qed.
Lemma moving_range n : n < N -> xo n < nx t0 /\ xn n < nx t0.
Proof.
  intros Hn. pose proof (run_inv n ltac:(lia)) as HI. destruct (ps_row _ _ _ _ _ (run_step n Hn)) as (l & c & Hi & Hj & _). rewrite <- (sm_nx _ _ (k_same _ _ (run_kept n ltac:(lia)))).
  split; [exact (wt_key _ _ _ (ti_wf _ _ HI) _ _ Hi)|]. apply (wt_var _ _ _ (ti_wf _ _ HI) _ _ _ Hi). unfold dom. congruence.
Qed.
Lemma tag_range : forall n x, n <= N -> nx t0 <= x -> tag n x = None.
Proof. induction n as [|n IH]; intros x Hn Hx; [reflexivity|]. cbn [tag]. destruct (Nat.eqb_spec x (xo n)) as [->|]; [pose proof (moving_range n Hn); lia|apply IH; lia]. Qed.
Lemma basic_range n x : n <= N -> nx t0 <= x -> basic n x = false.
Proof.
  intros Hn Hx. apply basic_false. destruct (gfind x (tab (f n))) as [l|] eqn:E; [|reflexivity]. apply gfind_in in E. apply (wt_key _ _ _ (ti_wf _ _ (run_inv n Hn))) in E.
  rewrite (sm_nx _ _ (k_same _ _ (run_kept n Hn))) in E. lia.
Qed.
Lemma short : N < 6 ^ nx t0.
Proof.
  destruct (le_lt_dec (6 ^ nx t0) N) as [H|H]; [|exact H]. exfalso. destruct (repeats H) as (p & q & Hpq & E).
  assert (Ex : forall x, x < nx t0 -> (basic p x, tag p x) = (basic q x, tag q x)).
  { intros x Hx. unfold conf in E. assert (In x (seq 0 (nx t0))) as Hi by (apply in_seq; lia). revert Hi E. generalize (seq 0 (nx t0)). induction l as [|a l IH]; intros Hi E; [destruct Hi|]. cbn in E. destruct Hi as [->|Hi]; [inversion E; congruence|].
    inversion E. apply IH; auto. }
  apply (no_cycle p q Hpq); intros x; (destruct (le_lt_dec (nx t0) x) as [Hx|Hx]; [|specialize (Ex x Hx); congruence]).
  - rewrite !basic_range by lia. reflexivity.
  - rewrite !tag_range by lia. reflexivity.
Qed.
End Cycle.

(** The check of a legal state returns. *)
Theorem lra_check_total t vs fuel : TInv t vs -> 6 ^ nx t <= fuel -> lra_check fuel t <> OOF.
Proof.
  intros HI Hf E. pose proof (short t vs HI fuel (oof_run fuel t vs HI E)). lia.
Qed.
