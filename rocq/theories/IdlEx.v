(** Executable histories of a network with machine integers, and the bounds of expressions. *)
From Verif Require Import Base Sat SatInv Run ThRel Lin Qe Dw Dl DlClo DlTight DlTh DlFacts DlApi DlSpec DlQ DlNet DlTrace DlRSpec Para Idl IdlBd IdlSim IdlRun IdlNet IdlHist.
From Coq Require Import Lqa QArith.Qabs.
Open Scope nat_scope. Open Scope Z_scope.
Section Play.
Context {S : Type} (go : nat -> S -> @dcall Z -> res (S * dret)).
(** The calls, the first one first; the history and the state. *)
Fixpoint play (fl : nat) (cs : list (@dcall Z)) (h : list ev) (s : S) : res (list ev * S) :=
  match cs with [] => Ok (h, s) | c :: r => '(s', x) <- go fl s c ;; play fl r (mk_ev fl c x :: h) s' end.
Lemma play_hist s0 fl : forall cs h s h' s', Hist go s0 h s -> play fl cs h s = Ok (h', s') -> Hist go s0 h' s'.
Proof.
  induction cs as [|c cs IH]; intros h s h' s' H; cbn [play]; [intros E; injection E as <- <-; exact H|]. destruct (go fl s c) as [[s1 x]| |] eqn:E; cbn [rbind]; try discriminate. apply IH, (H_step _ _ h s fl c s1 x H E).
Qed.
End Play.
Section Srt.
Context {sr : sorter}.
Definition told (h : list ev) : list (@devent Z) := map (fun e => mk_dev (ev_call e) (ev_ret e)) h.
Definition iplay (mx : Z) (size fl : nat) (cs : list (@dcall Z)) := play (icstep mx) fl cs [] (init [i_init mx size]).
Definition zplay (size fl : nat) (cs : list (@dcall Z)) := play (dcstep (W := Zw) zlast) fl cs [] (init [dl_init Zw size]).
Lemma iplay_hist mx size fl cs h u : iplay mx size fl cs = Ok (h, u) -> IHist mx size h u.
Proof. intros E. eapply play_hist; [apply H_init|exact E]. Qed.
Lemma zplay_hist size fl cs h u : zplay size fl cs = Ok (h, u) -> ZHist size h u.
Proof. intros E. eapply play_hist; [apply H_init|exact E]. Qed.

(** ** The bounds of [c * v + k]. *)
Theorem machine_bounds mx M N size h s t m v (c k : Z) lo hi : room mx M N -> (0 < size)%nat -> ZHist size h s -> small M N (calls h) -> theories s = [t] ->
  (forall u, IHist mx size h u -> theories u = [m]) -> Z.abs c * (Z.of_nat N * (M + 1)) + Z.abs k <= mx ->
  idl_bounds t (mk_lin [(v, inject_Z c)] (inject_Z k)) = Some (Some lo, Some hi) -> i_bounds mx m (mk_lin [(v, inject_Z c)] (inject_Z k)) = Ok (Some (lo, hi)).
Proof.
  intros HR Hs HZ Hm Et Eu Hk E. destruct (hist_rel mx M N HR size h s Hs HZ Hm) as (u & HU & K). destruct (mrel_one mx M N _ _ _ K) as (t' & m' & Et' & Em & HI & En & Ha & Env). rewrite Et in Et'. injection Et' as <-. rewrite (Eu u HU) in Em. injection Em as <-.
  destruct HI as (R & Hsc & Hn & w & vs & HD). destruct HR as [H1 H2 H3]. pose proof (Ri_all M N H1 t w vs HD Hsc Hn) as Hb.
  unfold idl_bounds, i_bounds in *. cbn [lvars lkt] in *. destruct (z_of_q_int c (inject_Z c) ltac:(reflexivity)) as (c' & Ec & ->). destruct (z_of_q_int k (inject_Z k) ltac:(reflexivity)) as (k' & Ek & ->). rewrite Ec, Ek in *. unfold distance, zaff in E. cbn [fst snd] in E.
  unfold i_lb, i_ub. rewrite !(rp_d _ _ _ R). pose proof (Hb v 0%nat) as B1. pose proof (Hb 0%nat v) as B2. destruct (dists t v 0) as [a|]; [|discriminate]. destruct (dists t 0%nat v) as [b|]; [|discriminate]. cbn [option_map code] in *. injection E as <- <-. change (wneg Zw a) with (- a).
  specialize (B1 a eq_refl). specialize (B2 b eq_refl). pose proof (Hmx mx) as Hx.
  assert (A1 : Z.abs (- a * c) <= Z.abs c * (Z.of_nat N * (M + 1))) by (rewrite Z.abs_mul, Z.abs_opp; nia).
  assert (A2 : Z.abs (b * c) <= Z.abs c * (Z.of_nat N * (M + 1))) by (rewrite Z.abs_mul; nia).
  assert (Ia : Z.abs (- a) <= mx) by lia.
  rewrite (fit_ok mx (- a) Ia). cbn [rbind]. rewrite (fit_ok mx (- a * c)) by lia. cbn [rbind]. rewrite (fit_ok mx (- a * c + k)) by lia. cbn [rbind]. rewrite (fit_ok mx (b * c)) by lia. cbn [rbind]. rewrite (fit_ok mx (b * c + k)) by lia. reflexivity.
Qed.

(** ** The other queries on expressions. *)
Definition icode (mx : Z) (b : option Z * option Z) : Z * Z := (match fst b with Some l => l | None => - inf mx end, match snd b with Some d => d | None => inf mx end).
Section Query.
Variables (mx M : Z) (N : nat).
Hypothesis HR : room mx M N.
Variables (size : nat) (h : list ev) (s : st (dl Z)) (t : dl Z) (m : idl).
Hypothesis Hs : (0 < size)%nat.
Hypothesis HZ : ZHist size h s.
Hypothesis Hm : small M N (calls h).
Hypothesis Et : theories s = [t].
Hypothesis Eu : forall u, IHist mx size h u -> theories u = [m].
Lemma q_dist i j : i_distance mx m i j = Ok (icode mx (distance Zw t i j)).
Proof.
  destruct (machine_history mx M N size h s HR Hs HZ Hm) as (u & HU & _ & _ & t' & m' & Et' & Em & K & _). rewrite Et in Et'. injection Et' as <-. rewrite (Eu u HU) in Em. injection Em as <-. apply K.
Qed.
Lemma q_bound i j d : dists t i j = Some d -> Z.abs d < inf mx.
Proof.
  destruct (machine_history mx M N size h s HR Hs HZ Hm) as (u & HU & _ & _ & t' & m' & Et' & Em & _ & K). rewrite Et in Et'. injection Et' as <-. intros E. specialize (K i j d E). destruct HR. nia.
Qed.
Theorem machine_distance_lin from to : i_distance_lin mx m from to = Ok (option_map (icode mx) (idl_distance t from to)).
Proof.
  unfold i_distance_lin, idl_distance, dl_distance. destruct (lvars (lin_sub from to)) as [|e l]; [reflexivity|]. destruct (dl_form Zw (lin_sub from to)) as [[k|g v k|g v v1 k]|]; try reflexivity; rewrite q_dist; reflexivity.
Qed.
(** Known terms of less than [inf mx] together, coefficients 1. *)
Definition plain_exprs (l0 l1 : lin) : Prop := (forall v c, In (v, c) (lvars l0 ++ lvars l1) -> (c == 1)%Q) /\ (Qabs (lkt l0) + Qabs (lkt l1) < inject_Z (inf mx))%Q.
Lemma q_bounds v c k : (c == 1)%Q -> (Qabs k < inject_Z (inf mx))%Q -> i_bounds mx m (mk_lin [(v, c)] k) = Ok (match idl_bounds t (mk_lin [(v, c)] k) with Some _ => match z_of_q k with Some z => let (a, b) := icode mx (distance Zw t 0 v) in Some (a + z, b + z) | None => None end | None => None end).
Proof.
  intros Hc Hk. unfold i_bounds, idl_bounds. cbn [lvars lkt]. destruct (z_of_q_int 1 c Hc) as (c' & -> & ->). destruct (z_of_q k) as [z|] eqn:Ez; [|reflexivity]. apply z_of_q_ok in Ez. rewrite Ez in Hk. change (Qabs (inject_Z z)) with (inject_Z (Z.abs z)) in Hk. rewrite <- Zlt_Qlt in Hk.
  pose proof (q_dist 0%nat v) as Q. unfold i_distance in Q. pose proof (Hmx mx) as Hx. unfold i_lb, i_ub. destruct (fit mx (- idist m v 0)) as [l| |]; cbn [rbind] in *; try discriminate Q. injection Q as E1 E2.
  assert (A1 : Z.abs l <= inf mx). { rewrite E1. unfold distance. cbn [fst snd]. pose proof (q_bound v 0%nat) as B. destruct (dists t v 0) as [d|]; cbn [option_map]; [specialize (B d eq_refl); change (wneg Zw d) with (- d)|]; destruct HR; nia. }
  assert (A2 : Z.abs (idist m 0 v) <= inf mx). { rewrite E2. unfold distance. cbn [fst snd]. pose proof (q_bound 0%nat v) as B. destruct (dists t 0%nat v) as [d|]; [specialize (B d eq_refl)|]; destruct HR; nia. }
  rewrite !Z.mul_1_r. rewrite (fit_ok mx l) by lia. cbn [rbind]. rewrite (fit_ok mx (l + z)) by lia. cbn [rbind]. rewrite (fit_ok mx (idist m 0 v)) by lia. cbn [rbind]. rewrite (fit_ok mx) by lia. cbn [rbind]. rewrite E1, E2. reflexivity.
Qed.
Lemma zq_le a q : Qle_bool a q = true <-> (a <= q)%Q.
Proof. apply Qle_bool_iff. Qed.
Lemma q_inq v c k q : (c == 1)%Q -> (Qabs q + Qabs k < inject_Z (inf mx))%Q ->
  (o <- i_bounds mx m (mk_lin [(v, c)] k) ;; Ok (match o with Some b => Some (i_inq b q) | None => None end)) = Ok (match idl_bounds t (mk_lin [(v, c)] k) with Some b => Some (in_z b q) | None => None end).
Proof.
  intros Hc Hk. pose proof (Qabs_nonneg q) as P1. pose proof (Qabs_nonneg k) as P2. rewrite (q_bounds v c k Hc) by lra. cbn [rbind]. unfold idl_bounds. cbn [lvars lkt]. destruct (z_of_q_int 1 c Hc) as (c' & -> & ->). destruct (z_of_q k) as [z|] eqn:Ez; [|reflexivity]. apply z_of_q_ok in Ez. rewrite Ez in Hk. clear P2.
  f_equal. f_equal. unfold distance, in_z, i_inq, icode, zaff. cbn [fst snd].
  assert (Hq : (- inject_Z (inf mx) + inject_Z z <= q)%Q /\ (q <= inject_Z (inf mx) + inject_Z z)%Q) by (revert Hk P1; apply Qabs_case; apply Qabs_case; intros; lra). destruct Hq as [Q1 Q2].
  assert (A : Qle_bool (inject_Z (- inf mx + z)) q = true) by (apply zq_le; rewrite inject_Z_plus, inject_Z_opp; exact Q1).
  assert (A' : Qle_bool q (inject_Z (inf mx + z)) = true) by (apply zq_le; rewrite inject_Z_plus; exact Q2).
  destruct (dists t v 0), (dists t 0%nat v); cbn [option_map]; rewrite ?Z.mul_1_r, ?A, ?A'; cbn [andb]; rewrite ?andb_true_r; reflexivity.
Qed.
Theorem machine_matches l0 l1 : plain_exprs l0 l1 -> i_matches mx m l0 l1 = Ok (idl_matches t l0 l1).
Proof.
  intros [Hc Hk]. unfold i_matches, idl_matches, dl_matches. destruct l0 as [m0 k0], l1 as [m1 k1]. cbn [lvars lkt] in *. destruct m0 as [|[v0 c0] [|? ?]], m1 as [|[v1 c1] [|? ?]]; try reflexivity.
  - apply q_inq; [apply (Hc v1); left; reflexivity|exact Hk].
  - apply q_inq; [apply (Hc v0); left; reflexivity|]. lra.
  - rewrite q_dist. cbn [rbind icode]. f_equal. f_equal. unfold distance, in_z. cbn [fst snd].
    assert (Hq : (- inject_Z (inf mx) <= - (k0 - k1))%Q /\ (- (k0 - k1) <= inject_Z (inf mx))%Q) by (revert Hk; apply Qabs_case; apply Qabs_case; intros; lra). destruct Hq as [Q1 Q2].
    assert (G : forall x y : bool, (x = true <-> y = true) -> x = y) by (intros [] []; intuition congruence). apply G. rewrite !andb_true_iff, !zq_le. change (wneg Zw) with Z.opp.
    destruct (dists t v1 v0) as [d|], (dists t v0 v1) as [e|]; cbn [option_map]; rewrite ?zq_le, ?inject_Z_opp; (split; intros [? ?]; split; first [reflexivity|lra]).
Qed.
End Query.
End Srt.
