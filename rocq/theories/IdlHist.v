(** Histories of a network with integer difference logic: with unbounded integers and with those of a machine. *)
From Verif Require Import Base Sat Run ThRel Lin Qe Dw Dl DlClo DlTight DlEdge DlTh DlFacts DlVal DlApi DlSpec DlQ DlNet DlTrace DlRSpec Para NvMono Idl IdlBd IdlSim IdlRun IdlNet.
From Coq Require Import Lqa QArith.Qabs.
Open Scope nat_scope. Open Scope Z_scope.
Local Arguments Nat.ltb : simpl never.
Local Arguments Nat.eqb : simpl never.
Local Arguments Z.mul : simpl never.
Local Arguments Z.add : simpl never.
Local Arguments Z.sub : simpl never.
Local Arguments Z.opp : simpl never.
Local Arguments Z.leb : simpl never.
Local Arguments Z.ltb : simpl never.

(** ** Vocabulary: a history is a list of calls, the last one first, with what they returned (and the bound given on the iterations of a loop). *)
Record ev := mk_ev { ev_fuel : nat; ev_call : @dcall Z; ev_ret : dret }.
Inductive Hist {S : Type} (go : nat -> S -> @dcall Z -> res (S * dret)) (s0 : S) : list ev -> S -> Prop :=
| H_init : Hist go s0 [] s0
| H_step h s fl c s' r : Hist go s0 h s -> go fl s c = Ok (s', r) -> Hist go s0 (mk_ev fl c r :: h) s'.
(** Variables created, with the origin. *)
Definition is_var (c : @dcall Z) : bool := match c with DVar => true | _ => false end.
Definition vars_of (cs : list (@dcall Z)) : nat := S (length (filter is_var cs)).
(** At most [N] variables; weights up to [M]; the constant of a comparison is less than [M] times any of its coefficients. *)
Definition small_call (M : Z) (N n : nat) (c : @dcall Z) : Prop :=
  match c with
  | DSat _ => True
  | DVar => (n < N)%nat
  | DDist from to w => (from < n)%nat /\ (to < n)%nat /\ Z.abs w <= M
  | DDist2 from to mn mxd => (from < n)%nat /\ (to < n)%nat /\ Z.abs mn <= M /\ Z.abs mxd <= M
  | DCmp _ e1 e2 => forall v c, In (v, c) (lvars (lin_sub e1 e2)) -> (v < n)%nat /\ (Qabs (lkt (lin_sub e1 e2)) < inject_Z M * Qabs c)%Q
  end.
Fixpoint small (M : Z) (N : nat) (cs : list (@dcall Z)) : Prop :=
  match cs with [] => True | c :: r => small M N r /\ small_call M N (vars_of r) c end.
(** The machine's integers have room for [N] variables and weights up to [M]. *)
Record room (mx M : Z) (N : nat) : Prop := { rm_m : 1 <= M; rm_n : (1 <= N)%nat; rm_inf : (2 * Z.of_nat N + 1) * (M + 1) < inf mx }.

Section Hist.
Context {sr : sorter}.
Notation dst := (st (dl Z)).
Notation ist := (st Idl.idl).
Definition ZHist (size : nat) : list ev -> dst -> Prop := Hist (dcstep (W := Zw) zlast) (init [dl_init Zw size]).
Definition IHist (mx : Z) (size : nat) : list ev -> ist -> Prop := Hist (icstep mx) (init [i_init mx size]).
Definition calls (h : list ev) : list (@dcall Z) := map ev_call h.

Lemma hist_det {S} (go : nat -> S -> @dcall Z -> res (S * dret)) s0 h s : Hist go s0 h s -> forall s', Hist go s0 h s' -> s' = s.
Proof. induction 1 as [|h s fl c s1 r HH IH E]; intros s' H'; inversion H' as [|? u ? ? ? ? HU EU]; subst; [reflexivity|]. apply IH in HU. subst u. rewrite E in EU. injection EU as <-. reflexivity. Qed.

Section Room.
Variables (mx M : Z) (N : nat).
Hypothesis HR : room mx M N.
Notation mrel := (mrel mx M N).
Lemma m_init size : (0 < size)%nat -> mrel 1 (init [dl_init Zw size]) (init [i_init mx size]).
Proof.
  intros Hs. destruct HR as [H1 H2 H3]. split; [|exists (dl_init Zw size); split; [reflexivity|split; [reflexivity|intros v (c & [] & _)]]].
  exists [i_init mx size], (listening (init [i_init mx size])), (log (init [i_init mx size])). split; [reflexivity|]. constructor; [|constructor]. apply Ri_init; assumption.
Qed.
Definition after (n : nat) (c : @dcall Z) : nat := if is_var c then S n else n.
Lemma m_call n s u c fl : mrel n s u -> small_call M N n c -> rr (mpair mx M N (after n c)) (dcstep (W := Zw) zlast fl s c) (icstep mx fl u c).
Proof.
  intros H Hc. destruct HR as [H1 H2 H3]. destruct c as [c| |from to w|from to mn mxd|r e1 e2]; cbn [dcstep icstep small_call after is_var] in *.
  - apply (rr_bind (mpair mx M N n)); [apply mrel_step; assumption|]. intros [s1 x] [u1 y] [K E]. cbn [fst snd] in *. subst y. split; [exact K|reflexivity].
  - apply (rr_bind (mpair mx M N (S n))); [apply m_var; assumption|]. intros [s1 x] [u1 y] [K E]. cbn [fst snd] in *. subst y. split; [exact K|reflexivity].
  - destruct Hc as (A & B & C). apply (rr_bind (mpair mx M N n)); [apply m_dist; assumption|]. intros [s1 x] [u1 y] [K E]. cbn [fst snd] in *. subst y. split; [exact K|reflexivity].
  - destruct Hc as (A & B & C & D). apply (rr_bind (mpair mx M N n)); [apply m_dist2; assumption|]. intros [s1 x] [u1 y] [K E]. cbn [fst snd] in *. subst y. split; [exact K|reflexivity].
  - apply (rr_bind (opair mx M N n s u)); [apply m_rel; assumption|]. intros [[s1 x]|] [[u1 y]|] K; try (destruct K; fail); cbn [rr]; [destruct K as [K E]; cbn [fst snd] in *; subst y|]; (split; [assumption|reflexivity]).
Qed.
Lemma after_vars c cs : after (vars_of cs) c = vars_of (c :: cs).
Proof. unfold after, vars_of. cbn [filter]. destruct (is_var c); reflexivity. Qed.
Lemma hist_rel size h s : (0 < size)%nat -> ZHist size h s -> small M N (calls h) -> exists u, IHist mx size h u /\ mrel (vars_of (calls h)) s u.
Proof.
  intros Hs. induction 1 as [|h s fl c s' r HH IH E]; intros Hm; [eexists; split; [constructor|apply m_init, Hs]|]. cbn [calls map ev_call small] in Hm. destruct Hm as [Hm Hc]. destruct (IH Hm) as (u & HU & K).
  pose proof (m_call _ s u c fl K Hc) as Q. rewrite E in Q. cbn [rr] in Q. destruct (icstep mx fl u c) as [[u' r']| |] eqn:EU; try (destruct Q; fail). destruct Q as [Q1 Q2]. cbn [fst snd] in *. subst r'.
  exists u'. split; [apply (H_step _ _ h u fl c u' r HU EU)|]. cbn [calls map ev_call]. rewrite <- after_vars. exact Q1.
Qed.
End Room.

(** ** The theorems. *)
Theorem machine_history mx M N size h s : room mx M N -> (0 < size)%nat -> ZHist size h s -> small M N (calls h) ->
  exists u, IHist mx size h u /\ (forall p, value u p = value s p) /\ dlevel u = dlevel s /\
    exists t m, theories s = [t] /\ theories u = [m] /\
      (forall i j, i_distance mx m i j = Ok (match fst (distance Zw t i j) with Some l => l | None => - inf mx end, match snd (distance Zw t i j) with Some d => d | None => inf mx end)) /\
      (forall i j d, snd (distance Zw t i j) = Some d -> Z.abs d <= Z.of_nat N * (M + 1)).
Proof.
  intros HR Hs HZ Hm. destruct (hist_rel mx M N HR size h s Hs HZ Hm) as (u & HU & K). exists u. split; [exact HU|]. destruct (mrel_one mx M N _ _ _ K) as (t & m & Et & Em & HI & En & Ha & Env). destruct K as [(ths & L & G & E & _) _]. split; [intros p; subst u; reflexivity|]. split; [subst u; reflexivity|].
  exists t, m. split; [exact Et|]. split; [exact Em|]. destruct HI as (R & Hsc & Hn & v & vs & HD). destruct HR as [H1 H2 H3]. pose proof (Ri_all M N H1 t v vs HD Hsc Hn) as Hb. split.
  - intros i j. unfold i_distance, distance. rewrite !(rp_d _ _ _ R). cbn [fst snd]. assert (Hc : Z.abs (code mx (dists t j i)) <= inf mx). { unfold code. specialize (Hb j i). destruct (dists t j i) as [x|]; [specialize (Hb x eq_refl)|]; lia. }
    rewrite (fit_ok mx) by (pose proof (Hmx mx); lia). cbn [rbind]. unfold code. destruct (dists t j i); destruct (dists t i j); reflexivity.
  - intros i j d E'. apply (Hb i j d E').
Qed.
Theorem machine_call mx M N size h s u c fl : room mx M N -> (0 < size)%nat -> ZHist size h s -> IHist mx size h u -> small M N (c :: calls h) ->
  (forall s' r, dcstep (W := Zw) zlast fl s c = Ok (s', r) -> exists u', icstep mx fl u c = Ok (u', r) /\ forall p, value u' p = value s' p) /\
  (dcstep (W := Zw) zlast fl s c = OOF -> icstep mx fl u c = OOF).
Proof.
  intros HR Hs HZ HI [Hm Hc]. destruct (hist_rel mx M N HR size h s Hs HZ Hm) as (u0 & HU & K). pose proof (hist_det _ _ _ _ HU _ HI) as ->.
  pose proof (m_call mx M N HR _ s u0 c fl K Hc) as Q. split.
  - intros s' r E. rewrite E in Q. cbn [rr] in Q. destruct (icstep mx fl u0 c) as [[u' r']| |]; try (destruct Q; fail). destruct Q as [[(ths & L & G & Eu & _) _] Q2]. cbn [fst snd] in *. subst r' u'. eexists. split; reflexivity.
  - intros E. rewrite E in Q. exact Q.
Qed.

(** At root level, where C63 says that every call returns. *)
Lemma trace_hist size tr s : ZTrace size tr s -> exists h, ZHist size h s /\ map (fun e => mk_dev (ev_call e) (ev_ret e)) h = tr.
Proof.
  induction 1 as [|fl tr s c s' r HT IH HL HE HA]; [exists []; split; [constructor|reflexivity]|]. destruct IH as (h & HH & <-). exists (mk_ev fl c r :: h). split; [apply (H_step _ _ h s fl c s' r HH HE)|reflexivity].
Qed.
Theorem root_call mx M N size tr s c fl : room mx M N -> (0 < size)%nat -> ZTrace size tr s -> small M N (c :: map de_call tr) -> dlegal ZL zlast s c -> (dbound s < fl)%nat ->
  exists h u u' r, IHist mx size h u /\ map (fun e => mk_dev (ev_call e) (ev_ret e)) h = tr /\ icstep mx fl u c = Ok (u', r) /\ exists s', dcstep (W := Zw) zlast fl s c = Ok (s', r) /\ forall p, value u' p = value s' p.
Proof.
  intros HR Hs HT Hm HL Hfl. destruct (trace_hist size tr s HT) as (h & HH & Eh). assert (Em : calls h = map de_call tr) by (rewrite <- Eh; unfold calls; rewrite map_map; reflexivity). rewrite <- Em in Hm.
  destruct (dtotal ZL ZR zlast size Hs tr s c fl HT HL Hfl) as (s' & r & E). destruct (hist_rel mx M N HR size h s Hs HH (proj1 Hm)) as (u & HU & _).
  destruct (machine_call mx M N size h s u c fl HR Hs HH HU Hm) as [K _]. destruct (K s' r E) as (u' & EU & Ev). exists h, u, u', r. split; [exact HU|]. split; [exact Eh|]. split; [exact EU|]. exists s'. split; [exact E|exact Ev].
Qed.
End Hist.
