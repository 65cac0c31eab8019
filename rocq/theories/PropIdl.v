(** Integer difference logic with the integers of a machine (C81).  Nothing but statements, closed by lemmas, and concrete cases.
    Vocabulary (IdlHist.v): [ZHist size h s]: a network made of a core and an idl_theory of the given initial size is in state [s]
    after the history [h] of any calls, decisions and backjumping included, with unbounded integers; [IHist mx size h u]: the same with integers whose greatest is [mx]; infinity
    is the number [inf mx] (idl_theory.h:144) and a result that does not fit is undefined behaviour;
    [small M N cs]: the calls [cs] (the last one first) create at most [N] variables, with the origin, give weights up to [M], and compare expressions whose
    difference has a constant less than [M] times any coefficient; [room mx M N]: [(2 * N + 1) * (M + 1) < inf mx].
    [zstep] is one call with unbounded integers, [icstep mx] one with the machine's. *)
From Verif Require Import Base Sat SatMain Run Lin Qe Dw Dl DlFacts DlApi DlSpec DlQ DlNet DlTrace DlRSpec Idl IdlRun IdlNet IdlHist IdlEx.
From Coq Require Import QArith.Qabs.
Open Scope nat_scope. Open Scope Z_scope.
#[local] Existing Instance stable_sort | 100.

(** ** C81 *)
(** Whatever has happened, with small weights the next call returns the same, and leaves the same values to the propositional variables. *)
Theorem C81_same_answer (sr : sorter) mx M N size h s u c fl : room mx M N -> (0 < size)%nat -> ZHist size h s -> IHist mx size h u -> small M N (c :: calls h) ->
  (forall s' r, zstep fl s c = Ok (s', r) -> exists u', icstep mx fl u c = Ok (u', r) /\ forall p, value u' p = value s' p) /\ (zstep fl s c = OOF -> icstep mx fl u c = OOF).
Proof. exact (machine_call mx M N size h s u c fl). Qed.
Print Assumptions C81_same_answer.
(** Every such history can be had with the machine's integers; distance(i, j) is that of the unbounded integers, an infinite bound being [inf mx] or its negation. *)
Theorem C81_history (sr : sorter) mx M N size h s : room mx M N -> (0 < size)%nat -> ZHist size h s -> small M N (calls h) ->
  exists u, IHist mx size h u /\ (forall p, value u p = value s p) /\ dlevel u = dlevel s /\
    exists t m, theories s = [t] /\ theories u = [m] /\
      (forall i j, i_distance mx m i j = Ok (match fst (distance Zw t i j) with Some l => l | None => - inf mx end, match snd (distance Zw t i j) with Some d => d | None => inf mx end)) /\
      (forall i j d, snd (distance Zw t i j) = Some d -> Z.abs d <= Z.of_nat N * (M + 1)).
Proof. exact (machine_history mx M N size h s). Qed.
Print Assumptions C81_history.
(** At root level no legal call overflows: it returns, with the answer of C63. *)
Theorem C81_returns (sr : sorter) mx M N size tr s c fl : room mx M N -> (0 < size)%nat -> ZTrace size tr s -> small M N (c :: map de_call tr) -> dlegal ZL zlast s c -> (dbound s < fl)%nat ->
  exists h u u' r, IHist mx size h u /\ told h = tr /\ icstep mx fl u c = Ok (u', r) /\ exists s', zstep fl s c = Ok (s', r) /\ forall p, value u' p = value s' p.
Proof. exact (root_call mx M N size tr s c fl). Qed.
Print Assumptions C81_returns.
(** bounds(c * v + k), when finite and representable. *)
Theorem C81_bounds (sr : sorter) mx M N size h s t m v (c k : Z) lo hi : room mx M N -> (0 < size)%nat -> ZHist size h s -> small M N (calls h) -> theories s = [t] ->
  (forall u, IHist mx size h u -> theories u = [m]) -> Z.abs c * (Z.of_nat N * (M + 1)) + Z.abs k <= mx ->
  idl_bounds t (mk_lin [(v, inject_Z c)] (inject_Z k)) = Some (Some lo, Some hi) -> i_bounds mx m (mk_lin [(v, inject_Z c)] (inject_Z k)) = Ok (Some (lo, hi)).
Proof. exact (machine_bounds mx M N size h s t m v c k lo hi). Qed.
Print Assumptions C81_bounds.
(** distance(e1, e2) of expressions, whatever they are ([None]: throws). *)
Theorem C81_expression_distance (sr : sorter) mx M N size h s t m : room mx M N -> (0 < size)%nat -> ZHist size h s -> small M N (calls h) -> theories s = [t] ->
  (forall u, IHist mx size h u -> theories u = [m]) ->
  forall e1 e2, i_distance_lin mx m e1 e2 = Ok (match idl_distance t e1 e2 with
    | Some (l, d) => Some (match l with Some l => l | None => - inf mx end, match d with Some d => d | None => inf mx end)
    | None => None
    end).
Proof. intros HR Hs HZ Hm Et Eu e1 e2. rewrite (machine_distance_lin mx M N HR size h s t m Hs HZ Hm Et Eu e1 e2). destruct (idl_distance t e1 e2) as [[l d]|]; reflexivity. Qed.
Print Assumptions C81_expression_distance.
(** matches(e1, e2) of expressions with coefficients 1 and known terms of less than [inf mx] together. *)
Theorem C81_matches (sr : sorter) mx M N size h s t m : room mx M N -> (0 < size)%nat -> ZHist size h s -> small M N (calls h) -> theories s = [t] ->
  (forall u, IHist mx size h u -> theories u = [m]) ->
  forall e1 e2, (forall v c, In (v, c) (lvars e1 ++ lvars e2) -> (c == 1)%Q) -> (Qabs (lkt e1) + Qabs (lkt e2) < inject_Z (inf mx))%Q ->
  i_matches mx m e1 e2 = Ok (idl_matches t e1 e2).
Proof. intros HR Hs HZ Hm Et Eu e1 e2 H1 H2. exact (machine_matches mx M N HR size h s t m Hs HZ Hm Et Eu e1 e2 (conj H1 H2)). Qed.
Print Assumptions C81_matches.

(** ** Without the bound on the weights: integers of 64 bits. *)
Definition mx64 : Z := 2 ^ 63 - 1.
Definition b (v : nat) : lit := mk_lit v true.
Notation INF := (inf mx64).
Definition c81f : list (@dcall Z) := [DVar; DVar; DDist 1 0 (1 - INF); DDist 0 2 (-10); DSat (CClause [b 1]); DSat (CClause [b 2]); DSat CPropagate].
Definition c81h (l : list (@dcall Z)) : list ev := match iplay mx64 16 100 l with Ok (h, _) => h | _ => [] end.
Definition c81u (l : list (@dcall Z)) : st idl := match iplay mx64 16 100 l with Ok (_, u) => u | _ => init [] end.
Lemma c81f_ok : (match iplay mx64 16 100 c81f with Ok _ => true | _ => false end) = true.
Proof. vm_compute. reflexivity. Qed.
Lemma c81_hist l : (match iplay mx64 16 100 l with Ok _ => true | _ => false end) = true -> IHist mx64 16 (c81h l) (c81u l).
Proof. intros H. apply (iplay_hist mx64 16 100 l). unfold c81h, c81u. destruct (iplay mx64 16 100 l) as [[h u]| |]; [reflexivity|discriminate H..]. Qed.
Lemma c81f_h : map (fun e => (ev_call e, ev_ret e)) (c81h c81f) =
  [(DSat CPropagate, DR (RBool true)); (DSat (CClause [b 2]), DR (RBool true)); (DSat (CClause [b 1]), DR (RBool true)); (DDist 0 2 (-10), DP (b 2)); (DDist 1 0 (1 - INF), DP (b 1)); (DVar, DX 2); (DVar, DX 1)].
Proof. vm_compute. reflexivity. Qed.
Definition c81r : option lit := match icstep mx64 100 (c81u c81f) (DDist 1 2 (- INF - 9)) with Ok (_, DP p) => Some p | _ => None end.
Lemma c81f_r : c81r = Some FALSE_lit.
Proof. vm_compute. reflexivity. Qed.
(** The weights stated are less than [inf mx] and fit, what is stated has a solution, the distance asked for holds in all of them, and the literal returned is that of false. *)
Theorem C81_large_weights_refuted : exists h u u' i j w, IHist mx64 16 h u /\ icstep mx64 100 u (DDist i j w) = Ok (u', DP FALSE_lit) /\
  (forall c, In c (calls h) -> match c with DDist _ _ w => Z.abs w < INF | _ => True end) /\
  (exists M y, z_stated (told h) M y) /\ forall M y, z_stated (told h) M y -> y j - y i <= w.
Proof.
  destruct (icstep mx64 100 (c81u c81f) (DDist 1 2 (- INF - 9))) as [[u' r]| |] eqn:E; pose proof c81f_r as K; unfold c81r in K; rewrite E in K; [|discriminate K..].
  destruct r as [r|x|p|]; try discriminate K. injection K as ->. exists (c81h c81f), (c81u c81f), u', 1%nat, 2%nat, (- INF - 9).
  assert (Et : told (c81h c81f) = map (fun e => mk_dev (fst e) (snd e)) (map (fun e => (ev_call e, ev_ret e)) (c81h c81f))) by (unfold told; rewrite map_map; reflexivity). rewrite c81f_h in Et. cbn [map fst snd] in Et.
  assert (Ec : calls (c81h c81f) = map fst (map (fun e => (ev_call e, ev_ret e)) (c81h c81f))) by (unfold calls; rewrite map_map; reflexivity). rewrite c81f_h in Ec. cbn [map fst] in Ec.
  split; [apply c81_hist, c81f_ok|]. split; [exact E|]. split; [|split].
  - rewrite Ec. intros c Hc. cbn [In] in Hc. repeat (destruct Hc as [<-|Hc]; [try exact Logic.I; vm_compute; reflexivity|]). destruct Hc.
  - exists (fun v => negb (Nat.eqb v 0)), (fun v => match v with O => 0 | 1%nat => INF - 1 | _ => -10 end). rewrite Et. split; [reflexivity|]. split; [reflexivity|]. intros e He. cbn [In] in He.
    repeat (destruct He as [He|He]; [subst e; cbn [de_call de_ret z_said said]; first [exact Logic.I | eexists; split; [left; reflexivity|reflexivity] | split; intros _; [lia|reflexivity]]|]). destruct He.
  - intros M y (H0 & Hy & H). rewrite Et in H.
    assert (K : forall c r, In (mk_dev c r) (told (c81h c81f)) -> z_said c r M y) by (intros c r Hc; rewrite Et in Hc; exact (H _ Hc)). rewrite Et in K.
    pose proof (K (DDist 0 2 (-10)) (DP (b 2)) ltac:(cbn; auto 10)) as K1. pose proof (K (DDist 1 0 (1 - INF)) (DP (b 1)) ltac:(cbn; auto 10)) as K2.
    pose proof (K (DSat (CClause [b 2])) (DR (RBool true)) ltac:(cbn; auto 10)) as K3. pose proof (K (DSat (CClause [b 1])) (DR (RBool true)) ltac:(cbn; auto 10)) as K4. cbn [z_said said] in *. clear K H.
    destruct K3 as (p & [<-|[]] & K3). destruct K4 as (p & [<-|[]] & K4). apply K1 in K3. apply K2 in K4. lia.
Qed.
Print Assumptions C81_large_weights_refuted.
(** A chain of three constraints of weights less than [inf mx]: propagating them overflows. *)
Definition c81o : list (@dcall Z) := [DVar; DVar; DVar; DDist 0 1 (1 - INF); DDist 1 2 (1 - INF); DDist 2 3 (1 - INF); DSat (CClause [b 1]); DSat (CClause [b 2]); DSat (CClause [b 3])].
Lemma c81o_ok : (match iplay mx64 16 100 c81o with Ok _ => true | _ => false end) = true.
Proof. vm_compute. reflexivity. Qed.
Lemma c81o_h : map ev_call (c81h c81o) = rev c81o.
Proof. vm_compute. reflexivity. Qed.
Lemma c81o_ub : (match icstep mx64 100 (c81u c81o) (DSat CPropagate) with UB => true | _ => false end) = true.
Proof. vm_compute. reflexivity. Qed.
Theorem C81_overflow_refuted : exists h u, IHist mx64 16 h u /\ icstep mx64 100 u (DSat CPropagate) = UB /\ forall c, In c (calls h) -> match c with DDist _ _ w => Z.abs w < INF | _ => True end.
Proof.
  exists (c81h c81o), (c81u c81o). split; [apply c81_hist, c81o_ok|]. split; [pose proof c81o_ub as H; destruct (icstep mx64 100 (c81u c81o) (DSat CPropagate)); [discriminate H|reflexivity|discriminate H]|].
  unfold calls. rewrite c81o_h. intros c Hc. apply in_rev in Hc. cbn [c81o In] in Hc. repeat (destruct Hc as [Hc|Hc]; [subst c; try exact Logic.I; vm_compute; reflexivity|]). destruct Hc.
Qed.
Print Assumptions C81_overflow_refuted.
(** bounds(x + 1) of a variable without bounds is finite: [1 - inf] and [inf + 1]. *)
Theorem C81_infinite_bounds_refuted : exists h u m, IHist mx64 16 h u /\ theories u = [m] /\ i_distance mx64 m 0 1 = Ok (- INF, INF) /\ i_bounds mx64 m (mk_lin [(1%nat, 1%Q)] 1%Q) = Ok (Some (1 - INF, INF + 1)).
Proof.
  destruct (theories (c81u [DVar])) as [|m [|]] eqn:E; [exfalso; revert E; vm_compute; discriminate| |exfalso; revert E; vm_compute; discriminate].
  exists (c81h [DVar]), (c81u [DVar]), m. split; [apply c81_hist; vm_compute; reflexivity|]. split; [exact E|]. assert (Em : hd (i_init mx64 0) (theories (c81u [DVar])) = m) by (rewrite E; reflexivity). rewrite <- Em. split; vm_compute; reflexivity.
Qed.
Print Assumptions C81_infinite_bounds_refuted.

(** ** A concrete case: four variables, weights up to a million, a decision that conflicts and a backjump. *)
Definition c81a : list (@dcall Z) := [DVar; DVar; DVar; DDist 1 2 (-1000000); DDist 2 3 (-5); DDist 3 1 0; DDist2 0 1 (-7) 900;
  DCmp DLt (mk_lin [(1%nat, 1%Q)] 0%Q) (mk_lin [(3%nat, 1%Q)] 3%Q); DSat (CClause [b 1; b 3]); DSat (CClause [b 2]); DSat CPropagate;
  DSat (CAssume (b 3)); DSat CPropagate; DSat CPop; DSat (CAssume (b 1)); DSat CPropagate; DSat (CCheck [b 4])].
Lemma c81a_room : room mx64 1000000 4.
Proof. constructor; vm_compute; [discriminate|repeat constructor|reflexivity]. Qed.
Definition rets {A} (r : res (list ev * A)) : list dret := match r with Ok (h, _) => rev (map ev_ret h) | _ => [] end.
Definition dist_of (r : res (list ev * st idl)) (i j : nat) : option (Z * Z) := match r with Ok (_, u) => match theories u with [m] => match i_distance mx64 m i j with Ok d => Some d | _ => None end | _ => None end | _ => None end.
Definition c81z : list ev := match zplay 16 100 c81a with Ok (h, _) => h | _ => [] end.
Lemma c81z_ok : (match zplay 16 100 c81a with Ok _ => true | _ => false end) = true.
Proof. vm_compute. reflexivity. Qed.
Lemma c81z_h : map ev_call c81z = rev c81a.
Proof. vm_compute. reflexivity. Qed.
Lemma c81a_small : small 1000000 4 (rev c81a).
Proof.
  cbn [rev app c81a small small_call]. repeat match goal with |- _ /\ _ => split end; try exact Logic.I; try (vm_compute; first [discriminate|repeat constructor]; fail).
  intros v c Hc. vm_compute in Hc. repeat (destruct Hc as [Hc|Hc]; [injection Hc as <- <-; split; [vm_compute; repeat constructor|vm_compute; reflexivity]|]). destruct Hc.
Qed.
Lemma c81a_rets : rets (iplay mx64 16 100 c81a) = [DX 1; DX 2; DX 3; DP (b 1); DP (b 2); DP (b 3); DP (b 6); DP (b 7); DR (RBool true); DR (RBool true); DR (RBool true); DR (RBool true); DR (RBool true); DR RUnit; DR (RBool true); DR (RBool true); DR (RBool true)].
Proof. vm_compute. reflexivity. Qed.
Lemma c81a_dist : dist_of (iplay mx64 16 100 c81a) 1 3 = Some (- INF, -1000005).
Proof. vm_compute. reflexivity. Qed.
Lemma c81a_val : value (c81u c81a) (b 3) = LFalse.
Proof. vm_compute. reflexivity. Qed.
Example C81_case : room mx64 1000000 4 /\ (exists h s, ZHist 16 h s /\ small 1000000 4 (calls h) /\ map ev_call h = rev c81a) /\
  value (c81u c81a) (b 3) = LFalse /\ dist_of (iplay mx64 16 100 c81a) 1 3 = Some (- INF, -1000005).
Proof.
  split; [exact c81a_room|]. split; [|split; [exact c81a_val|exact c81a_dist]].
  pose proof c81z_h as H. pose proof c81z_ok as K. unfold c81z in H. destruct (zplay 16 100 c81a) as [[h s]| |] eqn:E; [|discriminate K..]. exists h, s. split; [apply (zplay_hist 16 100 c81a), E|]. split; [unfold calls; rewrite H; exact c81a_small|exact H].
Qed.
