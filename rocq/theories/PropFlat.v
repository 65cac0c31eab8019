(** Properties of networks with a difference logic theory in which decisions are taken one at a time (C73).  Nothing but
    statements, closed by lemmas, and concrete cases.  Vocabulary (FlatTrace.v, FlatSpec.v): [ZFlat size tr s] ([QFlat]): [s]
    is the state of a network, made of a core and an idl_theory (rdl_theory) of the given initial size, after the history [tr] of calls, each with the
    decisions in force when it was made and its result.  The calls ([flegal]): all the functions of sat_core, with assume at root level only and
    check with one literal at most; at root level new_var, new_distance(from, to, dist) and the comparisons other than the
    equality, on two variables that no earlier constraint is about.  [zf_stated tr M y] ([qf_stated]): the assignments [M] to the propositional variables and [y] to
    the numeric variables (the first, the origin, being 0) agree with everything stated: clauses, reified expressions,
    literals of constraints, and decisions excluded by next().  [fsimple tr]: no call that creates hidden variables (at-most-one, exactly-one, equality).
    [answered tr s]: a decision is open, or the last call is one of propagate, assume and check that returned true. *)
From Verif Require Import Base Keys Sat SatSpec SatInv SatMain SatApi SatApi2 SatNext Run SatFacts Lin Qe Dw Dl DlClo DlTight DlTh DlFacts DlApi DlSpec DlQ DlNet DlTrace DlRSpec DlFlat FlatNet FlatTrace FlatSpec FlatHist.
From Coq Require Import Lqa.
Open Scope nat_scope.
#[local] Existing Instance stable_sort | 100.

Definition b (v : nat) : lit := mk_lit v true.
Definition nb (v : nat) : lit := mk_lit v false.

(** ** C73 *)
(** Which calls are covered, in terms of the history: at root level, new_var, new_distance(from, to, dist) and the comparisons other than the equality,
    if no earlier call was about the same two variables ([concerns]). *)
Theorem C73_idl_covered (sr : sorter) size tr s c : 0 < size -> ZFlat size tr s -> dlevel s = 0 -> dlegal ZL zlast s c ->
  match c with DSat _ | DDist2 _ _ _ _ | DCmp DEq _ _ => False | _ => True end ->
  (forall u v e, pair_of (W := Zw) c = Some (u, v) -> In e tr -> ~ concerns (W := Zw) (fe_call e) u v) -> flegal ZL zlast s c.
Proof. exact (fresh_pair ZL ZR zlast size tr s c). Qed.
Theorem C73_rdl_covered (sr : sorter) size tr s c : 0 < size -> QFlat size tr s -> dlevel s = 0 -> dlegal QL qlast s c ->
  match c with DSat _ | DDist2 _ _ _ _ | DCmp DEq _ _ => False | _ => True end ->
  (forall u v e, pair_of (W := Qw) c = Some (u, v) -> In e tr -> ~ concerns (W := Qw) (fe_call e) u v) -> flegal QL qlast s c.
Proof. exact (fresh_pair QL QR qlast size tr s c). Qed.
(** Every call returns. *)
Theorem C73_idl_returns (sr : sorter) size tr s c fl : 0 < size -> ZFlat size tr s -> flegal ZL zlast s c -> fbound s < fl -> exists s' r, zstep fl s c = Ok (s', r).
Proof. intros H. exact (ftotal ZL ZR zlast size H tr s c fl). Qed.
Theorem C73_rdl_returns (sr : sorter) size tr s c fl : 0 < size -> QFlat size tr s -> flegal QL qlast s c -> fbound s < fl -> exists s' r, qstep fl s c = Ok (s', r).
Proof. intros H. exact (ftotal QL QR qlast size H tr s c fl). Qed.
(** A failed propagation or clause: no assignment satisfies all that has been stated. *)
Theorem C73_idl_false (sr : sorter) size tr s fl s' : 0 < size -> ZFlat size tr s -> fsimple tr -> zstep fl s (DSat CPropagate) = Ok (s', DR (RBool false)) -> forall M y, ~ zf_stated tr M y.
Proof. intros H HT Hx E M y HM. exact (ffalse ZL ZR zlast size H tr s fl s' HT Hx E M (zq y) (zf_stated_of tr M y (flat_noD2 _ _ _ _ _ HT) HM)). Qed.
Theorem C73_rdl_false (sr : sorter) size tr s fl s' : 0 < size -> QFlat size tr s -> fsimple tr -> qstep fl s (DSat CPropagate) = Ok (s', DR (RBool false)) -> forall M y, ~ qf_stated tr M y.
Proof. intros H HT Hx E M y HM. exact (ffalse QL QR qlast size H tr s fl s' HT Hx E M y (proj2 (qf_stated_iff tr M y (flat_noD2 _ _ _ _ _ HT)) HM)). Qed.
Theorem C73_idl_clause_false (sr : sorter) size tr s fl ls s' : 0 < size -> ZFlat size tr s -> fsimple tr -> flegal ZL zlast s (DSat (CClause ls)) -> zstep fl s (DSat (CClause ls)) = Ok (s', DR (RBool false)) -> forall M y, zf_stated tr M y -> ~ mcl M ls.
Proof. intros H HT Hx Hs E M y HM. exact (fclause_false ZL ZR zlast size H tr s fl ls s' HT Hx Hs E M (zq y) (zf_stated_of tr M y (flat_noD2 _ _ _ _ _ HT) HM)). Qed.
Theorem C73_rdl_clause_false (sr : sorter) size tr s fl ls s' : 0 < size -> QFlat size tr s -> fsimple tr -> flegal QL qlast s (DSat (CClause ls)) -> qstep fl s (DSat (CClause ls)) = Ok (s', DR (RBool false)) -> forall M y, qf_stated tr M y -> ~ mcl M ls.
Proof. intros H HT Hx Hs E M y HM. exact (fclause_false QL QR qlast size H tr s fl ls s' HT Hx Hs E M y (proj2 (qf_stated_iff tr M y (flat_noD2 _ _ _ _ _ HT)) HM)). Qed.
(** A decision that is refused, or that is taken back by the core itself: it is false in every assignment that satisfies what has been stated. *)
Theorem C73_idl_refused (sr : sorter) size tr s fl p s' r : 0 < size -> ZFlat size tr s -> fsimple tr -> flegal ZL zlast s (DSat (CAssume p)) -> zstep fl s (DSat (CAssume p)) = Ok (s', DR r) ->
  r = RBool false \/ dlevel s' = 0 -> forall M y, zf_stated tr M y -> mlit M p = false.
Proof. intros H HT Hx Hs E Hr M y HM. exact (fassume_false ZL ZR zlast size H tr s fl p s' r HT Hx Hs E Hr M (zq y) (zf_stated_of tr M y (flat_noD2 _ _ _ _ _ HT) HM)). Qed.
Theorem C73_rdl_refused (sr : sorter) size tr s fl p s' r : 0 < size -> QFlat size tr s -> fsimple tr -> flegal QL qlast s (DSat (CAssume p)) -> qstep fl s (DSat (CAssume p)) = Ok (s', DR r) ->
  r = RBool false \/ dlevel s' = 0 -> forall M y, qf_stated tr M y -> mlit M p = false.
Proof. intros H HT Hx Hs E Hr M y HM. exact (fassume_false QL QR qlast size H tr s fl p s' r HT Hx Hs E Hr M y (proj2 (qf_stated_iff tr M y (flat_noD2 _ _ _ _ _ HT)) HM)). Qed.
Theorem C73_idl_check_false (sr : sorter) size tr s fl ls s' : 0 < size -> ZFlat size tr s -> fsimple tr -> flegal ZL zlast s (DSat (CCheck ls)) -> zstep fl s (DSat (CCheck ls)) = Ok (s', DR (RBool false)) ->
  forall M y, zf_stated tr M y -> exists d, In d ls /\ mlit M d = false.
Proof. intros H HT Hx Hs E M y HM. exact (fcheck_false ZL ZR zlast size H tr s fl ls s' HT Hx Hs E M (zq y) (zf_stated_of tr M y (flat_noD2 _ _ _ _ _ HT) HM)). Qed.
Theorem C73_rdl_check_false (sr : sorter) size tr s fl ls s' : 0 < size -> QFlat size tr s -> fsimple tr -> flegal QL qlast s (DSat (CCheck ls)) -> qstep fl s (DSat (CCheck ls)) = Ok (s', DR (RBool false)) ->
  forall M y, qf_stated tr M y -> exists d, In d ls /\ mlit M d = false.
Proof. intros H HT Hx Hs E M y HM. exact (fcheck_false QL QR qlast size H tr s fl ls s' HT Hx Hs E M y (proj2 (qf_stated_iff tr M y (flat_noD2 _ _ _ _ _ HT)) HM)). Qed.
(** When next() fails, nothing is left outside the decision. *)
Theorem C73_idl_next_false (sr : sorter) size tr s fl s' : 0 < size -> ZFlat size tr s -> fsimple tr -> flegal ZL zlast s (DSat CNext) -> dlevel s <> 0 -> zstep fl s (DSat CNext) = Ok (s', DR (RBool false)) ->
  forall M y, zf_stated tr M y -> forall d, In d (decisions s) -> mlit M d = true.
Proof. intros H HT Hx Hs Hd E M y HM. exact (fnext_false ZL ZR zlast size H tr s fl s' HT Hx Hs Hd E M (zq y) (zf_stated_of tr M y (flat_noD2 _ _ _ _ _ HT) HM)). Qed.
Theorem C73_rdl_next_false (sr : sorter) size tr s fl s' : 0 < size -> QFlat size tr s -> fsimple tr -> flegal QL qlast s (DSat CNext) -> dlevel s <> 0 -> qstep fl s (DSat CNext) = Ok (s', DR (RBool false)) ->
  forall M y, qf_stated tr M y -> forall d, In d (decisions s) -> mlit M d = true.
Proof. intros H HT Hx Hs Hd E M y HM. exact (fnext_false QL QR qlast size H tr s fl s' HT Hx Hs Hd E M y (proj2 (qf_stated_iff tr M y (flat_noD2 _ _ _ _ _ HT)) HM)). Qed.
(** A literal that has a value has it in every assignment that satisfies what has been stated and, unless it has it at root level, the decision. *)
Theorem C73_idl_implied (sr : sorter) size tr s q M y : 0 < size -> ZFlat size tr s -> fsimple tr -> value s q = LTrue -> zf_stated tr M y -> (level s (lvar q) <> 0 -> forall d, In d (decisions s) -> mlit M d = true) -> mlit M q = true.
Proof. intros H HT Hx Hq HM. exact (fimplied ZL ZR zlast size H tr s q HT Hx Hq M (zq y) (zf_stated_of tr M y (flat_noD2 _ _ _ _ _ HT) HM)). Qed.
Theorem C73_rdl_implied (sr : sorter) size tr s q M y : 0 < size -> QFlat size tr s -> fsimple tr -> value s q = LTrue -> qf_stated tr M y -> (level s (lvar q) <> 0 -> forall d, In d (decisions s) -> mlit M d = true) -> mlit M q = true.
Proof. intros H HT Hx Hq HM. exact (fimplied QL QR qlast size H tr s q HT Hx Hq M y (proj2 (qf_stated_iff tr M y (flat_noD2 _ _ _ _ _ HT)) HM)). Qed.
(** distance(i, j) encloses the difference in every assignment that satisfies what has been stated and the decision, if there is one. *)
Theorem C73_idl_distance (sr : sorter) size tr s t i j M y : 0 < size -> ZFlat size tr s -> fsimple tr -> theories s = [t] -> zf_stated tr M y -> (forall x, In x (decisions s) -> mlit M x = true) ->
  (forall d, snd (distance Zw t i j) = Some d -> y j - y i <= d)%Z /\ (forall d, fst (distance Zw t i j) = Some d -> d <= y j - y i)%Z.
Proof.
  intros H HT Hx Et HM Hdec. apply (zf_stated_of _ _ _ (flat_noD2 _ _ _ _ _ HT)) in HM. split; intros d Ed; cbn in Ed.
  - apply z_wsat. exact (fdistance ZL ZR zlast size H tr s t i j d HT Hx Et Ed M (zq y) HM Hdec).
  - destruct (dists t j i) as [e|] eqn:Ee; [|discriminate]. cbn in Ed. injection Ed as <-. pose proof (fdistance ZL ZR zlast size H tr s t j i e HT Hx Et Ee M (zq y) HM Hdec) as K. apply z_wsat in K. lia.
Qed.
Theorem C73_rdl_distance (sr : sorter) size tr s t i j M y : 0 < size -> QFlat size tr s -> fsimple tr -> theories s = [t] -> qf_stated tr M y -> (forall x, In x (decisions s) -> mlit M x = true) ->
  (forall d, snd (distance Qw t i j) = Some d -> q_under (y j - y i)%Q d) /\ (forall d, fst (distance Qw t i j) = Some d -> q_over (y j - y i)%Q d).
Proof.
  intros H HT Hx Et HM Hdec. apply (qf_stated_iff _ _ _ (flat_noD2 _ _ _ _ _ HT)) in HM. split; intros d Ed; cbn in Ed.
  - apply q_wsat. exact (fdistance QL QR qlast size H tr s t i j d HT Hx Et Ed M y HM Hdec).
  - destruct (dists t j i) as [e|] eqn:Ee; [|discriminate]. cbn in Ed. injection Ed as <-. pose proof (fdistance QL QR qlast size H tr s t j i e HT Hx Et Ee M y HM Hdec) as K. apply q_wsat in K. unfold q_under, q_over in *. cbn. split; [lra|]. intros Hs. assert ((snd e < 0)%Q) by lra. destruct K as [_ K]. specialize (K H0). lra.
Qed.
(** Once everything has been propagated there are values for the numeric variables that respect every constraint whose literal has a value; if every propositional variable has a value, all that has been stated holds. *)
Theorem C73_idl_true (sr : sorter) size tr s : 0 < size -> ZFlat size tr s -> answered tr s ->
  exists y : nat -> Z, y 0 = 0%Z /\ (forall e p P, In e tr -> z_cond (fdev e) = Some (p, P) -> (value s p = LTrue -> P y) /\ (value s p = LFalse -> ~ P y)) /\ (total s -> zf_stated tr (values s) y).
Proof.
  intros H HT HA. destruct (fquiet ZL ZR zlast size H tr s HT (answered_quiet ZL ZR zlast size H tr s HT HA)) as (y & Hy & Hy0 & H1 & H2). destruct (z_of y Hy) as (z & Hz). exists z. split; [|split].
  - rewrite Hz in Hy0. unfold Qeq, inject_Z in Hy0. cbn in Hy0. lia.
  - intros e p P He Hc. destruct (z_cond_econ (fdev e) p P Hc) as (P' & Hc' & Hi). rewrite <- (Hi y z Hz). exact (H1 e p P' He Hc').
  - intros Ht. exact (fstated_z tr _ y z (flat_noD2 _ _ _ _ _ HT) Hz (H2 Ht)).
Qed.
Theorem C73_rdl_true (sr : sorter) size tr s : 0 < size -> QFlat size tr s -> answered tr s ->
  exists y : nat -> Q, (y O == 0)%Q /\ (forall e p P, In e tr -> q_cond (fdev e) = Some (p, P) -> (value s p = LTrue -> P y) /\ (value s p = LFalse -> ~ P y)) /\ (total s -> qf_stated tr (values s) y).
Proof.
  intros H HT HA. destruct (fquiet QL QR qlast size H tr s HT (answered_quiet QL QR qlast size H tr s HT HA)) as (y & Hy & Hy0 & H1 & H2). exists y. split; [exact Hy0|]. split.
  - intros e p P He Hc. destruct (q_cond_econ (fdev e) p P Hc) as (P' & Hc' & Hi). rewrite <- (Hi y). exact (H1 e p P' He Hc').
  - intros Ht. apply (qf_stated_iff _ _ _ (flat_noD2 _ _ _ _ _ HT)), H2, Ht.
Qed.
(** Then distance(i, j) is the least and the greatest difference over the values that respect the constraints whose literal has a value. *)
Theorem C73_idl_hull (sr : sorter) size tr s : 0 < size -> ZFlat size tr s -> answered tr s ->
  exists t v, theories s = [t] /\ (forall l, atom t (lvar l) -> (In l v <-> value s l = LTrue)) /\ forall i j, i < nvars t -> j < nvars t -> z_spans t v (fun y => inject_Z (y j - y i)) (distance Zw t i j).
Proof.
  intros H HT HA. destruct (ftold ZL ZR zlast size H tr s HT (answered_quiet ZL ZR zlast size H tr s HT HA)) as (t & vs & Et & HR & Hv). exists t, (concat vs). split; [exact Et|]. split; [exact Hv|]. intros i j Hi Hj. exact (z_distance t vs i j HR Hi Hj).
Qed.
Theorem C73_rdl_hull (sr : sorter) size tr s : 0 < size -> QFlat size tr s -> answered tr s ->
  exists t v, theories s = [t] /\ (forall l, atom t (lvar l) -> (In l v <-> value s l = LTrue)) /\ forall i j, i < nvars t -> j < nvars t -> q_spans t v (fun y => (y j - y i)%Q) (distance Qw t i j).
Proof.
  intros H HT HA. destruct (ftold QL QR qlast size H tr s HT (answered_quiet QL QR qlast size H tr s HT HA)) as (t & vs & Et & HR & Hv). exists t, (concat vs). split; [exact Et|]. split; [exact Hv|]. intros i j Hi Hj. exact (q_distance t vs i j HR Hi Hj).
Qed.
(** x1, x2, x3; b1: x2 - x1 <= 5, b2: x3 - x2 <= -2 (strict for the rationals), b3: x3 >= x1 + 4 (x3 > x1 + 3), b4 a propositional variable; b1 and (b4 or not b3 or b2) stated.
    b2 is assumed: b3 is refuted and x3 - x1 is at most 3.  It is retracted and b3 assumed: b2 is refuted and b4 follows.  That is retracted and b4 excluded by assuming its
    negation and calling next(), after which (b4 being known) b2 may be assumed again. *)
Definition X (v : nat) : lin := mk_lin [(v, 1%Q)] 0.
Definition zc73 : list dcall := [DVar; DVar; DVar; DDist 1 2 5%Z; DDist 2 3 (-2)%Z; DCmp DGeq (X 3) (mk_lin [(1, 1%Q)] 4); DSat CVar; DSat (CClause [b 1]); DSat (CClause [b 4; nb 3; b 2]); DSat CPropagate].
Definition qc73 : list dcall := [DVar; DVar; DVar; DDist 1 2 (5, 0)%Q; DDist 2 3 (-2 # 1, -1 # 1)%Q; DCmp DGt (X 3) (mk_lin [(1, 1%Q)] 3); DSat CVar; DSat (CClause [b 1]); DSat (CClause [b 4; nb 3; b 2]); DSat CPropagate].
Definition d73 {D} : list (@dcall D) := [DSat (CAssume (b 2)); DSat CPop; DSat (CAssume (b 3)); DSat CPop; DSat (CCheck [b 3]); DSat (CAssume (nb 4)); DSat CNext; DSat (CAssume (b 2))].
Definition zsee (s : st (dl Z)) : list lbool * nat * option (option Z * option Z) := (map (assigns s) [1; 2; 3; 4], dlevel s, match theories s with [t] => Some (distance Zw t 1 3) | _ => None end).
Definition qsee (s : st (dl qe)) : list lbool * nat * option (option qe * option qe) := (map (assigns s) [1; 2; 3; 4], dlevel s, match theories s with [t] => Some (distance Qw t 1 3) | _ => None end).
Definition simpleb {D} (l : list (@fevent D)) : bool := forallb (fun e => match fe_call e with DSat (CAmo _) | DSat (CExct _) | DSat (CEq _ _) | DDist2 _ _ _ _ | DCmp DEq _ _ => false | _ => true end) l.
Lemma simpleb_ok {D} (l : list (@fevent D)) : simpleb l = true -> fsimple l.
Proof. intros H e He. unfold simpleb in H. rewrite forallb_forall in H. specialize (H e He). destruct (fe_call e) as [[]| | | |[]]; cbn in *; try exact Logic.I; discriminate. Qed.
Definition zsaw (n : nat) : option (bool * (list lbool * nat * option (option Z * option Z))) := match zfexec 2 (zc73 ++ firstn n d73) with Some (s, tr) => Some (simpleb tr, zsee s) | None => None end.
Definition qsaw (n : nat) : option (bool * (list lbool * nat * option (option qe * option qe))) := match qfexec 2 (qc73 ++ firstn n d73) with Some (s, tr) => Some (simpleb tr, qsee s) | None => None end.
Lemma z73_1 : zsaw 1 = Some (true, ([LTrue; LTrue; LFalse; LUndef], 1, Some (None, Some 3%Z))).
Proof. vm_compute. reflexivity. Qed.
Lemma z73_3 : zsaw 3 = Some (true, ([LTrue; LFalse; LTrue; LTrue], 1, Some (Some 4%Z, None))).
Proof. vm_compute. reflexivity. Qed.
Lemma z73_8 : zsaw 8 = Some (true, ([LTrue; LTrue; LFalse; LTrue], 1, Some (None, Some 3%Z))).
Proof. vm_compute. reflexivity. Qed.
Lemma q73_1 : qsaw 1 = Some (true, ([LTrue; LTrue; LFalse; LUndef], 1, Some (None, Some (3, -1 # 1)%Q))).
Proof. vm_compute. reflexivity. Qed.
Lemma q73_3 : qsaw 3 = Some (true, ([LTrue; LFalse; LTrue; LTrue], 1, Some (Some (3, 1)%Q, None))).
Proof. vm_compute. reflexivity. Qed.
Lemma q73_8 : qsaw 8 = Some (true, ([LTrue; LTrue; LFalse; LTrue], 1, Some (None, Some (3, -1 # 1)%Q))).
Proof. vm_compute. reflexivity. Qed.
Lemma zsaw_ok n x : zsaw n = Some (true, x) -> exists s tr, ZFlat 2 tr s /\ fsimple tr /\ zsee s = x.
Proof.
  unfold zsaw. destruct (zfexec 2 (zc73 ++ firstn n d73)) as [[s tr]|] eqn:E; [|discriminate]. intros H. exists s, tr. assert (H1 : simpleb tr = true) by congruence. split; [apply (zfexec_ok 2 _ s tr E)|]. split; [apply simpleb_ok, H1|]. congruence.
Qed.
Lemma qsaw_ok n x : qsaw n = Some (true, x) -> exists s tr, QFlat 2 tr s /\ fsimple tr /\ qsee s = x.
Proof.
  unfold qsaw. destruct (qfexec 2 (qc73 ++ firstn n d73)) as [[s tr]|] eqn:E; [|discriminate]. intros H. exists s, tr. assert (H1 : simpleb tr = true) by congruence. split; [apply (qfexec_ok 2 _ s tr E)|]. split; [apply simpleb_ok, H1|]. congruence.
Qed.
Example C73_case :
  (exists s tr, ZFlat 2 tr s /\ fsimple tr /\ zsee s = ([LTrue; LTrue; LFalse; LUndef], 1, Some (None, Some 3%Z))) /\
  (exists s tr, ZFlat 2 tr s /\ fsimple tr /\ zsee s = ([LTrue; LFalse; LTrue; LTrue], 1, Some (Some 4%Z, None))) /\
  (exists s tr, ZFlat 2 tr s /\ fsimple tr /\ zsee s = ([LTrue; LTrue; LFalse; LTrue], 1, Some (None, Some 3%Z))) /\
  (exists s tr, QFlat 2 tr s /\ fsimple tr /\ qsee s = ([LTrue; LTrue; LFalse; LUndef], 1, Some (None, Some (3, -1 # 1)%Q))) /\
  (exists s tr, QFlat 2 tr s /\ fsimple tr /\ qsee s = ([LTrue; LFalse; LTrue; LTrue], 1, Some (Some (3, 1)%Q, None))) /\
  (exists s tr, QFlat 2 tr s /\ fsimple tr /\ qsee s = ([LTrue; LTrue; LFalse; LTrue], 1, Some (None, Some (3, -1 # 1)%Q))).
Proof.
  exact (conj (zsaw_ok 1 _ z73_1) (conj (zsaw_ok 3 _ z73_3) (conj (zsaw_ok 8 _ z73_8) (conj (qsaw_ok 1 _ q73_1) (conj (qsaw_ok 3 _ q73_3) (qsaw_ok 8 _ q73_8)))))).
Qed.
(** Refusals.  After b2 has been stated b3 is refused; with (not b3 or not b4) and (b4 or not b3 or b2) stated and b2 not, assuming b3 makes the theory refute b2 and the core come back to root level knowing not b3. *)
Definition zasked (cs : list dcall) (c : dcall) : option (dret * nat) := match zfexec 2 (zc73 ++ cs) with Some (s, tr) => match zstep 1000 s c with Ok (s', r) => Some (r, dlevel s') | _ => None end | None => None end.
Definition qasked (cs : list dcall) (c : dcall) : option (dret * nat) := match qfexec 2 (qc73 ++ cs) with Some (s, tr) => match qstep 1000 s c with Ok (s', r) => Some (r, dlevel s') | _ => None end | None => None end.
Example C73_refusals :
  (zasked [DSat (CClause [b 2]); DSat CPropagate] (DSat (CCheck [b 3])) = Some (DR (RBool false), 0) /\ zasked [DSat (CClause [nb 3; nb 4]); DSat CPropagate] (DSat (CAssume (b 3))) = Some (DR (RBool true), 0)) /\
  (qasked [DSat (CClause [b 2]); DSat CPropagate] (DSat (CCheck [b 3])) = Some (DR (RBool false), 0) /\ qasked [DSat (CClause [nb 3; nb 4]); DSat CPropagate] (DSat (CAssume (b 3))) = Some (DR (RBool true), 0)).
Proof. split; split; vm_compute; reflexivity. Qed.
Print Assumptions C73_idl_covered.
Print Assumptions C73_rdl_covered.
Print Assumptions C73_idl_returns.
Print Assumptions C73_rdl_returns.
Print Assumptions C73_idl_false.
Print Assumptions C73_rdl_false.
Print Assumptions C73_idl_clause_false.
Print Assumptions C73_rdl_clause_false.
Print Assumptions C73_idl_refused.
Print Assumptions C73_rdl_refused.
Print Assumptions C73_idl_check_false.
Print Assumptions C73_rdl_check_false.
Print Assumptions C73_idl_next_false.
Print Assumptions C73_rdl_next_false.
Print Assumptions C73_idl_implied.
Print Assumptions C73_rdl_implied.
Print Assumptions C73_idl_distance.
Print Assumptions C73_rdl_distance.
Print Assumptions C73_idl_true.
Print Assumptions C73_rdl_true.
Print Assumptions C73_idl_hull.
Print Assumptions C73_rdl_hull.
