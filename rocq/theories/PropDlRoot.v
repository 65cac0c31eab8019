(** Properties of networks with a difference logic theory, used at root level (C63).  Nothing but statements, closed by
    lemmas, and concrete cases.  Vocabulary (DlRSpec.v): [ZTrace size tr s] ([QTrace]): [s] is the state of a network, made of
    a core and an idl_theory (rdl_theory) of the given initial size, after the history [tr] of calls and results: the functions of sat_core that
    neither assume nor pop ([DSat]), new_var ([DVar]), new_distance ([DDist], [DDist2]) and the comparisons ([DCmp]);
    [z_stated tr M y] ([q_stated]): the assignments [M] to the propositional variables and [y] to the numeric variables (the first, the origin, being 0) agree with
    everything stated: clauses, reified expressions and literals of constraints.
    [dsimple tr]: no call that creates hidden variables (at-most-one, exactly-one, equality, two-sided distance). *)
From Verif Require Import Base Keys Sat SatSpec SatInv SatMain SatApi SatApi2 Run SatFacts Lin Qe Dw Dl DlClo DlTight DlTh DlFacts DlApi DlSpec DlQ DlNet DlTrace DlRSpec.
From Coq Require Import Lqa.
Open Scope nat_scope.
#[local] Existing Instance stable_sort | 100.

Definition b (v : nat) : lit := mk_lit v true.
Definition nb (v : nat) : lit := mk_lit v false.

(** ** C63 *)
(** Every call returns. *)
Theorem C63_idl_returns_partial (sr : sorter) size tr s c fl : 0 < size -> ZTrace size tr s -> dlegal ZL zlast s c -> dbound s < fl -> exists s' r, zstep fl s c = Ok (s', r).
Proof. intros H. exact (dtotal ZL ZR zlast size H tr s c fl). Qed.
Theorem C63_rdl_returns_partial (sr : sorter) size tr s c fl : 0 < size -> QTrace size tr s -> dlegal QL qlast s c -> dbound s < fl -> exists s' r, qstep fl s c = Ok (s', r).
Proof. intros H. exact (dtotal QL QR qlast size H tr s c fl). Qed.
(** A failed propagation or clause: no assignment satisfies all that has been stated. *)
Theorem C63_idl_false_partial (sr : sorter) size tr s fl s' : 0 < size -> ZTrace size tr s -> dsimple tr -> zstep fl s (DSat CPropagate) = Ok (s', DR (RBool false)) -> forall M y, ~ z_stated tr M y.
Proof. intros H HT Hx E M y HM. exact (dfalse ZL ZR zlast size H tr s fl s' HT Hx E M (zq y) (z_stated_of tr M y HM)). Qed.
Theorem C63_rdl_false_partial (sr : sorter) size tr s fl s' : 0 < size -> QTrace size tr s -> dsimple tr -> qstep fl s (DSat CPropagate) = Ok (s', DR (RBool false)) -> forall M y, ~ q_stated tr M y.
Proof. intros H HT Hx E M y HM. exact (dfalse QL QR qlast size H tr s fl s' HT Hx E M y (proj2 (q_stated_iff tr M y) HM)). Qed.
Theorem C63_idl_clause_false_partial (sr : sorter) size tr s fl ls s' : 0 < size -> ZTrace size tr s -> dsimple tr -> in_scope s ls -> zstep fl s (DSat (CClause ls)) = Ok (s', DR (RBool false)) -> forall M y, z_stated tr M y -> ~ mcl M ls.
Proof. intros H HT Hx Hs E M y HM. exact (dclause_false ZL ZR zlast size H tr s fl ls s' HT Hx Hs E M (zq y) (z_stated_of tr M y HM)). Qed.
Theorem C63_rdl_clause_false_partial (sr : sorter) size tr s fl ls s' : 0 < size -> QTrace size tr s -> dsimple tr -> in_scope s ls -> qstep fl s (DSat (CClause ls)) = Ok (s', DR (RBool false)) -> forall M y, q_stated tr M y -> ~ mcl M ls.
Proof. intros H HT Hx Hs E M y HM. exact (dclause_false QL QR qlast size H tr s fl ls s' HT Hx Hs E M y (proj2 (q_stated_iff tr M y) HM)). Qed.
(** A literal that has a value has it in every assignment that satisfies what has been stated. *)
Theorem C63_idl_implied_partial (sr : sorter) size tr s q M y : 0 < size -> ZTrace size tr s -> dsimple tr -> value s q = LTrue -> z_stated tr M y -> mlit M q = true.
Proof. intros H HT Hx Hq HM. exact (dimplied ZL ZR zlast size H tr s q HT Hx Hq M (zq y) (z_stated_of tr M y HM)). Qed.
Theorem C63_rdl_implied_partial (sr : sorter) size tr s q M y : 0 < size -> QTrace size tr s -> dsimple tr -> value s q = LTrue -> q_stated tr M y -> mlit M q = true.
Proof. intros H HT Hx Hq HM. exact (dimplied QL QR qlast size H tr s q HT Hx Hq M y (proj2 (q_stated_iff tr M y) HM)). Qed.
(** distance(i, j) encloses the difference in every such assignment. *)
Theorem C63_idl_distance_partial (sr : sorter) size tr s t i j M y : 0 < size -> ZTrace size tr s -> dsimple tr -> theories s = [t] -> z_stated tr M y ->
  (forall d, snd (distance Zw t i j) = Some d -> y j - y i <= d)%Z /\ (forall d, fst (distance Zw t i j) = Some d -> d <= y j - y i)%Z.
Proof.
  intros H HT Hx Et HM. apply z_stated_of in HM. split; intros d Ed; cbn in Ed.
  - apply z_wsat. exact (ddistance ZL ZR zlast size H tr s t i j d HT Hx Et Ed M (zq y) HM).
  - destruct (dists t j i) as [e|] eqn:Ee; [|discriminate]. cbn in Ed. injection Ed as <-. pose proof (ddistance ZL ZR zlast size H tr s t j i e HT Hx Et Ee M (zq y) HM) as K. apply z_wsat in K. lia.
Qed.
Theorem C63_rdl_distance_partial (sr : sorter) size tr s t i j M y : 0 < size -> QTrace size tr s -> dsimple tr -> theories s = [t] -> q_stated tr M y ->
  (forall d, snd (distance Qw t i j) = Some d -> q_under (y j - y i)%Q d) /\ (forall d, fst (distance Qw t i j) = Some d -> q_over (y j - y i)%Q d).
Proof.
  intros H HT Hx Et HM. apply q_stated_iff in HM. split; intros d Ed; cbn in Ed.
  - apply q_wsat. exact (ddistance QL QR qlast size H tr s t i j d HT Hx Et Ed M y HM).
  - destruct (dists t j i) as [e|] eqn:Ee; [|discriminate]. cbn in Ed. injection Ed as <-. pose proof (ddistance QL QR qlast size H tr s t j i e HT Hx Et Ee M y HM) as K. apply q_wsat in K. unfold q_under, q_over in *. cbn. split; [lra|]. intros Hs. assert ((snd e < 0)%Q) by lra. destruct K as [_ K]. specialize (K H0). lra.
Qed.
(** A successful propagation: values for the numeric variables that respect every constraint whose literal has a value; if every propositional variable has a value, all that has been stated holds. *)
Theorem C63_idl_true_partial (sr : sorter) size tr s fl s' : 0 < size -> ZTrace size tr s -> zstep fl s (DSat CPropagate) = Ok (s', DR (RBool true)) ->
  exists y : nat -> Z, y 0 = 0%Z /\ (forall e p P, In e tr -> z_cond e = Some (p, P) -> (value s' p = LTrue -> P y) /\ (value s' p = LFalse -> ~ P y)) /\ (total s' -> z_stated tr (values s') y).
Proof.
  intros H HT E. destruct (dtrue ZL ZR zlast size H tr s fl s' HT E) as (y & Hy & Hy0 & H1 & H2). destruct (z_of y Hy) as (z & Hz). exists z. split; [|split].
  - rewrite Hz in Hy0. unfold Qeq, inject_Z in Hy0. cbn in Hy0. lia.
  - intros e p P He Hc. destruct (z_cond_econ e p P Hc) as (P' & Hc' & Hi). rewrite <- (Hi y z Hz). exact (H1 e p P' He Hc').
  - intros Ht. exact (stated_z tr _ y z Hz (H2 Ht)).
Qed.
Theorem C63_rdl_true_partial (sr : sorter) size tr s fl s' : 0 < size -> QTrace size tr s -> qstep fl s (DSat CPropagate) = Ok (s', DR (RBool true)) ->
  exists y : nat -> Q, (y O == 0)%Q /\ (forall e p P, In e tr -> q_cond e = Some (p, P) -> (value s' p = LTrue -> P y) /\ (value s' p = LFalse -> ~ P y)) /\ (total s' -> q_stated tr (values s') y).
Proof.
  intros H HT E. destruct (dtrue QL QR qlast size H tr s fl s' HT E) as (y & Hy & Hy0 & H1 & H2). exists y. split; [exact Hy0|]. split.
  - intros e p P He Hc. destruct (q_cond_econ e p P Hc) as (P' & Hc' & Hi). rewrite <- (Hi y). exact (H1 e p P' He Hc').
  - intros Ht. apply q_stated_iff, H2, Ht.
Qed.
(** Then distance(i, j) is the least and the greatest difference over the values that respect the constraints whose literal has a value. *)
Theorem C63_idl_hull_partial (sr : sorter) size tr s fl s' : 0 < size -> ZTrace size tr s -> zstep fl s (DSat CPropagate) = Ok (s', DR (RBool true)) ->
  exists t v, theories s' = [t] /\ (forall l, atom t (lvar l) -> (In l v <-> value s' l = LTrue)) /\ forall i j, i < nvars t -> j < nvars t -> z_spans t v (fun y => inject_Z (y j - y i)) (distance Zw t i j).
Proof.
  intros H HT E. destruct (dtold ZL ZR zlast size H tr s fl s' HT E) as (t & v & Et & HR & Hv). exists t, v. split; [exact Et|]. split; [exact Hv|]. intros i j Hi Hj. pose proof (z_distance t [v] i j HR Hi Hj) as K. cbn [concat] in K. rewrite app_nil_r in K. exact K.
Qed.
Theorem C63_rdl_hull_partial (sr : sorter) size tr s fl s' : 0 < size -> QTrace size tr s -> qstep fl s (DSat CPropagate) = Ok (s', DR (RBool true)) ->
  exists t v, theories s' = [t] /\ (forall l, atom t (lvar l) -> (In l v <-> value s' l = LTrue)) /\ forall i j, i < nvars t -> j < nvars t -> q_spans t v (fun y => (y j - y i)%Q) (distance Qw t i j).
Proof.
  intros H HT E. destruct (dtold QL QR qlast size H tr s fl s' HT E) as (t & v & Et & HR & Hv). exists t, v. split; [exact Et|]. split; [exact Hv|]. intros i j Hi Hj. pose proof (q_distance t [v] i j HR Hi Hj) as K. cbn [concat] in K. rewrite app_nil_r in K. exact K.
Qed.
(** x1, x2, x3; b1: x2 - x1 <= 5, b2: x3 - x2 <= -2 (strict for the rationals), b3: x3 >= x1 + 4 (x3 > x1 + 3), b4 a propositional variable; b1, b2 and (b3 or b4) stated: b3 is refuted, b4 follows. *)
Definition X (v : nat) : lin := mk_lin [(v, 1%Q)] 0.
Definition zc63 : list dcall := [DVar; DVar; DVar; DDist 1 2 5%Z; DDist 2 3 (-2)%Z; DCmp DGeq (X 3) (mk_lin [(1, 1%Q)] 4); DSat CVar; DSat (CClause [b 1]); DSat (CClause [b 2]); DSat (CClause [b 3; b 4])].
Definition qc63 : list dcall := [DVar; DVar; DVar; DDist 1 2 (5, 0)%Q; DDist 2 3 (-2 # 1, -1 # 1)%Q; DCmp DGt (X 3) (mk_lin [(1, 1%Q)] 3); DSat CVar; DSat (CClause [b 1]); DSat (CClause [b 2]); DSat (CClause [b 3; b 4])].
Definition zret (s : st (dl Z)) (c : dcall) : option (dret * list lbool * option (option Z * option Z)) :=
  match zstep 1000 s c with Ok (s', r) => Some (r, map (assigns s') [1; 2; 3; 4], match theories s' with [t] => Some (distance Zw t 1 3) | _ => None end) | _ => None end.
Definition qret (s : st (dl qe)) (c : dcall) : option (dret * list lbool * option (option qe * option qe)) :=
  match qstep 1000 s c with Ok (s', r) => Some (r, map (assigns s') [1; 2; 3; 4], match theories s' with [t] => Some (distance Qw t 1 3) | _ => None end) | _ => None end.
Example C63_case :
  match zexec 2 zc63 with Some (s, tr) => ZTrace 2 tr s /\ dsimple tr /\ zret s (DSat CPropagate) = Some (DR (RBool true), [LTrue; LTrue; LFalse; LTrue], Some (None, Some 3%Z)) | None => False end /\
  match qexec 2 qc63 with Some (s, tr) => QTrace 2 tr s /\ dsimple tr /\ qret s (DSat CPropagate) = Some (DR (RBool true), [LTrue; LTrue; LFalse; LTrue], Some (None, Some (3, -1 # 1)%Q)) | None => False end.
Proof.
  assert (Hs : forall D (l : list (@devent D)), forallb (fun e => match de_call e with DSat (CAmo _) | DSat (CExct _) | DSat (CEq _ _) | DDist2 _ _ _ _ | DCmp DEq _ _ => false | _ => true end) l = true -> dsimple l).
  { intros D l H e He. rewrite forallb_forall in H. specialize (H e He). destruct (de_call e) as [[]| | | |[]]; cbn in *; try exact Logic.I; discriminate. }
  split.
  - destruct (zexec 2 zc63) as [[s tr]|] eqn:E; [|assert (K : match zexec 2 zc63 with Some _ => true | None => false end = true) by (vm_compute; reflexivity); rewrite E in K; discriminate].
    split; [apply (zexec_ok 2 zc63), E|]. assert (K : match zexec 2 zc63 with Some (s, tr) => (forallb (fun e => match de_call e with DSat (CAmo _) | DSat (CExct _) | DSat (CEq _ _) | DDist2 _ _ _ _ | DCmp DEq _ _ => false | _ => true end) tr, zret s (DSat CPropagate)) | None => (false, None) end = (true, Some (DR (RBool true), [LTrue; LTrue; LFalse; LTrue], Some (None, Some 3%Z)))) by (vm_compute; reflexivity).
    rewrite E in K. apply pair_equal_spec in K as [K1 K2]. auto.
  - destruct (qexec 2 qc63) as [[s tr]|] eqn:E; [|assert (K : match qexec 2 qc63 with Some _ => true | None => false end = true) by (vm_compute; reflexivity); rewrite E in K; discriminate].
    split; [apply (qexec_ok 2 qc63), E|]. assert (K : match qexec 2 qc63 with Some (s, tr) => (forallb (fun e => match de_call e with DSat (CAmo _) | DSat (CExct _) | DSat (CEq _ _) | DDist2 _ _ _ _ | DCmp DEq _ _ => false | _ => true end) tr, qret s (DSat CPropagate)) | None => (false, None) end = (true, Some (DR (RBool true), [LTrue; LTrue; LFalse; LTrue], Some (None, Some (3, -1 # 1)%Q)))) by (vm_compute; reflexivity).
    rewrite E in K. apply pair_equal_spec in K as [K1 K2]. auto.
Qed.
(** Refutation once decisions are made: b1: x2 - x1 <= 10, b2: x2 - x1 <= 5, b3: x1 - x2 <= -7; b1 and b2 are assumed and retracted; then b1 and b3 are stated
    and propagation fails, although x2 - x1 = 8 satisfies both. *)
Definition zr63 : list dcall := [DVar; DVar; DDist 1 2 10%Z; DDist 1 2 5%Z; DDist 2 1 (-7)%Z; DSat (CAssume (b 1)); DSat (CAssume (b 2)); DSat CPop; DSat CPop; DSat (CClause [b 1]); DSat (CClause [b 3])].
Definition qr63 : list dcall := [DVar; DVar; DDist 1 2 (10, 0)%Q; DDist 1 2 (5, 0)%Q; DDist 2 1 (-7 # 1, 0)%Q; DSat (CAssume (b 1)); DSat (CAssume (b 2)); DSat CPop; DSat CPop; DSat (CClause [b 1]); DSat (CClause [b 3])].
Lemma frun_some {A B} (f : option (A * list B)) e tr : match f with Some (_, x) => x | None => [] end = e :: tr -> exists s, f = Some (s, e :: tr).
Proof. destruct f as [[s x]|]; [|discriminate]. intros ->. eauto. Qed.
Definition zt63 : list devent := [mk_dev (DSat (CClause [b 3])) (DR (RBool true)); mk_dev (DSat (CClause [b 1])) (DR (RBool true)); mk_dev (DSat CPop) (DR RUnit); mk_dev (DSat CPop) (DR RUnit);
  mk_dev (DSat (CAssume (b 2))) (DR (RBool true)); mk_dev (DSat (CAssume (b 1))) (DR (RBool true)); mk_dev (DDist 2 1 (-7)%Z) (DP (b 3)); mk_dev (DDist 1 2 5%Z) (DP (b 2)); mk_dev (DDist 1 2 10%Z) (DP (b 1)); mk_dev DVar (DX 2); mk_dev DVar (DX 1)].
Lemma zr63_run : match frun Zw zlast (dinit (W := Zw) 2) (zr63 ++ [DSat CPropagate]) [] with Some (_, x) => x | None => [] end = mk_dev (DSat CPropagate) (DR (RBool false)) :: zt63.
Proof. vm_compute. reflexivity. Qed.
Theorem C63_idl_decisions_refuted : exists cs s tr M y, frun Zw zlast (dinit (W := Zw) 2) (cs ++ [DSat CPropagate]) [] = Some (s, mk_dev (DSat CPropagate) (DR (RBool false)) :: tr) /\ z_stated tr M y.
Proof.
  destruct (frun_some (frun (sr := stable_sort) Zw zlast (dinit (W := Zw) 2) (zr63 ++ [DSat CPropagate]) []) (mk_dev (DSat CPropagate) (DR (RBool false))) zt63 zr63_run) as [s E]. exists zr63, s, zt63, (fun v => match v with 1 | 3 => true | _ => false end), (fun v => match v with 2%nat => 8 | _ => 0 end)%Z.
  split; [exact E|]. split; [reflexivity|]. split; [reflexivity|].
  intros e He. destruct He as [<-|[<-|[<-|[<-|[<-|[<-|[<-|[<-|[<-|[<-|[<-|[]]]]]]]]]]]]; cbn [de_call de_ret z_said said].
  + exists (b 3). split; [left; reflexivity|reflexivity].
  + exists (b 1). split; [left; reflexivity|reflexivity].
  + exact Logic.I.
  + exact Logic.I.
  + exact Logic.I.
  + exact Logic.I.
  + unfold mlit. cbn. split; [intros _; lia|reflexivity].
  + unfold mlit. cbn. split; [discriminate|lia].
  + unfold mlit. cbn. split; [intros _; lia|reflexivity].
  + exact Logic.I.
  + exact Logic.I.
Qed.
Definition qt63 : list devent := [mk_dev (DSat (CClause [b 3])) (DR (RBool true)); mk_dev (DSat (CClause [b 1])) (DR (RBool true)); mk_dev (DSat CPop) (DR RUnit); mk_dev (DSat CPop) (DR RUnit);
  mk_dev (DSat (CAssume (b 2))) (DR (RBool true)); mk_dev (DSat (CAssume (b 1))) (DR (RBool true)); mk_dev (DDist 2 1 (-7 # 1, 0)%Q) (DP (b 3)); mk_dev (DDist 1 2 (5, 0)%Q) (DP (b 2)); mk_dev (DDist 1 2 (10, 0)%Q) (DP (b 1)); mk_dev DVar (DX 2); mk_dev DVar (DX 1)].
Lemma qr63_run : match frun Qw qlast (dinit (W := Qw) 2) (qr63 ++ [DSat CPropagate]) [] with Some (_, x) => x | None => [] end = mk_dev (DSat CPropagate) (DR (RBool false)) :: qt63.
Proof. vm_compute. reflexivity. Qed.
Theorem C63_rdl_decisions_refuted : exists cs s tr M y, frun Qw qlast (dinit (W := Qw) 2) (cs ++ [DSat CPropagate]) [] = Some (s, mk_dev (DSat CPropagate) (DR (RBool false)) :: tr) /\ q_stated tr M y.
Proof.
  destruct (frun_some (frun (sr := stable_sort) Qw qlast (dinit (W := Qw) 2) (qr63 ++ [DSat CPropagate]) []) (mk_dev (DSat CPropagate) (DR (RBool false))) qt63 qr63_run) as [s E]. exists qr63, s, qt63, (fun v => match v with 1 | 3 => true | _ => false end), (fun v => match v with 2%nat => 8 | _ => 0 end)%Q.
  split; [exact E|]. split; [reflexivity|]. split; [reflexivity|].
  intros e He. destruct He as [<-|[<-|[<-|[<-|[<-|[<-|[<-|[<-|[<-|[<-|[<-|[]]]]]]]]]]]]; cbn [de_call de_ret q_said said].
  + exists (b 3). split; [left; reflexivity|reflexivity].
  + exists (b 1). split; [left; reflexivity|reflexivity].
  + exact Logic.I.
  + exact Logic.I.
  + exact Logic.I.
  + exact Logic.I.
  + unfold mlit. cbn. split; [intros _; unfold q_under; cbn; lra|reflexivity].
  + unfold mlit. cbn. split; [discriminate|unfold q_under; cbn; lra].
  + unfold mlit. cbn. split; [intros _; unfold q_under; cbn; lra|reflexivity].
  + exact Logic.I.
  + exact Logic.I.
Qed.
(** One decision at a time is not enough when two constraints are about the same pair: b1: x2 - x1 <= 10 is stated, b2: x2 - x1 <= 5 assumed and retracted; then b3: x1 - x2 <= -7 is stated and
    propagation fails, although x2 - x1 = 8 satisfies both. *)
Definition zp63 : list dcall := [DVar; DVar; DDist 1 2 10%Z; DDist 1 2 5%Z; DDist 2 1 (-7)%Z; DSat (CClause [b 1]); DSat CPropagate; DSat (CAssume (b 2)); DSat CPop; DSat (CClause [b 3])].
Definition zp63t : list devent := [mk_dev (DSat (CClause [b 3])) (DR (RBool true)); mk_dev (DSat CPop) (DR RUnit); mk_dev (DSat (CAssume (b 2))) (DR (RBool true)); mk_dev (DSat CPropagate) (DR (RBool true)); mk_dev (DSat (CClause [b 1])) (DR (RBool true)); mk_dev (DDist 2 1 (-7)%Z) (DP (b 3)); mk_dev (DDist 1 2 5%Z) (DP (b 2)); mk_dev (DDist 1 2 10%Z) (DP (b 1)); mk_dev DVar (DX 2); mk_dev DVar (DX 1)].
Lemma zp63_run : match frun Zw zlast (dinit (W := Zw) 2) (zp63 ++ [DSat CPropagate]) [] with Some (_, x) => x | None => [] end = mk_dev (DSat CPropagate) (DR (RBool false)) :: zp63t.
Proof. vm_compute. reflexivity. Qed.
Theorem C63_idl_two_constraints_refuted : exists s tr M y, frun Zw zlast (dinit (W := Zw) 2) (zp63 ++ [DSat CPropagate]) [] = Some (s, mk_dev (DSat CPropagate) (DR (RBool false)) :: tr) /\ z_stated tr M y.
Proof.
  destruct (frun_some (frun (sr := stable_sort) Zw zlast (dinit (W := Zw) 2) (zp63 ++ [DSat CPropagate]) []) (mk_dev (DSat CPropagate) (DR (RBool false))) zp63t zp63_run) as [s E]. exists s, zp63t, (fun v => match v with 1 | 3 => true | _ => false end), (fun v => match v with 2%nat => 8 | _ => 0 end)%Z.
  split; [exact E|]. split; [reflexivity|]. split; [reflexivity|].
  intros e He. destruct He as [<-|[<-|[<-|[<-|[<-|[<-|[<-|[<-|[<-|[<-|[]]]]]]]]]]]; cbn [de_call de_ret z_said said]; try exact Logic.I.
  + exists (b 3). split; [left; reflexivity|reflexivity].
  + exists (b 1). split; [left; reflexivity|reflexivity].
  + unfold mlit. cbn. split; [intros _; lia|reflexivity].
  + unfold mlit. cbn. split; [discriminate|lia].
  + unfold mlit. cbn. split; [intros _; lia|reflexivity].
Qed.
Definition qp63 : list dcall := [DVar; DVar; DDist 1 2 (10, 0)%Q; DDist 1 2 (5, 0)%Q; DDist 2 1 (-7 # 1, 0)%Q; DSat (CClause [b 1]); DSat CPropagate; DSat (CAssume (b 2)); DSat CPop; DSat (CClause [b 3])].
Definition qp63t : list devent := [mk_dev (DSat (CClause [b 3])) (DR (RBool true)); mk_dev (DSat CPop) (DR RUnit); mk_dev (DSat (CAssume (b 2))) (DR (RBool true)); mk_dev (DSat CPropagate) (DR (RBool true)); mk_dev (DSat (CClause [b 1])) (DR (RBool true)); mk_dev (DDist 2 1 (-7 # 1, 0)%Q) (DP (b 3)); mk_dev (DDist 1 2 (5, 0)%Q) (DP (b 2)); mk_dev (DDist 1 2 (10, 0)%Q) (DP (b 1)); mk_dev DVar (DX 2); mk_dev DVar (DX 1)].
Lemma qp63_run : match frun Qw qlast (dinit (W := Qw) 2) (qp63 ++ [DSat CPropagate]) [] with Some (_, x) => x | None => [] end = mk_dev (DSat CPropagate) (DR (RBool false)) :: qp63t.
Proof. vm_compute. reflexivity. Qed.
Theorem C63_rdl_two_constraints_refuted : exists s tr M y, frun Qw qlast (dinit (W := Qw) 2) (qp63 ++ [DSat CPropagate]) [] = Some (s, mk_dev (DSat CPropagate) (DR (RBool false)) :: tr) /\ q_stated tr M y.
Proof.
  destruct (frun_some (frun (sr := stable_sort) Qw qlast (dinit (W := Qw) 2) (qp63 ++ [DSat CPropagate]) []) (mk_dev (DSat CPropagate) (DR (RBool false))) qp63t qp63_run) as [s E]. exists s, qp63t, (fun v => match v with 1 | 3 => true | _ => false end), (fun v => match v with 2%nat => 8 | _ => 0 end)%Q.
  split; [exact E|]. split; [reflexivity|]. split; [reflexivity|].
  intros e He. destruct He as [<-|[<-|[<-|[<-|[<-|[<-|[<-|[<-|[<-|[<-|[]]]]]]]]]]]; cbn [de_call de_ret q_said said]; try exact Logic.I.
  + exists (b 3). split; [left; reflexivity|reflexivity].
  + exists (b 1). split; [left; reflexivity|reflexivity].
  + unfold mlit. cbn. split; [intros _; unfold q_under; cbn; lra|reflexivity].
  + unfold mlit. cbn. split; [discriminate|unfold q_under; cbn; lra].
  + unfold mlit. cbn. split; [intros _; unfold q_under; cbn; lra|reflexivity].
Qed.
(** One constraint for a pair is not enough when two decisions are open: b1: x2 - x1 <= 1, b2: x3 - x2 <= 1, b3: x4 - x1 <= 0, b4: x3 - x4 <= 0, b5: x5 - x3 <= 0, b6: x1 - x5 <= -3, with b1 -> b2 and b3 -> b4.
    After b1 and b3 have been assumed and b3 retracted the predecessors say that x3 is reached from x1 directly, for which there is no constraint: assuming b5 and retracting everything leaves a clause without b1 and b2 behind, and
    b5 and b6 cannot be stated together any more, although x3 = x5 = x1 + 3 satisfies them. *)
Definition zu63 : list dcall := [DVar; DVar; DVar; DVar; DVar; DDist 1 2 1%Z; DDist 2 3 1%Z; DDist 1 4 0%Z; DDist 4 3 0%Z; DDist 3 5 0%Z; DDist 5 1 (-3)%Z; DSat (CClause [nb 1; b 2]); DSat (CClause [nb 3; b 4]); DSat (CAssume (b 1)); DSat (CAssume (b 3)); DSat CPop; DSat (CAssume (b 5)); DSat CPop; DSat CPop; DSat (CClause [b 5]); DSat (CClause [b 6])].
Definition zu63t : list devent := [mk_dev (DSat (CClause [b 6])) (DR (RBool true)); mk_dev (DSat (CClause [b 5])) (DR (RBool true)); mk_dev (DSat CPop) (DR RUnit); mk_dev (DSat CPop) (DR RUnit); mk_dev (DSat (CAssume (b 5))) (DR (RBool true)); mk_dev (DSat CPop) (DR RUnit); mk_dev (DSat (CAssume (b 3))) (DR (RBool true)); mk_dev (DSat (CAssume (b 1))) (DR (RBool true)); mk_dev (DSat (CClause [nb 3; b 4])) (DR (RBool true)); mk_dev (DSat (CClause [nb 1; b 2])) (DR (RBool true)); mk_dev (DDist 5 1 (-3)%Z) (DP (b 6)); mk_dev (DDist 3 5 0%Z) (DP (b 5)); mk_dev (DDist 4 3 0%Z) (DP (b 4)); mk_dev (DDist 1 4 0%Z) (DP (b 3)); mk_dev (DDist 2 3 1%Z) (DP (b 2)); mk_dev (DDist 1 2 1%Z) (DP (b 1)); mk_dev DVar (DX 5); mk_dev DVar (DX 4); mk_dev DVar (DX 3); mk_dev DVar (DX 2); mk_dev DVar (DX 1)].
Lemma zu63_run : match frun Zw zlast (dinit (W := Zw) 2) (zu63 ++ [DSat CPropagate]) [] with Some (_, x) => x | None => [] end = mk_dev (DSat CPropagate) (DR (RBool false)) :: zu63t.
Proof. vm_compute. reflexivity. Qed.
Theorem C63_idl_two_decisions_refuted : exists s tr M y, frun Zw zlast (dinit (W := Zw) 2) (zu63 ++ [DSat CPropagate]) [] = Some (s, mk_dev (DSat CPropagate) (DR (RBool false)) :: tr) /\ z_stated tr M y.
Proof.
  destruct (frun_some (frun (sr := stable_sort) Zw zlast (dinit (W := Zw) 2) (zu63 ++ [DSat CPropagate]) []) (mk_dev (DSat CPropagate) (DR (RBool false))) zu63t zu63_run) as [s E]. exists s, zu63t, (fun v => match v with 2 | 4 | 5 | 6 => true | _ => false end), (fun v => match v with 2%nat => 10 | 3%nat => 3 | 4%nat => 10 | 5%nat => 3 | _ => 0 end)%Z.
  split; [exact E|]. split; [reflexivity|]. split; [reflexivity|].
  intros e He. destruct He as [<-|[<-|[<-|[<-|[<-|[<-|[<-|[<-|[<-|[<-|[<-|[<-|[<-|[<-|[<-|[<-|[<-|[<-|[<-|[<-|[<-|[]]]]]]]]]]]]]]]]]]]]]]; cbn [de_call de_ret z_said said]; try exact Logic.I.
  + exists (b 6). split; [left; reflexivity|reflexivity].
  + exists (b 5). split; [left; reflexivity|reflexivity].
  + exists (nb 3). split; [left; reflexivity|reflexivity].
  + exists (nb 1). split; [left; reflexivity|reflexivity].
  + unfold mlit. cbn. split; [intros _; lia|reflexivity].
  + unfold mlit. cbn. split; [intros _; lia|reflexivity].
  + unfold mlit. cbn. split; [intros _; lia|reflexivity].
  + unfold mlit. cbn. split; [discriminate|lia].
  + unfold mlit. cbn. split; [intros _; lia|reflexivity].
  + unfold mlit. cbn. split; [discriminate|lia].
Qed.
Definition qu63 : list dcall := [DVar; DVar; DVar; DVar; DVar; DDist 1 2 (1, 0)%Q; DDist 2 3 (1, 0)%Q; DDist 1 4 (0, 0)%Q; DDist 4 3 (0, 0)%Q; DDist 3 5 (0, 0)%Q; DDist 5 1 (-3 # 1, 0)%Q; DSat (CClause [nb 1; b 2]); DSat (CClause [nb 3; b 4]); DSat (CAssume (b 1)); DSat (CAssume (b 3)); DSat CPop; DSat (CAssume (b 5)); DSat CPop; DSat CPop; DSat (CClause [b 5]); DSat (CClause [b 6])].
Definition qu63t : list devent := [mk_dev (DSat (CClause [b 6])) (DR (RBool true)); mk_dev (DSat (CClause [b 5])) (DR (RBool true)); mk_dev (DSat CPop) (DR RUnit); mk_dev (DSat CPop) (DR RUnit); mk_dev (DSat (CAssume (b 5))) (DR (RBool true)); mk_dev (DSat CPop) (DR RUnit); mk_dev (DSat (CAssume (b 3))) (DR (RBool true)); mk_dev (DSat (CAssume (b 1))) (DR (RBool true)); mk_dev (DSat (CClause [nb 3; b 4])) (DR (RBool true)); mk_dev (DSat (CClause [nb 1; b 2])) (DR (RBool true)); mk_dev (DDist 5 1 (-3 # 1, 0)%Q) (DP (b 6)); mk_dev (DDist 3 5 (0, 0)%Q) (DP (b 5)); mk_dev (DDist 4 3 (0, 0)%Q) (DP (b 4)); mk_dev (DDist 1 4 (0, 0)%Q) (DP (b 3)); mk_dev (DDist 2 3 (1, 0)%Q) (DP (b 2)); mk_dev (DDist 1 2 (1, 0)%Q) (DP (b 1)); mk_dev DVar (DX 5); mk_dev DVar (DX 4); mk_dev DVar (DX 3); mk_dev DVar (DX 2); mk_dev DVar (DX 1)].
Lemma qu63_run : match frun Qw qlast (dinit (W := Qw) 2) (qu63 ++ [DSat CPropagate]) [] with Some (_, x) => x | None => [] end = mk_dev (DSat CPropagate) (DR (RBool false)) :: qu63t.
Proof. vm_compute. reflexivity. Qed.
Theorem C63_rdl_two_decisions_refuted : exists s tr M y, frun Qw qlast (dinit (W := Qw) 2) (qu63 ++ [DSat CPropagate]) [] = Some (s, mk_dev (DSat CPropagate) (DR (RBool false)) :: tr) /\ q_stated tr M y.
Proof.
  destruct (frun_some (frun (sr := stable_sort) Qw qlast (dinit (W := Qw) 2) (qu63 ++ [DSat CPropagate]) []) (mk_dev (DSat CPropagate) (DR (RBool false))) qu63t qu63_run) as [s E]. exists s, qu63t, (fun v => match v with 2 | 4 | 5 | 6 => true | _ => false end), (fun v => match v with 2%nat => 10 | 3%nat => 3 | 4%nat => 10 | 5%nat => 3 | _ => 0 end)%Q.
  split; [exact E|]. split; [reflexivity|]. split; [reflexivity|].
  intros e He. destruct He as [<-|[<-|[<-|[<-|[<-|[<-|[<-|[<-|[<-|[<-|[<-|[<-|[<-|[<-|[<-|[<-|[<-|[<-|[<-|[<-|[<-|[]]]]]]]]]]]]]]]]]]]]]]; cbn [de_call de_ret q_said said]; try exact Logic.I.
  + exists (b 6). split; [left; reflexivity|reflexivity].
  + exists (b 5). split; [left; reflexivity|reflexivity].
  + exists (nb 3). split; [left; reflexivity|reflexivity].
  + exists (nb 1). split; [left; reflexivity|reflexivity].
  + unfold mlit. cbn. split; [intros _; unfold q_under; cbn; lra|reflexivity].
  + unfold mlit. cbn. split; [intros _; unfold q_under; cbn; lra|reflexivity].
  + unfold mlit. cbn. split; [intros _; unfold q_under; cbn; lra|reflexivity].
  + unfold mlit. cbn. split; [discriminate|unfold q_under; cbn; lra].
  + unfold mlit. cbn. split; [intros _; unfold q_under; cbn; lra|reflexivity].
  + unfold mlit. cbn. split; [discriminate|unfold q_under; cbn; lra].
Qed.
Print Assumptions C63_idl_returns_partial.
Print Assumptions C63_idl_false_partial.
Print Assumptions C63_idl_clause_false_partial.
Print Assumptions C63_idl_implied_partial.
Print Assumptions C63_idl_distance_partial.
Print Assumptions C63_idl_true_partial.
Print Assumptions C63_idl_hull_partial.
Print Assumptions C63_idl_decisions_refuted.
Print Assumptions C63_rdl_returns_partial.
Print Assumptions C63_rdl_false_partial.
Print Assumptions C63_rdl_clause_false_partial.
Print Assumptions C63_rdl_implied_partial.
Print Assumptions C63_rdl_distance_partial.
Print Assumptions C63_rdl_true_partial.
Print Assumptions C63_rdl_hull_partial.
Print Assumptions C63_rdl_decisions_refuted.
Print Assumptions C63_idl_two_constraints_refuted.
Print Assumptions C63_idl_two_decisions_refuted.
Print Assumptions C63_rdl_two_constraints_refuted.
Print Assumptions C63_rdl_two_decisions_refuted.
