(** Properties of the difference logic theories (C37-C44, C49-C54).  Nothing but statements, closed by lemmas, and
    concrete cases.  Vocabulary: [DReach L t vs]: [t] is the state of a theory after some history of new_var,
    new constraints, told literals (without a conflict), push and pop; [vs] lists the told literals, one list for each
    level; [ZL]: idl_theory, [QL]: rdl_theory.  [z_sol t ps y], [q_sol t ps y]: the assignment [y] satisfies every
    constraint whose literal is in [ps] and violates every constraint whose negated literal is (DlSpec.v).  [z_spans],
    [q_spans]: the given pair is the least and the greatest value over the solutions (DlQ.v).
    [distance W t i j] is distance(i, j), [distance W t 0 v] is bounds(v); [None]: infinite. *)
From Verif Require Import Base Keys Sat SatSpec SatInv SatMain SatApi Reify Run Erase Lin LinProps Qe Dw Dl DlClo DlTight DlEdge DlTh DlFacts DlVal DlApi DlSpec DlQ.
From Coq Require Import Lqa.
Open Scope nat_scope.
#[local] Existing Instance stable_sort | 100.

Definition b (v : nat) : lit := mk_lit v true.
Definition nb (v : nat) : lit := mk_lit v false.
(** Integers, x1, x2, x3; b1: x2 - x1 <= 5, b2: x3 - x2 <= -2, b3: x1 <= 7, b4: x3 - x1 <= 0; b1, b2, b3, not b4 told. *)
Definition zs : list (kop Z) := [KVar; KVar; KVar; KCon 1 2 5%Z; KCon 2 3 (-2)%Z; KCon 0 1 7%Z; KCon 1 3 0%Z; KTell (b 1); KPush; KTell (b 2); KTell (b 3); KPush; KTell (nb 4)].
Definition zt : dl Z := fst (kst (W := Zw) zc 2 zs).
Definition zv : list (list lit) := snd (kst (W := Zw) zc 2 zs).
Lemma zt_reach : DReach ZL zt zv.
Proof. apply (kst_reach ZL zc zc_ok). lia. Qed.
(** Rationals, the same with strict b2. *)
Definition qs : list (kop qe) := [KVar; KVar; KVar; KCon 1 2 (5, 0)%Q; KCon 2 3 (-2 # 1, -1 # 1)%Q; KCon 0 1 (7, 0)%Q; KCon 1 3 (0, 0)%Q; KTell (b 1); KPush; KTell (b 2); KTell (b 3); KPush; KTell (nb 4)].
Definition qt : dl qe := fst (kst (W := Qw) qc 2 qs).
Definition qv : list (list lit) := snd (kst (W := Qw) qc 2 qs).
Lemma qt_reach : DReach QL qt qv.
Proof. apply (kst_reach QL qc qc_ok). lia. Qed.

(** ** C37: distances are the exact closure. *)
Theorem C37_idl_distance t vs i j : DReach ZL t vs -> i < nvars t -> j < nvars t -> z_spans t (concat vs) (fun y => inject_Z (y j - y i)) (distance Zw t i j).
Proof. exact (z_distance t vs i j). Qed.
Theorem C37_idl_triangle t vs i j k a c : DReach ZL t vs -> snd (distance Zw t i j) = Some a -> snd (distance Zw t j k) = Some c -> exists d, snd (distance Zw t i k) = Some d /\ (d <= a + c)%Z.
Proof. exact (z_triangle t vs i j k a c). Qed.
Theorem C37_rdl_distance t vs i j : DReach QL t vs -> i < nvars t -> j < nvars t -> q_spans t (concat vs) (fun y => (y j - y i)%Q) (distance Qw t i j).
Proof. exact (q_distance t vs i j). Qed.
Theorem C37_rdl_triangle t vs i j k a c : DReach QL t vs -> snd (distance Qw t i j) = Some a -> snd (distance Qw t j k) = Some c -> exists d, snd (distance Qw t i k) = Some d /\ qle d (qe_add a c).
Proof. exact (q_triangle t vs i j k a c). Qed.
Example C37_case : DReach ZL zt zv /\ zv = [[nb 4]; [b 3; b 2]; [b 1]] /\ nvars zt = 4 /\ distance Zw zt 1 3 = (Some 1, Some 3)%Z /\ distance Zw zt 0 3 = (None, Some 10%Z) /\ distance Zw zt 3 2 = (Some 2, Some 4)%Z /\
  DReach QL qt qv /\ distance Qw qt 1 3 = (Some (0, 1), Some (3, -1 # 1))%Q.
Proof. split; [exact zt_reach|]. do 5 (split; [vm_compute; reflexivity|]). split; [exact qt_reach|vm_compute; reflexivity]. Qed.
Print Assumptions C37_idl_distance.
Print Assumptions C37_idl_triangle.
Print Assumptions C37_rdl_distance.
Print Assumptions C37_rdl_triangle.

(** ** C38: a literal is refused iff inconsistent.  [host L s i t vs]: theory number [i] of the network [s] is in state [t]. *)
Theorem C38_idl_new_distance (sr : sorter) s i t vs from to w : host ZL s i t vs -> from < nvars t -> to < nvars t ->
  exists s' l, new_distance Zw s i from to w = Ok (s', l) /\ (l = FALSE_lit <-> forall y, z_sol t (concat vs) y -> ~ (y to - y from <= w)%Z) /\ (l = TRUE_lit <-> forall y, z_sol t (concat vs) y -> (y to - y from <= w)%Z).
Proof. exact (z_new_distance s i t vs from to w). Qed.
Theorem C38_rdl_new_distance (sr : sorter) s i t vs from to w : host QL s i t vs -> from < nvars t -> to < nvars t -> q_weight w ->
  exists s' l, new_distance Qw s i from to w = Ok (s', l) /\ (l = FALSE_lit <-> forall y, q_sol t (concat vs) y -> ~ q_under (y to - y from)%Q w) /\ (l = TRUE_lit <-> forall y, q_sol t (concat vs) y -> q_under (y to - y from)%Q w).
Proof. exact (q_new_distance s i t vs from to w). Qed.
(** [propagate(p)], for any values [val] in which the told literals and [p] are true; [cf]: the conflict. *)
Theorem C38_idl_conflict t v vs val p : DReach ZL t (v :: vs) -> atom t (lvar p) -> reads val (p :: concat (v :: vs)) ->
  exists t' ls cf, dl_prop Zw t val p = Ok (t', ls, cf) /\ (cf <> None <-> forall y, ~ z_sol t (p :: concat (v :: vs)) y) /\ (cf <> None -> t' = t /\ ls = []).
Proof. exact (z_conflict t v vs val p). Qed.
Theorem C38_rdl_conflict t v vs val p : DReach QL t (v :: vs) -> atom t (lvar p) -> reads val (p :: concat (v :: vs)) ->
  exists t' ls cf, dl_prop Qw t val p = Ok (t', ls, cf) /\ (cf <> None <-> forall y, ~ q_sol t (p :: concat (v :: vs)) y) /\ (cf <> None -> t' = t /\ ls = []).
Proof. exact (q_conflict t v vs val p). Qed.
(** A network that hosts [zt]; its literals b1-b4 and one more variable. *)
Fixpoint vars_of {T} (n : nat) (s : st T) : st T := match n with O => s | S n => vars_of n (fst (new_var s)) end.
Definition zhost (t : dl Z) : st (dl Z) := dl_put (vars_of 5 (init [t])) 0 t.
Lemma vars_good {T} n : forall s : st T, good pureC (er s) -> good pureC (er (vars_of n s)).
Proof. induction n as [|n IH]; intros s H; cbn [vars_of]; [exact H|]. apply IH, new_var_erased, H. Qed.
Lemma er_put {D} (s : st (dl D)) i t : er (dl_put s i t) = er s.
Proof. reflexivity. Qed.
Lemma zhost_ok t vs : DReach ZL t vs -> (forall v, atom t v -> v < 6) -> host ZL (zhost t) 0 t vs.
Proof.
  intros HR Hv. constructor; [reflexivity|exact HR|exact Hv|]. unfold zhost. rewrite er_put. apply vars_good. apply (init_good pureC []). intros x [].
Qed.
Example C38_case : host ZL (zhost zt) 0 zt zv /\
  match new_distance Zw (zhost zt) 0 3 1 (-4)%Z with Ok (_, l) => l = FALSE_lit | _ => False end /\
  match new_distance Zw (zhost zt) 0 3 1 0%Z with Ok (_, l) => l = TRUE_lit | _ => False end /\
  match new_distance Zw (zhost zt) 0 3 1 (-2)%Z with Ok (_, l) => l = b 6 | _ => False end /\
  atom zt 4 /\ match dl_prop Zw (fst (kst (W := Zw) zc 2 [KVar; KVar; KCon 1 2 5%Z; KCon 2 1 (-6)%Z; KTell (b 1)])) (val_of [b 2; b 1]) (b 2) with Ok (_, _, cf) => cf = Some [nb 1; nb 2] | _ => False end.
Proof.
  split; [apply zhost_ok; [exact zt_reach|]|split; [vm_compute; reflexivity|split; [vm_compute; reflexivity|split; [vm_compute; reflexivity|split; [apply (atomb_ok zt); vm_compute; reflexivity|vm_compute; reflexivity]]]]].
  intros v Hv. apply (atomb_ok zt) in Hv. do 6 (destruct v as [|v]; [lia|]). vm_compute in Hv. discriminate.
Qed.
Print Assumptions C38_idl_new_distance.
Print Assumptions C38_rdl_new_distance.
Print Assumptions C38_idl_conflict.
Print Assumptions C38_rdl_conflict.

(** ** C39: backtracking restores the distances.  [Inside n]: anything that keeps more than [n] levels. *)
Theorem C39_idl_pop t vs t' vs' : DReach ZL t vs -> Inside ZL (length vs) (dl_push t) ([] :: vs) t' vs' -> length vs' = S (length vs) -> forall i j, distance Zw (dl_pop t') i j = distance Zw t i j.
Proof. intros HR HI Hl i j. destruct (pop_sim ZL t vs t' vs' HR HI Hl) as [HS _]. unfold distance. rewrite !(sm_d ZL _ _ HS). reflexivity. Qed.
Theorem C39_rdl_pop t vs t' vs' : DReach QL t vs -> Inside QL (length vs) (dl_push t) ([] :: vs) t' vs' -> length vs' = S (length vs) -> forall i j, distance Qw (dl_pop t') i j = distance Qw t i j.
Proof. intros HR HI Hl i j. destruct (pop_sim QL t vs t' vs' HR HI Hl) as [HS _]. unfold distance. rewrite !(sm_d QL _ _ HS). reflexivity. Qed.
(** After [zs]: two more variables, which make the matrix grow, two constraints, which shorten distances, a nested push and pop. *)
Definition zs' : list (kop Z) := [KVar; KCon 3 1 (-2)%Z; KTell (b 5); KPush; KVar; KCon 2 5 1%Z; KTell (b 6); KPop; KCon 0 3 4%Z; KTell (b 7)].
Example C39_case : match krun (W := Zw) zc (length zv) (dl_push zt, [] :: zv) zs' with
  | Some (t', vs') => Inside ZL (length zv) (dl_push zt) ([] :: zv) t' vs' /\ length vs' = S (length zv) /\ distance Zw t' 0 3 = (None, Some 4%Z) /\ distance Zw t' 1 3 = (Some 2, Some 3)%Z /\ distance Zw (dl_pop t') 0 3 = (None, Some 10%Z)
  | None => False end.
Proof.
  destruct (krun zc (length zv) (dl_push zt, [] :: zv) zs') as [[t' vs']|] eqn:E.
  - split; [apply (kst_inside ZL zc zc_ok 2 zs zs' zt zv t' vs'); [unfold zt, zv; destruct (kst zc 2 zs); reflexivity|exact E]|].
    assert (K : match krun (W := Zw) zc (length zv) (dl_push zt, [] :: zv) zs' with Some (t', vs') => (length vs', distance Zw t' 0 3, distance Zw t' 1 3, distance Zw (dl_pop t') 0 3) | None => (0, (None, None), (None, None), (None, None)) end = (4, (None, Some 4%Z), (Some 2, Some 3)%Z, (None, Some 10%Z))) by (vm_compute; reflexivity).
    rewrite E in K. apply pair_equal_spec in K as [K K4]. apply pair_equal_spec in K as [K K3]. apply pair_equal_spec in K as [K1 K2]. split; [rewrite K1; vm_compute; reflexivity|]. auto.
  - assert (K : some (krun (W := Zw) zc (length zv) (dl_push zt, [] :: zv) zs') = true) by (vm_compute; reflexivity). rewrite E in K. discriminate.
Qed.
Print Assumptions C39_idl_pop.
Print Assumptions C39_rdl_pop.

(** ** C40: backtracking restores the explanations. *)
(** Partial: the enforced constraints are restored.  The predecessors are not: see the refutation.  (Explanations are always built from
    constraints whose literals are told: C50.) *)
Theorem C40_idl_constraints_partial t vs t' vs' : DReach ZL t vs -> Inside ZL (length vs) (dl_push t) ([] :: vs) t' vs' -> length vs' = S (length vs) -> dist_constr (dl_pop t') = dist_constr t.
Proof. intros HR HI Hl. destruct (pop_sim ZL t vs t' vs' HR HI Hl) as [HS _]. apply (sm_con ZL _ _ HS). Qed.
Theorem C40_rdl_constraints_partial t vs t' vs' : DReach QL t vs -> Inside QL (length vs) (dl_push t) ([] :: vs) t' vs' -> length vs' = S (length vs) -> dist_constr (dl_pop t') = dist_constr t.
Proof. intros HR HI Hl. destruct (pop_sim QL t vs t' vs' HR HI Hl) as [HS _]. apply (sm_con QL _ _ HS). Qed.
(** Refutation: after push, a literal that shortens a distance, and pop, the same propagation is explained differently, by an invalid clause.
    b1: x2 - x1 <= 1, b2: x3 - x2 <= 1, b3: x3 - x1 <= 0, b4: x1 - x3 <= -3. *)
Definition conf {A B C} (r : res (A * B * option C)) : option C := match r with Ok (_, _, cf) => cf | _ => None end.
Definition zr : list (kop Z) := [KVar; KVar; KVar; KCon 1 2 1%Z; KCon 2 3 1%Z; KCon 1 3 0%Z; KCon 3 1 (-3)%Z; KTell (b 1); KTell (b 2)].
Definition zrt : dl Z := fst (kst (W := Zw) zc 5 zr).
Definition zrv : list (list lit) := snd (kst (W := Zw) zc 5 zr).
Theorem C40_idl_pop_refuted : exists t vs t' vs' val, DReach ZL t vs /\ Inside ZL (length vs) (dl_push t) ([] :: vs) t' vs' /\ length vs' = S (length vs) /\ reads val (b 4 :: concat vs) /\ atom t 4 /\
  conf (dl_prop Zw t val (b 4)) = Some [nb 2; nb 1; nb 4] /\ conf (dl_prop Zw (dl_pop t') val (b 4)) = Some [nb 4] /\ ~ z_valid (dl_pop t') [nb 4].
Proof.
  destruct (krun (W := Zw) zc (length zrv) (dl_push zrt, [] :: zrv) [KTell (b 3)]) as [[t' vs']|] eqn:E.
  - exists zrt, zrv, t', vs', (val_of (b 4 :: concat zrv)). split; [apply (kst_reach ZL zc zc_ok); lia|]. split; [apply (kst_inside ZL zc zc_ok 5 zr [KTell (b 3)] zrt zrv t' vs'); [unfold zrt, zrv; destruct (kst zc 5 zr); reflexivity|exact E]|].
    assert (K : match krun (W := Zw) zc (length zrv) (dl_push zrt, [] :: zrv) [KTell (b 3)] with Some (t', vs') => (length vs', conf (dl_prop Zw (dl_pop t') (val_of (b 4 :: concat zrv)) (b 4)), dcons t') | None => (0, None, []) end
       = (2, Some [nb 4], [mk_dcon (b 1) 1 2 1; mk_dcon (b 2) 2 3 1; mk_dcon (b 3) 1 3 0; mk_dcon (b 4) 3 1 (-3)]%Z)) by (vm_compute; reflexivity).
    rewrite E in K. apply pair_equal_spec in K as [K K3]. apply pair_equal_spec in K as [K1 K2]. split; [rewrite K1; vm_compute; reflexivity|]. split; [apply val_of_reads; vm_compute; reflexivity|].
    split; [apply (atomb_ok zrt); vm_compute; reflexivity|]. split; [vm_compute; reflexivity|]. split; [exact K2|]. intros H. destruct (H (fun v => if Nat.eqb v 1 then 0 else if Nat.eqb v 2 then 0 else 3)%Z) as (q & c & Hq & Hc & Ev & K).
    assert (Ec : dcons (dl_pop t') = dcons t') by (unfold dl_pop; destruct (dlayers t'); reflexivity). rewrite Ec, K3 in Hc.
    destruct Hq as [<-|[]]. cbn in Hc. repeat destruct Hc as [<-|Hc]; try discriminate Ev; try (case Hc; fail). cbn in K. unfold z_con in K. cbn in K. lia.
  - assert (K : some (krun (W := Zw) zc (length zrv) (dl_push zrt, [] :: zrv) [KTell (b 3)]) = true) by (vm_compute; reflexivity). rewrite E in K. discriminate.
Qed.
Definition qr : list (kop qe) := [KVar; KVar; KVar; KCon 1 2 (1, 0)%Q; KCon 2 3 (1, 0)%Q; KCon 1 3 (0, 0)%Q; KCon 3 1 (-3 # 1, 0)%Q; KTell (b 1); KTell (b 2)].
Definition qrt : dl qe := fst (kst (W := Qw) qc 5 qr).
Definition qrv : list (list lit) := snd (kst (W := Qw) qc 5 qr).
Theorem C40_rdl_pop_refuted : exists t vs t' vs' val, DReach QL t vs /\ Inside QL (length vs) (dl_push t) ([] :: vs) t' vs' /\ length vs' = S (length vs) /\ reads val (b 4 :: concat vs) /\ atom t 4 /\
  conf (dl_prop Qw t val (b 4)) = Some [nb 2; nb 1; nb 4] /\ conf (dl_prop Qw (dl_pop t') val (b 4)) = Some [nb 4] /\ ~ q_valid (dl_pop t') [nb 4].
Proof.
  destruct (krun (W := Qw) qc (length qrv) (dl_push qrt, [] :: qrv) [KTell (b 3)]) as [[t' vs']|] eqn:E.
  - exists qrt, qrv, t', vs', (val_of (b 4 :: concat qrv)). split; [apply (kst_reach QL qc qc_ok); lia|]. split; [apply (kst_inside QL qc qc_ok 5 qr [KTell (b 3)] qrt qrv t' vs'); [unfold qrt, qrv; destruct (kst qc 5 qr); reflexivity|exact E]|].
    assert (K : match krun (W := Qw) qc (length qrv) (dl_push qrt, [] :: qrv) [KTell (b 3)] with Some (t', vs') => (length vs', conf (dl_prop Qw (dl_pop t') (val_of (b 4 :: concat qrv)) (b 4)), dcons t') | None => (0, None, []) end
       = (2, Some [nb 4], [mk_dcon (b 1) 1 2 (1, 0); mk_dcon (b 2) 2 3 (1, 0); mk_dcon (b 3) 1 3 (0, 0); mk_dcon (b 4) 3 1 (-3 # 1, 0)]%Q)) by (vm_compute; reflexivity).
    rewrite E in K. apply pair_equal_spec in K as [K K3]. apply pair_equal_spec in K as [K1 K2]. split; [rewrite K1; vm_compute; reflexivity|]. split; [apply val_of_reads; vm_compute; reflexivity|].
    split; [apply (atomb_ok qrt); vm_compute; reflexivity|]. split; [vm_compute; reflexivity|]. split; [exact K2|]. intros H. destruct (H (fun v => if Nat.eqb v 1 then 0 else if Nat.eqb v 2 then 0 else (3 # 1))%Q) as (q & c & Hq & Hc & Ev & K).
    assert (Ec : dcons (dl_pop t') = dcons t') by (unfold dl_pop; destruct (dlayers t'); reflexivity). rewrite Ec, K3 in Hc.
    destruct Hq as [<-|[]]. cbn in Hc. repeat destruct Hc as [<-|Hc]; try discriminate Ev; try (case Hc; fail). cbn in K. apply K. unfold q_con, q_under. cbn. lra.
  - assert (K : some (krun (W := Qw) qc (length qrv) (dl_push qrt, [] :: qrv) [KTell (b 3)]) = true) by (vm_compute; reflexivity). rewrite E in K. discriminate.
Qed.
Print Assumptions C40_idl_constraints_partial.
Print Assumptions C40_rdl_constraints_partial.
Print Assumptions C40_idl_pop_refuted.
Print Assumptions C40_rdl_pop_refuted.

(** ** C41: explanations are valid. *)
(** Partial: as long as nothing has been popped and no two constraints relate the same variables ([FReach], DlVal.v). *)
Theorem C41_idl_valid_partial t v vs val p : FReach ZL t (v :: vs) -> atom t (lvar p) -> reads val (p :: concat (v :: vs)) ->
  exists t' ls cf, dl_prop Zw t val p = Ok (t', ls, cf) /\ (forall k, In k ls -> z_valid t k) /\ (forall k, cf = Some k -> z_valid t k).
Proof. intros HF Ha HR. destruct (prop_valid ZL t v vs val p HF Ha HR) as (t' & ls & cf & E & H1 & H2). exists t', ls, cf. split; [exact E|]. split; intros k Hk; apply z_dl_valid; auto. Qed.
Theorem C41_rdl_valid_partial t v vs val p : FReach QL t (v :: vs) -> atom t (lvar p) -> reads val (p :: concat (v :: vs)) ->
  exists t' ls cf, dl_prop Qw t val p = Ok (t', ls, cf) /\ (forall k, In k ls -> q_valid t k) /\ (forall k, cf = Some k -> q_valid t k).
Proof. intros HF Ha HR. destruct (prop_valid QL t v vs val p HF Ha HR) as (t' & ls & cf & E & H1 & H2). exists t', ls, cf. split; [exact E|]. split; intros k Hk; apply q_dl_valid; auto. Qed.
(** x1..x4; b1: x2 - x1 <= 1, b2: x3 - x2 <= 1, b3: x4 - x3 <= 1, b4: x4 - x1 <= 5, b5: x1 - x3 <= -3; b1 and b2 told, then b3 (b4 and not b5 follow). *)
Definition zf : list (kop Z) := [KVar; KVar; KVar; KVar; KCon 1 2 1%Z; KCon 2 3 1%Z; KCon 3 4 1%Z; KCon 1 4 5%Z; KCon 3 1 (-3)%Z; KTell (b 1); KPush].
Definition zft : dl Z := fst (fst_ (W := Zw) zc 5 zf).
Definition zfv : list (list lit) := snd (fst_ (W := Zw) zc 5 zf).
Definition learnt {A B C} (r : res (A * list B * option C)) : list B := match r with Ok (_, ls, _) => ls | _ => [] end.
Example C41_case : FReach ZL zft zfv /\ zfv = [[]; [b 1]] /\ atom zft 2 /\ reads (val_of (b 2 :: concat zfv)) (b 2 :: concat zfv) /\ learnt (dl_prop Zw zft (val_of (b 2 :: concat zfv)) (b 2)) = [[nb 5; nb 2; nb 1]].
Proof.
  split; [apply (fst_reach ZL zc zc_ok); lia|]. split; [vm_compute; reflexivity|]. split; [apply (atomb_ok zft); vm_compute; reflexivity|]. split; [apply val_of_reads; vm_compute; reflexivity|vm_compute; reflexivity].
Qed.
(** Refutation without pop: b1: x2 - x1 <= 10, b2: x2 - x1 <= 5, b3: x1 - x2 <= -7; b1, b2 told; b3 is refuted by a clause that mentions b1 instead of b2. *)
Definition z1 : list (kop Z) := [KVar; KVar; KCon 1 2 10%Z; KCon 1 2 5%Z; KCon 2 1 (-7)%Z; KTell (b 1)].
Theorem C41_idl_valid_refuted : exists t vs val p k, DReach ZL t vs /\ atom t (lvar p) /\ reads val (p :: concat vs) /\ In k (learnt (dl_prop Zw t val p)) /\ ~ z_valid t k.
Proof.
  set (t := fst (kst (W := Zw) zc 5 z1)). set (vs := snd (kst (W := Zw) zc 5 z1)). exists t, vs, (val_of (b 2 :: concat vs)), (b 2), [nb 3; nb 1].
  split; [apply (kst_reach ZL zc zc_ok); lia|]. split; [apply (atomb_ok t); vm_compute; reflexivity|]. split; [apply val_of_reads; vm_compute; reflexivity|].
  split; [assert (E : learnt (dl_prop Zw t (val_of (b 2 :: concat vs)) (b 2)) = [[nb 3; nb 1]]) by (vm_compute; reflexivity); rewrite E; left; reflexivity|].
  intros H. destruct (H (fun v => if Nat.eqb v 2 then 8 else 0)%Z) as (q & c & Hq & Hc & Ev & K).
  assert (Ec : dcons t = [mk_dcon (b 1) 1 2 10; mk_dcon (b 2) 1 2 5; mk_dcon (b 3) 2 1 (-7)]%Z) by (vm_compute; reflexivity). rewrite Ec in Hc.
  cbn in Hq, Hc. repeat destruct Hq as [<-|Hq]; try (case Hq; fail); repeat destruct Hc as [<-|Hc]; try discriminate Ev; try (case Hc; fail); cbn in K; unfold z_con in K; cbn in K; lia.
Qed.
Definition q1 : list (kop qe) := [KVar; KVar; KCon 1 2 (10, 0)%Q; KCon 1 2 (5, 0)%Q; KCon 2 1 (-7 # 1, 0)%Q; KTell (b 1)].
Theorem C41_rdl_valid_refuted : exists t vs val p k, DReach QL t vs /\ atom t (lvar p) /\ reads val (p :: concat vs) /\ In k (learnt (dl_prop Qw t val p)) /\ ~ q_valid t k.
Proof.
  set (t := fst (kst (W := Qw) qc 5 q1)). set (vs := snd (kst (W := Qw) qc 5 q1)). exists t, vs, (val_of (b 2 :: concat vs)), (b 2), [nb 3; nb 1].
  split; [apply (kst_reach QL qc qc_ok); lia|]. split; [apply (atomb_ok t); vm_compute; reflexivity|]. split; [apply val_of_reads; vm_compute; reflexivity|].
  split; [assert (E : learnt (dl_prop Qw t (val_of (b 2 :: concat vs)) (b 2)) = [[nb 3; nb 1]]) by (vm_compute; reflexivity); rewrite E; left; reflexivity|].
  intros H. destruct (H (fun v => if Nat.eqb v 2 then (8 # 1) else 0)%Q) as (q & c & Hq & Hc & Ev & K).
  assert (Ec : dcons t = [mk_dcon (b 1) 1 2 (10, 0); mk_dcon (b 2) 1 2 (5, 0); mk_dcon (b 3) 2 1 (-7 # 1, 0)]%Q) by (vm_compute; reflexivity). rewrite Ec in Hc.
  cbn in Hq, Hc. repeat destruct Hq as [<-|Hq]; try (case Hq; fail); repeat destruct Hc as [<-|Hc]; try discriminate Ev; try (case Hc; fail); cbn in K; apply K; unfold q_con, q_under; cbn; lra.
Qed.
Print Assumptions C41_idl_valid_partial.
Print Assumptions C41_rdl_valid_partial.
Print Assumptions C41_idl_valid_refuted.
Print Assumptions C41_rdl_valid_refuted.

(** ** C42: comparisons.  [returns L s i t vs r P] (DlApi.v): the call terminates with a literal [l] and a network that still hosts the theory;
    for every model [M] of the new network and every assignment [y] that fits it (variable 0 at 0, told literals true, each constraint true iff
    its literal is), [l] is true in [M] iff [P y]; and every model and fitting assignment of the old network extend to the new one. *)
Theorem C42_idl_lt (sr : sorter) s i t vs left right : host ZL s i t vs -> lin_clean left -> lin_clean right -> vars_in t left -> vars_in t right -> diff_form (W := Zw) (lin_sub left right) ->
  returns ZL s i t vs (dl_new_lt Zw s i left right) (fun y => (lval y left < lval y right)%Q).
Proof. exact (lt_returns ZL ZR s i t vs left right). Qed.
Theorem C42_idl_leq (sr : sorter) s i t vs left right : host ZL s i t vs -> lin_clean left -> lin_clean right -> vars_in t left -> vars_in t right -> diff_form (W := Zw) (lin_sub left right) ->
  returns ZL s i t vs (dl_new_leq Zw s i left right) (fun y => (lval y left <= lval y right)%Q).
Proof. exact (leq_returns ZL ZR s i t vs left right). Qed.
Theorem C42_idl_eq (sr : sorter) s i t vs left right : host ZL s i t vs -> lin_clean left -> lin_clean right -> vars_in t left -> vars_in t right -> diff_form (W := Zw) (lin_sub left right) -> dlevel s = 0 ->
  returns ZL s i t vs (dl_new_eq Zw s i left right) (fun y => (lval y left == lval y right)%Q).
Proof. exact (eq_returns ZL ZR s i t vs left right). Qed.
Theorem C42_idl_geq (sr : sorter) s i t vs left right : host ZL s i t vs -> lin_clean left -> lin_clean right -> vars_in t left -> vars_in t right -> diff_form (W := Zw) (lin_sub left right) ->
  returns ZL s i t vs (dl_new_geq Zw s i left right) (fun y => (lval y right <= lval y left)%Q).
Proof. exact (geq_returns ZL ZR s i t vs left right). Qed.
Theorem C42_rdl_lt (sr : sorter) s i t vs left right : host QL s i t vs -> lin_clean left -> lin_clean right -> vars_in t left -> vars_in t right -> diff_form (W := Qw) (lin_sub left right) ->
  returns QL s i t vs (dl_new_lt Qw s i left right) (fun y => (lval y left < lval y right)%Q).
Proof. exact (lt_returns QL QR s i t vs left right). Qed.
Theorem C42_rdl_leq (sr : sorter) s i t vs left right : host QL s i t vs -> lin_clean left -> lin_clean right -> vars_in t left -> vars_in t right -> diff_form (W := Qw) (lin_sub left right) ->
  returns QL s i t vs (dl_new_leq Qw s i left right) (fun y => (lval y left <= lval y right)%Q).
Proof. exact (leq_returns QL QR s i t vs left right). Qed.
Theorem C42_rdl_eq (sr : sorter) s i t vs left right : host QL s i t vs -> lin_clean left -> lin_clean right -> vars_in t left -> vars_in t right -> diff_form (W := Qw) (lin_sub left right) -> dlevel s = 0 ->
  returns QL s i t vs (dl_new_eq Qw s i left right) (fun y => (lval y left == lval y right)%Q).
Proof. exact (eq_returns QL QR s i t vs left right). Qed.
Theorem C42_rdl_geq (sr : sorter) s i t vs left right : host QL s i t vs -> lin_clean left -> lin_clean right -> vars_in t left -> vars_in t right -> diff_form (W := Qw) (lin_sub left right) ->
  returns QL s i t vs (dl_new_geq Qw s i left right) (fun y => (lval y right <= lval y left)%Q).
Proof. exact (geq_returns QL QR s i t vs left right). Qed.
Theorem C42_rdl_gt (sr : sorter) s i t vs left right : host QL s i t vs -> lin_clean left -> lin_clean right -> vars_in t left -> vars_in t right -> diff_form (W := Qw) (lin_sub left right) ->
  returns QL s i t vs (rdl_new_gt s i left right) (fun y => (lval y right < lval y left)%Q).
Proof.
  intros HH Hl Hr Vl Vr Hd. apply (gt_returns QL QR s i t vs left right HH Hl Hr Vl Vr Hd). intros v v1 k c q _ Hv Hv1 Hq Hc Hk. exact (gt_last_returns QL QR s i t vs left right HH v v1 k c q Hv Hv1 Hq Hc Hk).
Qed.
(** Partial: not when the difference has two variables, the first of them with a positive coefficient. *)
Theorem C42_idl_gt_partial (sr : sorter) s i t vs left right : host ZL s i t vs -> lin_clean left -> lin_clean right -> vars_in t left -> vars_in t right -> diff_form (W := Zw) (lin_sub left right) ->
  (forall v c v1 c1, lvars (lin_sub left right) = [(v, c); (v1, c1)] -> (c < 0)%Q) ->
  returns ZL s i t vs (idl_new_gt s i left right) (fun y => (lval y right < lval y left)%Q).
Proof.
  intros HH Hl Hr Vl Vr Hd Hneg. apply (gt_returns ZL ZR s i t vs left right HH Hl Hr Vl Vr Hd). intros v v1 k c q Ef _ _ _ _ _. exfalso. unfold dl_form in Ef.
  destruct (lvars (lin_sub left right)) as [|[x a] [|[x1 a1] [|]]] eqn:El; try discriminate; [destruct (wofq Zw _); discriminate|]. specialize (Hneg x a x1 a1 eq_refl).
  destruct (negb _); [discriminate|]. destruct (wofq Zw _); [|discriminate]. injection Ef as En _ _ _. unfold neg_coef in En. apply negb_false_iff, Qle_bool_iff in En. lra.
Qed.
Print Assumptions C42_idl_lt.
Print Assumptions C42_idl_leq.
Print Assumptions C42_idl_eq.
Print Assumptions C42_idl_geq.
Print Assumptions C42_rdl_lt.
Print Assumptions C42_rdl_leq.
Print Assumptions C42_rdl_eq.
Print Assumptions C42_rdl_geq.
Print Assumptions C42_rdl_gt.
Print Assumptions C42_idl_gt_partial.
Lemma in_vars (t : dl Z) l : forallb (fun e => Nat.ltb (fst e) (nvars t)) (lvars l) = true -> vars_in t l.
Proof. intros H x Hx. apply in_map_iff in Hx as (e & <- & He). rewrite forallb_forall in H. apply Nat.ltb_lt, (H e He). Qed.
(** In [zhost zt]: 2 x3 - 3 < 2 x1 + 1, and x3 - x1 = 2. *)
Definition lx (v : nat) (c k : Q) : lin := mk_lin [(v, c)] k.
Example C42_case : host ZL (zhost zt) 0 zt zv /\ dlevel (zhost zt) = 0 /\
  (let left := lx 3 2%Q (-3 # 1)%Q in let right := lx 1 2%Q 1%Q in lin_clean left /\ lin_clean right /\ vars_in zt left /\ vars_in zt right /\ diff_form (W := Zw) (lin_sub left right) /\
     match dl_new_lt Zw (zhost zt) 0 left right with Ok (Some (s', l)) => l = b 6 /\ option_map (fun t => skipn 4 (dcons t)) (nth_error (theories s') 0) = Some [mk_dcon (b 6) 1 3 1%Z] | _ => False end) /\
  (let left := lx 3 1%Q 0%Q in let right := lx 1 1%Q 2%Q in lin_clean left /\ lin_clean right /\ vars_in zt left /\ vars_in zt right /\ diff_form (W := Zw) (lin_sub left right) /\
     match dl_new_eq Zw (zhost zt) 0 left right with Ok (Some (s', l)) => option_map (fun t => skipn 4 (dcons t)) (nth_error (theories s') 0) = Some [mk_dcon (b 6) 1 3 2%Z; mk_dcon (b 7) 3 1 (-2)%Z] /\ l = b 8 | _ => False end).
Proof.
  split; [exact (proj1 C38_case)|]. split; [vm_compute; reflexivity|].
  assert (HC : forall v c k, ~ (c == 0)%Q -> lin_clean (lx v c k)) by (intros v c k Hc; split; [cbn; auto|intros w d [H|[]]; injection H as <- <-; exact Hc]).
  split; (split; [apply HC; intros K; discriminate|]); (split; [apply HC; intros K; discriminate|]); (split; [apply in_vars; vm_compute; reflexivity|]); (split; [apply in_vars; vm_compute; reflexivity|]);
    (split; [vm_compute; split; [reflexivity|eexists; reflexivity]|vm_compute; split; reflexivity]).
Qed.
(** Refutation: x1 > x2 in idl gives a literal that is never true, although x1 > x2 is possible. *)
Definition z2 : dl Z := fst (kst (W := Zw) zc 5 [KVar; KVar]).
Theorem C42_idl_gt_refuted : exists s i t vs left right s' l, host ZL s i t vs /\ lin_clean left /\ lin_clean right /\ vars_in t left /\ vars_in t right /\ diff_form (W := Zw) (lin_sub left right) /\
  idl_new_gt s i left right = Ok (Some (s', l)) /\ exists t', nth_error (theories s') i = Some t' /\
  (exists M y, smodels pureC (er s') M /\ fit ZL t' vs M y /\ (lval y right < lval y left)%Q) /\ (forall M y, smodels pureC (er s') M -> fit ZL t' vs M y -> mlit M l = false).
Proof.
  assert (HR : DReach ZL z2 [[]]) by (pose proof (kst_reach ZL zc zc_ok 5 [KVar; KVar] ltac:(lia)) as H; replace (snd (kst (W := Zw) zc 5 [KVar; KVar])) with ([[]] : list (list lit)) in H by (vm_compute; reflexivity); exact H).
  pose proof (host_init ZL z2 HR eq_refl) as HH. set (s := init [z2]) in *.
  destruct (new_distance2_gives ZL s 0 z2 [[]] 1 2 0%Z (-1)%Z HH eq_refl ltac:(vm_compute; lia) ltac:(vm_compute; lia) I I) as (s' & t' & l & E & G).
  exists s, 0, z2, [[]], (lx 1 1%Q 0%Q), (lx 2 1%Q 0%Q), s', l. split; [exact HH|].
  assert (HC : forall v c k, ~ (c == 0)%Q -> lin_clean (lx v c k)) by (intros v c k Hc; split; [cbn; auto|intros w d [H|[]]; injection H as <- <-; exact Hc]).
  split; [apply HC; intros K; discriminate|]. split; [apply HC; intros K; discriminate|]. split; [apply in_vars; vm_compute; reflexivity|]. split; [apply in_vars; vm_compute; reflexivity|]. split; [vm_compute; split; [reflexivity|eexists; reflexivity]|].
  split; [change (idl_new_gt s 0 (lx 1 1%Q 0%Q) (lx 2 1%Q 0%Q)) with (may (new_distance2 Zw s 0 1 2 0%Z (-1)%Z)); rewrite E; reflexivity|].
  exists t'. split; [apply (ho_nth ZL _ _ _ _ (gi_host ZL _ _ _ _ _ _ _ _ G))|]. split.
  - set (M := fun _ : nat => false). set (y := fun v => if Nat.eqb v 1 then 1%Q else 0%Q).
    assert (HM : smodels pureC (er s) M) by (apply (init_good pureC []); [intros x []|split; [reflexivity|intros x []]]).
    assert (HF : fit ZL z2 [[]] M y) by (constructor; [reflexivity|intros v; unfold y; destruct (Nat.eqb v 1); [exists 1%Z|exists 0%Z]; reflexivity|reflexivity|intros p []|intros c []]).
    destruct (gi_cons ZL _ _ _ _ _ _ _ _ G M y HM HF) as (M' & _ & H1 & H2). exists M', y. split; [exact H1|]. split; [exact H2|]. vm_compute. reflexivity.
  - intros M y HM HF. pose proof (gi_means ZL _ _ _ _ _ _ _ _ G M y HM HF) as H. destruct (mlit M l); [|reflexivity]. exfalso. destruct (proj1 H eq_refl) as [K1 K2]. pose proof (jo_vals ZL _ _ _ _ HF) as Hv.
    unfold wsat in K1, K2. cbn in K1, K2. rewrite evt_const in K1, K2. cbn in K1, K2. change (inject_Z (-1)) with (-1 # 1)%Q in K2. change (inject_Z 0) with 0%Q in K1. lra.
Qed.
Print Assumptions C42_idl_gt_refuted.

(** ** C43: queries on expressions.  What holds; the refutations follow. *)
Theorem C43_idl_bounds_const_partial t vs l z : DReach ZL t vs -> lvars l = [] -> (lkt l == inject_Z z)%Q -> idl_bounds t l = Some (Some z, Some z) /\ z_spans t (concat vs) (fun y => lval (zq y) l) (Some z, Some z).
Proof. exact (idl_bounds_const t vs l z). Qed.
Theorem C43_idl_bounds_one_partial t vs l v c z k : DReach ZL t vs -> lvars l = [(v, c)] -> v < nvars t -> (c == inject_Z z)%Q -> (0 < z)%Z -> (lkt l == inject_Z k)%Q ->
  exists r, idl_bounds t l = Some r /\ z_spans t (concat vs) (fun y => lval (zq y) l) r.
Proof. exact (idl_bounds_one t vs l v c z k). Qed.
Theorem C43_idl_bounds_two_partial t vs l v v1 c c1 k : DReach ZL t vs -> lvars l = [(v, c); (v1, c1)] -> v < nvars t -> v1 < nvars t -> (c == 1)%Q -> (c1 == - (1))%Q -> (lkt l == inject_Z k)%Q ->
  exists r, idl_bounds t l = Some r /\ z_spans t (concat vs) (fun y => lval (zq y) l) r.
Proof. exact (idl_bounds_two t vs l v v1 c c1 k). Qed.
Theorem C43_rdl_bounds_const_partial t vs l : DReach QL t vs -> lvars l = [] -> rdl_bounds t l = Some (Some (lkt l, 0%Q), Some (lkt l, 0%Q)) /\ q_spans t (concat vs) (fun y => lval y l) (Some (lkt l, 0%Q), Some (lkt l, 0%Q)).
Proof. exact (rdl_bounds_const t vs l). Qed.
Theorem C43_rdl_bounds_one_partial t vs l v c : DReach QL t vs -> lvars l = [(v, c)] -> v < nvars t -> (0 < c)%Q -> exists r, rdl_bounds t l = Some r /\ q_spans t (concat vs) (fun y => lval y l) r.
Proof. exact (rdl_bounds_one t vs l v c). Qed.
(** [pure_diff e v v1]: [e] is [v - v1] (or [v], with [v1] the origin, or nothing, with [v = v1]) and has no known term. *)
Theorem C43_idl_distance_partial t vs from to v v1 : DReach ZL t vs -> lin_clean from -> pure_diff (lin_sub from to) v v1 -> v < nvars t -> v1 < nvars t ->
  exists r, idl_distance t from to = Some r /\ z_spans t (concat vs) (fun y => (lval (zq y) to - lval (zq y) from)%Q) r.
Proof. exact (idl_distance_diff t vs from to v v1). Qed.
Theorem C43_rdl_distance_partial t vs from to v v1 : DReach QL t vs -> lin_clean from -> pure_diff (lin_sub from to) v v1 -> v < nvars t -> v1 < nvars t ->
  exists r, rdl_distance t from to = Some r /\ q_spans t (concat vs) (fun y => (lval y to - lval y from)%Q) r.
Proof. exact (rdl_distance_diff t vs from to v v1). Qed.
(** [unit_lin n l]: at most one variable, with coefficient 1. *)
Theorem C43_idl_matches_partial t vs l0 l1 k0 k1 : DReach ZL t vs -> unit_lin (nvars t) l0 -> unit_lin (nvars t) l1 -> (lkt l0 == inject_Z k0)%Q -> (lkt l1 == inject_Z k1)%Q ->
  (lvars l0 <> [] -> lvars l1 <> [] -> k0 = k1) ->
  exists r, idl_matches t l0 l1 = Some r /\ (r = true <-> exists y, z_sol t (concat vs) y /\ y 0 = 0%Z /\ (lval (zq y) l0 == lval (zq y) l1)%Q).
Proof. exact (idl_matches_unit t vs l0 l1 k0 k1). Qed.
Theorem C43_rdl_matches_partial t vs l0 l1 : DReach QL t vs -> unit_lin (nvars t) l0 -> unit_lin (nvars t) l1 -> (lvars l0 <> [] -> lvars l1 <> [] -> (lkt l0 == lkt l1)%Q) ->
  exists r, rdl_matches t l0 l1 = Some r /\ (r = true <-> exists y, q_sol t (concat vs) y /\ (y O == 0)%Q /\ (lval y l0 == lval y l1)%Q).
Proof. exact (rdl_matches_unit t vs l0 l1). Qed.
(** x1, x2; b1: x1 <= 3, b2: x1 >= 1, b3: x2 - x1 <= 2, b4: x2 - x1 >= 2; all told. *)
Definition z3 : list (kop Z) := [KVar; KVar; KCon 0 1 3%Z; KCon 1 0 (-1)%Z; KCon 1 2 2%Z; KCon 2 1 (-2)%Z; KTell (b 1); KTell (b 2); KTell (b 3); KTell (b 4)].
Definition z3t : dl Z := fst (kst (W := Zw) zc 5 z3).
Definition z3v : list (list lit) := snd (kst (W := Zw) zc 5 z3).
Lemma z3_reach : DReach ZL z3t z3v.
Proof. apply (kst_reach ZL zc zc_ok). lia. Qed.
Definition q3 : list (kop qe) := [KVar; KVar; KCon 0 1 (3, 0)%Q; KCon 1 0 (-1 # 1, 0)%Q; KCon 1 2 (2, 0)%Q; KCon 2 1 (-2 # 1, 0)%Q; KTell (b 1); KTell (b 2); KTell (b 3); KTell (b 4)].
Definition q3t : dl qe := fst (kst (W := Qw) qc 5 q3).
Definition q3v : list (list lit) := snd (kst (W := Qw) qc 5 q3).
Lemma q3_reach : DReach QL q3t q3v.
Proof. apply (kst_reach QL qc qc_ok). lia. Qed.
Lemma z3_sol k : (1 <= k <= 3)%Z -> z_sol z3t (concat z3v) (fun v => if Nat.eqb v 0 then 0 else if Nat.eqb v 1 then k else k + 2)%Z.
Proof.
  intros Hk p c Hp Hc Ev. assert (Ec : dcons z3t = [mk_dcon (b 1) 0 1 3; mk_dcon (b 2) 1 0 (-1); mk_dcon (b 3) 1 2 2; mk_dcon (b 4) 2 1 (-2)]%Z) by (vm_compute; reflexivity).
  assert (Ep : concat z3v = [b 4; b 3; b 2; b 1]) by (vm_compute; reflexivity). rewrite Ec in Hc. rewrite Ep in Hp. cbn in Hp, Hc.
  repeat destruct Hp as [<-|Hp]; try (case Hp; fail); repeat destruct Hc as [<-|Hc]; try discriminate Ev; try (case Hc; fail); unfold z_con; cbn; lia.
Qed.
Lemma q3_sol k : (1 <= k <= 3)%Q -> q_sol q3t (concat q3v) (fun v => if Nat.eqb v 0 then 0 else if Nat.eqb v 1 then k else k + 2)%Q.
Proof.
  intros Hk p c Hp Hc Ev. assert (Ec : dcons q3t = [mk_dcon (b 1) 0 1 (3, 0); mk_dcon (b 2) 1 0 (-1 # 1, 0); mk_dcon (b 3) 1 2 (2, 0); mk_dcon (b 4) 2 1 (-2 # 1, 0)]%Q) by (vm_compute; reflexivity).
  assert (Ep : concat q3v = [b 4; b 3; b 2; b 1]) by (vm_compute; reflexivity). rewrite Ec in Hc. rewrite Ep in Hp. cbn in Hp, Hc.
  repeat destruct Hp as [<-|Hp]; try (case Hp; fail); repeat destruct Hc as [<-|Hc]; try discriminate Ev; try (case Hc; fail); unfold q_con, q_under; cbn; lra.
Qed.
Example C43_case : DReach ZL z3t z3v /\ idl_bounds z3t (lx 1 2%Q 1%Q) = Some (Some 3, Some 7)%Z /\ idl_bounds z3t (mk_lin [(1, 1%Q); (2, (-1 # 1)%Q)] 5) = Some (Some 3, Some 3)%Z /\
  idl_distance z3t (lx 1 1%Q 4%Q) (lx 2 1%Q 4%Q) = Some (Some 2, Some 2)%Z /\ pure_diff (lin_sub (lx 1 1%Q 4%Q) (lx 2 1%Q 4%Q)) 1 2 /\
  idl_matches z3t (lx 1 1%Q 0%Q) (mk_lin [] 2%Q) = Some true /\ idl_matches z3t (lx 1 1%Q 0%Q) (lx 2 1%Q 0%Q) = Some false /\
  DReach QL q3t q3v /\ rdl_bounds q3t (lx 1 2%Q 1%Q) = Some (Some (3, 0), Some (7, 0))%Q /\ rdl_matches q3t (lx 1 1%Q 0%Q) (mk_lin [] (5 # 2)%Q) = Some true.
Proof.
  split; [exact z3_reach|]. do 3 (split; [vm_compute; reflexivity|]). split; [split; [vm_compute; reflexivity|right; right; eexists _, _; split; [reflexivity|split; vm_compute; reflexivity]]|].
  do 2 (split; [vm_compute; reflexivity|]). split; [exact q3_reach|]. split; vm_compute; reflexivity.
Qed.
(** A pair of bounds that a solution violates. *)
Definition z_escapes (t : dl Z) (ps : list lit) (f : (nat -> Z) -> Q) (r : option Z * option Z) : Prop :=
  exists y, z_sol t ps y /\ y 0 = 0%Z /\ ((exists a, fst r = Some a /\ (f y < inject_Z a)%Q) \/ exists a, snd r = Some a /\ (inject_Z a < f y)%Q).
Definition q_escapes (t : dl qe) (ps : list lit) (f : (nat -> Q) -> Q) (r : option qe * option qe) : Prop :=
  exists y, q_sol t ps y /\ (y O == 0)%Q /\ ((exists a, fst r = Some a /\ (f y < fst a)%Q) \/ exists a, snd r = Some a /\ (fst a < f y)%Q).
(** A negative coefficient: bounds(-x1) is (-1, -3). *)
Theorem C43_idl_bounds_negative_refuted : exists t vs l r, DReach ZL t vs /\ idl_bounds t l = Some r /\ z_escapes t (concat vs) (fun y => lval (zq y) l) r.
Proof.
  exists z3t, z3v, (lx 1 (-1 # 1)%Q 0%Q), (Some (-1), Some (-3))%Z. split; [exact z3_reach|]. split; [vm_compute; reflexivity|]. eexists. split; [apply (z3_sol 2); lia|]. split; [reflexivity|]. left. exists (-1)%Z. split; [reflexivity|vm_compute; reflexivity].
Qed.
Theorem C43_rdl_bounds_negative_refuted : exists t vs l r, DReach QL t vs /\ rdl_bounds t l = Some r /\ q_escapes t (concat vs) (fun y => lval y l) r.
Proof.
  exists q3t, q3v, (lx 1 (-1 # 1)%Q 0%Q), (Some (-1 # 1, 0), Some (-3 # 1, 0))%Q. split; [exact q3_reach|]. split; [vm_compute; reflexivity|]. eexists. split; [apply (q3_sol 2); lra|]. split; [reflexivity|]. left. exists (-1 # 1, 0)%Q. split; [reflexivity|vm_compute; reflexivity].
Qed.
(** A common factor is lost: bounds(2 x2 - 2 x1) is (2, 2) instead of (4, 4). *)
Theorem C43_idl_bounds_factor_refuted : exists t vs l r, DReach ZL t vs /\ idl_bounds t l = Some r /\ z_escapes t (concat vs) (fun y => lval (zq y) l) r.
Proof.
  exists z3t, z3v, (mk_lin [(1, (-2 # 1)%Q); (2, 2%Q)] 0%Q), (Some (-2), Some (-2))%Z. split; [exact z3_reach|]. split; [vm_compute; reflexivity|]. eexists. split; [apply (z3_sol 2); lia|]. split; [reflexivity|]. right. exists (-2)%Z. split; [reflexivity|vm_compute; reflexivity].
Qed.
(** The rational theory reads the difference backwards: bounds(x1 - x2) is (2, 2) instead of (-2, -2). *)
Theorem C43_rdl_bounds_difference_refuted : exists t vs l r, DReach QL t vs /\ lvars l = [(1, 1%Q); (2, (-1 # 1)%Q)] /\ rdl_bounds t l = Some r /\ q_escapes t (concat vs) (fun y => lval y l) r.
Proof.
  exists q3t, q3v, (mk_lin [(1, 1%Q); (2, (-1 # 1)%Q)] 0%Q), (Some (2, 0), Some (2, 0))%Q. split; [exact q3_reach|]. split; [reflexivity|]. split; [vm_compute; reflexivity|]. eexists. split; [apply (q3_sol 2); lra|]. split; [reflexivity|]. left. exists (2, 0)%Q. split; [reflexivity|vm_compute; reflexivity].
Qed.
(** Known terms are ignored: distance(x1 + 3, x2) is (2, 2) instead of (-1, -1). *)
Theorem C43_idl_distance_known_refuted : exists t vs from to r, DReach ZL t vs /\ idl_distance t from to = Some r /\ z_escapes t (concat vs) (fun y => (lval (zq y) to - lval (zq y) from)%Q) r.
Proof.
  exists z3t, z3v, (lx 1 1%Q 3%Q), (lx 2 1%Q 0%Q), (Some 2, Some 2)%Z. split; [exact z3_reach|]. split; [vm_compute; reflexivity|]. eexists. split; [apply (z3_sol 2); lia|]. split; [reflexivity|]. left. exists 2%Z. split; [reflexivity|vm_compute; reflexivity].
Qed.
Theorem C43_rdl_distance_known_refuted : exists t vs from to r, DReach QL t vs /\ rdl_distance t from to = Some r /\ q_escapes t (concat vs) (fun y => (lval y to - lval y from)%Q) r.
Proof.
  exists q3t, q3v, (lx 1 1%Q 3%Q), (lx 2 1%Q 0%Q), (Some (2, 0), Some (2, 0))%Q. split; [exact q3_reach|]. split; [vm_compute; reflexivity|]. eexists. split; [apply (q3_sol 2); lra|]. split; [reflexivity|]. left. exists (2, 0)%Q. split; [reflexivity|vm_compute; reflexivity].
Qed.
(** The sign of the known terms: x1 + 2 and x2 are equal in every solution, and do not match. *)
Theorem C43_idl_matches_refuted : exists t vs l0 l1, DReach ZL t vs /\ unit_lin (nvars t) l0 /\ unit_lin (nvars t) l1 /\ idl_matches t l0 l1 = Some false /\ exists y, z_sol t (concat vs) y /\ y 0 = 0%Z /\ (lval (zq y) l0 == lval (zq y) l1)%Q.
Proof.
  exists z3t, z3v, (lx 1 1%Q 2%Q), (lx 2 1%Q 0%Q). split; [exact z3_reach|]. split; [right; eexists _, _; split; [reflexivity|split; [reflexivity|vm_compute; lia]]|]. split; [right; eexists _, _; split; [reflexivity|split; [reflexivity|vm_compute; lia]]|].
  split; [vm_compute; reflexivity|]. eexists. split; [apply (z3_sol 2); lia|]. split; vm_compute; reflexivity.
Qed.
Theorem C43_rdl_matches_refuted : exists t vs l0 l1, DReach QL t vs /\ unit_lin (nvars t) l0 /\ unit_lin (nvars t) l1 /\ rdl_matches t l0 l1 = Some false /\ exists y, q_sol t (concat vs) y /\ (y O == 0)%Q /\ (lval y l0 == lval y l1)%Q.
Proof.
  exists q3t, q3v, (lx 1 1%Q 2%Q), (lx 2 1%Q 0%Q). split; [exact q3_reach|]. split; [right; eexists _, _; split; [reflexivity|split; [reflexivity|vm_compute; lia]]|]. split; [right; eexists _, _; split; [reflexivity|split; [reflexivity|vm_compute; lia]]|].
  split; [vm_compute; reflexivity|]. eexists. split; [apply (q3_sol 2); lra|]. split; vm_compute; reflexivity.
Qed.
Print Assumptions C43_idl_bounds_const_partial.
Print Assumptions C43_idl_bounds_one_partial.
Print Assumptions C43_idl_bounds_two_partial.
Print Assumptions C43_rdl_bounds_const_partial.
Print Assumptions C43_rdl_bounds_one_partial.
Print Assumptions C43_idl_distance_partial.
Print Assumptions C43_rdl_distance_partial.
Print Assumptions C43_idl_matches_partial.
Print Assumptions C43_rdl_matches_partial.
Print Assumptions C43_idl_bounds_negative_refuted.
Print Assumptions C43_rdl_bounds_negative_refuted.
Print Assumptions C43_idl_bounds_factor_refuted.
Print Assumptions C43_rdl_bounds_difference_refuted.
Print Assumptions C43_idl_distance_known_refuted.
Print Assumptions C43_rdl_distance_known_refuted.
Print Assumptions C43_idl_matches_refuted.
Print Assumptions C43_rdl_matches_refuted.

(** ** C44: new variables, and growing the matrix, are neutral. *)
Theorem C44_idl_new_var t vs : DReach ZL t vs -> let x := snd (t_dl_var Zw t) in let t' := fst (t_dl_var Zw t) in
  x = nvars t /\ nvars t' = S (nvars t) /\ (forall i j, i < nvars t -> j < nvars t -> distance Zw t' i j = distance Zw t i j) /\ dcons t' = dcons t /\
  (forall i, i <> x -> distance Zw t' i x = (None, None) /\ distance Zw t' x i = (None, None)) /\ distance Zw t' x x = (Some 0, Some 0)%Z.
Proof. exact (var_neutral ZL t vs). Qed.
Theorem C44_rdl_new_var t vs : DReach QL t vs -> let x := snd (t_dl_var Qw t) in let t' := fst (t_dl_var Qw t) in
  x = nvars t /\ nvars t' = S (nvars t) /\ (forall i j, i < nvars t -> j < nvars t -> distance Qw t' i j = distance Qw t i j) /\ dcons t' = dcons t /\
  (forall i, i <> x -> distance Qw t' i x = (None, None) /\ distance Qw t' x i = (None, None)) /\ distance Qw t' x x = (Some (qe_neg (0, 0)), Some (0, 0))%Q.
Proof. exact (var_neutral QL t vs). Qed.
(** [zt] fills its matrix: the new variable makes it grow. *)
Example C44_case : DReach ZL zt zv /\ cap zt = nvars zt /\ cap (fst (t_dl_var Zw zt)) = 7 /\ distance Zw (fst (t_dl_var Zw zt)) 1 3 = (Some 1, Some 3)%Z.
Proof. split; [exact zt_reach|]. repeat split; vm_compute; reflexivity. Qed.
Print Assumptions C44_idl_new_var.
Print Assumptions C44_rdl_new_var.

(** ** C49: the assertion of [check] never fails. *)
Theorem C49_idl_check t vs val : DReach ZL t vs -> reads val (concat vs) -> dl_check Zw t val = Ok (t, None).
Proof. intros HR Hv. apply (check_ok ZL t (concat vs) val (reach_core ZL t vs HR) Hv). Qed.
Theorem C49_rdl_check t vs val : DReach QL t vs -> reads val (concat vs) -> dl_check Qw t val = Ok (t, None).
Proof. intros HR Hv. apply (check_ok QL t (concat vs) val (reach_core QL t vs HR) Hv). Qed.
Example C49_case : DReach ZL zt zv /\ reads (val_of (concat zv)) (concat zv) /\ length (dist_constr zt) = 4.
Proof. split; [exact zt_reach|]. split; [apply val_of_reads; vm_compute; reflexivity|vm_compute; reflexivity]. Qed.
Print Assumptions C49_idl_check.
Print Assumptions C49_rdl_check.

(** ** C50: shape of the clauses.  Propagation ends; every clause it records has an undefined literal in front and false literals behind, and the
    literals of a conflict are all false, the negation of the propagated one among them; they all control constraints. *)
Theorem C50_idl_shape t v vs val p : DReach ZL t (v :: vs) -> atom t (lvar p) -> reads val (p :: concat (v :: vs)) -> exists t' ls cf, dl_prop Zw t val p = Ok (t', ls, cf) /\
  (forall k, In k ls -> exists h e, k = h :: e /\ val h = LUndef /\ atom t (lvar h) /\ forall q, In q e -> val q = LFalse /\ atom t (lvar q)) /\
  (forall k, cf = Some k -> In (negl p) k /\ forall q, In q k -> val q = LFalse /\ atom t (lvar q)).
Proof. intros HR. apply (prop_shape ZL), (reach_core ZL t _ HR). Qed.
Theorem C50_rdl_shape t v vs val p : DReach QL t (v :: vs) -> atom t (lvar p) -> reads val (p :: concat (v :: vs)) -> exists t' ls cf, dl_prop Qw t val p = Ok (t', ls, cf) /\
  (forall k, In k ls -> exists h e, k = h :: e /\ val h = LUndef /\ atom t (lvar h) /\ forall q, In q e -> val q = LFalse /\ atom t (lvar q)) /\
  (forall k, cf = Some k -> In (negl p) k /\ forall q, In q k -> val q = LFalse /\ atom t (lvar q)).
Proof. intros HR. apply (prop_shape QL), (reach_core QL t _ HR). Qed.
(** The case of C41, and the conflict of C38. *)
Example C50_case : DReach ZL zft zfv /\ atom zft 2 /\ reads (val_of (b 2 :: concat zfv)) (b 2 :: concat zfv) /\ learnt (dl_prop Zw zft (val_of (b 2 :: concat zfv)) (b 2)) = [[nb 5; nb 2; nb 1]].
Proof. destruct C41_case as (H1 & _ & H2 & H3 & H4). split; [apply (FReach_DReach ZL), H1|auto]. Qed.
Print Assumptions C50_idl_shape.
Print Assumptions C50_rdl_shape.

(** ** C51: propagation is complete: every undefined constraint literal decided by the new distances heads a recorded clause. *)
Definition z_decided (t : dl Z) (ps : list lit) (c : dcon Z) : Prop := (forall y, z_sol t ps y -> z_con c y) \/ (forall y, z_sol t ps y -> ~ z_con c y).
Definition q_decided (t : dl qe) (ps : list lit) (c : dcon qe) : Prop := (forall y, q_sol t ps y -> q_con c y) \/ (forall y, q_sol t ps y -> ~ q_con c y).
Theorem C51_idl_complete t v vs val p t' ls : DReach ZL t (v :: vs) -> atom t (lvar p) -> reads val (p :: concat (v :: vs)) -> dl_prop Zw t val p = Ok (t', ls, None) ->
  forall c, In c (dcons t) -> val (c_b c) = LUndef -> ~ z_decided t (concat (v :: vs)) c -> z_decided t (p :: concat (v :: vs)) c -> exists h e, In (h :: e) ls /\ lvar h = lvar (c_b c).
Proof.
  intros HR Ha Hv E c Hc Hu Hn Hd. assert (HB : forall ps, ((forall y, solves ZL t ps y -> con_sat ZL c y) \/ (forall y, solves ZL t ps y -> ~ con_sat ZL c y)) <-> z_decided t ps c).
  { intros ps. unfold z_decided. rewrite (z_forall t ps (fun y => con_sat ZL c y)), (z_forall t ps (fun y => ~ con_sat ZL c y)); [|intros y y' Ey; rewrite (con_eq ZL c y y' Ey); auto|intros y y' Ey; rewrite (con_eq ZL c y y' Ey); auto].
    split; (intros [H|H]; [left|right]); intros y Hy; specialize (H y Hy); rewrite z_con_sat in *; exact H. }
  apply (tell_complete ZL t v vs val p t' ls HR Ha Hv E c Hc Hu); rewrite HB; assumption.
Qed.
Theorem C51_rdl_complete t v vs val p t' ls : DReach QL t (v :: vs) -> atom t (lvar p) -> reads val (p :: concat (v :: vs)) -> dl_prop Qw t val p = Ok (t', ls, None) ->
  forall c, In c (dcons t) -> val (c_b c) = LUndef -> ~ q_decided t (concat (v :: vs)) c -> q_decided t (p :: concat (v :: vs)) c -> exists h e, In (h :: e) ls /\ lvar h = lvar (c_b c).
Proof.
  intros HR Ha Hv E c Hc Hu Hn Hd. assert (HB : forall ps, ((forall y, solves QL t ps y -> con_sat QL c y) \/ (forall y, solves QL t ps y -> ~ con_sat QL c y)) <-> q_decided t ps c).
  { intros ps. unfold q_decided. split; (intros [H|H]; [left|right]); intros y Hy; apply q_solves in Hy; specialize (H y Hy); rewrite q_con_sat in *; exact H. }
  apply (tell_complete QL t v vs val p t' ls HR Ha Hv E c Hc Hu); rewrite HB; assumption.
Qed.
(** In the case of C41, b5 becomes false: it is the head of the clause. *)
Example C51_case : DReach ZL zft zfv /\ In (mk_dcon (b 5) 3 1 (-3)%Z) (dcons zft) /\ val_of (b 2 :: concat zfv) (b 5) = LUndef /\ z_decided zft (b 2 :: concat zfv) (mk_dcon (b 5) 3 1 (-3)%Z) /\ ~ z_decided zft (concat zfv) (mk_dcon (b 5) 3 1 (-3)%Z).
Proof.
  assert (Ec : dcons zft = [mk_dcon (b 1) 1 2 1; mk_dcon (b 2) 2 3 1; mk_dcon (b 3) 3 4 1; mk_dcon (b 4) 1 4 5; mk_dcon (b 5) 3 1 (-3)]%Z) by (vm_compute; reflexivity).
  assert (Ep : concat zfv = [b 1]) by (vm_compute; reflexivity).
  split; [exact (proj1 C50_case)|]. split; [rewrite Ec; cbn; auto 10|]. split; [vm_compute; reflexivity|]. rewrite Ep. unfold z_decided, z_sol, z_con. rewrite Ec. split.
  - right. intros y Hy. pose proof (Hy (b 1) (mk_dcon (b 1) 1 2 1%Z) ltac:(cbn; auto) ltac:(cbn; auto) eq_refl) as H1. pose proof (Hy (b 2) (mk_dcon (b 2) 2 3 1%Z) ltac:(cbn; auto) ltac:(cbn; auto) eq_refl) as H2. cbn in H1, H2 |- *. lia.
  - intros [H|H].
    + specialize (H (fun _ => 0%Z)). cbn in H. assert (K : (0 - 0 <= -3)%Z); [|lia]. apply H. intros p c Hp Hc Ev. destruct Hp as [<-|[]]. repeat destruct Hc as [<-|Hc]; try discriminate Ev; try (case Hc; fail). cbn. lia.
    + specialize (H (fun v => if Nat.eqb v 3 then 3 else 0)%Z). apply H; [|cbn; lia]. intros p c Hp Hc Ev. destruct Hp as [<-|[]]. repeat destruct Hc as [<-|Hc]; try discriminate Ev; try (case Hc; fail). cbn. lia.
Qed.
Print Assumptions C51_idl_complete.
Print Assumptions C51_rdl_complete.

(** ** C52: listeners.  [notes]: the notifications sent so far, newest first. *)
Theorem C52_idl_listeners t v vs val p t' ls : DReach ZL t (v :: vs) -> atom t (lvar p) -> reads val (p :: concat (v :: vs)) -> dl_prop Zw t val p = Ok (t', ls, None) ->
  exists k, notes t' = k ++ notes t /\ forall x, distance Zw t' 0 x <> distance Zw t 0 x -> In x k.
Proof. exact (tell_notes ZL t v vs val p t' ls). Qed.
Theorem C52_rdl_listeners t v vs val p t' ls : DReach QL t (v :: vs) -> atom t (lvar p) -> reads val (p :: concat (v :: vs)) -> dl_prop Qw t val p = Ok (t', ls, None) ->
  exists k, notes t' = k ++ notes t /\ forall x, distance Qw t' 0 x <> distance Qw t 0 x -> In x k.
Proof. exact (tell_notes QL t v vs val p t' ls). Qed.
(** x1, x2 with x2 - x1 <= 2 told, then x1 <= 3: both are notified. *)
Example C52_case : let t := fst (kst (W := Zw) zc 5 [KVar; KVar; KCon 1 2 2%Z; KCon 0 1 3%Z; KTell (b 1)]) in let vs := snd (kst (W := Zw) zc 5 [KVar; KVar; KCon 1 2 2%Z; KCon 0 1 3%Z; KTell (b 1)]) in
  DReach ZL t vs /\ atom t 2 /\ reads (val_of (b 2 :: concat vs)) (b 2 :: concat vs) /\ notes t = [] /\ match dl_prop Zw t (val_of (b 2 :: concat vs)) (b 2) with Ok (t', _, None) => notes t' = [2; 1] /\ distance Zw t' 0 2 = (None, Some 5%Z) | _ => False end.
Proof.
  intros t vs. split; [apply (kst_reach ZL zc zc_ok); lia|]. split; [apply (atomb_ok t); vm_compute; reflexivity|]. split; [apply val_of_reads; vm_compute; reflexivity|]. split; [vm_compute; reflexivity|]. vm_compute. split; reflexivity.
Qed.
Print Assumptions C52_idl_listeners.
Print Assumptions C52_rdl_listeners.

(** ** C53: as long as no conflict has been reported, the told literals have a solution, for idl in integers. *)
Theorem C53_idl_solution t vs : DReach ZL t vs -> exists y, z_sol t (concat vs) y /\ y 0 = 0%Z.
Proof. intros HR. destruct (solution_exists ZL t _ (reach_core ZL t vs HR)) as (y & Hy). apply z_solved in Hy as (z & Hz & _). apply z_norm in Hz as (z' & H1 & H2 & _). exists z'. auto. Qed.
Theorem C53_rdl_solution t vs : DReach QL t vs -> exists y, q_sol t (concat vs) y /\ (y O == 0)%Q.
Proof. intros HR. destruct (solution_exists QL t _ (reach_core QL t vs HR)) as (y & Hy). apply q_solves, q_norm in Hy as (z' & H1 & H2 & _). exists z'. auto. Qed.
Example C53_case : DReach ZL zt zv /\ concat zv = [nb 4; b 3; b 2; b 1] /\ DReach QL qt qv /\ concat qv = [nb 4; b 3; b 2; b 1].
Proof. split; [exact zt_reach|]. split; [vm_compute; reflexivity|]. split; [exact qt_reach|vm_compute; reflexivity]. Qed.
Print Assumptions C53_idl_solution.
Print Assumptions C53_rdl_solution.

(** ** C54: the comparisons throw exactly when the difference of their arguments is not of difference form. *)
Definition throws {A} (r : res (option A)) : Prop := r = Ok None.
Theorem C54_idl_throws (sr : sorter) s i t vs left right : host ZL s i t vs -> lin_clean left -> lin_clean right -> vars_in t left -> vars_in t right -> dlevel s = 0 ->
  (throws (dl_new_lt Zw s i left right) <-> ~ diff_form (W := Zw) (lin_sub left right)) /\ (throws (dl_new_leq Zw s i left right) <-> ~ diff_form (W := Zw) (lin_sub left right)) /\
  (throws (dl_new_eq Zw s i left right) <-> ~ diff_form (W := Zw) (lin_sub left right)) /\ (throws (dl_new_geq Zw s i left right) <-> ~ diff_form (W := Zw) (lin_sub left right)).
Proof.
  intros HH Hl Hr Vl Vr Hd. assert (Hx : forall r P, (diff_form (W := Zw) (lin_sub left right) -> returns ZL s i t vs r P) -> (~ diff_form (W := Zw) (lin_sub left right) -> throws r) -> (throws r <-> ~ diff_form (W := Zw) (lin_sub left right))).
  { intros r P H1 H2. split; [|exact H2]. intros Hth K. destruct (H1 K) as (s' & t' & l & E & _). unfold throws in Hth. congruence. }
  split; [|split; [|split]]; (eapply Hx; [intros K|intros K; apply (throws_iff (W := Zw) s i left right K)]).
  - apply (C42_idl_lt sr s i t vs left right); assumption.
  - apply (C42_idl_leq sr s i t vs left right); assumption.
  - apply (C42_idl_eq sr s i t vs left right); assumption.
  - apply (C42_idl_geq sr s i t vs left right); assumption.
Qed.
Theorem C54_rdl_throws (sr : sorter) s i t vs left right : host QL s i t vs -> lin_clean left -> lin_clean right -> vars_in t left -> vars_in t right -> dlevel s = 0 ->
  (throws (dl_new_lt Qw s i left right) <-> ~ diff_form (W := Qw) (lin_sub left right)) /\ (throws (dl_new_leq Qw s i left right) <-> ~ diff_form (W := Qw) (lin_sub left right)) /\
  (throws (dl_new_eq Qw s i left right) <-> ~ diff_form (W := Qw) (lin_sub left right)) /\ (throws (dl_new_geq Qw s i left right) <-> ~ diff_form (W := Qw) (lin_sub left right)) /\
  (throws (rdl_new_gt s i left right) <-> ~ diff_form (W := Qw) (lin_sub left right)).
Proof.
  intros HH Hl Hr Vl Vr Hd. assert (Hx : forall r P, (diff_form (W := Qw) (lin_sub left right) -> returns QL s i t vs r P) -> (~ diff_form (W := Qw) (lin_sub left right) -> throws r) -> (throws r <-> ~ diff_form (W := Qw) (lin_sub left right))).
  { intros r P H1 H2. split; [|exact H2]. intros Hth K. destruct (H1 K) as (s' & t' & l & E & _). unfold throws in Hth. congruence. }
  split; [|split; [|split; [|split]]]; (eapply Hx; [intros K|intros K; apply (throws_iff (W := Qw) s i left right K)]).
  - apply (C42_rdl_lt sr s i t vs left right); assumption.
  - apply (C42_rdl_leq sr s i t vs left right); assumption.
  - apply (C42_rdl_eq sr s i t vs left right); assumption.
  - apply (C42_rdl_geq sr s i t vs left right); assumption.
  - apply (C42_rdl_gt sr s i t vs left right); assumption.
Qed.
(** x3 < x1 + 1/2 (not an integer), 2 x3 < x1 (not a difference): thrown; x3 < x1 + 1: not. *)
Example C54_case : host ZL (zhost zt) 0 zt zv /\ throws (dl_new_lt Zw (zhost zt) 0 (lx 3 1%Q 0%Q) (lx 1 1%Q (1 # 2)%Q)) /\ throws (dl_new_lt Zw (zhost zt) 0 (lx 3 2%Q 0%Q) (lx 1 1%Q 0%Q)) /\ ~ throws (dl_new_lt Zw (zhost zt) 0 (lx 3 1%Q 0%Q) (lx 1 1%Q 1%Q)).
Proof. split; [exact (proj1 C38_case)|]. split; [vm_compute; reflexivity|]. split; [vm_compute; reflexivity|]. intros H. unfold throws in H. vm_compute in H. discriminate. Qed.
Print Assumptions C54_idl_throws.
Print Assumptions C54_rdl_throws.
