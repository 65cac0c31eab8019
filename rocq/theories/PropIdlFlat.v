(** Decisions one at a time with machine integers (C81).  Nothing but statements, closed by lemmas, and a concrete case.  Vocabulary: that of
    PropIdl.v and PropFlat.v; [same_told h tr]: [h] and [tr] are the same calls with the same results; [denied ds c Mo]: what a call [c] that returns
    false, with the decisions [ds], denies of an assignment [Mo] that agrees with what has been stated. *)
From Verif Require Import Base Keys Sat SatSpec SatInv SatMain SatApi SatApi2 SatNext Run SatFacts Lin Qe Dw Dl DlClo DlTight DlTh DlFacts DlApi DlSpec DlQ DlNet DlTrace DlRSpec DlFlat FlatNet FlatTrace FlatSpec FlatHist Idl IdlNet IdlHist IdlEx IdlFlat.
From Coq Require Import QArith.Qabs.
Open Scope nat_scope.
#[local] Existing Instance stable_sort | 100.

(** The machine's network in the histories of C73: no legal call overflows or fails to return, and the answers of the machine are right for the integers: the values of the literals, the distances, and every false. *)
Theorem C81_decisions (sr : sorter) mx M N size tr s : room mx M N -> 0 < size -> ZFlat size tr s -> fsimple tr -> small M N (map fe_call tr) ->
  exists h u m, IHist mx size h u /\ same_told h tr /\ (forall p, value u p = value s p) /\ decisions u = decisions s /\ theories u = [m] /\
    (forall q Mo y, value u q = LTrue -> zf_stated tr Mo y -> (level u (lvar q) <> 0 -> forall d, In d (decisions u) -> mlit Mo d = true) -> mlit Mo q = true) /\
    (forall i j, exists l d, i_distance mx m i j = Ok (l, d) /\ forall Mo y, zf_stated tr Mo y -> (forall x, In x (decisions u) -> mlit Mo x = true) ->
      (l = - inf mx \/ l <= y j - y i)%Z /\ (d = inf mx \/ y j - y i <= d)%Z) /\
    (forall fl c, flegal ZL zlast s c -> fbound s < fl -> small M N (c :: map fe_call tr) -> exists u' r, icstep mx fl u c = Ok (u', r) /\
      (r = DR (RBool false) -> forall Mo y, zf_stated tr Mo y -> denied (decisions u) c Mo)).
Proof. intros HR. exact (machine_decisions mx M N HR size tr s). Qed.
Print Assumptions C81_decisions.
(** When everything has been propagated the literals that have a value have a common solution of integers of at most [N * (M + 1)]; if every variable has a value it is a solution of everything stated. *)
Theorem C81_solution_fits (sr : sorter) mx M N size tr s : room mx M N -> 0 < size -> ZFlat size tr s -> answered tr s -> small M N (map fe_call tr) ->
  exists y : nat -> Z, y 0 = 0%Z /\ (forall v, (Z.abs (y v) <= Z.of_nat N * (M + 1))%Z) /\
    (forall e p P, In e tr -> z_cond (fdev e) = Some (p, P) -> (value s p = LTrue -> P y) /\ (value s p = LFalse -> ~ P y)) /\ (total s -> zf_stated tr (values s) y).
Proof. intros HR. exact (small_true mx M N HR size tr s). Qed.
Print Assumptions C81_solution_fits.

(** Three variables, distances 5 and -2, x3 >= x1 + 4, a decision: integers of 9 bits are enough. *)
Definition b (v : nat) : lit := mk_lit v true.
Definition nb (v : nat) : lit := mk_lit v false.
Definition X (v : nat) : lin := mk_lin [(v, 1%Q)] 0.
Definition c81c : list (@dcall Z) := [DVar; DVar; DVar; DDist 1 2 5%Z; DDist 2 3 (-2)%Z; DCmp DGeq (X 3) (mk_lin [(1, 1%Q)] 4); DSat CVar; DSat (CClause [b 1]); DSat (CClause [b 4; nb 3; b 2]); DSat CPropagate; DSat (CAssume (b 2))].
Definition c81v : option (list (@dcall Z) * list lbool * nat) := match zfexec 2 c81c with Some (s, tr) => Some (rev (map fe_call tr), map (assigns s) [1; 2; 3; 4], dlevel s) | None => None end.
Lemma c81v_ok : c81v = Some (c81c, [LTrue; LTrue; LFalse; LUndef], 1).
Proof. vm_compute. reflexivity. Qed.
Lemma c81c_small : small 6 4 (rev c81c).
Proof.
  cbn [rev app c81c small small_call]. repeat match goal with |- _ /\ _ => split end; try exact Logic.I; try (vm_compute; first [discriminate|repeat constructor]; fail).
  intros v c Hc. vm_compute in Hc. repeat (destruct Hc as [Hc|Hc]; [injection Hc as <- <-; split; [vm_compute; repeat constructor|vm_compute; reflexivity]|]). destruct Hc.
Qed.
Lemma open_answered tr s : ZFlat 2 tr s -> dlevel s = 1 -> answered tr s.
Proof.
  intros HT H3. left. intros H0. pose proof (ftrace_good ZL ZR zlast 2 ltac:(repeat constructor) _ _ HT) as G. pose proof (t_dec _ (i_t _ _ (g_inv _ _ (fg_good _ _ G)))) as Hl0.
  assert (K : length (decisions s) = dlevel s) by exact Hl0. rewrite H0, H3 in K. discriminate K.
Qed.
Lemma c81c_simple tr : map fe_call tr = rev c81c -> fsimple tr.
Proof. intros H1 e He. apply (in_map fe_call) in He. rewrite H1 in He. apply in_rev in He. cbn [c81c In] in He. repeat (destruct He as [He|He]; [rewrite <- He; exact Logic.I|]). destruct He. Qed.
Lemma c81v_get x : c81v = Some x -> exists s tr, ZFlat 2 tr s /\ rev (map fe_call tr) = fst (fst x) /\ map (assigns s) [1; 2; 3; 4] = snd (fst x) /\ dlevel s = snd x.
Proof.
  unfold c81v. destruct (zfexec 2 c81c) as [[s tr]|] eqn:E; [|discriminate]. intros H. injection H as <-. exists s, tr. split; [exact (zfexec_ok 2 c81c s tr E)|]. split; [reflexivity|]. split; reflexivity.
Qed.
Example C81_decisions_case : room 255 6 4 /\ exists s tr, ZFlat 2 tr s /\ fsimple tr /\ answered tr s /\ small 6 4 (map fe_call tr) /\ map (assigns s) [1; 2; 3; 4] = [LTrue; LTrue; LFalse; LUndef].
Proof.
  split; [constructor; vm_compute; [discriminate|repeat constructor|reflexivity]|]. destruct (c81v_get _ c81v_ok) as (s & tr & HT & H1 & H2 & H3). cbn [fst snd] in *.
  assert (H1' : map fe_call tr = rev c81c) by (rewrite <- H1; symmetry; apply rev_involutive). exists s, tr. split; [exact HT|]. split; [exact (c81c_simple tr H1')|]. split; [exact (open_answered tr s HT H3)|]. split; [rewrite H1'; exact c81c_small|exact H2].
Qed.
