(** C58: C22 for cores that share a theory: the stack forwards push and pop to the theory.
    Nothing but statements, closed by lemmas, and concrete cases. *)
From Coq Require Import Lqa.
From Verif Require Import Base Keys Sat SatSpec SatInv SatPop SatLoop SatMain SatApi SatNext Stack Reify Amo Run Listen StackTh StackLis SatFacts Exec.
From Verif Require Import Lin Qe Lra LraTab LraVal LraInv LraChk LraPro LraCon ThGrow LraNew LraCmp ThRel LraApi LraRun LraEnd LraEq LraTh LraExec LraFacts.
#[local] Existing Instance stable_sort | 100.
Local Open Scope nat_scope.

(** One theory that meets the contract ([plain]: and that promises nothing about what it has decided by itself; the
    arithmetic and object theories do not).  Pushing a core with nothing pending gives a core at root level
    with the same values, all of them facts; whatever legal calls of the core follow ([left_in]: also one that
    reports an inconsistency), once the core is at root level again popping gives back the core that was
    pushed, its models, and a legal state. (The first disjunct: the consistency check of the theory, repeated
    by the copy, finds that the parent's values cannot be extended to a model.) *)
Theorem C58_shared_theory_partial : forall T (ops : theory_ops T) (C : contract ops) (s0 s : st T) r t fuel,
  plain C -> good C s0 -> Reach C s0 s -> theories s = [t] -> prop_q s = [] -> settled C s ->
  match stack_push ops fuel (s :: r) with
  | UB => False
  | OOF => th_total C -> fuel = 0
  | Ok k => exists s1, k = s1 :: s :: r /\ dlevel s1 = 0 /\ nv s1 = nv s /\ (forall p, value s1 p = value s p) /\
     ((forall M, ~ (smodels C s M /\ forall p, value s p = LTrue -> mlit M p = true)) \/
      (forall M, smodels C s1 M <-> smodels C s M /\ forall p, value s p = LTrue -> mlit M p = true) /\ prop_q s1 = [] /\ settled C s1 /\
      forall s2, left_in C s1 s2 -> dlevel s2 = 0 ->
        exists s3, stack_pop ops (s2 :: s :: r) = Ok (s3 :: r) /\ same_but_th s s3 /\ good C s3 /\ settled C s3 /\ (forall M, smodels C s3 M <-> smodels C s M))
  end.
Proof. intros T ops C s0 s r t fuel; intros; apply (shared_theory C s0 s r t fuel); assumption. Qed.
Print Assumptions C58_shared_theory_partial.

Definition b (v : nat) : lit := mk_lit v true.
Definition nb (v : nat) : lit := mk_lit v false.
(** b1: x0 >= 2, b2: x0 <= 1, b3; b1 assumed. *)
Definition c58 : list lcall := [LVar; LCmp Lo false (X 0) (K 2); LCmp Up false (X 0) (K 1); LSat CVar; LSat CPropagate; LSat (CAssume (b 1))].
Definition top {T} (r : res (list (st T))) (d : st T) : st T := match r with Ok (s :: _) => s | _ => d end.
Definition child : st lra := top (stack_push lops0 1 [lafter c58]) (lafter c58).
(** In the child b2 or not b3 is stated, b3 is assumed not to hold and taken back, and then b3 is stated: inconsistent. *)
Definition told2 (s : st lra) (cs : list call) : st lra * list ret :=
  fold_left (fun a c => match step (ops := lops0) 100 (fst a) c with Ok (s', r) => (s', snd a ++ [r]) | _ => a end) cs (s, []).
Example C58_shared_case :
  plain C0 /\ good C0 (lafter c58) /\ prop_q (lafter c58) = [] /\ dlevel (lafter c58) = 1 /\ stack_push lops0 1 [lafter c58] = Ok [child; lafter c58] /\ dlevel child = 0 /\ map (value child) [b 1; b 2; b 3] = [LTrue; LFalse; LUndef] /\
  let r := told2 child [CClause [b 2; nb 3]; CPropagate] in
  snd r = [RBool true; RBool true] /\ map (value (fst r)) [b 1; b 2; b 3] = [LTrue; LFalse; LFalse] /\
  match stack_pop lops0 [fst r; lafter c58] with Ok [s3] => map (value s3) [b 1; b 2; b 3] = [LTrue; LFalse; LUndef] /\ bound (lth s3) Lo 0 = Some (2%Q, 0%Q) | _ => False end.
Proof.
  split; [intros t n v []|]. split; [apply (ltrace_good ord0 Hord0 fuel0 (levents c58)), lafter_trace; vm_compute; reflexivity|]. split; [vm_compute; reflexivity|]. split; [vm_compute; reflexivity|]. split; [vm_compute; reflexivity|].
  split; [vm_compute; reflexivity|]. split; [vm_compute; reflexivity|]. cbv zeta. split; [vm_compute; reflexivity|]. split; [vm_compute; reflexivity|]. vm_compute. auto.
Qed.

(** A comparison created while a core is pushed survives the pop in the theory (not in the core): the
    same comparison is then answered with a literal that does not exist in the core. *)
Theorem C58_theory_atom_refuted : exists tr s s1 s2 p s3 s4, LTrace ord0 Hord0 fuel0 tr s /\ stack_push lops0 1 [s] = Ok [s1; s] /\
  lra_new_leq s1 0 (X 0) (K 3) = Ok (s2, p) /\ stack_pop lops0 [s2; s] = Ok [s3] /\ lra_new_leq s3 0 (X 0) (K 3) = Ok (s4, p) /\ nv s4 <= lvar p.
Proof.
  exists (levents [LVar]), (lafter [LVar]). eexists _, _, (b 1), _, _. split; [apply lafter_trace; vm_compute; reflexivity|].
  split; [vm_compute; reflexivity|]. split; [vm_compute; reflexivity|]. split; [vm_compute; reflexivity|]. split; [vm_compute; reflexivity|]. apply le_n.
Qed.
Print Assumptions C58_theory_atom_refuted.
(** A core that is popped above its root level leaves the theory with the facts stated in it, since only
    the topmost level is undone: x0 >= 2 is enforced although its literal is unassigned. *)
Definition c58d : list lcall := [LVar; LCmp Lo false (X 0) (K 2); LSat CVar; LSat CPropagate].
Theorem C58_theory_open_decision_refuted : exists tr s s1 s2 s2' s3 s4, LTrace ord0 Hord0 fuel0 tr s /\ dlevel s = 0 /\ bound (lth s) Lo 0 = None /\ stack_push lops0 1 [s] = Ok [s1; s] /\
  step (ops := lops0) 100 s1 (CClause [b 1]) = Ok (s2, RBool true) /\ step (ops := lops0) 100 s2 CPropagate = Ok (s2', RBool true) /\ assume lops0 100 s2' (b 2) = Ok (s3, true) /\
  stack_pop lops0 [s3; s] = Ok [s4] /\ value s4 (b 1) = LUndef /\ bound (lth s4) Lo 0 = Some (2%Q, 0%Q).
Proof.
  exists (levents c58d), (lafter c58d). eexists _, _, _, _, _. split; [apply lafter_trace; vm_compute; reflexivity|].
  split; [vm_compute; reflexivity|]. split; [vm_compute; reflexivity|]. split; [vm_compute; reflexivity|]. split; [vm_compute; reflexivity|]. split; [vm_compute; reflexivity|]. split; [vm_compute; reflexivity|]. split; [vm_compute; reflexivity|]. split; vm_compute; reflexivity.
Qed.
Print Assumptions C58_theory_open_decision_refuted.

(** ** C59 listeners of a stack of cores: [rg] holds the (listener, variable) pairs registered in the top core, or in the core it was
    copied from, while the variable was unassigned; [dr] those that only dropped cores knew of.  Whatever calls, pushes and pops have been
    made (with or without theories), the last value told about such a variable is its value in the top core, and assignments and
    retractions alternate. *)
Theorem C59_stack_listeners : forall T (ops : theory_ops T) rg rgs dr (s : st T) k, SLHist (ops := ops) (rg :: rgs) dr (s :: k) ->
  (forall l v, In (l, v) rg -> last_told (log s) l v = assigns s v /\ alternate (notified (log s) l v)) /\
  (forall l v x, In (l, v, x) (log s) -> In (l, v) rg \/ In (l, v) dr).
Proof. intros T ops rg rgs dr s k H. exact (stack_listen rg rgs dr s k H). Qed.
Print Assumptions C59_stack_listeners.
(** Listener 7 hears of b1 and b2.  b1 is assumed; above a push b2 becomes a fact; the pop takes it back.  Listener 9, registered on b2
    in the dropped core only, is not told: its last value stays (this is why the pairs of [dr] are excluded). *)
Definition c59 : list sev := [EvCall CVar; EvCall CVar; EvListen 1 7; EvListen 2 7; EvCall (CAssume (b 1)); EvPush; EvListen 2 9; EvCall (CClause [b 2]); EvPop].
Example C59_case : exists rgs dr s, SLHist (ops := pure_ops) rgs dr [s] /\ rgs = [[(7, 2); (7, 1)]] /\ dr = [(9, 2)] /\
  notified (log s) 7 1 = [LTrue] /\ notified (log s) 7 2 = [LUndef; LTrue] /\ map (value s) [b 1; b 2] = [LTrue; LUndef] /\ last_told (log s) 9 2 = LTrue.
Proof.
  assert (H := shist_ok c59 [[]] [] (stack_init []) (SL_init [])).
  assert (E : match shist [[]] [] (stack_init []) c59 with Some (rgs, dr, [s]) => rgs = [[(7, 2); (7, 1)]] /\ dr = [(9, 2)] /\
  notified (log s) 7 1 = [LTrue] /\ notified (log s) 7 2 = [LUndef; LTrue] /\ map (value s) [b 1; b 2] = [LTrue; LUndef] /\ last_told (log s) 9 2 = LTrue | _ => False end).
  { vm_compute. auto 10. }
  destruct (shist [[]] [] (stack_init []) c59) as [[[rgs dr] [|s [|s1 k]]]|]; try contradiction. exists rgs, dr, s. split; [exact (H _ _ _ eq_refl)|exact E].
Qed.
