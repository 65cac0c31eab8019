(** C61: listeners of numeric variables.  Nothing but statements, closed by lemmas, and concrete cases. *)
From Verif Require Import Base Keys Sat SatSpec Run Lin Qe Lra LraRun LraExec LraLis.
Open Scope Q_scope.
#[local] Existing Instance stable_sort | 100.

(** ** C61.  A network with [n] linear real arithmetic theories; [cs]: the calls so far, in any order.  Listener [k] registers on [x] while the
    bounds of [x] differ.  After any further calls, the last value it has been told (or, if none, the one [x] had then) is the current one. *)
Theorem C61_value_listeners (sr : sorter) : forall ord fuel n cs s i t w x k fl s1 r s2 t2 w2, VHist ord fuel n cs s -> nth_error (theories s) i = Some (t, w) ->
  (match bound t Lo x, bound t Up x with Some b, Some u => qe_leb u b = false | _, _ => True end) -> ~ In (VListen i x k) cs ->
  vstep ord fuel fl s (VListen i x k) = Ok (s1, r) -> VRun ord fuel s1 s2 -> nth_error (theories s2) i = Some (t2, w2) ->
  hd (vals t x) (heard w2 k x) = vals t2 x.
Proof. exact listens. Qed.
Print Assumptions C61_value_listeners.
(** Nobody is told about a variable it has not registered on. *)
Theorem C61_only_registered (sr : sorter) : forall ord fuel n cs s i t w k x v, VHist ord fuel n cs s -> nth_error (theories s) i = Some (t, w) -> In (k, x, v) (ltold w) -> In (VListen i x k) cs.
Proof. exact only_registered. Qed.
Print Assumptions C61_only_registered.
(** The notifications do not change what propagations and checks compute. *)
Theorem C61_same_answers (sr : sorter) : forall ord fuel t w,
  (forall val p, rmap e2 (th_prop (lraL_ops ord fuel) (t, w) val p) = th_prop (lra_ops ord fuel) t val p) /\
  (forall val, rmap e1 (th_check (lraL_ops ord fuel) (t, w) val) = th_check (lra_ops ord fuel) t val) /\
  fst (th_push (lraL_ops ord fuel) (t, w)) = th_push (lra_ops ord fuel) t /\ fst (th_pop (lraL_ops ord fuel) (t, w)) = th_pop (lra_ops ord fuel) t.
Proof. exact er_ops. Qed.
Print Assumptions C61_same_answers.

Definition b (v : nat) : lit := mk_lit v true.
(** x2 = x0 + x1; listener 7 on x2, 8 on x0; b1: x0 >= 1, b2: x1 >= 2, b3: x2 <= 2: assuming b1 and b2 moves x0, x1, x2; b3 is then false. *)
Definition c61a : list vcall := [VVar 0; VVar 0; VSlack 0 (mk_lin [(0%nat, 1); (1%nat, 1)] 0); VCmp 0 Lo false (X 0) (K 1); VCmp 0 Lo false (X 1) (K 2)].
Definition c61b : list vcall := [VListen 0 0 8; VCmp 0 Lo false (X 0) (K 4); VSat CPropagate; VSat (CAssume (b 1)); VSat (CAssume (b 2)); VSat CPop; VSat (CAssume (b 3))].
Definition vafter (cs : list vcall) : option (st lraL) := vexec ord0 fuel0 100 (init [(lra_init, lis0)]) cs.
Lemma vafter_hist cs s : vafter cs = Some s -> VHist ord0 fuel0 1 cs s.
Proof. intros E. apply (vexec_hist ord0 fuel0 100 1 cs [] _ s (VH0 ord0 fuel0 1) E). Qed.
Example C61_case : match vafter c61a with Some s => VHist ord0 fuel0 1 c61a s /\ ~ In (VListen 0 2 7) c61a /\
  match nth_error (theories s) 0, vstep ord0 fuel0 100 s (VListen 0 2 7) with Some (t, w), Ok (s1, r) => bound t Lo 2 = None /\
    match vexec ord0 fuel0 100 s1 c61b with Some s2 => VRun ord0 fuel0 s1 s2 /\
      match nth_error (theories s2) 0 with Some (t2, w2) => heard w2 7 2 = [(6, 0); (3, 0); (1, 0)] /\ heard w2 8 0 = [(4, 0); (1, 0)] /\ map (vals t2) [0; 1; 2]%nat = [(4, 0); (2, 0); (6, 0)] | None => False end
    | None => False end
  | _, _ => False end | None => False end.
Proof.
  destruct (vafter c61a) as [s|] eqn:E; [|vm_compute in E; discriminate E]. split; [apply vafter_hist, E|]. split; [cbn; intros H; repeat (destruct H as [H|H]; [discriminate H|]); destruct H|].
  assert (X : match vafter c61a with Some s => match nth_error (theories s) 0, vstep ord0 fuel0 100 s (VListen 0 2 7) with Some (t, w), Ok (s1, r) => bound t Lo 2 = None /\
    match vexec ord0 fuel0 100 s1 c61b with Some s2 => 
      match nth_error (theories s2) 0 with Some (t2, w2) => heard w2 7 2 = [(6, 0); (3, 0); (1, 0)] /\ heard w2 8 0 = [(4, 0); (1, 0)] /\ map (vals t2) [0; 1; 2]%nat = [(4, 0); (2, 0); (6, 0)] | None => False end
    | None => False end | _, _ => False end | None => False end) by (vm_compute; auto). rewrite E in X.
  destruct (nth_error (theories s) 0) as [[t w]|]; [|exact X]. destruct (vstep ord0 fuel0 100 s (VListen 0 2 7)) as [[s1 r]| |]; try exact X. destruct X as [X1 X2]. split; [exact X1|].
  destruct (vexec ord0 fuel0 100 s1 c61b) as [s2|] eqn:E2; [|exact X2]. split; [eapply vexec_run; [constructor|exact E2]|exact X2].
Qed.

(** A registration made while the two bounds coincide has no effect: with 1 <= x0 <= 1 assumed, listener 7 registers on x0; the decisions are
    retracted and x0 >= 4 is assumed: x0 moves to 4 and the listener is not called. *)
Definition c61c : list vcall := [VVar 0; VCmp 0 Lo false (X 0) (K 1); VCmp 0 Up false (X 0) (K 1); VCmp 0 Lo false (X 0) (K 4); VSat CPropagate; VSat (CAssume (b 1)); VSat (CAssume (b 2))].
Theorem C61_late_registration_refuted : exists s t w s1 s2 t2 w2, VHist ord0 fuel0 1 c61c s /\ nth_error (theories s) 0 = Some (t, w) /\ vals t 0%nat = (1, 0) /\
  vstep ord0 fuel0 100 s (VListen 0 0 7) = Ok (s1, RUnit) /\ VRun ord0 fuel0 s1 s2 /\ nth_error (theories s2) 0 = Some (t2, w2) /\ heard w2 7 0 = [] /\ vals t2 0%nat = (4, 0).
Proof.
  assert (X : match vafter c61c with Some s => match nth_error (theories s) 0, vstep ord0 fuel0 100 s (VListen 0 0 7) with Some (t, w), Ok (s1, r) => vals t 0%nat = (1, 0) /\ r = RUnit /\
    match vexec ord0 fuel0 100 s1 [VSat CPop; VSat CPop; VSat (CAssume (b 3))] with Some s2 => 
      match nth_error (theories s2) 0 with Some (t2, w2) => heard w2 7 0 = [] /\ vals t2 0%nat = (4, 0) | None => False end
    | None => False end | _, _ => False end | None => False end) by (vm_compute; auto).
  destruct (vafter c61c) as [s|] eqn:E; [|destruct X]. destruct (nth_error (theories s) 0) as [[t w]|] eqn:Et; [|destruct X]. destruct (vstep ord0 fuel0 100 s (VListen 0 0 7)) as [[s1 r]| |] eqn:E1; try destruct X as [].
  destruct H0 as [-> X]. destruct (vexec ord0 fuel0 100 s1 _) as [s2|] eqn:E2; [|destruct X]. destruct (nth_error (theories s2) 0) as [[t2 w2]|] eqn:Et2; [|destruct X].
  exists s, t, w, s1, s2, t2, w2. split; [apply vafter_hist, E|]. split; [reflexivity || exact Et|]. split; [exact H|]. split; [reflexivity || exact E1|]. split; [eapply vexec_run; [constructor|exact E2]|]. split; [reflexivity || exact Et2|exact X].
Qed.
Print Assumptions C61_late_registration_refuted.
