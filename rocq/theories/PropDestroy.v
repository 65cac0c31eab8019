(** C70: destroying a theory or a listener while the core lives on.  Nothing but statements, closed by lemmas, and concrete cases. *)
From Verif Require Import Base Keys Sat SatSpec SatInv SatLoop SatMain SatApi SatNext Stack Reify Amo Run Listen Exec MapTh ThSum Destroy.
From Verif Require Import Lin Qe Lra LraCon LraRun LraExec.
From Coq Require Import Lqa.
#[local] Existing Instance stable_sort | 100.
Local Close Scope Q_scope.
Local Open Scope nat_scope.
Local Arguments Nat.ltb : simpl never.
Local Arguments Nat.eqb : simpl never.

(** ** C70: destroying theory [i] of a consistent network in which it is bound to no variable any more (all its literals are facts the
    propagation has gone through) leaves the models as they are, and every history goes on from there without undefined behaviour, whatever
    other theories are destroyed the same way; what each call says of the models is as ever. *)
Theorem C70_destroyed_theory_partial (sr : sorter) : forall T (ops : theory_ops T) (C : contract ops) (s0 s : st (T + unit)) i,
  good (dyingC ops C) s0 -> DHist ops C s0 s ->
  (i < length (theories s) -> (forall v, ~ In i (bounds s v)) -> (exists M, smodels (dyingC ops C) s M) ->
     DHist ops C s0 (kill i s) /\ forall M, smodels (dyingC ops C) (kill i s) M <-> smodels (dyingC ops C) s M) /\
  (forall fuel c, legal (dyingC ops C) s c ->
     match step (ops := dying_ops ops) fuel s c with
     | UB => False
     | OOF => th_total (dyingC ops C) -> fuel <= fuel_bound s c
     | Ok (s', r) => (forall M, smodels (dyingC ops C) s' M -> smodels (dyingC ops C) s M /\ said c (decisions s) r M) /\
         (exact c -> forall M, smodels (dyingC ops C) s M -> said c (decisions s) r M -> smodels (dyingC ops C) s' M)
     end).
Proof.
  intros T ops C s0 s i G H. pose proof (dhist_good ops C s0 s G H) as Gs. split.
  - intros Hi Hb HM. split; [apply DH_kill; assumption|apply kill_ok; assumption].
  - intros fuel c L. pose proof (step_ok (dyingC ops C) fuel s c Gs L) as K. destruct (step fuel s c) as [[s' r]| |]; [|exact K|exact K]. destruct K as (_ & _ & K). exact K.
Qed.
Print Assumptions C70_destroyed_theory_partial.
(** A network nothing of which has been destroyed is one of these. *)
Theorem C70_before (sr : sorter) : forall T (ops : theory_ops T) (C : contract ops) (s : st T), good C s ->
  good (dyingC ops C) (living s) /\ forall M, smodels (dyingC ops C) (living s) M <-> smodels C s M.
Proof. intros T ops C s G. split; [apply living_good, G|intros M; apply living_models]. Qed.
Print Assumptions C70_before.

(** ** A theory still bound to a variable: the next propagation of that variable calls it.  Real arithmetic, two comparisons; the theory
    is destroyed; the first one is assumed. *)
Definition c70 : list lcall := [LVar; LVar; LCmp Up false (X 0) (K 3); LCmp Lo false (X 1) (X 0); LSat CPropagate].
Theorem C70_destroyed_theory_refuted : ~ forall (tr : list levent) (s : st lra) p fuel, LTrace ord0 Hord0 fuel0 tr s -> legal (dyingC lops0 C0) (kill 0 (living s)) (CAssume p) ->
  step (ops := dying_ops lops0) fuel (kill 0 (living s)) (CAssume p) <> UB.
Proof.
  intros H. apply (H (levents c70) (lafter c70) (mk_lit 1 true) 100).
  - apply lafter_trace. vm_compute. reflexivity.
  - split; [vm_compute; reflexivity|]. split; [|intros p [<-|[]]; vm_compute; lia].
    intros t Ht. assert (E : theories (kill 0 (living (lafter c70))) = [inr tt]) by (vm_compute; reflexivity). rewrite E in Ht. destruct Ht as [<-|[]]. exact Logic.I.
  - vm_compute. reflexivity.
Qed.
Print Assumptions C70_destroyed_theory_refuted.

(** ** A destroyed listener is called again (include/sat_value_listener.h:19 does not touch [listening]): destroying it changes nothing
    the core reads, so listener 7 of the history below, destroyed at its end, is notified by the next [assume]. *)
Definition c70l : list (call + nat * nat) := [inl CVar; inl CVar; inr (1, 7)].
Theorem C70_destroyed_listener_refuted : ~ forall rg (s : st Empty_set) l, LHist (ops := pure_ops) pinit rg s ->
  forall fuel c s' r, (forall v k, c <> CListen v k) -> step (ops := pure_ops) fuel s c = Ok (s', r) -> forall v b, In (l, v, b) (log s') -> In (l, v, b) (log s).
Proof.
  intros H. assert (E : match hist pinit [] c70l with Some (rg, s) => match step (ops := pure_ops) 200 s (CAssume (mk_lit 1 true)) with Ok (s', r) => log s = [] /\ log s' = [(7, 1, LTrue)] | _ => False end | None => False end) by (vm_compute; auto).
  destruct (hist pinit [] c70l) as [[rg s]|] eqn:E1; [|exact E]. destruct (step (ops := pure_ops) 200 s (CAssume (mk_lit 1 true))) as [[s' r]| |] eqn:E2; try contradiction. destruct E as [E3 E4].
  pose proof (H rg s 7 (hist_ok pinit c70l pinit [] rg s (LH_init _) E1) 200 (CAssume (mk_lit 1 true)) s' r ltac:(discriminate) E2 1 LTrue) as K.
  rewrite E3, E4 in K. destruct (K (or_introl eq_refl)).
Qed.
Print Assumptions C70_destroyed_listener_refuted.

(** Real arithmetic; [x0 <= 3] and [x1 >= x0] are stated and propagated; the theory is then bound to nothing, is destroyed, and the core goes on: a clause over two new variables, a decision. *)
Definition c70g : list lcall := [LVar; LVar; LCmp Up false (X 0) (K 3); LCmp Lo false (X 1) (X 0); LSat (CClause [mk_lit 1 true]); LSat (CClause [mk_lit 2 true]); LSat CPropagate].
Definition d70 (cs : list call) (s : st (lra + unit)) : option (st (lra + unit)) :=
  fold_left (fun o c => match o with Some s => match step (ops := dying_ops lops0) 100 s c with Ok (s', _) => Some s' | _ => None end | None => None end) cs (Some s).
Ltac mindfuls := repeat (apply mf_cons; [|cbn; repeat split; auto|let x := fresh in let H := fresh in intros x H; cbn in H; decompose [or] H; subst; cbn; auto 10; contradiction]); apply mf_nil.
Lemma lbounds {T} (s : st T) v : bounds (living s) v = bounds s v.
Proof. reflexivity. Qed.
Example C70_case : LTrace ord0 Hord0 fuel0 (levents c70g) (lafter c70g) /\ map (assigns (lafter c70g)) [1; 2] = [LTrue; LTrue] /\ bound (lth (lafter c70g)) Up 0 = Some (3 # 1, 0 # 1)%Q /\
  good (dyingC lops0 C0) (living (lafter c70g)) /\ DHist lops0 C0 (living (lafter c70g)) (kill 0 (living (lafter c70g))) /\
  match d70 [CVar; CVar; CClause [mk_lit 3 false; mk_lit 4 true]; CAssume (mk_lit 3 true)] (kill 0 (living (lafter c70g))) with Some s => assigns s 4 = LTrue | None => False end.
Proof.
  assert (HT : LTrace ord0 Hord0 fuel0 (levents c70g) (lafter c70g)) by (apply lafter_trace; vm_compute; reflexivity).
  pose proof (lg_good _ _ _ _ (ltrace_good _ _ _ _ _ HT)) as G.
  split; [exact HT|]. split; [vm_compute; reflexivity|]. split; [vm_compute; reflexivity|]. split; [apply living_good, G|]. split; [|vm_compute; reflexivity].
  apply DH_kill; [constructor|vm_compute; lia| |].
  - intros v Hv. rewrite lbounds in Hv. destruct (h_owned _ _ _ _ (i_h _ _ (g_inv _ _ G)) 0 v Hv) as (t & Et & Ha).
    pose proof (h_range _ _ _ _ (i_h _ _ (g_inv _ _ G)) 0 t v Et Ha) as Hr. assert (En : nv (lafter c70g) = 3) by (vm_compute; reflexivity). rewrite En in Hr.
    assert (E1 : bounds (lafter c70g) 1 = []) by (vm_compute; reflexivity). assert (E2 : bounds (lafter c70g) 2 = []) by (vm_compute; reflexivity).
    assert (Hv' : v = 1 \/ v = 2) by lia. destruct Hv' as [-> | ->]; [rewrite E1 in Hv|rewrite E2 in Hv]; exact Hv.
  - destruct (told_enough ord0 Hord0 fuel0 (levents c70g) (lafter c70g) HT) with (M := fun v : nat => negb (v =? 0)) (y := fun _ : nat => 1%Q) as (y' & _ & HN & _).
    + assert (Ee : levents c70g = rev [mk_lev LVar [] (LX 0); mk_lev LVar [] (LX 1); mk_lev (LCmp Up false (X 0) (K 3)) [] (LP (mk_lit 1 true)); mk_lev (LCmp Lo false (X 1) (X 0)) [] (LP (mk_lit 2 true));
        mk_lev (LSat (CClause [mk_lit 1 true])) [] (LR (RBool true)); mk_lev (LSat (CClause [mk_lit 2 true])) [] (LR (RBool true)); mk_lev (LSat CPropagate) [] (LR (RBool true))]) by (vm_compute; reflexivity).
      rewrite Ee. cbn [rev app]. mindfuls.
    + reflexivity.
    + intros e He. vm_compute in He. decompose [or] He; subst; try contradiction; cbn; auto.
      * unfold mcl. exists (mk_lit 2 true). split; [left; reflexivity|reflexivity].
      * unfold mcl. exists (mk_lit 1 true). split; [left; reflexivity|reflexivity].
      * unfold mlit, lval. cbn. split; intros; [lra|reflexivity].
      * unfold mlit, lval. cbn. split; intros; [lra|reflexivity].
    + exists (fun v : nat => negb (v =? 0)). apply living_models, HN.
Qed.
(** Next to it, a theory still bound, with the same statements one propagation earlier. *)
Example C70_case_bound : bounds (lafter c70) 1 = [0] /\ bounds (lafter c70) 2 = [0].
Proof. vm_compute. auto. Qed.
