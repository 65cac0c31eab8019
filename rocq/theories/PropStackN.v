(** C58, for stacks of any height and cores with any number of theories.  Nothing but statements, closed by lemmas, and a concrete case. *)
From Coq Require Import Lqa.
From Verif Require Import Base Keys Sat SatSpec SatInv SatPop SatLoop SatMain SatApi SatNext Stack Reify Amo Run Listen StackTh ThSum StackN StackEx SatFacts Exec.
From Verif Require Import Lin Qe Lra LraTab LraVal LraInv LraChk LraPro LraCon LraApi LraRun LraEnd LraExec LraFacts Ov OvRun OvExec OvStep Mix MixApi MixRun MixEnd MixExec.
#[local] Existing Instance stable_sort | 100.
Local Open Scope nat_scope.

(** [THist C s0 (o, s :: r)]: the stack [s :: r] (top first) is reached from [s0] by legal calls on the top core, pushes when nothing is
    pending, and pops of a core that is back at its root level; [o] tells that the last call has answered that there is no solution.
    Whatever the history: a legal call is safe, and answered as C03 and C07 say; a push gives a core at root level with the values of the
    one below, all of them facts; a pop gives back the core below, which is ready, with the models it had. *)
Theorem C58_stack_histories_partial : forall T (ops : theory_ops T) (C : contract ops) s0 o s r, SatSpec.plain C -> th_again C -> good C s0 -> THist C s0 (o, s :: r) ->
  (o = false -> (exists D, like C D /\ good D s) /\
    (forall c fuel, legal C s c -> match step (ops := ops) fuel s c with
       | UB => False
       | OOF => th_total C -> fuel <= fuel_bound s c
       | Ok (s', x) => (forall M, smodels C s' M -> smodels C s M /\ said c (decisions s) x M) /\ (exact c -> forall M, smodels C s M -> said c (decisions s) x M -> smodels C s' M)
       end) /\
    (prop_q s = [] -> settled C s -> forall fuel, match stack_push ops fuel (s :: r) with
       | UB => False
       | OOF => th_total C -> fuel = 0
       | Ok k => exists s1, k = s1 :: s :: r /\ dlevel s1 = 0 /\ nv s1 = nv s /\ prop_q s1 = [] /\ settled C s1 /\ (forall p, value s1 p = value s p) /\
           (forall M, smodels C s1 M <-> smodels C s M /\ forall p, value s p = LTrue -> mlit M p = true)
       end)) /\
  (dlevel s = 0 -> forall p r', r = p :: r' -> exists p', stack_pop ops (s :: r) = Ok (p' :: r') /\ same_but_th p p' /\ prop_q p' = [] /\ settled C p' /\ same_ths C p p' /\ (forall M, smodels C p' M <-> smodels C p M)).
Proof. intros T ops C s0 o s r. exact (stack_history C s0 o s r). Qed.
Print Assumptions C58_stack_histories_partial.

(** Between a push and the matching pop anything may happen above, pushes and pops included. *)
Theorem C58_nested_partial : forall T (ops : theory_ops T) (C : contract ops) s0 s r k1 o k2 fuel, SatSpec.plain C -> th_again C -> good C s0 -> THist C s0 (false, s :: r) -> prop_q s = [] -> settled C s -> stack_push ops fuel (s :: r) = Ok k1 ->
  tinner C (S (length r)) (false, k1) (o, k2) -> length k2 = length k1 -> (forall t, hd_error k2 = Some t -> dlevel t = 0) ->
  exists s', stack_pop ops k2 = Ok (s' :: r) /\ same_but_th s s' /\ prop_q s' = [] /\ settled C s' /\ same_ths C s s' /\ (forall M, smodels C s' M <-> smodels C s M).
Proof. intros T ops C s0 s r k1 o k2 fuel. exact (inner_restored C s0 s r k1 o k2 fuel). Qed.
Print Assumptions C58_nested_partial.

(** The theories of the library meet the condition on repeated checks, alone or side by side. *)
Theorem C58_theories_again (sr : sorter) : (forall ord Hord fuel Y P HP, th_again (lraC ord Hord fuel Y P HP)) /\ th_again ovC /\
  (forall A B (oa : theory_ops A) (ob : theory_ops B) CA CB, th_again CA -> th_again CB -> th_again (sumC oa ob CA CB)).
Proof. split; [exact lra_again|]. split; [exact ov_again|]. intros A B oa ob CA CB. apply sum_again. Qed.
Print Assumptions C58_theories_again.

Definition b (v : nat) : lit := mk_lit v true.
Definition nb (v : nat) : lit := mk_lit v false.
(** An object theory and an arithmetic one.  x in {1,2,3} (b1, b2, b3); b5: z0 <= 1, b6: z0 >= 5; x = 2 -> z0 >= 5; x <> 3 is assumed.
    First push: z0 <= 1 is stated, so that x = 1.  Second push: z0 >= 5 is rejected.  Both are popped. *)
Definition c58n : list mcall := [MO (ONew [1; 2; 3] true); MO (OSat CPropagate); MVar; MCmp Up false (X 0) (K 1); MCmp Lo false (X 0) (K 5); MO (OSat (CClause [nb 2; b 6])); MO (OSat CPropagate); MO (OSat (CAssume (nb 3)))].
Definition n0 : mst := mafter c58n.
Definition on_top (r : res (list mst)) : mst := match r with Ok (s :: _) => s | _ => minit end.
Definition after_call (s : mst) (c : call) : mst := match step (ops := mops0) 100 s c with Ok (s', _) => s' | _ => s end.
Definition n1 : mst := on_top (stack_push mops0 5 [n0]).
Definition n2 : mst := after_call (after_call n1 (CClause [b 5])) CPropagate.
Definition n3 : mst := on_top (stack_push mops0 5 [n2; n0]).
Definition n4 : mst := after_call n3 (CClause [b 6]).
Definition n5 : mst := on_top (stack_pop mops0 [n4; n2; n0]).
Definition n6 : mst := on_top (stack_pop mops0 [n5; n0]).
Definition look (s : mst) : list lbool := map (value s) [b 1; b 2; b 3; b 5; b 6].
Example C58_nested_case : SatSpec.plain MC0 /\ th_again MC0 /\ good MC0 n0 /\ prop_q n0 = [] /\ settled MC0 n0 /\ dlevel n0 = 1 /\
  stack_push mops0 5 [n0] = Ok [n1; n0] /\ tinner MC0 1 (false, [n1; n0]) (false, [n5; n0]) /\ stack_pop mops0 [n5; n0] = Ok [n6] /\ THist MC0 n0 (true, [n4; n2; n0]) /\
  look n0 = [LUndef; LUndef; LFalse; LUndef; LUndef] /\ look n1 = look n0 /\ look n2 = [LTrue; LFalse; LFalse; LTrue; LFalse] /\ look n3 = look n2 /\ look n5 = look n2 /\ look n6 = look n0 /\
  bound (mlth n2) Up 0 = Some (1%Q, 0%Q) /\ bound (mlth n6) Up 0 = None.
Proof.
  assert (PL : SatSpec.plain MC0) by (intros [t|t] n v []).
  assert (HA : th_again MC0) by (apply sum_again; [exact ov_again|apply lra_again]).
  assert (HT : MTrace0 (mevents c58n) n0) by (apply mafter_trace; vm_compute; reflexivity).
  destruct (mtrace_good om0 oi0 Hom0 Hoi0 ord0 Hord0 fuel0 _ _ HT) as (o & t & G). pose proof (gk_good _ _ _ (mg_ok _ _ _ _ _ _ _ G)) as G0.
  assert (Hd : dlevel n0 = 1) by (vm_compute; reflexivity). assert (Hq : prop_q n0 = []) by (vm_compute; reflexivity). assert (Hs : settled MC0 n0) by (apply (g_up _ _ G0); rewrite Hd; discriminate).
  assert (E1 : stack_push mops0 5 [n0] = Ok [n1; n0]) by (vm_compute; reflexivity).
  assert (T1 : tstep MC0 (false, [n0]) (false, [n1; n0])) by (apply (ts_push MC0 5); assumption).
  assert (T2 : tstep MC0 (false, [n1; n0]) (false, [after_call n1 (CClause [b 5]); n0])) by (apply (ts_call MC0 100 n1 [n0] (CClause [b 5]) _ (RBool true)); [split; [vm_compute; reflexivity|apply min_range_ok; vm_compute; reflexivity]|vm_compute; reflexivity|intros X; discriminate X]).
  assert (T3 : tstep MC0 (false, [after_call n1 (CClause [b 5]); n0]) (false, [n2; n0])) by (apply (ts_call MC0 100 _ [n0] CPropagate _ (RBool true)); [exact Logic.I|vm_compute; reflexivity|intros X; discriminate X]).
  assert (H3 : THist MC0 n0 (false, [after_call n1 (CClause [b 5]); n0])) by (econstructor; [econstructor; [econstructor|exact T1]|exact T2]).
  destruct (hist_propagate MC0 n0 (after_call n1 (CClause [b 5])) [n0] 100 n2 PL HA G0 H3) as [Q2 S2]; [vm_compute; reflexivity|].
  assert (T4 : tstep MC0 (false, [n2; n0]) (false, [n3; n2; n0])) by (apply (ts_push MC0 5); [exact Q2|exact S2|vm_compute; reflexivity]).
  assert (T5 : tstep MC0 (false, [n3; n2; n0]) (true, [n4; n2; n0])) by (apply (ts_last MC0 100 n3 [n2; n0] (CClause [b 6])); [split; [vm_compute; reflexivity|apply min_range_ok; vm_compute; reflexivity]|vm_compute; reflexivity]).
  assert (T6 : tstep MC0 (true, [n4; n2; n0]) (false, [n5; n0])) by (apply (ts_pop MC0 true n4); vm_compute; reflexivity).
  split; [exact PL|]. split; [exact HA|]. split; [exact G0|]. split; [exact Hq|]. split; [exact Hs|]. split; [exact Hd|]. split; [exact E1|].
  assert (L : forall (s : mst), 1 < length (snd (false, [s; n0]))) by (intros; apply le_n).
  split. { eapply ti_step; [|exact T6|apply L]. eapply ti_step; [|exact T5|cbn; lia]. eapply ti_step; [|exact T4|cbn; lia]. eapply ti_step; [|exact T3|apply L]. eapply ti_step; [constructor|exact T2|apply L]. }
  split; [vm_compute; reflexivity|].
  split. { econstructor; [|exact T5]. econstructor; [|exact T4]. econstructor; [|exact T3]. exact H3. }
  split; [vm_compute; reflexivity|]. split; [vm_compute; reflexivity|]. split; [vm_compute; reflexivity|]. split; [vm_compute; reflexivity|]. split; [vm_compute; reflexivity|]. split; [vm_compute; reflexivity|]. split; vm_compute; reflexivity.
Qed.
