(** C80: observing changes nothing.  Nothing but statements, closed by lemmas, and concrete cases. *)
From Verif Require Import Base Keys Sat SatSpec Run Exec Lin Qe Lra LraRun LraExec LraLis Para Hush.
#[local] Existing Instance stable_sort | 100.
Open Scope nat_scope.

(** ** C80.  [alike g s u]: the two networks have the same variables, values, levels, reasons, decisions, trail, queue, expressions,
    clauses, watches and theories (seen through [g]); who listens, and who has been told what, may differ.
    One call, on two such networks, whatever the theories are: the same answer, and again two such networks. *)
Theorem C80_same_answer (sr : sorter) : forall T (ops : theory_ops T) fl (s u : st T) c, alike (fun t => t) s u ->
  match step (ops := ops) fl s c, step (ops := ops) fl u c with
  | Ok (s', r), Ok (u', q) => r = q /\ alike (fun t => t) s' u'
  | OOF, OOF | UB, UB => True
  | _, _ => False
  end.
Proof. exact @same_answer. Qed.
Print Assumptions C80_same_answer.
(** Any sequence of calls that return [h], with their answers, from any network: without the registrations of listeners, the
    other calls return too, with the same answers, and lead to the same network. *)
Theorem C80_listeners_do_nothing (sr : sorter) : forall T (ops : theory_ops T) s0 h s, CHist ops s0 h s ->
  exists s', CHist ops s0 (filter (fun e => match fst e with CListen _ _ => false | _ => true end) h) s' /\ alike (fun t => t) s s'.
Proof.
  intros T ops s0 h s H. destruct (listeners_do_nothing ops s0 h s H) as (s' & A & B). exists s'. split; [|exact B].
  erewrite filter_ext; [exact A|]. intros [[] ?]; reflexivity.
Qed.
Print Assumptions C80_listeners_do_nothing.
(** A registration on an existing variable always returns and leaves the network as it is. *)
Theorem C80_listen_returns (sr : sorter) : forall T (ops : theory_ops T) fl (s : st T) v l, v < nv s -> exists s', step (ops := ops) fl s (CListen v l) = Ok (s', RUnit) /\ alike (fun t => t) s s'.
Proof. exact @listen_returns. Qed.
Print Assumptions C80_listen_returns.
(** Linear real arithmetic, any number [k] of theories, listeners of Boolean and of numeric variables: the other calls, made on the
    network of C27-C36 (whose theories know no listeners), answer the same and lead to the same theories. *)
Theorem C80_lra_listeners_do_nothing (sr : sorter) : forall ord fuel k h s, NHist ord fuel k h s ->
  exists s', PHist ord fuel k (filter (fun e => match fst e with VListen _ _ _ | VSat (CListen _ _) => false | _ => true end) h) s' /\ alike fst s s'.
Proof.
  intros ord fuel k h s H. destruct (lra_listeners_do_nothing ord fuel k h s H) as (s' & A & B). exists s'. split; [|exact B].
  erewrite filter_ext; [exact A|]. intros [[[]| | | | |] ?]; reflexivity.
Qed.
Print Assumptions C80_lra_listeners_do_nothing.

Definition b (v : nat) : lit := mk_lit v true.
Definition nb (v : nat) : lit := mk_lit v false.
(** Listeners 7 and 8, registered before and between the clauses and during the search, hear of 1, 2 and 3; 3 is learnt false. *)
Definition c80a : list call := [CVar; CVar; CVar; CListen 1 7; CClause [nb 1; b 2]; CClause [nb 2; nb 3]; CListen 2 8; CListen 3 7; CConj [b 1; b 3]; CPropagate; CAssume (b 1); CListen 2 9; CPop; CListen 2 9; CAssume (b 3); CNext; CCheck [b 1]].
Definition c80q : list call := filter (fun c => match c with CListen _ _ => false | _ => true end) c80a.
Example C80_case : match cexec pure_ops 100 (init []) [] c80a, cexec pure_ops 100 (init []) [] c80q with
  | Some (s, h), Some (s', h') => CHist pure_ops (init []) h s /\ CHist pure_ops (init []) h' s' /\ h' = filter (fun e => match fst e with CListen _ _ => false | _ => true end) h /\ map fst h = c80a /\ length (log s) = 21 /\ log s' = [] /\
      map (value s) [b 1; b 2; b 3; b 4] = map (value s') [b 1; b 2; b 3; b 4] | _, _ => False end.
Proof.
  assert (X : match cexec pure_ops 100 (init []) [] c80a, cexec pure_ops 100 (init []) [] c80q with
  | Some (s, h), Some (s', h') => h' = filter (fun e => match fst e with CListen _ _ => false | _ => true end) h /\ map fst h = c80a /\ length (log s) = 21 /\ log s' = [] /\
      map (value s) [b 1; b 2; b 3; b 4] = map (value s') [b 1; b 2; b 3; b 4] | _, _ => False end) by (vm_compute; auto 10).
  destruct (cexec pure_ops 100 (init []) [] c80a) as [[s h]|] eqn:E1; [|exact X]. destruct (cexec pure_ops 100 (init []) [] c80q) as [[s' h']|] eqn:E2; [|exact X].
  split; [eapply cexec_hist; [constructor|exact E1]|]. split; [eapply cexec_hist; [constructor|exact E2]|exact X].
Qed.
(** x2 = x0 + x1; b1: x0 >= 1, b2: x1 >= 2, b3: x2 <= 2; numeric listeners 7 and 8, Boolean listener 9. *)
Open Scope Q_scope.
Definition c80v : list vcall := [VVar 0; VVar 0; VSlack 0 (mk_lin [(0%nat, 1); (1%nat, 1)] 0); VCmp 0 Lo false (LraExec.X 0) (LraExec.K 1); VListen 0 2 7; VCmp 0 Lo false (LraExec.X 1) (LraExec.K 2); VCmp 0 Up false (LraExec.X 2) (LraExec.K 2);
  VListen 0 0 8; VSat (CListen 3 9); VSat CPropagate; VSat (CAssume (b 1)); VSat (CAssume (b 2)); VSat CPop; VListen 0 1 7; VSat (CAssume (b 3))].
Example C80_lra_case : match nexec ord0 fuel0 100 (init [(lra_init, lis0)]) [] c80v with
  | Some (s, h) => NHist ord0 fuel0 1 h s /\ map fst h = c80v /\ length (log s) = 3%nat /\ match theories s with [(t, w)] => length (ltold w) = 7%nat /\ map (vals t) [0; 1; 2]%nat = [(1, 0); (1, 0); (2, 0)] | _ => False end | None => False end.
Proof.
  assert (X : match nexec ord0 fuel0 100 (init [(lra_init, lis0)]) [] c80v with
  | Some (s, h) => map fst h = c80v /\ length (log s) = 3%nat /\ match theories s with [(t, w)] => length (ltold w) = 7%nat /\ map (vals t) [0; 1; 2]%nat = [(1, 0); (1, 0); (2, 0)] | _ => False end | None => False end) by (vm_compute; auto 10).
  destruct (nexec ord0 fuel0 100 _ [] c80v) as [[s h]|] eqn:E; [|exact X]. split; [eapply nexec_hist; [constructor|exact E]|exact X].
Qed.
