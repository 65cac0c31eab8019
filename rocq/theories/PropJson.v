(** C68: the documents that [to_json] writes.  Nothing but statements, closed by lemmas, and concrete cases.
    [sat_json s], [lra_json P es oa val t]: the documents of a core and of an arithmetic theory (Json.v); [P], [es]: how rationals and rationals with an infinitesimal are written (any way that
    tells different numbers apart); [oa]: the order, arbitrary, in which the assertions are listed.  [allows j M], [lallows P es j M y] (JsonSpec.v): the assignment [M], and the numeric values [y],
    satisfy what the document [j] says, read off its members alone. *)
From Coq Require Import String QArith Lqa.
From Verif Require Import Base Keys Sat SatSpec SatInv Run SatFacts Exec.
From Verif Require Import Lin Qe Lra LraTab LraInv LraCmp LraApi LraRun LraEnd LraExec LraKeys Json JsonSpec JsonProps.
#[local] Existing Instance stable_sort | 100.
Local Open Scope string_scope.
Local Open Scope nat_scope.

Definition tells (es : qe -> string) : Prop := forall a b, (fst a == fst b /\ snd a == snd b)%Q <-> es a = es b.
(** Two cores have the same document exactly if they have the same variables with the same values and the same clauses. *)
Theorem C68_core_determined : forall T ops (C : contract ops) (s0 s s' : st T), good C s0 -> Reach C s0 s -> (sat_json s = sat_json s' <->
  nv s = nv s' /\ (forall v, v < nv s -> assigns s v = assigns s' v) /\ map (cls s) (constrs s) = map (cls s') (constrs s')).
Proof.
  intros T ops C s0 s s' G HR. split; [apply sat_json_inj|]. intros (A & B & D). apply sat_json_eq; try assumption. intros c p Hc Hp.
  apply (c_range _ (i_c _ _ (g_inv _ _ (reach_good C _ _ G HR))) c Hc p Hp).
Qed.
Print Assumptions C68_core_determined.
(** Whatever the document allows respects all that the client has stated; whatever respects it, and the decisions, is allowed. *)
Theorem C68_core_faithful (sr : sorter) : forall tr s, Trace pureC pinit tr s -> simple tr -> forall M,
  (allows (sat_json s) M -> stated tr M) /\ (stated tr M -> (forall d, In d (decisions s) -> mlit M d = true) -> allows (sat_json s) M).
Proof. exact client_document. Qed.
Print Assumptions C68_core_faithful.
(** After a successful propagation every clause shown has a literal marked T, or two different ones marked U. *)
Theorem C68_no_unit_shown (sr : sorter) : forall tr s fuel s', Trace pureC pinit tr s -> propagate pure_ops fuel s = Ok (s', true) -> forall c, In c (items "constrs" (sat_json s')) ->
  (exists e, In e (items "lits" c) /\ text "val" e = Some "T") \/
  (exists e e', In e (items "lits" c) /\ In e' (items "lits" c) /\ text "val" e = Some "U" /\ text "val" e' = Some "U" /\ text "lit" e <> text "lit" e').
Proof. exact client_unit. Qed.
Print Assumptions C68_no_unit_shown.
(** Two arithmetic theories have the same document exactly if they have the same numeric variables with the same values and bounds, the same rows, and the same
    assertions (in the orders in which they are listed) whose literals have the same values. *)
Theorem C68_arithmetic_determined : forall P es, tells es -> forall oa oa' val val' t t', lra_json P es oa val t = lra_json P es oa' val' t' <->
  nx t = nx t' /\
  (forall x, x < nx t -> (fst (vals t x) == fst (vals t' x) /\ snd (vals t x) == snd (vals t' x))%Q /\
     forall s, match bound t s x, bound t' s x with None, None => True | Some a, Some b => (fst a == fst b /\ snd a == snd b)%Q | _, _ => False end) /\
  Forall2 (fun e e' => (a_b (snd e) = a_b (snd e') /\ a_op (snd e) = a_op (snd e') /\ a_x (snd e) = a_x (snd e') /\ (fst (a_v (snd e)) == fst (a_v (snd e')) /\ snd (a_v (snd e)) == snd (a_v (snd e')))%Q) /\
     val (a_b (snd e)) = val' (a_b (snd e'))) (oa (v_asrts t)) (oa' (v_asrts t')) /\
  Forall2 (fun r r' => fst r = fst r' /\ Forall2 (fun e e' => fst e = fst e' /\ (snd e == snd e')%Q) (lvars (snd r)) (lvars (snd r')) /\ (lkt (snd r) == lkt (snd r'))%Q) (tab t) (tab t').
Proof. exact lra_json_iff. Qed.
Print Assumptions C68_arithmetic_determined.
Theorem C68_arithmetic_faithful (sr : sorter) : forall ord Hord fuel P es oa, tells es -> (forall l, Permutation l (oa l)) -> forall tr s, LTrace ord Hord fuel tr s -> exists t, theories s = [t] /\
  (forall M y, allows (sat_json s) M -> lallows P es (lra_json P es oa (value s) t) M y -> M 0 = false /\ told tr M y) /\
  (mindful tr -> forall M y, M 0 = false -> told tr M y -> (forall d, In d (decisions s) -> mlit M d = true) ->
     exists y', (forall x, In x (known tr) -> (y' x == y x)%Q) /\ allows (sat_json s) M /\ lallows P es (lra_json P es oa (value s) t) M y').
Proof. intros ord Hord fuel P es oa Hes Hoa. apply (lra_document ord Hord fuel P es Hes oa Hoa). Qed.
Print Assumptions C68_arithmetic_faithful.
(** With everything assigned after a successful propagation, the values that the documents show solve the documents. *)
Theorem C68_documents_solved (sr : sorter) : forall ord Hord fuel P es oa, tells es -> (forall l, Permutation l (oa l)) -> forall tr s fl s', LTrace ord Hord fuel tr s ->
  propagate (lra_ops ord fuel) fl s = Ok (s', true) -> total s' ->
  exists t d0, theories s' = [t] /\ (0 < d0)%Q /\ allows (sat_json s') (values s') /\
    forall d, (0 < d)%Q -> (d <= d0)%Q -> lallows P es (lra_json P es oa (value s') t) (values s') (fun x => at_eps d (vals t x)).
Proof. intros ord Hord fuel P es oa Hes Hoa. apply (lra_document_solved ord Hord fuel P es Hes oa Hoa). Qed.
Print Assumptions C68_documents_solved.

(** A way to write rationals with an infinitesimal. *)
Definition es0 (c : qe) : string := q_dec (fst c) ++ " + " ++ q_dec (snd c) ++ "e".
Lemma es0_tells : tells es0.
Proof.
  intros [r e] [r' e']. unfold es0. cbn [fst snd]. split.
  - intros [H1 H2]. apply (q_str_eq dec_printer) in H1, H2. cbn in H1, H2. rewrite H1, H2. reflexivity.
  - intros E. apply app_n_inj in E; [|apply (q_str_chars dec_printer)|apply (q_str_chars dec_printer)|reflexivity|reflexivity]. destruct E as [E1 E]. split; [apply (q_str_eq dec_printer), E1|].
    cbn [append] in E. assert (E2 : q_dec e ++ "e" = q_dec e' ++ "e") by congruence. apply app_n_inj in E2; [|apply (q_str_chars dec_printer)|apply (q_str_chars dec_printer)|reflexivity|reflexivity]. apply (q_str_eq dec_printer), E2.
Qed.
Ltac mindfuls := repeat (apply mf_cons; [|cbn; repeat split; auto|let x := fresh in let H := fresh in intros x H; cbn in H; decompose [or] H; subst; cbn; auto 10; contradiction]); apply mf_nil.
Definition b (v : nat) : lit := mk_lit v true.
Definition nb (v : nat) : lit := mk_lit v false.
Definition c68 : list call := [CVar; CVar; CVar; CClause [b 1; b 2]; CClause [nb 1; b 2; b 3]; CClause [nb 1]; CPropagate].
Definition evs (cs : list call) : list event := match exec cs with Some (tr, _) => tr | None => [] end.
Lemma evs_trace cs : runs cs = true -> Trace pureC pinit (evs cs) (after cs).
Proof. unfold runs, evs, after. destruct (exec cs) as [[tr s]|] eqn:E; [|discriminate]. intros _. apply (exec_trace cs), E. Qed.
Definition simpleb (tr : list event) : bool := forallb (fun e => match ev_call e with CAmo _ | CExct _ | CEq _ _ => false | _ => true end) tr.
Lemma simpleb_ok tr : simpleb tr = true -> simple tr.
Proof. intros H e He. unfold simpleb in H. rewrite forallb_forall in H. specialize (H e He). destruct (ev_call e); cbn; auto; discriminate. Qed.
Example C68_case : Trace pureC pinit (evs c68) (after c68) /\ simple (evs c68) /\ sat_json (after c68) =
  JO [("vars", JA [JO [("name", JS "0"); ("value", JS "False")]; JO [("name", JS "1"); ("value", JS "False")]; JO [("name", JS "2"); ("value", JS "True")]; JO [("name", JS "3"); ("value", JS "Undefined")]]);
      ("constrs", JA [JO [("lits", JA [JO [("lit", JS "b2"); ("val", JS "T")]; JO [("lit", JS "b1"); ("val", JS "F")]])];
                      JO [("lits", JA [JO [("lit", JS "¬b1"); ("val", JS "T")]; JO [("lit", JS "b2"); ("val", JS "T")]; JO [("lit", JS "b3"); ("val", JS "U")]])]])].
Proof. split; [apply evs_trace; vm_compute; reflexivity|]. split; [apply simpleb_ok; vm_compute; reflexivity|vm_compute; reflexivity]. Qed.
(** b1: x0 + x1 >= 3, stated; b2: x0 < 1, open. *)
Definition c68l : list lcall := [LVar; LVar; LCmp Lo false (lin_add (X 0) (X 1)) (K 3); LCmp Up true (X 0) (K 1); LSat (CClause [b 1]); LSat CPropagate].
Example C68_case_arithmetic : tells es0 /\ (forall l : list (nat * asrt), Permutation l (rev l)) /\ LTrace ord0 Hord0 fuel0 (levents c68l) (lafter c68l) /\ mindful (levents c68l) /\
  lra_json dec_printer es0 (@rev _) (value (lafter c68l)) (lth (lafter c68l)) =
  JO [("vars", JA [JO [("name", JS "0"); ("value", JS "3 + 0e")]; JO [("name", JS "1"); ("value", JS "0 + 0e")]; JO [("name", JS "2"); ("value", JS "3 + 0e"); ("lb", JS "3 + 0e")]]);
      ("asrts", JA [JO [("lit", JS "b2"); ("val", JS "U"); ("constr", JS "x0 <= 1 + -1e")]; JO [("lit", JS "b1"); ("val", JS "T"); ("constr", JS "x2 >= 3 + 0e")]]);
      ("tableau", JA [JO [("var", JS "x0"); ("expr", JS "-x1 + x2")]])].
Proof.
  split; [exact es0_tells|]. split; [apply Permutation_rev|]. split; [apply lafter_trace; vm_compute; reflexivity|]. split.
  - match goal with |- mindful ?e => let e' := eval vm_compute in e in change (mindful e') end. mindfuls.
  - vm_compute. reflexivity.
Qed.
