(** C74 and C75: looking for a solution, and for all the solutions, with the calls of the API.  Nothing but statements, closed by lemmas.

    [search pick fuel n s]: the client calls propagate(), and then assume() on an unassigned literal of its choice as long as there is
    one and the answers are true; the answer is that of the last call.  [pick] is any function of the state and of the number of choices made
    ([chooses]: it answers an unassigned literal of the network, and none when there is none).  [all_solutions]: the client goes on with next() from each solution found.
    [decs_ok s]: each standing decision is true, at its own level (so nothing that already had a value was assumed); it holds at root level.
    [smodels C s M]: the assignment [M] satisfies the clauses, the facts and the theories of the network [s].
    [OOF] (out of fuel) stands for a run which is longer than the bounds; [fuel] bounds each propagation, [n] the number of assumptions.
    [solutions n P l]: the list [l] holds the assignments of [n] variables which satisfy [P], each of them once. *)
From Verif Require Import Base Keys Sat SatSpec SatInv SatPop SatImp SatRec SatAn SatProp SatLoop SatMain SatApi SatApi2 SatNext Reify Amo Run SatFacts SatProps Exec Full FullEnd Search.
From Verif Require Import Lin Qe Lra LraTab LraVal LraInv LraPro LraCon LraApi LraRun LraEnd LraFacts LraExec LraFull SearchLra ThSum Ov OvInv OvEq OvRun OvStep Mix MixApi MixRun MixEnd MixExec SearchMix SearchAll.
Open Scope nat_scope.
#[local] Existing Instance stable_sort | 100.

Lemma decs_root {T} (s : st T) : decisions s = [] -> decs_ok s.
Proof. intros E k d. rewrite E. destruct k; discriminate. Qed.
Lemma pure_decides {sr : sorter} : th_decides pureC.
Proof. intros []. Qed.

(** ** C74 *)
(** Whatever the theories (with a contract), the state and the choices: the search ends within the bounds, true comes with a solution and
    false means there is none. *)
Theorem C74_search_decides : forall T ops (C : contract ops) (pick : chooser (T := T)) s0 s, chooses pick -> th_total C -> th_decides C ->
  good C s0 -> Reach C s0 s -> decs_ok s ->
  exists s' b, (forall fuel n, search_fuel (nv s) <= fuel -> search_len (nv s) <= n -> search (ops := ops) pick fuel n s = Ok (s', b)) /\ nv s' = nv s /\
  (b = true -> total s' /\ smodels C s (values s')) /\ (b = false -> forall M, ~ smodels C s M).
Proof. intros T ops C pick s0 s HP HT HD G HR HO. exact (search_decides C pick HP s0 s G HR HO HT HD). Qed.
Print Assumptions C74_search_decides.

(** No theory: in terms of the answers the client was given. *)
Theorem C74_clauses (sr : sorter) : forall pick tr s, chooses pick -> CTrace pureC pinit tr s -> decs_ok s ->
  exists s' b, (forall fuel n, search_fuel (nv s) <= fuel -> search_len (nv s) <= n -> search (ops := pure_ops) pick fuel n s = Ok (s', b)) /\
  (b = true -> total s' /\ respects pureC pinit tr (values s')) /\ (b = false -> forall M, ~ respects pureC pinit tr M).
Proof.
  intros pick tr s HP HT HO. destruct (search_decides pureC pick HP pinit s pinit_good (trace_reach _ _ _ _ (ctrace_trace _ _ _ _ HT)) HO pure_total pure_decides) as (s' & b & E & _ & H1 & H2).
  exists s', b. split; [exact E|]. split.
  - intros Eb. destruct (H1 Eb) as [A B]. split; [exact A|]. exact (full_sound pureC pinit tr s pinit_good HT _ B).
  - intros Eb M [A B]. destruct (proj2 (full_complete pureC pinit tr s pinit_good HT) M A B) as (M' & S & _). exact (H2 Eb M' S).
Qed.
Print Assumptions C74_clauses.

(** Linear real arithmetic: the values of the core and of the theory, the infinitesimal replaced by any small enough number, satisfy everything the
    client was told; or no values do. *)
Theorem C74_lra (sr : sorter) : forall ord Hord fuel pick tr s, (forall t, 6 ^ nx t <= fuel t) -> chooses pick -> FTrace ord Hord fuel tr s -> decs_ok s ->
  exists s' b, (forall fl n, search_fuel (nv s) <= fl -> search_len (nv s) <= n -> search (ops := lra_ops ord fuel) pick fl n s = Ok (s', b)) /\
  (b = true -> total s' /\ exists t, theories s' = [t] /\
     exists d0, (0 < d0)%Q /\ forall d, (0 < d)%Q -> (d <= d0)%Q -> lrespects tr (values s') (fun x => at_eps d (vals t x))) /\
  (b = false -> forall M y, ~ lrespects tr M y).
Proof. intros ord Hord fuel pick tr s Hf HP. exact (lra_search ord Hord fuel Hf pick HP tr s). Qed.
Print Assumptions C74_lra.

(** Object variables and linear real arithmetic together. *)
Theorem C74_ov_lra (sr : sorter) : forall om oi ord Hord fuel pick tr s, (forall m, Permutation m (om m)) -> (forall l, Permutation l (oi l)) ->
  (forall t, 6 ^ nx t <= fuel t) -> chooses pick -> MTrace om oi ord Hord fuel tr s -> mmindful tr -> decs_ok s ->
  exists s' b, (forall fl n, search_fuel (nv s) <= fl -> search_len (nv s) <= n -> search (ops := sum_ops ov_ops (lra_ops ord fuel)) pick fl n s = Ok (s', b)) /\
  (b = true -> total s' /\ exists o t, theories s' = [inl o; inr t] /\
     exists d0, (0 < d0)%Q /\ forall d, (0 < d)%Q -> (d <= d0)%Q -> mtold tr (values s') (fun x => at_eps d (vals t x))) /\
  (b = false -> forall M y, ~ mtold tr M y).
Proof. intros om oi ord Hord fuel pick tr s Hom Hoi Hf HP. exact (mix_search om oi Hom Hoi ord Hord fuel Hf pick HP tr s). Qed.
Print Assumptions C74_ov_lra.

(** ** C75 *)
Theorem C75_all_once : forall T ops (C : contract ops) (pick : chooser (T := T)) s0 s, chooses pick -> th_decides C ->
  good C s0 -> Reach C s0 s -> decs_ok s -> forall fuel n m,
  all_solutions (ops := ops) pick fuel n m s <> UB /\
  (forall l, all_solutions (ops := ops) pick fuel n m s = Ok l -> solutions (nv s) (smodels C s) l) /\
  (th_total C -> search_fuel (nv s) <= fuel -> search_len (nv s) <= n -> 2 ^ (nv s - 1) < m -> exists l, all_solutions (ops := ops) pick fuel n m s = Ok l).
Proof. intros T ops C pick s0 s HP HD G HR HO. exact (all_solutions_ok C pick HP s0 s G HR HO HD). Qed.
Print Assumptions C75_all_once.

(** No theory: the solutions are the assignments which agree with everything that was stated. *)
Theorem C75_clauses (sr : sorter) : forall pick tr s, chooses pick -> Trace pureC pinit tr s -> simple tr -> decs_ok s -> forall fuel n m,
  (forall l, all_solutions (ops := pure_ops) pick fuel n m s = Ok l -> solutions (nv s) (stated tr) l) /\
  (search_fuel (nv s) <= fuel -> search_len (nv s) <= n -> 2 ^ (nv s - 1) < m -> exists l, all_solutions (ops := pure_ops) pick fuel n m s = Ok l).
Proof.
  intros pick tr s HP HT Hs HO fuel n m. destruct (all_solutions_ok pureC pick HP pinit s pinit_good (trace_reach _ _ _ _ HT) HO pure_decides fuel n m) as (_ & H1 & H2).
  split; [|apply H2, pure_total]. intros l E. destruct (H1 l E) as [A B D].
  constructor; [intros M HM; apply A, (stated_models tr s HT Hs), HM|intros M Hi; apply (stated_models tr s HT Hs), B, Hi|exact D].
Qed.
Print Assumptions C75_clauses.

(** Linear real arithmetic: the assignments for which some real values exist. *)
Theorem C75_lra (sr : sorter) : forall ord Hord fuel pick tr s, (forall t, 6 ^ nx t <= fuel t) -> chooses pick -> LTrace ord Hord fuel tr s -> mindful tr -> decs_ok s -> forall fl n m,
  (forall l, all_solutions (ops := lra_ops ord fuel) pick fl n m s = Ok l -> solutions (nv s) (fun M => M 0 = false /\ exists y, told tr M y) l) /\
  (search_fuel (nv s) <= fl -> search_len (nv s) <= n -> 2 ^ (nv s - 1) < m -> exists l, all_solutions (ops := lra_ops ord fuel) pick fl n m s = Ok l).
Proof. intros ord Hord fuel pick tr s Hf HP. exact (lra_all ord Hord fuel Hf pick HP tr s). Qed.
Print Assumptions C75_lra.

(** In terms of the answers of the calls, when equalities, at-most-one and exactly-one constraints may have been stated: every assignment of
    the variables the client knows is found; two of those listed differ, possibly in auxiliary variables only. *)
Theorem C75_answers : forall T ops (C : contract ops) (pick : chooser (T := T)) s0 s tr, chooses pick -> th_decides C ->
  good C s0 -> CTrace C s0 tr s -> decs_ok s -> forall fuel n m l, all_solutions (ops := ops) pick fuel n m s = Ok l ->
  (forall M, In M l -> respects C s0 tr M) /\
  (forall M, respects C s0 tr M -> exists M', In M' l /\ forall v, Full.seen s0 tr v -> M' v = M v) /\ distinct (nv s) l.
Proof. intros T ops C pick s0 s tr HP HD G HT HO. exact (all_answers C pick HP s0 s tr G HT HO HD). Qed.
Print Assumptions C75_answers.
Theorem C75_answers_lra (sr : sorter) : forall ord Hord fuel pick tr s, chooses pick -> FTrace ord Hord fuel tr s -> decs_ok s ->
  forall fl n m l, all_solutions (ops := lra_ops ord fuel) pick fl n m s = Ok l ->
  (forall M, In M l -> exists y, lrespects tr M y) /\
  (forall M y, lrespects tr M y -> exists M', In M' l /\ forall v, lseen tr v -> M' v = M v) /\ distinct (nv s) l.
Proof. intros ord Hord fuel pick tr s HP. exact (lra_answers ord Hord fuel pick HP tr s). Qed.
Print Assumptions C75_answers_lra.
Theorem C75_answers_ov_lra (sr : sorter) : forall om oi ord Hord fuel pick tr s, (forall m, Permutation m (om m)) -> (forall l, Permutation l (oi l)) ->
  chooses pick -> MTrace om oi ord Hord fuel tr s -> mmindful tr -> decs_ok s ->
  forall fl n m l, all_solutions (ops := sum_ops ov_ops (lra_ops ord fuel)) pick fl n m s = Ok l ->
  (forall M, In M l -> exists y, mtold tr M y) /\
  (forall M y, mtold tr M y -> exists M', In M' l /\ forall v, In v (mvis tr) -> M' v = M v) /\ distinct (nv s) l.
Proof. intros om oi ord Hord fuel pick tr s Hom Hoi HP. exact (mix_answers om oi Hom Hoi ord Hord fuel pick HP tr s). Qed.
Print Assumptions C75_answers_ov_lra.

(** ** C76 *)
Lemma respects_sort (sr1 sr2 : sorter) tr M : respects (pureC (sr := sr1)) pinit tr M -> respects (pureC (sr := sr2)) pinit tr M.
Proof. intros [[H1 H2 H3 H4] H]. split; [|exact H]. split; [exact H1|exact H2|exact H3|intros i []]. Qed.
(** [alike tr1 tr2]: the same statements with the same answers, in any order; the other calls (decisions, propagations, probes, simplifications,
    variables) are free.  The searches may choose differently, and the literals of learned clauses may be sorted differently. *)
Theorem C76_same_verdict (sr1 sr2 : sorter) : forall pick1 pick2 tr1 tr2 s1 s2, chooses pick1 -> chooses pick2 -> CTrace (pureC (sr := sr1)) pinit tr1 s1 -> CTrace (pureC (sr := sr2)) pinit tr2 s2 ->
  decs_ok s1 -> decs_ok s2 -> alike tr1 tr2 ->
  exists a, (exists s1', forall fuel n, search_fuel (nv s1) <= fuel -> search_len (nv s1) <= n -> search (ops := pure_ops (sr := sr1)) pick1 fuel n s1 = Ok (s1', a)) /\
            (exists s2', forall fuel n, search_fuel (nv s2) <= fuel -> search_len (nv s2) <= n -> search (ops := pure_ops (sr := sr2)) pick2 fuel n s2 = Ok (s2', a)).
Proof.
  intros pick1 pick2 tr1 tr2 s1 s2 HP1 HP2 HT1 HT2 HO1 HO2 HA.
  destruct (C74_clauses sr1 pick1 tr1 s1 HP1 HT1 HO1) as (s1' & a1 & E1 & T1 & F1). destruct (C74_clauses sr2 pick2 tr2 s2 HP2 HT2 HO2) as (s2' & a2 & E2 & T2 & F2).
  assert (Ea : a1 = a2).
  { destruct a1, a2; try reflexivity; exfalso.
    - destruct (T1 eq_refl) as [_ R]. exact (F2 eq_refl _ (respects_sort _ _ _ _ (alike_respects _ _ _ _ _ HA R))).
    - destruct (T2 eq_refl) as [_ R]. exact (F1 eq_refl _ (respects_sort _ _ _ _ (alike_respects _ _ _ _ _ (alike_sym _ _ HA) R))). }
  subst a2. exists a1. split; eauto.
Qed.
Print Assumptions C76_same_verdict.
(** The orders in which the hash containers of the two arithmetic theories are visited may differ too. *)
Theorem C76_same_verdict_lra (sr1 sr2 : sorter) : forall ord1 Hord1 fuel1 ord2 Hord2 fuel2 pick1 pick2 tr1 tr2 s1 s2, (forall t, 6 ^ nx t <= fuel1 t) -> (forall t, 6 ^ nx t <= fuel2 t) ->
  chooses pick1 -> chooses pick2 -> FTrace (sr := sr1) ord1 Hord1 fuel1 tr1 s1 -> FTrace (sr := sr2) ord2 Hord2 fuel2 tr2 s2 -> decs_ok s1 -> decs_ok s2 -> lalike tr1 tr2 ->
  exists a, (exists s1', forall fl n, search_fuel (nv s1) <= fl -> search_len (nv s1) <= n -> search (ops := lra_ops (sr := sr1) ord1 fuel1) pick1 fl n s1 = Ok (s1', a)) /\
            (exists s2', forall fl n, search_fuel (nv s2) <= fl -> search_len (nv s2) <= n -> search (ops := lra_ops (sr := sr2) ord2 fuel2) pick2 fl n s2 = Ok (s2', a)).
Proof.
  intros ord1 Hord1 fuel1 ord2 Hord2 fuel2 pick1 pick2 tr1 tr2 s1 s2 Hf1 Hf2 HP1 HP2 HT1 HT2 HO1 HO2 HA.
  destruct (C74_lra sr1 ord1 Hord1 fuel1 pick1 tr1 s1 Hf1 HP1 HT1 HO1) as (s1' & a1 & E1 & T1 & F1). destruct (C74_lra sr2 ord2 Hord2 fuel2 pick2 tr2 s2 Hf2 HP2 HT2 HO2) as (s2' & a2 & E2 & T2 & F2).
  assert (Ea : a1 = a2).
  { destruct a1, a2; try reflexivity; exfalso.
    - destruct (T1 eq_refl) as [_ (t & _ & d & Hd & R)]. exact (F2 eq_refl _ _ (lalike_respects _ _ _ _ HA (R d Hd (Qle_refl _)))).
    - destruct (T2 eq_refl) as [_ (t & _ & d & Hd & R)]. exact (F1 eq_refl _ _ (lalike_respects _ _ _ _ (lalike_sym _ _ HA) (R d Hd (Qle_refl _)))). }
  subst a2. exists a1. split; eauto.
Qed.
Print Assumptions C76_same_verdict_lra.
(** The same solutions, too: whatever one client lists, restricted to the variables both know, the other lists. *)
Theorem C76_same_solutions (sr1 sr2 : sorter) : forall pick1 pick2 tr1 tr2 s1 s2, chooses pick1 -> chooses pick2 -> CTrace (pureC (sr := sr1)) pinit tr1 s1 -> CTrace (pureC (sr := sr2)) pinit tr2 s2 ->
  decs_ok s1 -> decs_ok s2 -> alike tr1 tr2 -> forall f1 n1 m1 f2 n2 m2 l1 l2,
  all_solutions (ops := pure_ops (sr := sr1)) pick1 f1 n1 m1 s1 = Ok l1 -> all_solutions (ops := pure_ops (sr := sr2)) pick2 f2 n2 m2 s2 = Ok l2 ->
  forall M, In M l1 -> exists M', In M' l2 /\ forall v, Full.seen pinit tr2 v -> M' v = M v.
Proof.
  intros pick1 pick2 tr1 tr2 s1 s2 HP1 HP2 HT1 HT2 HO1 HO2 HA f1 n1 m1 f2 n2 m2 l1 l2 E1 E2 M HM.
  destruct (all_answers (pureC (sr := sr1)) pick1 HP1 pinit s1 tr1 pinit_good HT1 HO1 pure_decides _ _ _ _ E1) as (A1 & _).
  destruct (all_answers (pureC (sr := sr2)) pick2 HP2 pinit s2 tr2 pinit_good HT2 HO2 pure_decides _ _ _ _ E2) as (_ & B2 & _).
  apply B2, (respects_sort sr1), (alike_respects _ _ _ _ _ HA), A1, HM.
Qed.
Print Assumptions C76_same_solutions.

(** ** Concrete cases: the first unassigned variable, true on even choices, false on odd ones. *)
Definition first_free {T} (k : nat) (s : st T) : option lit :=
  match find (fun v => lbool_eqb (assigns s v) LUndef) (seq 0 (nv s)) with Some v => Some (mk_lit v (Nat.even k)) | None => None end.
Lemma first_chooses {T} : chooses (@first_free T).
Proof.
  intros k s. unfold first_free. destruct (find _ _) as [v|] eqn:E.
  - apply find_some in E as [Hv Hu]. apply in_seq in Hv. cbn. split; [lia|]. unfold value, vlit. cbn. destruct (assigns s v); try discriminate. reflexivity.
  - intros v Hv Hu. assert (Hv' : In v (seq 0 (nv s))) by (apply in_seq; lia). apply (List.find_none _ _ E v) in Hv'. rewrite Hu in Hv'. discriminate Hv'.
Qed.
Definition b (v : nat) : lit := mk_lit v true.
Definition nb (v : nat) : lit := mk_lit v false.
Definition answer {T} (r : res (st T * bool)) : option (list bool * bool) := match r with Ok (s, a) => Some (map (values s) (seq 0 (nv s)), a) | _ => None end.
Definition listed (n : nat) (r : res (list (nat -> bool))) : option (list (list bool)) := match r with Ok l => Some (map (fun M => map M (seq 0 n)) l) | _ => None end.
(** Three pigeons and two holes (b1 b2, b3 b4, b5 b6): no solution, though nothing follows at root level; with one clause less there are some. *)
Definition holes : list call := [CVar; CVar; CVar; CVar; CVar; CVar; CClause [b 1; b 2]; CClause [b 3; b 4];
  CClause [nb 1; nb 3]; CClause [nb 1; nb 5]; CClause [nb 3; nb 5]; CClause [nb 2; nb 4]; CClause [nb 2; nb 6]; CClause [nb 4; nb 6]].
Definition c74 : list call := holes ++ [CClause [b 5; b 6]].
Example C74_case : CTrace pureC pinit (cevs c74) (cafter c74) /\ decs_ok (cafter c74) /\ chooses (@first_free Empty_set) /\
  answer (propagate pure_ops 100 (cafter c74)) = Some (map (fun _ => false) (seq 0 7), true) /\
  option_map snd (answer (search (ops := pure_ops) first_free 100 100 (cafter c74))) = Some false /\
  answer (search (ops := pure_ops) first_free 100 100 (cafter holes)) = Some ([false; true; false; false; true; false; false], true).
Proof.
  split; [apply cruns_trace; vm_compute; reflexivity|]. split; [apply decs_root; vm_compute; reflexivity|]. split; [apply first_chooses|].
  split; [vm_compute; reflexivity|]. split; vm_compute; reflexivity.
Qed.
(** x0 <= 3, x0 >= 5, x1 < x0, x1 > 7: one of the first two, and one of the last two.  Then: x1 < x0 implies x1 >= x0, x1 > 7 implies x1 <= 7. *)
Definition l74 : list lcall := [LVar; LVar; LCmp Up false (X 0) (K 3); LCmp Lo false (X 0) (K 5); LCmp Up true (X 1) (X 0); LCmp Lo true (X 1) (K 7);
  LSat (CClause [b 1; b 2]); LSat (CClause [b 3; b 4])].
Definition l74f : list lcall := l74 ++ [LCmp Up false (X 1) (K 7); LCmp Lo false (X 1) (X 0); LSat (CClause [nb 3; b 6]); LSat (CClause [nb 4; b 5])].
Example C74_case_lra : FTrace ord0 Hord0 fuel0 (fevs l74) (fafter l74) /\ decs_ok (fafter l74) /\
  answer (search (ops := lra_ops ord0 fuel0) first_free 100 100 (fafter l74)) = Some ([false; true; false; false; true], true) /\
  FTrace ord0 Hord0 fuel0 (fevs l74f) (fafter l74f) /\ decs_ok (fafter l74f) /\
  option_map snd (answer (propagate (lra_ops ord0 fuel0) 100 (fafter l74f))) = Some true /\
  option_map snd (answer (search (ops := lra_ops ord0 fuel0) first_free 100 100 (fafter l74f))) = Some false.
Proof.
  split; [apply fruns_trace; vm_compute; reflexivity|]. split; [apply decs_root; vm_compute; reflexivity|]. split; [vm_compute; reflexivity|].
  split; [apply fruns_trace; vm_compute; reflexivity|]. split; [apply decs_root; vm_compute; reflexivity|]. split; vm_compute; reflexivity.
Qed.
(** x in {1,2,3}; x = 1 -> z0 <= 1, x = 2 -> z0 >= 5, x = 3 -> z0 + z1 >= 9; 2 <= z0. *)
Definition m74 : list mcall := [MO (ONew [1; 2; 3] true); MO (OSat CPropagate); MVar; MVar;
  MCmp Up false (X 0) (K 1); MCmp Lo false (X 0) (K 5); MCmp Lo false (lin_add (X 0) (X 1)) (K 9);
  MO (OSat (CClause [nb 1; b 5])); MO (OSat (CClause [nb 2; b 6])); MO (OSat (CClause [nb 3; b 7])); MCmp Lo false (X 0) (K 2); MO (OSat (CClause [b 8]))].
Example C74_case_ov_lra : MTrace0 (mevents m74) (mafter m74) /\ mmindful (mevents m74) /\ decs_ok (mafter m74) /\
  answer (search (ops := mops0) first_free 100 100 (mafter m74)) = Some ([false; false; true; false; true; false; true; false; true], true).
Proof.
  split; [apply mafter_trace; vm_compute; reflexivity|]. split; [apply mmindfulb_ok; vm_compute; reflexivity|]. split; [apply decs_root; vm_compute; reflexivity|]. vm_compute; reflexivity.
Qed.

(** The two ways to seat two of the three pigeons; the five Boolean solutions of the other network. *)
Definition evs75 : list event := match exec holes with Some (tr, _) => tr | None => [] end.
Definition exactb (c : call) : bool := match c with CEq _ _ | CAmo _ | CExct _ => false | _ => true end.
Lemma exactb_ok tr : forallb (fun e => exactb (ev_call e)) tr = true -> simple tr.
Proof. intros H e He. rewrite forallb_forall in H. specialize (H e He). destruct (ev_call e); cbn in *; try exact I; discriminate. Qed.
Example C75_case : Trace pureC pinit evs75 (after holes) /\ simple evs75 /\ decs_ok (after holes) /\
  listed 7 (all_solutions (ops := pure_ops) first_free 100 100 100 (after holes)) =
    Some [[false; true; false; false; true; false; false]; [false; false; true; true; false; false; false]].
Proof.
  split; [unfold evs75, after; destruct (exec holes) as [[tr s]|] eqn:E; [apply (exec_trace holes), E|constructor]|].
  split; [apply exactb_ok; vm_compute; reflexivity|]. split; [apply decs_root; vm_compute; reflexivity|]. vm_compute; reflexivity.
Qed.
Ltac mindfuls := repeat (apply mf_cons; [|cbn; repeat split; auto|let x := fresh in let H := fresh in intros x H; cbn in H; decompose [or] H; subst; cbn; auto 10; contradiction]); apply mf_nil.
Example C75_case_lra : LTrace ord0 Hord0 fuel0 (levents l74) (lafter l74) /\ mindful (levents l74) /\ decs_ok (lafter l74) /\
  listed 5 (all_solutions (ops := lra_ops ord0 fuel0) first_free 100 100 100 (lafter l74)) =
    Some [[false; true; false; false; true]; [false; true; false; true; false]; [false; false; true; true; false]; [false; false; true; true; true]; [false; false; true; false; true]].
Proof.
  split; [apply lafter_trace; vm_compute; reflexivity|].
  split; [match goal with |- mindful ?e => let e' := eval vm_compute in e in change (mindful e') end; mindfuls|].
  split; [apply decs_root; vm_compute; reflexivity|]. vm_compute; reflexivity.
Qed.

(** The statements of [c74] in another order, with a decision, a probe and a propagation in between; the last variables first. *)
Definition last_free {T} (k : nat) (s : st T) : option lit :=
  match find (fun v => lbool_eqb (assigns s v) LUndef) (rev (seq 0 (nv s))) with Some v => Some (mk_lit v false) | None => None end.
Lemma last_chooses {T} : chooses (@last_free T).
Proof.
  intros k s. unfold last_free. destruct (find _ _) as [v|] eqn:E.
  - apply find_some in E as [Hv Hu]. apply in_rev, in_seq in Hv. cbn. split; [lia|]. unfold value, vlit. cbn. destruct (assigns s v); try discriminate. reflexivity.
  - intros v Hv Hu. assert (Hv' : In v (rev (seq 0 (nv s)))) by (apply -> in_rev; apply in_seq; lia). apply (List.find_none _ _ E v) in Hv'. rewrite Hu in Hv'. discriminate Hv'.
Qed.
Definition c76 : list call := [CVar; CVar; CVar; CVar; CVar; CVar; CClause [b 5; b 6]; CClause [nb 4; nb 6]; CClause [nb 2; nb 6]; CPropagate; CAssume (b 6); CPop;
  CClause [nb 2; nb 4]; CClause [nb 3; nb 5]; CCheck [b 1]; CClause [nb 1; nb 5]; CClause [nb 1; nb 3]; CClause [b 3; b 4]; CClause [b 1; b 2]].
Definition clause_of (e : event) : option (list lit) := match ev_call e, ev_decs e, ev_ret e with CClause l, [], RBool true => Some l | _, _, _ => None end.
Lemma clause_of_ok e l : clause_of e = Some l -> e = mk_ev (CClause l) [] (RBool true).
Proof.
  unfold clause_of. destruct e as [c ds r]. cbn. destruct c; try discriminate. destruct ds; [|discriminate]. destruct r as [v|[]|q|]; try discriminate. intros E. injection E as ->. reflexivity.
Qed.
Fixpoint lits_eqb (l r : list lit) : bool := match l, r with [], [] => true | p :: l, q :: r => lit_eqb p q && lits_eqb l r | _, _ => false end.
Lemma lits_eqb_ok l : forall r, lits_eqb l r = true -> l = r.
Proof.
  induction l as [|p l IH]; intros [|q r]; cbn; try discriminate; [reflexivity|]. intros H. apply andb_prop in H as [H1 H2]. f_equal; [|apply IH, H2]. destruct (lit_eqb_spec p q) as [E|]; [exact E|discriminate H1].
Qed.
Definition ev_eqb (e f : event) : bool := match clause_of e, clause_of f with Some l, Some r => lits_eqb l r | _, _ => false end.
Lemma ev_eqb_ok e f : ev_eqb e f = true -> e = f.
Proof.
  unfold ev_eqb. destruct (clause_of e) as [l|] eqn:El; [|discriminate]. destruct (clause_of f) as [r|] eqn:Er; [|discriminate]. intros H. apply lits_eqb_ok in H. subst r.
  rewrite (clause_of_ok _ _ El), (clause_of_ok _ _ Er). reflexivity.
Qed.
Definition subb (tr1 tr2 : list event) : bool := forallb (fun e => negb (says (ev_call e) (ev_ret e)) || existsb (ev_eqb e) tr2) tr1.
Lemma subb_ok tr1 tr2 : subb tr1 tr2 = true -> forall e, says (ev_call e) (ev_ret e) = true -> In e tr1 -> In e tr2.
Proof.
  unfold subb. rewrite forallb_forall. intros H e Es Hi. specialize (H e Hi). rewrite Es in H. cbn in H. apply existsb_exists in H as (f & Hf & Ef). apply ev_eqb_ok in Ef. congruence.
Qed.
Example C76_case : CTrace pureC pinit (cevs c74) (cafter c74) /\ CTrace pureC pinit (cevs c76) (cafter c76) /\ decs_ok (cafter c74) /\ decs_ok (cafter c76) /\
  alike (cevs c74) (cevs c76) /\ chooses (@last_free Empty_set) /\
  option_map snd (answer (search (ops := pure_ops) last_free 100 100 (cafter c76))) = Some false.
Proof.
  split; [apply cruns_trace; vm_compute; reflexivity|]. split; [apply cruns_trace; vm_compute; reflexivity|].
  split; [apply decs_root; vm_compute; reflexivity|]. split; [apply decs_root; vm_compute; reflexivity|].
  split; [intros e He; split; apply subb_ok; try assumption; vm_compute; reflexivity|]. split; [apply last_chooses|]. vm_compute; reflexivity.
Qed.
