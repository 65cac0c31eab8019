(** Properties of the object variables (C45, C46, C55, C56).
    [OTrace om oi tr s]: [s] is reached from the empty network by the calls of [tr], whose results are recorded in it; [om] and [oi]
    are the orders, arbitrary, in which maps and sets are iterated.  [smodels OC s M]: the Boolean assignment [M] satisfies everything
    stated in [s].  [allowed s M x v]: the literal of allows(x, v) is true in [M].  [ovar s x]: [x] is an object variable of [s]. *)
From Verif Require Import Base Keys Sat SatSpec SatInv SatMain SatApi SatNext Reify Amo Run Exec Refute SatFacts Listen ThSum Ov OvInv OvEq OvRun OvLis OvExec OvProps.
#[local] Existing Instance stable_sort | 100.
Local Arguments Nat.ltb : simpl never.
Local Arguments Nat.eqb : simpl never.
Definition orders (om : list (nat * lit) -> list (nat * lit)) (oi : list nat -> list nat) : Prop := (forall m, Permutation m (om m)) /\ (forall l, Permutation l (oi l)).
Lemma orders0 : orders om0 oi0.
Proof. exact (conj Hom0 Hoi0). Qed.

Definition totalb (s : ost) : bool := forallb (fun v => negb (lbool_eqb (assigns s v) LUndef)) (seq 0 (nv s)).
Lemma totalb_ok (s : ost) : totalb s = true -> total s.
Proof. intros H v Hv. unfold totalb in H. rewrite forallb_forall in H. specialize (H v ltac:(apply in_seq; lia)). intros K. rewrite K in H. discriminate H. Qed.
Definition psol (s : ost) : ost := match propagate oops 100 s with Ok (s', _) => s' | _ => s end.

(** ** C45 *)
Theorem C45_exactly_one (sr : sorter) : forall om oi tr s items, orders om oi -> OTrace om oi tr s -> dlevel s = 0 -> items <> [] -> (exists M, smodels OC s M) ->
  exists s' x, ov_new_var s 0 items true = Ok (s', x) /\ ovar s' x /\ ~ ovar s x /\
    (forall M, smodels OC s' M -> smodels OC s M /\ exists v, In v items /\ forall w, allowed s' M x w <-> w = v) /\
    (forall M v, smodels OC s M -> In v items -> exists M', agree (nv s) M M' /\ smodels OC s' M' /\ forall w, allowed s' M' x w <-> w = v).
Proof. intros om oi tr s items [H1 H2]. exact (new_exact om oi H1 H2 tr s items). Qed.
Print Assumptions C45_exactly_one.
Theorem C45_free (sr : sorter) : forall om oi tr s items, orders om oi -> OTrace om oi tr s -> 2 <= length items ->
  exists s' x, ov_new_var s 0 items false = Ok (s', x) /\ ovar s' x /\ ~ ovar s x /\
    (forall M, smodels OC s' M -> smodels OC s M /\ forall w, allowed s' M x w -> In w items) /\
    (forall M (f : nat -> bool), smodels OC s M -> exists M', agree (nv s) M M' /\ smodels OC s' M' /\ forall w, allowed s' M' x w <-> In w items /\ f w = true).
Proof. intros om oi tr s items [H1 H2]. exact (new_free om oi H1 H2 tr s items). Qed.
Print Assumptions C45_free.
Theorem C45_given_literals (sr : sorter) : forall om oi tr s ls vals, orders om oi -> OTrace om oi tr s -> ls <> [] -> length ls = length vals -> in_scope s ls ->
  exists s' x, ov_new_var_lits s 0 ls vals = Ok (s', x) /\ ovar s' x /\ ~ ovar s x /\ (forall M, smodels OC s' M <-> smodels OC s M) /\
    (forall n v l, nth_error vals n = Some v -> nth_error ls n = Some l -> (forall k, k < n -> nth_error vals k <> Some v) -> ov_allows (oth s') x v = Some l) /\
    (forall v, ~ In v vals -> ov_allows (oth s') x v = Some FALSE_lit).
Proof. intros om oi tr s ls vals [H1 H2]. exact (new_lits om oi H1 H2 tr s ls vals). Qed.
Print Assumptions C45_given_literals.
(** allows(x, v) returns the same literal for ever. *)
Theorem C45_allows_stable (sr : sorter) : forall om oi tr2 tr s s' x v l, orders om oi -> OTrace om oi tr s -> OTrace om oi (tr2 ++ tr) s' ->
  ov_allows (oth s) x v = Some l -> ov_allows (oth s') x v = Some l.
Proof. intros om oi tr2 tr s s' x v l [H1 H2]. exact (allows_keep om oi H1 H2 tr2 tr s s' x v l). Qed.
Print Assumptions C45_allows_stable.
(** value(x) is the set of the values whose literal is not false. *)
Theorem C45_value (sr : sorter) : forall om oi tr s x, orders om oi -> OTrace om oi tr s -> ovar s x -> exists vals, ov_value om s (oth s) x = Some vals /\ NoDup vals /\
  forall v, In v vals <-> exists l, ov_allows (oth s) x v = Some l /\ value s l <> LFalse.
Proof. intros om oi tr s x [H1 H2]. exact (value_lists om oi H1 H2 tr s x). Qed.
Print Assumptions C45_value.
(** No value is removed that some solution of what has been stated, and of the current decisions, still takes. *)
Theorem C45_value_keeps_solutions (sr : sorter) : forall om oi tr s x vals M v, orders om oi -> OTrace om oi tr s -> omindful tr -> ov_value om s (oth s) x = Some vals -> otold tr M ->
  (forall d, In d (decisions s) -> In (lvar d) (vis tr) /\ mlit M d = true) -> allowed s M x v -> In v vals.
Proof. intros om oi tr s x vals M v [H1 H2]. exact (value_sound' om oi H1 H2 tr s x vals M v). Qed.
Print Assumptions C45_value_keeps_solutions.
Theorem C45_value_when_assigned (sr : sorter) : forall om oi tr s x vals, orders om oi -> OTrace om oi tr s -> total s -> ov_value om s (oth s) x = Some vals -> forall v, In v vals <-> allowed s (values s) x v.
Proof. intros om oi tr s x vals [H1 H2]. exact (value_total' om oi H1 H2 tr s x vals). Qed.
Print Assumptions C45_value_when_assigned.
(** Two variables; the value 2 of the first is excluded. *)
Definition two_vars : list ocall := [ONew [1; 2; 3] true; OSat CPropagate; ONew [2; 3; 4] true; OSat (CClause [nb 2]); OSat CPropagate].
Example C45_case : OTrace om0 oi0 (oevents two_vars) (oafter two_vars) /\ dlevel (oafter two_vars) = 0 /\ ovar (oafter two_vars) 1 /\
  (exists M, smodels OC (oafter two_vars) M /\ allowed (oafter two_vars) M 0 3 /\ ~ allowed (oafter two_vars) M 0 1) /\
  ov_value om0 (oafter two_vars) (oth (oafter two_vars)) 0 = Some [1; 3] /\ ov_value om0 (oafter two_vars) (oth (oafter two_vars)) 1 = Some [2; 3; 4].
Proof.
  split; [apply oafter_trace; vm_compute; reflexivity|]. split; [vm_compute; reflexivity|]. split; [unfold ovar; vm_compute; lia|]. split; [|split; vm_compute; reflexivity].
  exists (asg [false; false; false; true; true; true; false; false; true]). split; [apply oafter_model; vm_compute; reflexivity|].
  split; [exists (b 3); split; vm_compute; reflexivity|]. intros (l & H1 & H2). assert (E1 : ov_allows (oth (oafter two_vars)) 0 1 = Some (b 1)) by (vm_compute; reflexivity). rewrite E1 in H1. injection H1 as <-. discriminate H2.
Qed.
(** A mindful client, a decision, and a solution that agrees with it. *)
Definition decided : list ocall := two_vars ++ [OSat (CAssume (b 6))].
Example C45_case_value : OTrace om0 oi0 (oevents decided) (oafter decided) /\ omindful (oevents decided) /\ decisions (oafter decided) = [b 6] /\
  ov_value om0 (oafter decided) (oth (oafter decided)) 1 = Some [3] /\
  (exists M, otold (oevents decided) M /\ (forall d, In d (decisions (oafter decided)) -> In (lvar d) (vis (oevents decided)) /\ mlit M d = true) /\ allowed (oafter decided) M 1 3) /\
  let s := oafter (decided ++ [OSat (CAssume (b 1))]) in OTrace om0 oi0 (oevents (decided ++ [OSat (CAssume (b 1))])) s /\ total s /\ ov_value om0 s (oth s) 0 = Some [1].
Proof.
  assert (HT : OTrace om0 oi0 (oevents decided) (oafter decided)) by (apply oafter_trace; vm_compute; reflexivity).
  split; [exact HT|]. split; [apply omindfulb_ok; vm_compute; reflexivity|]. split; [vm_compute; reflexivity|]. split; [vm_compute; reflexivity|]. split.
  - exists (asg [false; false; false; true; true; false; true; false; true]). split; [apply (otold_all om0 oi0 Hom0 Hoi0 _ _ HT); apply oafter_model; vm_compute; reflexivity|]. split.
    + intros d Hd. assert (Ed : decisions (oafter decided) = [b 6]) by (vm_compute; reflexivity). rewrite Ed in Hd. destruct Hd as [<-|[]]. split; [apply memn_In|]; vm_compute; reflexivity.
    + exists (b 6). split; vm_compute; reflexivity.
  - split; [apply oafter_trace; vm_compute; reflexivity|]. split; [|vm_compute; reflexivity]. apply totalb_ok. vm_compute. reflexivity.
Qed.

(** ** C46: the literal of new_eq(x, y). *)
(** Its meaning, for any domains: if it is true both variables allow the same values, and it is true when they share an allowed value. *)
Theorem C46_meaning (sr : sorter) : forall om oi tr s x y s' p, orders om oi -> OTrace om oi tr s -> dlevel s = 0 -> ovar s x -> ovar s y -> ov_new_eq om oi s 0 x y = Ok (s', p) ->
  forall M, smodels OC s' M <-> smodels OC s M /\ (mlit M p = true -> forall v, allowed s M x v <-> allowed s M y v) /\ ((exists v, allowed s M x v /\ allowed s M y v) -> mlit M p = true).
Proof. intros om oi tr s x y s' p [H1 H2]. exact (eq_meaning om oi H1 H2 tr s x y s' p). Qed.
Print Assumptions C46_meaning.
(** For variables that take one value each it is true iff the values are the same. *)
Theorem C46_iff_same_value (sr : sorter) : forall om oi tr s x y s' p, orders om oi -> OTrace om oi tr s -> dlevel s = 0 -> ovar s x -> ovar s y -> ov_new_eq om oi s 0 x y = Ok (s', p) ->
  forall M a b, smodels OC s' M -> (forall v, allowed s M x v <-> v = a) -> (forall v, allowed s M y v <-> v = b) -> (mlit M p = true <-> a = b).
Proof. intros om oi tr s x y s' p [H1 H2]. exact (eq_single om oi H1 H2 tr s x y s' p). Qed.
Print Assumptions C46_iff_same_value.
(** Creating it loses no solution in which the variables take one value each (or, more generally, agree as soon as they share a value), and the call is answered. *)
Theorem C46_conservative (sr : sorter) : forall om oi tr s x y, orders om oi -> OTrace om oi tr s -> dlevel s = 0 -> ovar s x -> ovar s y -> (exists M, smodels OC s M /\ agreeing s M x y) ->
  exists s' p, ov_new_eq om oi s 0 x y = Ok (s', p) /\ forall M, smodels OC s M -> agreeing s M x y -> exists M', agree (nv s) M M' /\ smodels OC s' M'.
Proof. intros om oi tr s x y [H1 H2]. exact (eq_conservative om oi H1 H2 tr s x y). Qed.
Print Assumptions C46_conservative.
Theorem C46_same_variable : forall om oi (s : ost) x, ov_new_eq om oi s 0 x x = Ok (s, TRUE_lit).
Proof. exact eq_same. Qed.
Print Assumptions C46_same_variable.
Theorem C46_no_common_value (sr : sorter) : forall om oi tr s x y, orders om oi -> OTrace om oi tr s -> ovar s x -> ovar s y -> x <> y -> (forall v, In v (odomain s x) -> ~ In v (odomain s y)) -> ov_new_eq om oi s 0 x y = Ok (s, FALSE_lit).
Proof. intros om oi tr s x y [H1 H2]. exact (eq_disjoint om oi H1 H2 tr s x y). Qed.
Print Assumptions C46_no_common_value.
Theorem C46_again (sr : sorter) : forall om oi tr s x y s' p, orders om oi -> OTrace om oi tr s -> dlevel s = 0 -> ovar s x -> ovar s y -> ov_new_eq om oi s 0 x y = Ok (s', p) ->
  ov_new_eq om oi s' 0 x y = Ok (s', p) /\ ov_new_eq om oi s' 0 y x = Ok (s', p).
Proof. intros om oi tr s x y s' p [H1 H2]. exact (eq_again om oi H1 H2 tr s x y s' p). Qed.
Print Assumptions C46_again.
Example C46_case : OTrace om0 oi0 (oevents two_vars) (oafter two_vars) /\ ovar (oafter two_vars) 0 /\ ovar (oafter two_vars) 1 /\
  exists s' p, ov_new_eq om0 oi0 (oafter two_vars) 0 0 1 = Ok (s', p) /\ length (constrs s') = length (constrs (oafter two_vars)) + 6 /\
  (exists M, smodels OC (oafter two_vars) M /\ (forall v, allowed (oafter two_vars) M 0 v <-> v = 3) /\ (forall v, allowed (oafter two_vars) M 1 v <-> v = 3)) /\
  (exists M, smodels OC (oafter two_vars) M /\ (forall v, allowed (oafter two_vars) M 0 v <-> v = 3) /\ (forall v, allowed (oafter two_vars) M 1 v <-> v = 2)).
Proof.
  split; [apply oafter_trace; vm_compute; reflexivity|]. split; [unfold ovar; vm_compute; lia|]. split; [unfold ovar; vm_compute; lia|]. eexists _, _. split; [vm_compute; reflexivity|]. split; [vm_compute; reflexivity|].
  assert (Ha : forall M x w m l, nth_error (odom (oth (oafter two_vars))) x = Some m -> alook w m = Some l -> (forall v k, In (v, k) m -> mlit M k = Nat.eqb v w) -> M 0 = false -> forall v, allowed (oafter two_vars) M x v <-> v = w).
  { intros M x w m l Em El Hm H0 v. unfold allowed, ov_allows. rewrite Em. split.
    - intros (k & Ek & Hk). destruct (alook v m) as [k'|] eqn:Ev; [|injection Ek as <-; unfold mlit in Hk; cbn in Hk; rewrite H0 in Hk; discriminate Hk]. injection Ek as ->. rewrite (Hm v k (alook_in _ _ _ Ev)) in Hk. apply Nat.eqb_eq, Hk.
    - intros ->. exists l. rewrite El. split; [reflexivity|]. rewrite (Hm w l (alook_in _ _ _ El)). apply Nat.eqb_refl. }
  split.
  - exists (asg [false; false; false; true; true; false; true; false; true]). split; [apply oafter_model; vm_compute; reflexivity|]. split; (eapply Ha; [vm_compute; reflexivity|vm_compute; reflexivity| |reflexivity]); intros v k Hi; cbn in Hi; repeat (destruct Hi as [Hi|Hi]; [injection Hi as <- <-; vm_compute; reflexivity|]); destruct Hi.
  - exists (asg [false; false; false; true; true; true; false; false; true]). split; [apply oafter_model; vm_compute; reflexivity|]. split; (eapply Ha; [vm_compute; reflexivity|vm_compute; reflexivity| |reflexivity]); intros v k Hi; cbn in Hi; repeat (destruct Hi as [Hi|Hi]; [injection Hi as <- <-; vm_compute; reflexivity|]); destruct Hi.
Qed.
(** With multi-valued variables (enforce_exct_one = false) the equality is not a definition: creating it discards the solutions in which the
    variables share a value without being equal. *)
Definition multi : list ocall := [ONew [1; 2] false; ONew [1; 3] false].
Definition is_ok {A} (r : res A) : bool := match r with Ok _ => true | _ => false end.
Theorem C46_multivalued_refuted : exists s s' p, OTrace om0 oi0 (oevents multi) s /\ dlevel s = 0 /\ ovar s 0 /\ ovar s 1 /\ ov_new_eq om0 oi0 s 0 0 1 = Ok (s', p) /\
  exists M, smodels OC s M /\ ~ exists M', agree (nv s) M M' /\ smodels OC s' M'.
Proof.
  assert (HT : OTrace om0 oi0 (oevents multi) (oafter multi)) by (apply oafter_trace; vm_compute; reflexivity).
  exists (oafter multi). destruct (ov_new_eq om0 oi0 (oafter multi) 0 0 1) as [[s' p]| |] eqn:E; [|assert (K : is_ok (ov_new_eq om0 oi0 (oafter multi) 0 0 1) = true) by (vm_compute; reflexivity); rewrite E in K; discriminate K|assert (K : is_ok (ov_new_eq om0 oi0 (oafter multi) 0 0 1) = true) by (vm_compute; reflexivity); rewrite E in K; discriminate K].
  exists s', p. split; [exact HT|]. split; [vm_compute; reflexivity|]. split; [unfold ovar; vm_compute; lia|]. split; [unfold ovar; vm_compute; lia|]. split; [reflexivity|].
  exists (asg [false; true; true; true; false]). split; [apply oafter_model; vm_compute; reflexivity|]. intros (M' & Ag & HM).
  apply (eq_meaning om0 oi0 Hom0 Hoi0 (oevents multi) (oafter multi) 0 1 s' p HT) in HM as (_ & K1 & K2); [|vm_compute; reflexivity|unfold ovar; vm_compute; lia|unfold ovar; vm_compute; lia|exact E].
  assert (Hv : forall v, v < 5 -> M' v = asg [false; true; true; true; false] v) by (intros v Hlt; symmetry; apply Ag; vm_compute; lia).
  assert (Hp : mlit M' p = true).
  { apply K2. exists 1. split; [exists (b 1)|exists (b 3)]; (split; [vm_compute; reflexivity|]); unfold mlit; cbn [b lvar lsgn]; rewrite Hv by lia; reflexivity. }
  assert (H2 : allowed (oafter multi) M' 0 2) by (exists (b 2); split; [vm_compute; reflexivity|]; unfold mlit; cbn [b lvar lsgn]; rewrite Hv by lia; reflexivity).
  apply (K1 Hp) in H2. destruct H2 as (l & El & Hl). assert (E1 : ov_allows (oth (oafter multi)) 1 2 = Some FALSE_lit) by (vm_compute; reflexivity). rewrite E1 in El. injection El as <-. unfold mlit in Hl. cbn in Hl. rewrite Hv in Hl by lia. discriminate Hl.
Qed.
Print Assumptions C46_multivalued_refuted.
(** ... and when they do at root level, the call aborts (the assert of ov_theory.cpp:107). *)
Theorem C46_multivalued_abort_refuted : exists tr s, OTrace om0 oi0 tr s /\ dlevel s = 0 /\ ovar s 0 /\ ovar s 1 /\ (exists M, smodels OC s M) /\ ov_new_eq om0 oi0 s 0 0 1 = UB.
Proof.
  set (cs := multi ++ [OSat (CClause [b 1]); OSat (CClause [b 2]); OSat (CClause [b 3]); OSat (CClause [nb 4]); OSat CPropagate]).
  exists (oevents cs), (oafter cs). split; [apply oafter_trace; vm_compute; reflexivity|]. split; [vm_compute; reflexivity|]. split; [unfold ovar; vm_compute; lia|]. split; [unfold ovar; vm_compute; lia|].
  split; [|vm_compute; reflexivity]. exists (asg [false; true; true; true; false]). apply oafter_model; vm_compute; reflexivity.
Qed.
Print Assumptions C46_multivalued_abort_refuted.

(** ** C55: listeners.  [OHist om oi rg s rg' s']: from [s] to [s'] by legal calls and registrations.  A listener registered while all the values of
    the variable (two or more) are open is told of the variable whenever value() differs between two later moments. *)
Theorem C55_listener_hears_partial (sr : sorter) : forall om oi l x rg0 s0 s0' rg1 s1 rg2 s2 v1 v2, orders om oi -> OHist om oi [] oinit rg0 s0 -> ovar s0 x ->
  2 <= length (nth x (odom (oth s0)) []) -> (forall v p, In (v, p) (nth x (odom (oth s0)) []) -> value s0 p = LUndef) ->
  ov_listen om s0 (oth s0) x l = Ok s0' -> OHist om oi (regs s0 (oth s0) x l ++ rg0) s0' rg1 s1 -> OHist om oi rg1 s1 rg2 s2 ->
  ov_value om s1 (oth s1) x = Some v1 -> ov_value om s2 (oth s2) x = Some v2 -> ~ (forall v, In v v1 <-> In v v2) ->
  exists new, log s2 = new ++ log s1 /\ In x (ov_told (oth s1) new l).
Proof. intros om oi l x rg0 s0 s0' rg1 s1 rg2 s2 v1 v2 [H1 H2]. exact (listen_hears om oi H1 H2 l x rg0 s0 s0' rg1 s1 rg2 s2 v1 v2). Qed.
Print Assumptions C55_listener_hears_partial.
Definition lis0 : list lcal := [LC (ONew [1; 2; 3] true); LC (OSat CPropagate)].
Definition lis1 : list lcal := lis0 ++ [LL 0 7].
Example C55_case : OHist om0 oi0 [] oinit (hregs lis0) (hafter lis0) /\ ovar (hafter lis0) 0 /\ 2 <= length (nth 0 (odom (oth (hafter lis0))) []) /\
  (forall v p, In (v, p) (nth 0 (odom (oth (hafter lis0))) []) -> value (hafter lis0) p = LUndef) /\
  ov_listen om0 (hafter lis0) (oth (hafter lis0)) 0 7 = Ok (hafter lis1) /\
  (let lis2 := lis1 ++ [LC (OSat (CAssume (nb 1)))] in OHist om0 oi0 (hregs lis1) (hafter lis1) (hregs lis2) (hafter lis2) /\ ov_value om0 (hafter lis2) (oth (hafter lis2)) 0 = Some [2; 3]) /\
  (let lis2 := lis1 ++ [LC (OSat (CAssume (nb 1))); LC (OSat CPop)] in OHist om0 oi0 (hregs lis1) (hafter lis1) (hregs lis2) (hafter lis2) /\ ov_value om0 (hafter lis2) (oth (hafter lis2)) 0 = Some [1; 2; 3]).
Proof.
  split; [apply hafter_hist; vm_compute; reflexivity|]. split; [unfold ovar; vm_compute; lia|]. split; [vm_compute; lia|]. split.
  { intros v p H. assert (En : nth 0 (odom (oth (hafter lis0))) [] = [(1, b 1); (2, b 2); (3, b 3)]) by (vm_compute; reflexivity). rewrite En in H. repeat (destruct H as [H|H]; [injection H as <- <-; vm_compute; reflexivity|]). destruct H. }
  split; [vm_compute; reflexivity|]. split; (split; [apply hafter_more; vm_compute; reflexivity|vm_compute; reflexivity]).
Qed.
(** A listener registered while a value is excluded by a decision is not told that the value comes back. *)
Lemma in_pair (x : nat * nat) l : existsb (fun y => Nat.eqb (fst x) (fst y) && Nat.eqb (snd x) (snd y)) l = true -> In x l.
Proof. intros H. apply existsb_exists in H as (y & Hy & H). apply andb_prop in H as [A B]. apply Nat.eqb_eq in A, B. destruct x, y. cbn in *. subst. exact Hy. Qed.
Definition late : list lcal := lis0 ++ [LC (OSat (CAssume (nb 1))); LL 0 7].
Theorem C55_late_registration_refuted : exists rg1 s1 rg2 s2 new, OHist om0 oi0 [] oinit rg1 s1 /\ In (7, 2) rg1 /\ OHist om0 oi0 rg1 s1 rg2 s2 /\
  ov_value om0 s1 (oth s1) 0 = Some [2; 3] /\ ov_value om0 s2 (oth s2) 0 = Some [1; 2; 3] /\ log s2 = new ++ log s1 /\ ov_told (oth s2) new 7 = [].
Proof.
  exists (hregs late), (hafter late), (hregs (late ++ [LC (OSat CPop)])), (hafter (late ++ [LC (OSat CPop)])), [].
  split; [apply hafter_hist; vm_compute; reflexivity|]. split; [apply in_pair; vm_compute; reflexivity|]. split; [apply hafter_more; vm_compute; reflexivity|]. split; [vm_compute; reflexivity|]. split; [vm_compute; reflexivity|]. split; vm_compute; reflexivity.
Qed.
Print Assumptions C55_late_registration_refuted.

(** ** C56: a network with object variables, end to end.  [otold tr M]: [M] respects what the client was told: the clauses it stated, the meaning
    of the literals it was given, exactly one value for each variable.  [vis tr]: the Boolean variables it knows. *)
Theorem C56_models_respect (sr : sorter) : forall om oi tr s, orders om oi -> OTrace om oi tr s -> forall M, smodels OC s M -> otold tr M.
Proof. intros om oi tr s [H1 H2]. exact (otold_all om oi H1 H2 tr s). Qed.
Print Assumptions C56_models_respect.
Theorem C56_nothing_more (sr : sorter) : forall om oi tr s, orders om oi -> OTrace om oi tr s -> omindful tr -> forall M, otold tr M -> exists M', (forall v, In v (vis tr) -> M' v = M v) /\ smodels OC s M'.
Proof. intros om oi tr s [H1 H2]. exact (otold_enough om oi H1 H2 tr s). Qed.
Print Assumptions C56_nothing_more.
Theorem C56_false_is_unsat (sr : sorter) : forall om oi tr s fl s', orders om oi -> OTrace om oi tr s -> omindful tr -> propagate oops fl s = Ok (s', false) -> forall M, ~ otold tr M.
Proof. intros om oi tr s fl s' [H1 H2]. exact (osolve_false om oi H1 H2 tr s fl s'). Qed.
Print Assumptions C56_false_is_unsat.
Theorem C56_rejected_clause (sr : sorter) : forall om oi tr s ls s', orders om oi -> OTrace om oi tr s -> omindful tr -> olegal s (OSat (CClause ls)) -> (forall p, In p ls -> In (lvar p) (vis tr)) ->
  new_clause s ls = Ok (s', false) -> forall M, otold tr M -> ~ mcl M ls.
Proof. intros om oi tr s ls s' [H1 H2]. exact (osolve_clause om oi H1 H2 tr s ls s'). Qed.
Print Assumptions C56_rejected_clause.
Theorem C56_total_is_solution (sr : sorter) : forall om oi tr s fl s', orders om oi -> OTrace om oi tr s -> propagate oops fl s = Ok (s', true) -> total s' -> otold tr (values s').
Proof. intros om oi tr s fl s' [H1 H2]. exact (osolve_total om oi H1 H2 tr s fl s'). Qed.
Print Assumptions C56_total_is_solution.
Theorem C56_calls_are_answered (sr : sorter) : forall om oi tr s c fl, orders om oi -> OTrace om oi tr s -> olegal s c ->
  match c with
  | OSat c => fuel_bound s c < fl
  | ONew _ true => exists M, smodels OC s M
  | OEq a b => a <> b -> exists M da db, smodels OC s M /\ dom_of tr a = Some da /\ dom_of tr b = Some db /\ compat M da db
  | _ => True
  end -> exists s' r, ocstep om oi fl s c = Ok (s', r).
Proof. intros om oi tr s c fl [H1 H2]. exact (ocall_answers om oi H1 H2 tr s c fl). Qed.
Print Assumptions C56_calls_are_answered.
(** x in {1,2,3}, y in {2,3,4}, x = y, x <> 2: only x = y = 3. *)
Definition equal : list ocall := [ONew [1; 2; 3] true; OSat CPropagate; ONew [2; 3; 4] true; OSat CPropagate; OEq 0 1; OSat (CClause [b 9]); OSat (CClause [nb 2])].
Example C56_case : OTrace om0 oi0 (oevents equal) (oafter equal) /\ omindful (oevents equal) /\
  (exists s', propagate oops 100 (oafter equal) = Ok (s', true) /\ (forall v, v < nv s' -> assigns s' v <> LUndef) /\ ov_value om0 s' (oth s') 0 = Some [3] /\ ov_value om0 s' (oth s') 1 = Some [3]) /\
  (let cs := equal ++ [OSat (CClause [nb 3])] in OTrace om0 oi0 (oevents cs) (oafter cs) /\ omindful (oevents cs) /\ exists s', propagate oops 100 (oafter cs) = Ok (s', false)).
Proof.
  split; [apply oafter_trace; vm_compute; reflexivity|]. split; [apply omindfulb_ok; vm_compute; reflexivity|]. split.
  - exists (psol (oafter equal)). split; [vm_compute; reflexivity|]. split; [apply totalb_ok; vm_compute; reflexivity|]. split; vm_compute; reflexivity.
  - cbv zeta. split; [apply oafter_trace; vm_compute; reflexivity|]. split; [apply omindfulb_ok; vm_compute; reflexivity|]. eexists. vm_compute. reflexivity.
Qed.
