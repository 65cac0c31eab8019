(** Executable histories of a core without theories: used to exhibit concrete reachable states. *)
From Verif Require Import Base Keys Sat SatSpec SatInv SatMain SatApi SatNext Stack Reify Amo Run Listen StackLis StackRun.
(** Concrete runs use this sort; in a statement with a [sorter] of its own that one is meant. *)
#[export] Existing Instance stable_sort | 100.

Definition nilb {A} (l : list A) : bool := match l with [] => true | _ => false end.
Fixpoint decs_okb (s : st Empty_set) (l : nat) (ds : list lit) : bool :=
  match ds with
  | [] => true
  | p :: r => is_true s p && (level s (lvar p) =? l) && decs_okb s (l - 1) r
  end.
Definition legalb (s : st Empty_set) (c : call) : bool :=
  match c with
  | CVar | CPropagate => true
  | CClause ls | CConj ls | CDisj ls | CAmo ls | CExct ls => (dlevel s =? 0) && in_range s ls
  | CEq l r => (dlevel s =? 0) && in_range s [l; r]
  | CAssume p => nilb (prop_q s) && in_range s [p]
  | CPop => negb (dlevel s =? 0)
  | CCheck ls => nilb (prop_q s) && in_range s ls
  | CNext => decs_okb s (dlevel s) (decisions s)
  | CSimplify => dlevel s =? 0
  | CListen v _ => v <? nv s
  end.
Lemma in_range_scope (s : st Empty_set) ls : in_range s ls = true -> in_scope s ls.
Proof. intros H p Hp. unfold in_range in H. rewrite forallb_forall in H. apply Nat.ltb_lt, H, Hp. Qed.
Lemma decs_okb_ok (s : st Empty_set) : forall ds l, decs_okb s l ds = true ->
  forall k p, nth_error ds k = Some p -> value s p = LTrue /\ level s (lvar p) = l - k.
Proof.
  induction ds as [|d r IH]; intros l H k p E; [destruct k; discriminate|]. cbn [decs_okb] in H.
  apply andb_prop in H as [H H3]. apply andb_prop in H as [H1 H2]. destruct k as [|k]; cbn in E.
  - inversion E; subst. apply Nat.eqb_eq in H2. split; [|lia]. unfold is_true in H1. destruct (value s p); try discriminate; reflexivity.
  - destruct (IH _ H3 k p E) as [A B]. split; [exact A|lia].
Qed.
Lemma legalb_ok (s : st Empty_set) c : legalb s c = true -> legal pureC s c.
Proof.
  assert (Hn : forall l : list lit, nilb l = true -> l = []) by (intros [|x l]; [reflexivity|discriminate]).
  destruct c; cbn [legalb legal]; intros H; auto;
    try (apply andb_prop in H as [H1 H2]; apply in_range_scope in H2);
    try (split; [apply Nat.eqb_eq, H1|exact H2]);
    try (split; [apply Hn, H1|split; [apply pure_settled|exact H2]]).
  - apply negb_true_iff, Nat.eqb_neq in H. exact H.
  - exact (decs_okb_ok s _ _ H).
  - apply Nat.eqb_eq, H.
  - apply Nat.ltb_lt, H.
Qed.
Definition not_false (r : ret) : bool := match r with RBool false => false | _ => true end.
(** Runs legal calls none of which answers [false]. *)
Fixpoint run (fuel : nat) (s : st Empty_set) (tr : list event) (cs : list call) : option (list event * st Empty_set) :=
  match cs with
  | [] => Some (tr, s)
  | c :: r =>
    if legalb s c then
      match step (ops := pure_ops) fuel s c with
      | Ok (s', x) => if not_false x then run fuel s' (mk_ev c (decisions s) x :: tr) r else None
      | _ => None
      end
    else None
  end.
Lemma run_trace fuel s0 : forall cs tr s tr' s', Trace pureC s0 tr s -> run fuel s tr cs = Some (tr', s') -> Trace pureC s0 tr' s'.
Proof.
  induction cs as [|c r IH]; intros tr s tr' s' HT; cbn [run]; [intros E; inversion E; subst; exact HT|].
  destruct (legalb s c) eqn:El; [|discriminate]. destruct (step fuel s c) as [[s1 x]| |] eqn:Es; try discriminate.
  destruct (not_false x) eqn:Ex; [|discriminate]. apply IH. eapply T_step; [exact HT|apply legalb_ok, El|exact Es|].
  intros ->. discriminate.
Qed.
Definition exec (cs : list call) : option (list event * st Empty_set) := run 200 pinit [] cs.
Lemma exec_trace cs tr s : exec cs = Some (tr, s) -> Trace pureC pinit tr s.
Proof. apply run_trace. constructor. Qed.
Lemma exec_reach cs tr s : exec cs = Some (tr, s) -> Reach pureC pinit s.
Proof. intros H. eapply trace_reach, exec_trace, H. Qed.
(** The state after a run (the initial one if the run is not possible). *)
Definition after (cs : list call) : st Empty_set := match exec cs with Some (_, s) => s | None => pinit end.
Definition runs (cs : list call) : bool := match exec cs with Some _ => true | None => false end.
Lemma after_reach cs : runs cs = true -> Reach pureC pinit (after cs).
Proof. unfold runs, after. destruct (exec cs) as [[tr s]|] eqn:E; [|discriminate]. intros _. eapply exec_reach, E. Qed.

(** Deciding whether an assignment given by a list of booleans is a model. *)
Definition asg (l : list bool) : nat -> bool := fun v => nth v l false.
Definition modelb (s : st Empty_set) (M : nat -> bool) : bool :=
  negb (M 0) && forallb (fun c => existsb (mlit M) (cls s c)) (constrs s) &&
  forallb (fun v => match assigns s v with
                    | LUndef => true
                    | LTrue => negb (level s v =? 0) || M v
                    | LFalse => negb (level s v =? 0) || negb (M v)
                    end) (seq 0 (nv s)).
Lemma modelb_ok (s : st Empty_set) M : (forall v, nv s <= v -> assigns s v = LUndef) -> modelb s M = true -> smodels pureC s M.
Proof.
  intros Ho H. unfold modelb in H. apply andb_prop in H as [H H3]. apply andb_prop in H as [H1 H2]. rewrite forallb_forall in H2, H3.
  constructor.
  - destruct (M 0); [discriminate|reflexivity].
  - intros c Hc. specialize (H2 c Hc). apply existsb_exists in H2 as (p & A & B). exists p. auto.
  - intros [v b] Hv Hl. cbn in Hl. destruct (le_lt_dec (nv s) v) as [Hge|Hlt].
    + unfold value, vlit in Hv. cbn in Hv. rewrite (Ho v Hge) in Hv. discriminate.
    + assert (Hi : In v (seq 0 (nv s))) by (apply in_seq; lia). specialize (H3 v Hi). unfold value, vlit in Hv. cbn in Hv. unfold mlit. cbn.
      rewrite Hl in H3. cbn in H3. destruct (assigns s v), b, (M v); try discriminate; reflexivity.
  - intros t. destruct t.
Qed.
Lemma reach_model cs M : runs cs = true -> modelb (after cs) M = true -> smodels pureC (after cs) M.
Proof.
  intros H. apply modelb_ok. apply (t_out _ (i_t _ _ (g_inv _ _ (reach_good pureC _ _ pinit_good (after_reach cs H))))).
Qed.

(** Histories with registrations of listeners: [inr (v, l)]. *)
Fixpoint hist (s : st Empty_set) (rg : list (nat * nat)) (cs : list (call + nat * nat)) : option (list (nat * nat) * st Empty_set) :=
  match cs with
  | [] => Some (rg, s)
  | inl c :: r =>
    if match c with CListen _ _ => true | _ => false end then None
    else match step (ops := pure_ops) 200 s c with Ok (s', _) => hist s' rg r | _ => None end
  | inr (v, l) :: r =>
    match listen s v l with
    | Ok s' => if lbool_eqb (assigns s v) LUndef then hist s' ((l, v) :: rg) r else hist s' rg r
    | _ => None
    end
  end.
Lemma hist_ok s0 : forall cs s rg rg' s', LHist (ops := pure_ops) s0 rg s -> hist s rg cs = Some (rg', s') -> LHist (ops := pure_ops) s0 rg' s'.
Proof.
  induction cs as [|[c|[v l]] cs IH]; intros s rg rg' s' H E; cbn [hist] in E.
  - inversion E; subst; exact H.
  - assert (Hc : forall v l, c <> CListen v l) by (intros v l Ec; rewrite Ec in E; discriminate E).
    destruct (match c with CListen _ _ => true | _ => false end); [discriminate E|].
    destruct (step (ops := pure_ops) 200 s c) as [[s1 r]| |] eqn:Es; [|discriminate E|discriminate E].
    apply (IH s1 rg rg' s'); [eapply LH_call; eassumption|exact E].
  - destruct (listen s v l) as [s1| |] eqn:Es; try discriminate. destruct (lbool_eqb_spec (assigns s v) LUndef) as [Eu|Eu].
    + eapply IH; [|exact E]. apply (LH_listen _ _ s); assumption.
    + eapply IH; [|exact E]. apply (LH_late _ _ s v l); assumption.
Qed.
Lemma reach_stack s : Reach pureC pinit s -> SReach [s].
Proof.
  induction 1 as [|fuel s c s' r H IH L E A]; [apply SR_init|]. eapply SR_step; [exact IH|]. apply (sok_call fuel s [] c s' r); assumption.
Qed.

(** Histories of a stack with listeners. *)
Inductive sev := EvCall (c : call) | EvListen (v l : nat) | EvPush | EvPop.
Fixpoint shist rgs dr (k : list (st Empty_set)) (es : list sev) : option (list (list (nat * nat)) * list (nat * nat) * list (st Empty_set)) :=
  match es with
  | [] => Some (rgs, dr, k)
  | e :: es =>
    match e, k, rgs with
    | EvCall (CListen _ _), _, _ => None
    | EvCall c, s :: r, _ => match step (ops := pure_ops) 200 s c with Ok (s', _) => shist rgs dr (s' :: r) es | _ => None end
    | EvListen v l, s :: r, rg :: rgs' =>
      match listen s v l with
      | Ok s' => if lbool_eqb (assigns s v) LUndef then if in_dec pair_dec (l, v) dr then None else shist (((l, v) :: rg) :: rgs') dr (s' :: r) es else shist rgs dr (s' :: r) es
      | _ => None
      end
    | EvPush, _, rg :: rgs' => match stack_push pure_ops 200 k with Ok k' => shist (rg :: rg :: rgs') dr k' es | _ => None end
    | EvPop, _, rg :: rg0 :: rgs' => match stack_pop pure_ops k with Ok k' => shist (rg0 :: rgs') (filter (fun e => if in_dec pair_dec e rg0 then false else true) rg ++ dr) k' es | _ => None end
    | _, _, _ => None
    end
  end.
Lemma shist_ok : forall es rgs dr k, SLHist (ops := pure_ops) rgs dr k -> forall rgs' dr' k', shist rgs dr k es = Some (rgs', dr', k') -> SLHist (ops := pure_ops) rgs' dr' k'.
Proof.
  induction es as [|e es IH]; intros rgs dr k H rgs' dr' k' E; cbn [shist] in E; [congruence|]. destruct e as [c|v l| |].
  - destruct k as [|s r]; [destruct c; discriminate E|].
    assert (Hc : forall v l, c <> CListen v l) by (intros v l Ec; rewrite Ec in E; discriminate E).
    assert (E' : match step (ops := pure_ops) 200 s c with Ok (s', _) => shist rgs dr (s' :: r) es | _ => None end = Some (rgs', dr', k')) by (destruct c; try exact E; discriminate E). clear E.
    destruct (step (ops := pure_ops) 200 s c) as [[s1 x]| |] eqn:Es; [|discriminate E'|discriminate E']. eapply IH; [|exact E']. eapply SL_call; eassumption.
  - destruct k as [|s r]; [discriminate E|]. destruct rgs as [|rg rgs]; [discriminate E|]. destruct (listen s v l) as [s1| |] eqn:El; [|discriminate E|discriminate E].
    destruct (lbool_eqb_spec (assigns s v) LUndef) as [Eu|Eu].
    + destruct (in_dec pair_dec (l, v) dr) as [Hd|Hd]; [discriminate E|]. eapply IH; [|exact E]. eapply SL_listen; eassumption.
    + eapply IH; [|exact E]. eapply SL_late; eassumption.
  - destruct rgs as [|rg rgs]; [discriminate E|]. destruct (stack_push pure_ops 200 k) as [k1| |] eqn:Ek; [|discriminate E|discriminate E]. eapply IH; [|exact E]. eapply SL_push; eassumption.
  - destruct rgs as [|rg [|rg0 rgs]]; [discriminate E..|]. destruct (stack_pop pure_ops k) as [k1| |] eqn:Ek; [|discriminate E|discriminate E]. eapply IH; [|exact E]. eapply SL_pop; eassumption.
Qed.
