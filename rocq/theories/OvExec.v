(** Executable histories of a network with object variables: used to exhibit concrete reachable states. *)
From Verif Require Import Base Keys Sat SatSpec SatInv SatMain SatApi SatNext Reify Amo Run Exec SatFacts ThSum Ov OvInv OvEq OvRun OvLis.
Local Arguments Nat.ltb : simpl never.
Local Arguments Nat.eqb : simpl never.

Definition om0 : list (nat * lit) -> list (nat * lit) := fun l => l.
Definition oi0 : list nat -> list nat := fun l => l.
Lemma Hom0 : forall m, Permutation m (om0 m).
Proof. intros. apply Permutation_refl. Qed.
Lemma Hoi0 : forall l, Permutation l (oi0 l).
Proof. intros. apply Permutation_refl. Qed.

Fixpoint odecsb (s : ost) (l : nat) (ds : list lit) : bool :=
  match ds with
  | [] => true
  | p :: r => is_true s p && Nat.eqb (level s (lvar p)) l && odecsb s (l - 1) r
  end.
Definition osatb (s : ost) (c : call) : bool :=
  match c with
  | CVar | CPropagate => true
  | CClause ls | CConj ls | CDisj ls | CAmo ls | CExct ls => Nat.eqb (dlevel s) 0 && in_range s ls
  | CEq l r => Nat.eqb (dlevel s) 0 && in_range s [l; r]
  | CAssume p => nilb (prop_q s) && in_range s [p]
  | CPop => negb (Nat.eqb (dlevel s) 0)
  | CCheck ls => nilb (prop_q s) && in_range s ls
  | CNext => odecsb s (dlevel s) (decisions s)
  | CSimplify => Nat.eqb (dlevel s) 0
  | CListen v _ => Nat.ltb v (nv s)
  end.
Definition olegalb (s : ost) (c : ocall) : bool :=
  match c with
  | OSat c => osatb s c
  | ONew items e => negb (nilb items) && (negb e || Nat.eqb (dlevel s) 0)
  | OLits ls vals => negb (nilb ls) && Nat.eqb (length ls) (length vals) && in_range s ls
  | OEq l r => Nat.eqb (dlevel s) 0 && match theories s with [inl o] => Nat.ltb l (length (odom o)) && Nat.ltb r (length (odom o)) | _ => false end
  end.
Lemma oin_range (s : ost) ls : in_range s ls = true -> in_scope s ls.
Proof. intros H p Hp. unfold in_range in H. rewrite forallb_forall in H. apply Nat.ltb_lt, H, Hp. Qed.
Lemma odecsb_ok (s : ost) : forall ds l, odecsb s l ds = true ->
  forall k p, nth_error ds k = Some p -> value s p = LTrue /\ level s (lvar p) = l - k.
Proof.
  induction ds as [|d r IH]; intros l H k p E; [destruct k; discriminate|]. cbn [odecsb] in H.
  apply andb_prop in H as [H H3]. apply andb_prop in H as [H1 H2]. destruct k as [|k]; cbn in E.
  - inversion E; subst. apply Nat.eqb_eq in H2. split; [|lia]. unfold is_true in H1. destruct (value s p); try discriminate; reflexivity.
  - destruct (IH _ H3 k p E) as [A B]. split; [exact A|lia].
Qed.
Lemma osettled (s : ost) : settled OC s.
Proof. intros [t|[]] _. exact I. Qed.
Lemma onilb {A} (l : list A) : nilb l = true -> l = [].
Proof. destruct l; [reflexivity|discriminate]. Qed.
Lemma olegalb_ok (s : ost) c : olegalb s c = true -> olegal s c.
Proof.
  destruct c as [c|items e|ls vals|a b]; cbn [olegalb olegal]; intros H.
  - destruct c; cbn [osatb legal] in *; auto;
      try (apply andb_prop in H as [H1 H2]; apply oin_range in H2);
      try (split; [apply Nat.eqb_eq, H1|exact H2]);
      try (split; [apply onilb, H1|split; [apply osettled|exact H2]]).
    + apply negb_true_iff, Nat.eqb_neq in H. exact H.
    + exact (odecsb_ok s _ _ H).
    + apply Nat.eqb_eq, H.
    + apply Nat.ltb_lt, H.
  - apply andb_prop in H as [H1 H2]. split; [intros ->; discriminate H1|]. intros ->. apply Nat.eqb_eq, H2.
  - apply andb_prop in H as [H H3]. apply andb_prop in H as [H1 H2]. split; [intros ->; discriminate H1|]. split; [apply Nat.eqb_eq, H2|apply oin_range, H3].
  - apply andb_prop in H as [H1 H2]. split; [apply Nat.eqb_eq, H1|]. destruct (theories s) as [|[o|[]] [|]]; try discriminate H2. exists o. split; [reflexivity|]. apply andb_prop in H2 as [H2 H3]. split; apply Nat.ltb_lt; assumption.
Qed.
Definition onot_false (r : oret) : bool := match r with OR (RBool false) => false | _ => true end.
Fixpoint orun (fl : nat) (s : ost) (tr : list oev) (cs : list ocall) : option (list oev * ost) :=
  match cs with
  | [] => Some (tr, s)
  | c :: r =>
    if olegalb s c then
      match ocstep om0 oi0 fl s c with
      | Ok (s', x) => if onot_false x then orun fl s' (mk_oev c (decisions s) x :: tr) r else None
      | _ => None
      end
    else None
  end.
Lemma orun_trace fl : forall cs tr s tr' s', OTrace om0 oi0 tr s -> orun fl s tr cs = Some (tr', s') -> OTrace om0 oi0 tr' s'.
Proof.
  induction cs as [|c r IH]; intros tr s tr' s' HT; cbn [orun]; [intros E; inversion E; subst; exact HT|].
  destruct (olegalb s c) eqn:El; [|discriminate]. destruct (ocstep om0 oi0 fl s c) as [[s1 x]| |] eqn:Es; try discriminate.
  destruct (onot_false x) eqn:Ex; [|discriminate]. apply IH. eapply OT_step; [exact HT|apply olegalb_ok, El|exact Es|].
  intros ->. discriminate.
Qed.
Definition oexec (cs : list ocall) : option (list oev * ost) := orun 200 oinit [] cs.
Definition oafter (cs : list ocall) : ost := match oexec cs with Some (_, s) => s | None => oinit end.
Definition oevents (cs : list ocall) : list oev := match oexec cs with Some (tr, _) => tr | None => [] end.
Definition oruns (cs : list ocall) : bool := match oexec cs with Some _ => true | None => false end.
Lemma oafter_trace cs : oruns cs = true -> OTrace om0 oi0 (oevents cs) (oafter cs).
Proof. unfold oruns, oafter, oevents. destruct (oexec cs) as [[tr s]|] eqn:E; [|discriminate]. intros _. eapply orun_trace; [constructor|exact E]. Qed.
(** The theory. *)
Definition oth (s : ost) : ovs := match theories s with inl o :: _ => o | _ => ov_empty end.
(** Deciding whether an assignment given by a list of booleans is a model. *)
Definition omodelb (s : ost) (M : nat -> bool) : bool :=
  negb (M 0) && forallb (fun c => existsb (mlit M) (cls s c)) (constrs s) &&
  forallb (fun v => match assigns s v with
                    | LUndef => true
                    | LTrue => negb (Nat.eqb (level s v) 0) || M v
                    | LFalse => negb (Nat.eqb (level s v) 0) || negb (M v)
                    end) (seq 0 (nv s)).
Lemma omodelb_ok (s : ost) M : (forall v, nv s <= v -> assigns s v = LUndef) -> omodelb s M = true -> smodels OC s M.
Proof.
  intros Ho H. unfold omodelb in H. apply andb_prop in H as [H H3]. apply andb_prop in H as [H1 H2]. rewrite forallb_forall in H2, H3.
  constructor.
  - destruct (M 0); [discriminate|reflexivity].
  - intros c Hc. specialize (H2 c Hc). apply existsb_exists in H2 as (p & A & B). exists p. auto.
  - intros [v b] Hv Hl. cbn in Hl. destruct (le_lt_dec (nv s) v) as [Hge|Hlt].
    + unfold value, vlit in Hv. cbn in Hv. rewrite (Ho v Hge) in Hv. discriminate.
    + assert (Hi : In v (seq 0 (nv s))) by (apply in_seq; lia). specialize (H3 v Hi). unfold value, vlit in Hv. cbn in Hv. unfold mlit. cbn.
      rewrite Hl in H3. cbn in H3. destruct (assigns s v), b, (M v); try discriminate; reflexivity.
  - intros [t|[]] _. exact I.
Qed.
Lemma oafter_model cs M : oruns cs = true -> omodelb (oafter cs) M = true -> smodels OC (oafter cs) M.
Proof.
  intros H. apply omodelb_ok. destruct (otrace_good om0 oi0 Hom0 Hoi0 _ _ (oafter_trace cs H)) as (o & HG). apply (t_out _ (i_t _ _ (g_inv _ _ (og_good _ _ _ HG)))).
Qed.

(** Histories with registrations. *)
Inductive lcal := LC (c : ocall) | LL (v l : nat).
Definition plain (c : ocall) : bool := match c with OSat (CListen _ _) => false | _ => true end.
Fixpoint hrun (fl : nat) (rg : list (nat * nat)) (s : ost) (cs : list lcal) : option (list (nat * nat) * ost) :=
  match cs with
  | [] => Some (rg, s)
  | LC c :: r =>
    if olegalb s c && plain c then
      match ocstep om0 oi0 fl s c with Ok (s', x) => if onot_false x then hrun fl rg s' r else None | _ => None end
    else None
  | LL v l :: r =>
    match theories s with
    | [inl o] => match ov_listen om0 s o v l with Ok s' => hrun fl (regs s o v l ++ rg) s' r | _ => None end
    | _ => None
    end
  end.
Lemma hrun_hist fl rg0 s0 : forall cs rg s rg' s', OHist om0 oi0 rg0 s0 rg s -> hrun fl rg s cs = Some (rg', s') -> OHist om0 oi0 rg0 s0 rg' s'.
Proof.
  induction cs as [|c r IH]; intros rg s rg' s' HT; cbn [hrun]; [intros E; inversion E; subst; exact HT|]. destruct c as [c|v l].
  - destruct (olegalb s c && plain c) eqn:El; [|discriminate]. apply andb_prop in El as [El Ep]. destruct (ocstep om0 oi0 fl s c) as [[s1 x]| |] eqn:Es; try discriminate.
    destruct (onot_false x) eqn:Ex; [|discriminate]. apply IH. eapply OH_call; [exact HT|intros v l K; rewrite K in Ep; discriminate Ep|apply olegalb_ok, El|exact Es|]. intros ->. discriminate.
  - destruct (theories s) as [|[o|[]] [|]] eqn:Et; try discriminate. destruct (ov_listen om0 s o v l) as [s1| |] eqn:Es; try discriminate. apply IH. eapply OH_listen; eassumption.
Qed.
Definition hexec (cs : list lcal) := hrun 200 [] oinit cs.
Definition hafter (cs : list lcal) : ost := match hexec cs with Some (_, s) => s | None => oinit end.
Definition hregs (cs : list lcal) : list (nat * nat) := match hexec cs with Some (rg, _) => rg | None => [] end.
Definition hruns (cs : list lcal) : bool := match hexec cs with Some _ => true | None => false end.
Lemma hafter_hist cs : hruns cs = true -> OHist om0 oi0 [] oinit (hregs cs) (hafter cs).
Proof. unfold hruns, hafter, hregs. destruct (hexec cs) as [[rg s]|] eqn:E; [|discriminate]. intros _. eapply hrun_hist; [constructor|exact E]. Qed.
Lemma hrun_app fl : forall cs1 cs2 rg s, hrun fl rg s (cs1 ++ cs2) = match hrun fl rg s cs1 with Some (rg', s') => hrun fl rg' s' cs2 | None => None end.
Proof.
  induction cs1 as [|[c|v l] cs1 IH]; intros cs2 rg s; cbn [app hrun]; [reflexivity| |].
  - destruct (olegalb s c && plain c); [|reflexivity]. destruct (ocstep om0 oi0 fl s c) as [[s1 x]| |]; try reflexivity. destruct (onot_false x); [apply IH|reflexivity].
  - destruct (theories s) as [|[o|[]] [|]]; try reflexivity. destruct (ov_listen om0 s o v l) as [s1| |]; try reflexivity. apply IH.
Qed.
Lemma hafter_more cs1 cs2 : hruns (cs1 ++ cs2) = true -> OHist om0 oi0 (hregs cs1) (hafter cs1) (hregs (cs1 ++ cs2)) (hafter (cs1 ++ cs2)).
Proof.
  unfold hruns, hafter, hregs, hexec. rewrite hrun_app. destruct (hrun 200 [] oinit cs1) as [[rg s]|]; [|discriminate]. destruct (hrun 200 rg s cs2) as [[rg' s']|] eqn:E; [|discriminate]. intros _. eapply hrun_hist; [constructor|exact E].
Qed.
(** Deciding [omindful]. *)
Definition exactb (c : ocall) : bool := match c with OSat (CAmo _) | OSat (CExct _) | OSat (CEq _ _) => false | _ => true end.
Fixpoint omindfulb (tr : list oev) : bool :=
  match tr with
  | [] => true
  | e :: r => omindfulb r && exactb (oe_call e) && forallb (fun p => memn (lvar p) (vis r)) (call_lits (oe_call e)) && forallb (fun p => memn (lvar p) (vis r)) (oe_decs e)
  end.
Lemma omindfulb_ok : forall tr, omindfulb tr = true -> omindful tr.
Proof.
  induction tr as [|e r IH]; cbn [omindfulb]; intros H; [constructor|]. apply andb_prop in H as [H H4]. apply andb_prop in H as [H H3]. apply andb_prop in H as [H1 H2]. rewrite forallb_forall in H3, H4. constructor.
  - apply IH, H1.
  - intros c E. rewrite E in H2. destruct c; cbn in *; try discriminate; exact I.
  - intros p Hp. apply memn_In, H3, Hp.
  - intros p Hp. apply memn_In, H4, Hp.
Qed.
