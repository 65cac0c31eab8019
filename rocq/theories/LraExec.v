(** Executable histories of a network with a linear real arithmetic theory: used to exhibit concrete
    reachable states. *)
From Verif Require Import Base Keys Sat SatSpec SatInv SatMain SatApi SatNext Reify Amo Run Exec.
From Verif Require Import Lin Qe Lra LraTab LraVal LraInv LraChk LraPro LraCon ThGrow LraNew LraCmp ThRel LraApi LraRun.
From Coq Require Import Lqa.
Open Scope Q_scope.
Local Arguments Nat.ltb : simpl never.
Local Arguments Nat.eqb : simpl never.

Definition ord0 : nat -> list nat -> list nat := fun _ l => l.
Lemma Hord0 : forall k l, Permutation l (ord0 k l).
Proof. intros. apply Permutation_refl. Qed.
(** Enough for every check to return (C57). *)
Definition fuel0 : lra -> nat := fun t => (6 ^ nx t)%nat.
Notation C0 := (lraT ord0 Hord0 fuel0).
Notation lops0 := (lra_ops ord0 fuel0).

(** Deciding the preconditions. *)
Fixpoint aboveb (v : nat) (m : qmap) : bool := match m with [] => true | (k, _) :: r => Nat.ltb v k && aboveb k r end.
Definition ascb (m : qmap) : bool := match m with [] => true | (k, _) :: r => aboveb k r end.
Definition cleanb (l : lin) : bool := ascb (lvars l) && forallb (fun e => negb (Qeq_bool (snd e) 0)) (lvars l).
Lemma aboveb_ok : forall m v, aboveb v m = true -> above v m.
Proof. induction m as [|[k c] m IH]; intros v H; cbn in *; [exact I|]. apply andb_prop in H as [A B]. split; [apply Nat.ltb_lt, A|apply IH, B]. Qed.
Lemma cleanb_ok l : cleanb l = true -> lin_clean l.
Proof.
  intros H. apply andb_prop in H as [A B]. split.
  - destruct (lvars l) as [|[k c] m]; [exact I|]. apply aboveb_ok, A.
  - intros v c Hi. rewrite forallb_forall in B. specialize (B _ Hi). cbn in B. apply negb_true_iff in B. apply Qeq_bool_neq in B. exact B.
Qed.
Definition oneb (s : st lra) (f : lra -> bool) : bool := match theories s with [t] => f t | _ => false end.
Definition vbelow (t : lra) (vs : list nat) : bool := forallb (fun v => Nat.ltb v (nx t)) vs.
Definition slackableb (t : lra) (l : lin) : bool :=
  cleanb l && negb (nilb (lvars l)) && vbelow t (map fst (lvars l)) && forallb (fun v => negb (is_basic t v)) (map fst (lvars l)).
Lemma slackableb_ok t l : slackableb t l = true -> slackable t l.
Proof.
  intros H. apply andb_prop in H as [H H5]. apply andb_prop in H as [H H4]. apply andb_prop in H as [H1 H2]. constructor.
  - apply cleanb_ok, H1.
  - intros E. rewrite E in H2. discriminate.
  - intros v Hv. apply dom_fst in Hv. unfold vbelow in H4. rewrite forallb_forall in H4, H5. split; [apply Nat.ltb_lt, H4, Hv|].
    specialize (H5 v Hv). unfold is_basic in H5. destruct (gfind v (tab t)); [discriminate|reflexivity].
Qed.
(** All the values are within their bounds. *)
Definition withinb (t : lra) : bool := forallb (fun x => negb (viol t Lo x) && negb (viol t Up x)) (seq 0 (nx t)).
Lemma withinb_ok t vs : TInv t vs -> withinb t = true -> within (cb t) (vals t).
Proof.
  intros HI H s x. destruct (le_lt_dec (nx t) x) as [Hx|Hx]; [rewrite (b_out _ _ _ (ti_b _ _ HI) s x Hx); exact I|].
  unfold withinb in H. rewrite forallb_forall in H. assert (Hi : In x (seq 0 (nx t))) by (apply in_seq; lia). specialize (H x Hi). apply andb_prop in H as [A B].
  assert (Hv : viol t s x = false) by (destruct s; apply negb_true_iff; assumption). unfold viol, bound in Hv. destruct (fst (cb t s x)) as [b|]; [|exact I]. apply negb_false_iff, sle_iff in Hv. exact Hv.
Qed.
Definition slegalb (s : st lra) (c : call) : bool :=
  match c with
  | CVar | CPropagate => true
  | CClause ls | CConj ls | CDisj ls | CAmo ls | CExct ls => Nat.eqb (dlevel s) 0 && in_range s ls
  | CEq l r => Nat.eqb (dlevel s) 0 && in_range s [l; r]
  | CAssume p => nilb (prop_q s) && in_range s [p] && oneb s withinb
  | CPop => negb (Nat.eqb (dlevel s) 0)
  | CCheck ls => nilb (prop_q s) && in_range s ls && oneb s withinb
  | CSimplify => Nat.eqb (dlevel s) 0
  | _ => false
  end.
Definition llegalb (s : st lra) (c : lcall) : bool :=
  match c with
  | LSat c => slegalb s c
  | LVar => true
  | LSlack l => Nat.eqb (dlevel s) 0 && oneb s (fun t => slackableb t l)
  | LCmp _ _ l r => Nat.eqb (dlevel s) 0 && cleanb l && cleanb r && oneb s (fun t => vbelow t (map fst (lvars l) ++ map fst (lvars r)))
  end.
Lemma in_range_ok (s : st lra) ls : in_range s ls = true -> in_scope s ls.
Proof. intros H p Hp. unfold in_range in H. rewrite forallb_forall in H. apply Nat.ltb_lt, H, Hp. Qed.
Lemma oneb_settled (s : st lra) : lgood ord0 Hord0 fuel0 s -> oneb s withinb = true -> settled C0 s.
Proof.
  intros [G (t & Et)] H u Hu. unfold oneb in H. rewrite Et in *. destruct Hu as [<-|[]].
  destruct (h_views _ _ _ _ (i_h _ _ (g_inv _ _ G)) 0%nat t) as (vs & [HI _] & _); [rewrite Et; reflexivity|].
  exists (vals t). split; [apply (ti_val _ _ HI)|apply (withinb_ok t vs HI H)].
Qed.
Lemma llegalb_ok (s : st lra) c : lgood ord0 Hord0 fuel0 s -> llegalb s c = true -> llegal ord0 Hord0 fuel0 s c.
Proof.
  intros G. assert (Hn : forall l : list lit, nilb l = true -> l = []) by (intros [|x l]; [reflexivity|discriminate]).
  destruct c as [c| |l|sd strict l r]; cbn [llegalb llegal]; [|auto| |].
  - destruct c; cbn [slegalb legal]; intros H; auto; try discriminate.
    all: try (apply andb_prop in H as [H1 H2]; apply in_range_ok in H2; split; [apply Nat.eqb_eq, H1|exact H2]).
    all: try (apply andb_prop in H as [H H3]; apply andb_prop in H as [H1 H2]; split; [apply Hn, H1|split; [apply oneb_settled; assumption|apply in_range_ok, H2]]).
    + apply negb_true_iff, Nat.eqb_neq in H. exact H.
    + apply Nat.eqb_eq, H.
  - intros H. apply andb_prop in H as [H1 H2]. split; [apply Nat.eqb_eq, H1|]. destruct G as [_ (t & Et)]. unfold oneb in H2. rewrite Et in H2. exists t. split; [exact Et|apply slackableb_ok, H2].
  - intros H. apply andb_prop in H as [H H4]. apply andb_prop in H as [H H3]. apply andb_prop in H as [H1 H2].
    split; [apply Nat.eqb_eq, H1|]. split; [apply cleanb_ok, H2|]. split; [apply cleanb_ok, H3|]. destruct G as [_ (t & Et)]. unfold oneb in H4. rewrite Et in H4. exists t. split; [exact Et|].
    intros x Hx. cbn [lvars_of] in Hx. unfold vbelow in H4. rewrite forallb_forall in H4. apply Nat.ltb_lt, H4, Hx.
Qed.

Definition lnot_false (r : lret) : bool := match r with LR (RBool false) => false | _ => true end.
Fixpoint lrun (fl : nat) (s : st lra) (tr : list levent) (cs : list lcall) : option (list levent * st lra) :=
  match cs with
  | [] => Some (tr, s)
  | c :: r =>
    if llegalb s c then
      match lstep ord0 fuel0 fl s c with
      | Ok (s', x) => if lnot_false x then lrun fl s' (mk_lev c (decisions s) x :: tr) r else None
      | _ => None
      end
    else None
  end.
Lemma lrun_trace fl : forall cs tr s tr' s', LTrace ord0 Hord0 fuel0 tr s -> lrun fl s tr cs = Some (tr', s') -> LTrace ord0 Hord0 fuel0 tr' s'.
Proof.
  induction cs as [|c r IH]; intros tr s tr' s' HT; cbn [lrun]; [intros E; inversion E; subst; exact HT|].
  destruct (llegalb s c) eqn:El; [|discriminate]. destruct (lstep ord0 fuel0 fl s c) as [[s1 x]| |] eqn:Es; try discriminate.
  destruct (lnot_false x) eqn:Ex; [|discriminate]. apply IH. eapply LT_step; [exact HT|apply llegalb_ok; [apply (ltrace_good _ _ _ _ _ HT)|exact El]|exact Es|].
  intros ->. discriminate.
Qed.
Definition lexec (cs : list lcall) : option (list levent * st lra) := lrun 100 linit [] cs.
Definition lafter (cs : list lcall) : st lra := match lexec cs with Some (_, s) => s | None => linit end.
Definition levents (cs : list lcall) : list levent := match lexec cs with Some (tr, _) => tr | None => [] end.
Definition lruns (cs : list lcall) : bool := match lexec cs with Some _ => true | None => false end.
Lemma lafter_trace cs : lruns cs = true -> LTrace ord0 Hord0 fuel0 (levents cs) (lafter cs).
Proof. unfold lruns, lafter, levents. destruct (lexec cs) as [[tr s]|] eqn:E; [|discriminate]. intros _. eapply lrun_trace; [constructor|exact E]. Qed.
(** The theory. *)
Definition lth (s : st lra) : lra := match theories s with t :: _ => t | [] => lra_init end.
Definition X (v : nat) : lin := lin_var v 1.
Definition K (q : Q) : lin := mk_lin [] q.
