(** Executable histories of a network with object variables and linear real arithmetic: used to exhibit concrete reachable states. *)
From Verif Require Import Base Keys Sat SatSpec SatInv SatMain SatApi SatNext Reify Amo Run Exec SatFacts.
From Verif Require Import Lin Qe Lra LraTab LraVal LraInv LraChk LraPro LraCon ThGrow LraNew LraCmp ThRel LraApi LraRun LraExec ThSum Ov OvInv OvEq OvRun OvLis OvExec OvStep Mix MixApi MixRun.
From Coq Require Import Lqa.
Open Scope Q_scope.
Local Arguments Nat.ltb : simpl never.
Local Arguments Nat.eqb : simpl never.

Notation mst := (st (ovs + lra)).
Notation mops0 := (sum_ops ov_ops lops0).
Notation MC0 := (sumC ov_ops lops0 ovC C0).
Definition twob (s : mst) (f : lra -> bool) : bool := match theories s with [inl _; inr t] => f t | _ => false end.
Definition mslegalb (s : mst) (c : call) : bool :=
  match c with
  | CVar | CPropagate => true
  | CClause ls | CConj ls | CDisj ls | CAmo ls | CExct ls => Nat.eqb (dlevel s) 0 && in_range s ls
  | CEq l r => Nat.eqb (dlevel s) 0 && in_range s [l; r]
  | CAssume p => nilb (prop_q s) && in_range s [p] && twob s withinb
  | CPop => negb (Nat.eqb (dlevel s) 0)
  | CCheck ls => nilb (prop_q s) && in_range s ls && twob s withinb
  | CSimplify => Nat.eqb (dlevel s) 0
  | _ => false
  end.
Definition mlegalb (s : mst) (c : mcall) : bool :=
  match c with
  | MO (OSat c) => mslegalb s c
  | MO (ONew items e) => negb (nilb items) && (negb e || Nat.eqb (dlevel s) 0)
  | MO (OLits ls vals) => negb (nilb ls) && Nat.eqb (length ls) (length vals) && in_range s ls
  | MO (OEq l r) => Nat.eqb (dlevel s) 0 && match theories s with inl o :: _ => Nat.ltb l (length (odom o)) && Nat.ltb r (length (odom o)) | _ => false end
  | MVar => true
  | MSlack l => Nat.eqb (dlevel s) 0 && twob s (fun t => slackableb t l)
  | MCmp _ _ l r => Nat.eqb (dlevel s) 0 && cleanb l && cleanb r && twob s (fun t => vbelow t (map fst (lvars l) ++ map fst (lvars r)))
  end.
Lemma min_range_ok (s : mst) ls : in_range s ls = true -> in_scope s ls.
Proof. intros H p Hp. unfold in_range in H. rewrite forallb_forall in H. apply Nat.ltb_lt, H, Hp. Qed.
Lemma twob_settled tr (s : mst) o t : mgood ord0 Hord0 fuel0 tr s o t -> twob s withinb = true -> settled MC0 s.
Proof.
  intros G H u Hu. unfold twob in H. pose proof (mg_th _ _ _ _ _ _ _ G) as Et. rewrite Et in *. destruct Hu as [<-|[<-|[]]]; [exact I|].
  destruct (h_views _ _ _ _ (i_h _ _ (g_inv _ _ (gk_good _ _ _ (mg_ok _ _ _ _ _ _ _ G)))) 1%nat (inr t)) as (vs & [HI _] & _); [rewrite Et; reflexivity|].
  exists (vals t). split; [apply (ti_val _ _ HI)|apply (withinb_ok t vs HI H)].
Qed.
Lemma mlegalb_ok tr (s : mst) o t c : mgood ord0 Hord0 fuel0 tr s o t -> mlegalb s c = true -> mlegal ord0 Hord0 fuel0 s c.
Proof.
  intros G. pose proof (mg_th _ _ _ _ _ _ _ G) as Et. assert (Hn : forall l : list lit, nilb l = true -> l = []) by (intros [|x l]; [reflexivity|discriminate]).
  destruct c as [[c|items e|ls vals|a b]| |l|sd strict l r]; cbn [mlegalb mlegal glegal].
  - destruct c; cbn [mslegalb legal]; intros H; auto; try discriminate.
    all: try (apply andb_prop in H as [H1 H2]; apply min_range_ok in H2; split; [apply Nat.eqb_eq, H1|exact H2]).
    all: try (apply andb_prop in H as [H H3]; apply andb_prop in H as [H1 H2]; split; [apply Hn, H1|split; [eapply twob_settled; eassumption|apply min_range_ok, H2]]).
    + apply negb_true_iff, Nat.eqb_neq in H. exact H.
    + apply Nat.eqb_eq, H.
  - intros H. apply andb_prop in H as [H1 H2]. split; [intros ->; discriminate H1|]. intros ->. apply Nat.eqb_eq, H2.
  - intros H. apply andb_prop in H as [H H3]. apply andb_prop in H as [H1 H2]. split; [intros ->; discriminate H1|]. split; [apply Nat.eqb_eq, H2|apply min_range_ok, H3].
  - intros H. apply andb_prop in H as [H1 H2]. split; [apply Nat.eqb_eq, H1|]. rewrite Et in H2 |- *. exists o. split; [reflexivity|]. apply andb_prop in H2 as [H2 H3]. split; apply Nat.ltb_lt; assumption.
  - auto.
  - intros H. apply andb_prop in H as [H1 H2]. split; [apply Nat.eqb_eq, H1|]. unfold twob in H2. rewrite Et in H2 |- *. exists t. split; [reflexivity|apply slackableb_ok, H2].
  - intros H. apply andb_prop in H as [H H4]. apply andb_prop in H as [H H3]. apply andb_prop in H as [H1 H2].
    split; [apply Nat.eqb_eq, H1|]. split; [apply cleanb_ok, H2|]. split; [apply cleanb_ok, H3|]. unfold twob in H4. rewrite Et in H4 |- *. exists t. split; [reflexivity|].
    intros x Hx. cbn [mlin_vars] in Hx. unfold vbelow in H4. rewrite forallb_forall in H4. apply Nat.ltb_lt, H4, Hx.
Qed.
Definition mnot_false (r : mret) : bool := match r with MR (OR (RBool false)) => false | _ => true end.
Fixpoint mrun (fl : nat) (s : mst) (tr : list mev) (cs : list mcall) : option (list mev * mst) :=
  match cs with
  | [] => Some (tr, s)
  | c :: r =>
    if mlegalb s c then
      match mstep om0 oi0 ord0 fuel0 fl s c with
      | Ok (s', x) => if mnot_false x then mrun fl s' (mk_mev c (decisions s) x :: tr) r else None
      | _ => None
      end
    else None
  end.
Notation MTrace0 := (MTrace om0 oi0 ord0 Hord0 fuel0).
Lemma mrun_trace fl : forall cs tr s tr' s', MTrace0 tr s -> mrun fl s tr cs = Some (tr', s') -> MTrace0 tr' s'.
Proof.
  induction cs as [|c r IH]; intros tr s tr' s' HT; cbn [mrun]; [intros E; inversion E; subst; exact HT|].
  destruct (mlegalb s c) eqn:El; [|discriminate]. destruct (mstep om0 oi0 ord0 fuel0 fl s c) as [[s1 x]| |] eqn:Es; try discriminate.
  destruct (mnot_false x) eqn:Ex; [|discriminate]. apply IH. destruct (mtrace_good om0 oi0 Hom0 Hoi0 ord0 Hord0 fuel0 tr s HT) as (o & t & G). eapply MT_step; [exact HT|apply (mlegalb_ok tr s o t c G El)|exact Es|].
  intros ->. discriminate.
Qed.
Definition mexec (cs : list mcall) : option (list mev * mst) := mrun 200 minit [] cs.
Definition mafter (cs : list mcall) : mst := match mexec cs with Some (_, s) => s | None => minit end.
Definition mevents (cs : list mcall) : list mev := match mexec cs with Some (tr, _) => tr | None => [] end.
Definition mruns (cs : list mcall) : bool := match mexec cs with Some _ => true | None => false end.
Lemma mafter_trace cs : mruns cs = true -> MTrace0 (mevents cs) (mafter cs).
Proof. unfold mruns, mafter, mevents. destruct (mexec cs) as [[tr s]|] eqn:E; [|discriminate]. intros _. eapply mrun_trace; [constructor|exact E]. Qed.
Definition moth (s : mst) : ovs := match theories s with inl o :: _ => o | _ => ov_empty end.
Definition mlth (s : mst) : lra := match theories s with [_; inr t] => t | _ => lra_init end.
(** Deciding whether the client has only mentioned what it knows. *)
Definition exactb (c : mcall) : bool := match c with MO (OSat (CEq _ _)) | MO (OSat (CAmo _)) | MO (OSat (CExct _)) => false | _ => true end.
Fixpoint mmindfulb (tr : list mev) : bool :=
  match tr with
  | [] => true
  | e :: r => mmindfulb r && exactb (me_call e) && forallb (fun p => memn (lvar p) (mvis r)) (mcall_lits (me_call e)) && forallb (fun p => memn (lvar p) (mvis r)) (me_decs e) && forallb (fun x => memn x (mknown r)) (mlin_vars (me_call e))
  end.
Lemma mmindfulb_ok tr : mmindfulb tr = true -> mmindful tr.
Proof.
  induction tr as [|e tr IH]; intros H; [apply mm_nil|]. cbn [mmindfulb] in H. apply andb_prop in H as [H H5]. apply andb_prop in H as [H H4]. apply andb_prop in H as [H H3]. apply andb_prop in H as [H1 H2].
  rewrite forallb_forall in H3, H4, H5. apply mm_cons.
  - apply IH, H1.
  - intros c E. rewrite E in H2. destruct c; cbn in *; try exact I; discriminate H2.
  - intros p Hp. apply memn_In, (H3 p Hp).
  - intros p Hp. apply memn_In, (H4 p Hp).
  - intros x Hx. apply memn_In, (H5 x Hx).
Qed.
