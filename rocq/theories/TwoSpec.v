(** What root-level histories of a network with an idl_theory or an rdl_theory and an lra_theory on one core state, in terms of integers and
    rationals; executable histories. *)
From Verif Require Import Base Keys Sat SatSpec SatInv SatMain SatApi SatApi2 Run SatFacts Lin Qe Lra LraInv LraNew LraCmp LraApi LraRun LraEnd LraExec ThSum.
From Verif Require Import Dw Dl DlClo DlTight DlTh DlFacts DlApi DlSpec DlQ MapTh DlRoot DlNet DlTrace DlRSpec Two TwoApi TwoNet TwoTrace.
From Coq Require Import Lqa.
Open Scope nat_scope.
Section Srt.
Context {sr : sorter}.

(** ** Integers.  The last case of idl_theory::new_gt: idl_theory.cpp:291 *)
Definition zlast2 : st (dl Z + lra) -> nat -> nat -> nat -> Z -> res (st (dl Z + lra) * lit) := fun s i v v1 k => tw_distance2 Zw s i v v1 k (-1)%Z.
(** What a call that returned [r] says about the assignment [M] to the propositional variables, [y] to the variables of the difference logic theory and
    [z] to those of the arithmetic theory. *)
Definition za_said (c : @acall Z) (r : aret) (M : nat -> bool) (y : nat -> Z) (z : nat -> Q) : Prop :=
  match c, r with
  | AD c, AR r => z_said c r M y
  | ASlack l, AX x => (z x == lval z l)%Q
  | ACmp sd strict l r, AP p => mlit M p = true <-> cmpP sd strict (lval z l) (lval z r)
  | _, _ => True
  end.
Definition za_stated (tr : list aev) (M : nat -> bool) (y : nat -> Z) (z : nat -> Q) : Prop := M 0 = false /\ y 0 = 0%Z /\ forall e, In e tr -> za_said (ae_call e) (ae_ret e) M y z.
(** The literal that stands for a constraint, and the constraint. *)
Definition za_cond (e : @aev Z) : option (lit * ((nat -> Z) -> (nat -> Q) -> Prop)) :=
  match ae_call e, ae_ret e with
  | AD (DDist from to w), AR (DP p) => Some (p, fun y _ => (y to - y from <= w)%Z)
  | AD (DCmp DEq _ _), AR (DP _) => None
  | AD (DCmp r e1 e2), AR (DP p) => Some (p, fun y _ => rel_holds r (lval (zq y) e1) (lval (zq y) e2))
  | ACmp sd strict l r, AP p => Some (p, fun _ z => cmpP sd strict (lval z l) (lval z r))
  | _, _ => None
  end.
Lemma za_said_iff c r M (y : nat -> Q) yz z : (forall v, y v == inject_Z (yz v))%Q -> (asaid ZL c r M y z <-> za_said c r M yz z).
Proof. intros H. destruct c as [c| |l|sd strict l k], r as [r|x|p]; cbn [asaid za_said]; try tauto. apply z_said_iff, H. Qed.
Lemma za_stated_of tr M y z : za_stated tr M y z -> astated ZL tr M (zq y) z.
Proof.
  intros (A & B & C). split; [exact A|]. split; [apply zq_ok|]. split; [unfold zq; rewrite B; reflexivity|]. intros e He. apply (za_said_iff _ _ M (zq y) y z); [intros v; reflexivity|apply C, He].
Qed.
Lemma stated_za tr M y yz z : (forall v, y v == inject_Z (yz v))%Q -> astated ZL tr M y z -> za_stated tr M yz z.
Proof.
  intros H (A & _ & B & C). split; [exact A|]. split; [rewrite H in B; unfold Qeq, inject_Z in B; cbn in B; lia|]. intros e He. apply (za_said_iff _ _ M y yz z H), C, He.
Qed.
Lemma za_cond_acon e p P : za_cond e = Some (p, P) -> exists P', acon ZL e = Some (p, P') /\ forall y yz z, (forall v, y v == inject_Z (yz v))%Q -> (P' y z <-> P yz z).
Proof.
  assert (Hr : forall r y yz, (forall v, y v == inject_Z (yz v))%Q -> forall e1 e2, rel_holds r (lval y e1) (lval y e2) <-> rel_holds r (lval (zq yz) e1) (lval (zq yz) e2)) by (intros r y yz H e1 e2; split; apply rel_ext; apply lval_ext; unfold zq; intros v; rewrite H; reflexivity).
  unfold za_cond, acon. destruct (ae_call e) as [[c0| |from to w|from to mn mx|r1 e1 e2]| |l|sd strict l k], (ae_ret e) as [[r0|x0|p0|]|x0|p0]; try discriminate; try (destruct r1; discriminate); intros E.
  - injection E as <- <-. eexists. split; [reflexivity|]. intros y yz z H. rewrite <- z_wsat; split; apply wsat_eq; rewrite !H; reflexivity.
  - destruct r1; try discriminate E; injection E as <- <-; (eexists; split; [reflexivity|]); intros y yz z H; first [exact (Hr DLt y yz H e1 e2)|exact (Hr DLeq y yz H e1 e2)|exact (Hr DGeq y yz H e1 e2)|exact (Hr DGt y yz H e1 e2)].
  - injection E as <- <-. eexists. split; [reflexivity|]. reflexivity.
Qed.
(** ** Rationals.  The last case of rdl_theory::new_gt: rdl_theory.cpp:275 *)
Definition qlast2 : st (dl qe + lra) -> nat -> nat -> nat -> qe -> res (st (dl qe + lra) * lit) := fun s i v v1 k => tw_distance Qw s i v v1 (wadd Qw k (wneg Qw (wunit Qw))).
Definition qa_said (c : @acall qe) (r : aret) (M : nat -> bool) (y z : nat -> Q) : Prop :=
  match c, r with
  | AD c, AR r => q_said c r M y
  | ASlack l, AX x => (z x == lval z l)%Q
  | ACmp sd strict l r, AP p => mlit M p = true <-> cmpP sd strict (lval z l) (lval z r)
  | _, _ => True
  end.
Definition qa_stated (tr : list aev) (M : nat -> bool) (y z : nat -> Q) : Prop := M 0 = false /\ (y O == 0)%Q /\ forall e, In e tr -> qa_said (ae_call e) (ae_ret e) M y z.
Definition qa_cond (e : @aev qe) : option (lit * ((nat -> Q) -> (nat -> Q) -> Prop)) :=
  match ae_call e, ae_ret e with
  | AD (DDist from to w), AR (DP p) => Some (p, fun y _ => q_under (y to - y from)%Q w)
  | AD (DCmp DEq _ _), AR (DP _) => None
  | AD (DCmp r e1 e2), AR (DP p) => Some (p, fun y _ => rel_holds r (lval y e1) (lval y e2))
  | ACmp sd strict l r, AP p => Some (p, fun _ z => cmpP sd strict (lval z l) (lval z r))
  | _, _ => None
  end.
Lemma qa_said_iff c r M y z : asaid QL c r M y z <-> qa_said c r M y z.
Proof. destruct c as [c| |l|sd strict l k], r as [r|x|p]; cbn [asaid qa_said]; try tauto. apply q_said_iff. Qed.
Lemma qa_stated_iff tr M y z : astated QL tr M y z <-> qa_stated tr M y z.
Proof.
  split.
  - intros (A & _ & B & C). split; [exact A|]. split; [exact B|]. intros e He. apply qa_said_iff, C, He.
  - intros (A & B & C). split; [exact A|]. split; [apply q_vals|]. split; [exact B|]. intros e He. apply qa_said_iff, C, He.
Qed.
Lemma qa_cond_acon e p P : qa_cond e = Some (p, P) -> exists P', acon QL e = Some (p, P') /\ forall y z, P' y z <-> P y z.
Proof.
  unfold qa_cond, acon. destruct (ae_call e) as [[c0| |from to w|from to mn mx|r1 e1 e2]| |l|sd strict l k], (ae_ret e) as [[r0|x0|p0|]|x0|p0]; try discriminate; try (destruct r1; discriminate); intros E.
  - injection E as <- <-. eexists. split; [reflexivity|]. intros y z. apply q_wsat.
  - destruct r1; try discriminate E; injection E as <- <-; (eexists; split; [reflexivity|]); reflexivity.
  - injection E as <- <-. eexists. split; [reflexivity|]. reflexivity.
Qed.
End Srt.
(** The machines. *)
Notation zastep ord fuel := (astep (W := Zw) zlast2 ord fuel).
Notation ZATrace := (ATrace (W := Zw) ZL zlast2).
Notation qastep ord fuel := (astep (W := Qw) qlast2 ord fuel).
Notation QATrace := (ATrace (W := Qw) QL qlast2).

(** ** Executable histories. *)
Section Exec.
Context {sr : sorter}.
Context {D : Type} {W : wops D} (L : wlaws W) (last : st (dl D + lra) -> nat -> nat -> nat -> D -> res (st (dl D + lra) * lit)).
Context (wc : D -> bool) (Hwc : forall w, wc w = true -> wcon L w) (gtb : bool) (Hgt : gtb = true -> forall s i v v1 k, last s i v v1 k = tw_distance W s i v v1 (wadd W k (wneg W (wunit W)))).
Definition rlegalb2 (s : st (dl D + lra)) (c : call) : bool :=
  match c with
  | CAssume _ | CPop | CCheck _ => false
  | CClause ls | CConj ls | CDisj ls | CAmo ls | CExct ls => in_range s ls
  | CEq l r => in_range s [l; r]
  | CListen v _ => Nat.ltb v (nv s)
  | CVar | CPropagate | CNext | CSimplify => true
  end.
Definition alegalb (s : st (dl D + lra)) (c : @acall D) : bool :=
  match theories s with
  | [inl t; inr u] =>
    match c with
    | AD (DSat c) => rlegalb2 s c
    | AD DVar => true
    | AD (DDist from to w) => wc w && (Nat.ltb from (nvars t) && Nat.ltb to (nvars t))
    | AD (DDist2 from to mn mx) => wc (wneg W mn) && wc mx && (Nat.ltb from (nvars t) && Nat.ltb to (nvars t))
    | AD (DCmp r e1 e2) => cleanb e1 && cleanb e2 && forallb (fun e => Nat.ltb (fst e) (nvars t)) (lvars e1 ++ lvars e2) &&
        match r with DGt => gtb || match dl_form W (lin_sub e1 e2) with Some (DTwo false _ _ _) => false | _ => true end | _ => true end
    | AVar => true
    | ASlack l => slackableb u l
    | ACmp _ _ l r => cleanb l && cleanb r && vbelow u (map fst (lvars l) ++ map fst (lvars r))
    end
  | _ => false
  end.
Lemma alegalb_ok s c : alegalb s c = true -> alegal L last s c.
Proof.
  unfold alegalb. destruct (theories s) as [|[t|u] [|[t'|u'] [|]]] eqn:Et; try discriminate.
  assert (Hr : forall ls, in_range s ls = true -> in_scope s ls) by (intros ls H p Hp; unfold in_range in H; rewrite forallb_forall in H; apply Nat.ltb_lt, H, Hp).
  assert (E0 : nth_error (theories s) 0 = Some (inl t)) by (rewrite Et; reflexivity). assert (E1 : nth_error (theories s) 1 = Some (inr u')) by (rewrite Et; reflexivity).
  destruct c as [[c| |from to w|from to mn mx|r e1 e2]| |l|sd strict l k]; cbn [alegal tlegal]; intros H; try exact Logic.I.
  - destruct c; cbn in *; auto; try discriminate. apply Nat.ltb_lt, H.
  - apply andb_prop in H as [H1 H2]. apply andb_prop in H2 as [H2 H3]. split; [apply Hwc, H1|]. exists t. split; [exact E0|]. split; apply Nat.ltb_lt; assumption.
  - apply andb_prop in H as [H1 H2]. apply andb_prop in H2 as [H2 H3]. apply andb_prop in H1 as [H1 H1']. split; [apply Hwc, H1|]. split; [apply Hwc, H1'|]. exists t. split; [exact E0|]. split; apply Nat.ltb_lt; assumption.
  - apply andb_prop in H as [H H4]. apply andb_prop in H as [H H3]. apply andb_prop in H as [H1 H2]. rewrite forallb_forall in H3. split; [apply cleanb_ok, H1|]. split; [apply cleanb_ok, H2|]. split.
    + exists t. split; [exact E0|]. split; intros x Hx; apply in_map_iff in Hx as (e & <- & He); apply Nat.ltb_lt, H3, in_or_app; auto.
    + intros ->. apply orb_prop in H4 as [H4|H4]; [left; apply Hgt, H4|right]. intros v v1 k E. rewrite E in H4. discriminate.
  - exists u'. split; [exact E1|apply slackableb_ok, H].
  - apply andb_prop in H as [H H3]. apply andb_prop in H as [H1 H2]. split; [apply cleanb_ok, H1|]. split; [apply cleanb_ok, H2|]. exists u'. split; [exact E1|].
    intros x Hx. cbn [alin_vars] in Hx. unfold vbelow in H3. rewrite forallb_forall in H3. apply Nat.ltb_lt, H3, Hx.
Qed.
Definition anot_false (r : aret) : bool := match r with AR (DR (RBool false)) => false | _ => true end.
Fixpoint arun (s : st (dl D + lra)) (cs : list (@acall D)) (tr : list (@aev D)) : option (st (dl D + lra) * list (@aev D)) :=
  match cs with
  | [] => Some (s, tr)
  | c :: r => if alegalb s c then match astep (W := W) last ord0 fuel0 1000 s c with Ok (s', x) => if anot_false x then arun s' r (mk_aev c x :: tr) else None | _ => None end else None
  end.
Notation AT0 := (ATrace (W := W) L last ord0 Hord0 fuel0).
Lemma arun_ok size : forall cs s tr s' tr', AT0 size tr s -> arun s cs tr = Some (s', tr') -> AT0 size tr' s'.
Proof.
  induction cs as [|c cs IH]; intros s tr s' tr' HT; cbn [arun]; [intros E; injection E as <- <-; exact HT|]. destruct (alegalb s c) eqn:El; [|discriminate]. destruct (astep last ord0 fuel0 1000 s c) as [[s1 x]| |] eqn:E; try discriminate.
  destruct (anot_false x) eqn:Ex; [|discriminate]. apply IH. apply (AT_step L last ord0 Hord0 fuel0 size 1000 tr s c s1 x HT (alegalb_ok _ _ El) E). intros ->. discriminate Ex.
Qed.
Definition aexec (size : nat) (cs : list (@acall D)) := arun (ainit (W := W) size) cs [].
Definition aafter (size : nat) (cs : list (@acall D)) : st (dl D + lra) := match aexec size cs with Some (s, _) => s | None => ainit (W := W) size end.
Definition aevs (size : nat) (cs : list (@acall D)) : list (@aev D) := match aexec size cs with Some (_, tr) => tr | None => [] end.
Definition aruns (size : nat) (cs : list (@acall D)) : bool := match aexec size cs with Some _ => true | None => false end.
Lemma aafter_ok size cs : aruns size cs = true -> AT0 size (aevs size cs) (aafter size cs).
Proof. unfold aruns, aafter, aevs. destruct (aexec size cs) as [[s tr]|] eqn:E; [|discriminate]. intros _. apply (arun_ok size cs _ _ _ _ (AT_init L last ord0 Hord0 fuel0 size) E). Qed.
Definition aexactb (c : @acall D) : bool := match c with AD (DSat (CAmo _)) | AD (DSat (CExct _)) | AD (DSat (CEq _ _)) | AD (DDist2 _ _ _ _) | AD (DCmp DEq _ _) => false | _ => true end.
Fixpoint amindfulb (tr : list (@aev D)) : bool :=
  match tr with [] => true | e :: r => amindfulb r && aexactb (ae_call e) && forallb (fun x => memn x (aknown r)) (alin_vars (ae_call e)) end.
Lemma amindfulb_ok tr : amindfulb tr = true -> amindful tr.
Proof.
  induction tr as [|e tr IH]; intros H; [apply am_nil|]. cbn [amindfulb] in H. apply andb_prop in H as [H H3]. apply andb_prop in H as [H1 H2]. apply am_cons.
  - apply IH, H1.
  - destruct (ae_call e) as [[[]| | | |[]]| | |]; cbn in *; try exact Logic.I; discriminate H2.
  - intros x Hx. rewrite forallb_forall in H3. apply memn_In, (H3 x Hx).
Qed.
End Exec.
