(** What root-level histories of a network with idl_theory or rdl_theory state, in terms of integers and rationals; executable histories. *)
From Verif Require Import Base Keys Sat SatSpec SatInv SatMain SatApi SatApi2 Run SatFacts Lin LraExec Qe Dw Dl DlClo DlTight DlTh DlFacts DlApi DlSpec DlQ DlNet DlTrace.
From Coq Require Import Lqa.
Open Scope nat_scope.
Section Srt.
Context {sr : sorter}.

(** ** Integers.  The last case of idl_theory::new_gt: idl_theory.cpp:291 *)
Definition zlast : st (dl Z) -> nat -> nat -> nat -> Z -> res (st (dl Z) * lit) := fun s i v v1 k => new_distance2 Zw s i v v1 k (-1)%Z.
Definition zstep : nat -> st (dl Z) -> dcall -> res (st (dl Z) * dret) := dcstep (W := Zw) zlast.
Definition ZTrace : nat -> list devent -> st (dl Z) -> Prop := DTrace ZL zlast.
(** What a call that returned [r] says about the assignment [M] to the propositional variables and [y] to the numeric variables. *)
Definition z_said (c : dcall) (r : dret) (M : nat -> bool) (y : nat -> Z) : Prop :=
  match c, r with
  | DSat c, DR r => said c [] r M
  | DDist from to w, DP p => mlit M p = true <-> (y to - y from <= w)%Z
  | DDist2 from to mn mx, DP p => mlit M p = true <-> (mn <= y to - y from <= mx)%Z
  | DCmp r e1 e2, DP p => mlit M p = true <-> rel_holds r (lval (zq y) e1) (lval (zq y) e2)
  | _, _ => True
  end.
Definition z_stated (tr : list devent) (M : nat -> bool) (y : nat -> Z) : Prop := M 0 = false /\ y 0 = 0%Z /\ forall e, In e tr -> z_said (de_call e) (de_ret e) M y.
(** The literal that stands for a constraint, and the constraint. *)
Definition z_cond (e : devent) : option (lit * ((nat -> Z) -> Prop)) :=
  match de_call e, de_ret e with
  | DDist from to w, DP p => Some (p, fun y => (y to - y from <= w)%Z)
  | DCmp DLt e1 e2, DP p => Some (p, fun y => (lval (zq y) e1 < lval (zq y) e2)%Q)
  | DCmp DLeq e1 e2, DP p => Some (p, fun y => (lval (zq y) e1 <= lval (zq y) e2)%Q)
  | DCmp DGeq e1 e2, DP p => Some (p, fun y => (lval (zq y) e2 <= lval (zq y) e1)%Q)
  | DCmp DGt e1 e2, DP p => Some (p, fun y => (lval (zq y) e2 < lval (zq y) e1)%Q)
  | _, _ => None
  end.
Lemma msum_ext (y z : nat -> Q) : (forall v, y v == z v)%Q -> forall m, (msum y m == msum z m)%Q.
Proof. intros H. induction m as [|[v c] m IH]; cbn [msum]; [reflexivity|]. rewrite (H v), IH. reflexivity. Qed.
Lemma lval_ext (y z : nat -> Q) e : (forall v, y v == z v)%Q -> (lval y e == lval z e)%Q.
Proof. intros H. unfold lval. rewrite (msum_ext y z H). reflexivity. Qed.
Lemma rel_ext r a b a' b' : (a == a')%Q -> (b == b')%Q -> rel_holds r a b -> rel_holds r a' b'.
Proof. intros E1 E2. destruct r; cbn; lra. Qed.
Lemma z_said_iff c r M (y : nat -> Q) z : (forall v, y v == inject_Z (z v))%Q -> (dsaid ZL c r M y <-> z_said c r M z).
Proof.
  intros H. destruct c as [c| |from to w|from to mn mx|rl e1 e2], r; cbn [dsaid z_said]; try tauto.
  - assert (E : wsat ZL w (y to - y from)%Q <-> (z to - z from <= w)%Z) by (rewrite <- z_wsat; split; apply wsat_eq; rewrite !H; reflexivity). rewrite E. reflexivity.
  - assert (E : wsat ZL (wneg Zw mn) (y from - y to)%Q <-> (z from - z to <= - mn)%Z) by (rewrite <- z_wsat; split; apply wsat_eq; rewrite !H; reflexivity).
    assert (E' : wsat ZL mx (y to - y from)%Q <-> (z to - z from <= mx)%Z) by (rewrite <- z_wsat; split; apply wsat_eq; rewrite !H; reflexivity). rewrite E, E'. assert (K : (z from - z to <= - mn)%Z <-> (mn <= z to - z from)%Z) by lia. rewrite K. reflexivity.
  - assert (E : rel_holds rl (lval y e1) (lval y e2) <-> rel_holds rl (lval (zq z) e1) (lval (zq z) e2)) by (split; apply rel_ext; apply lval_ext; unfold zq; intros v; rewrite H; reflexivity). rewrite E. reflexivity.
Qed.
Lemma z_stated_of tr M z : z_stated tr M z -> dstated ZL tr M (zq z).
Proof.
  intros (A & B & C). split; [exact A|]. split; [apply zq_ok|]. split; [unfold zq; rewrite B; reflexivity|]. intros e He. apply (z_said_iff _ _ M (zq z) z); [intros v; reflexivity|apply C, He].
Qed.
Lemma stated_z tr M y z : (forall v, y v == inject_Z (z v))%Q -> dstated ZL tr M y -> z_stated tr M z.
Proof.
  intros H (A & _ & B & C). split; [exact A|]. split; [rewrite H in B; unfold Qeq, inject_Z in B; cbn in B; lia|]. intros e He. apply (z_said_iff _ _ M y z H), C, He.
Qed.
Lemma z_cond_econ e p P : z_cond e = Some (p, P) -> exists P', econ ZL e = Some (p, P') /\ forall y z, (forall v, y v == inject_Z (z v))%Q -> (P' y <-> P z).
Proof.
  unfold z_cond, econ. destruct (de_call e) as [| |from to w| |[] e1 e2], (de_ret e); try discriminate; intros E; injection E as <- <-; (eexists; split; [reflexivity|]); intros y z H.
  - rewrite <- z_wsat; split; apply wsat_eq; rewrite !H; reflexivity.
  - split; apply (rel_ext DLt); apply lval_ext; unfold zq; intros v; rewrite H; reflexivity.
  - split; apply (rel_ext DLeq); apply lval_ext; unfold zq; intros v; rewrite H; reflexivity.
  - split; apply (rel_ext DGeq); apply lval_ext; unfold zq; intros v; rewrite H; reflexivity.
  - split; apply (rel_ext DGt); apply lval_ext; unfold zq; intros v; rewrite H; reflexivity.
Qed.
(** ** Rationals.  The last case of rdl_theory::new_gt: rdl_theory.cpp:275 *)
Definition qlast : st (dl qe) -> nat -> nat -> nat -> qe -> res (st (dl qe) * lit) := fun s i v v1 k => new_distance Qw s i v v1 (wadd Qw k (wneg Qw (wunit Qw))).
Definition qstep : nat -> st (dl qe) -> dcall -> res (st (dl qe) * dret) := dcstep (W := Qw) qlast.
Definition QTrace : nat -> list devent -> st (dl qe) -> Prop := DTrace QL qlast.
Definition q_said (c : dcall) (r : dret) (M : nat -> bool) (y : nat -> Q) : Prop :=
  match c, r with
  | DSat c, DR r => said c [] r M
  | DDist from to w, DP p => mlit M p = true <-> q_under (y to - y from)%Q w
  | DDist2 from to mn mx, DP p => mlit M p = true <-> (q_under (y from - y to)%Q (- fst mn, - snd mn)%Q /\ q_under (y to - y from)%Q mx)
  | DCmp r e1 e2, DP p => mlit M p = true <-> rel_holds r (lval y e1) (lval y e2)
  | _, _ => True
  end.
Definition q_stated (tr : list devent) (M : nat -> bool) (y : nat -> Q) : Prop := M 0 = false /\ (y O == 0)%Q /\ forall e, In e tr -> q_said (de_call e) (de_ret e) M y.
Definition q_cond (e : devent) : option (lit * ((nat -> Q) -> Prop)) :=
  match de_call e, de_ret e with
  | DDist from to w, DP p => Some (p, fun y => q_under (y to - y from)%Q w)
  | DCmp DLt e1 e2, DP p => Some (p, fun y => (lval y e1 < lval y e2)%Q)
  | DCmp DLeq e1 e2, DP p => Some (p, fun y => (lval y e1 <= lval y e2)%Q)
  | DCmp DGeq e1 e2, DP p => Some (p, fun y => (lval y e2 <= lval y e1)%Q)
  | DCmp DGt e1 e2, DP p => Some (p, fun y => (lval y e2 < lval y e1)%Q)
  | _, _ => None
  end.
Lemma q_vals y : vals_ok QL y. Proof. intros v. exact Logic.I. Qed.
Lemma q_said_iff c r M y : dsaid QL c r M y <-> q_said c r M y.
Proof.
  destruct c as [c| |from to w|from to mn mx|rl e1 e2], r; cbn [dsaid q_said]; try tauto.
  - rewrite q_wsat. reflexivity.
  - rewrite !q_wsat. reflexivity.
Qed.
Lemma q_stated_iff tr M y : dstated QL tr M y <-> q_stated tr M y.
Proof.
  split.
  - intros (A & _ & B & C). split; [exact A|]. split; [exact B|]. intros e He. apply q_said_iff, C, He.
  - intros (A & B & C). split; [exact A|]. split; [apply q_vals|]. split; [exact B|]. intros e He. apply q_said_iff, C, He.
Qed.
Lemma q_cond_econ e p P : q_cond e = Some (p, P) -> exists P', econ QL e = Some (p, P') /\ forall y, P' y <-> P y.
Proof.
  unfold q_cond, econ. destruct (de_call e) as [| |from to w| |[] e1 e2], (de_ret e); try discriminate; intros E; injection E as <- <-; (eexists; split; [reflexivity|]); intros y; [apply q_wsat|reflexivity..].
Qed.

(** ** Executable histories. *)
Section Exec.
Context {D : Type} {W : wops D} (L : wlaws W) (last : st (dl D) -> nat -> nat -> nat -> D -> res (st (dl D) * lit)).
Context (wc : D -> bool) (Hwc : forall w, wc w = true -> wcon L w) (gtb : bool) (Hgt : gtb = true -> forall s v v1 k, last s 0 v v1 k = new_distance W s 0 v v1 (wadd W k (wneg W (wunit W)))).
Definition rlegalb (s : st (dl D)) (c : call) : bool :=
  match c with
  | CAssume _ | CPop | CCheck _ => false
  | CClause ls | CConj ls | CDisj ls | CAmo ls | CExct ls => in_range s ls
  | CEq l r => in_range s [l; r]
  | CListen v _ => Nat.ltb v (nv s)
  | CVar | CPropagate | CNext | CSimplify => true
  end.
Definition dlegalb (s : st (dl D)) (c : @dcall D) : bool :=
  match theories s with
  | [t] =>
    match c with
    | DSat c => rlegalb s c
    | DVar => true
    | DDist from to w => wc w && (Nat.ltb from (nvars t) && Nat.ltb to (nvars t))
    | DDist2 from to mn mx => wc (wneg W mn) && wc mx && (Nat.ltb from (nvars t) && Nat.ltb to (nvars t))
    | DCmp r e1 e2 => cleanb e1 && cleanb e2 && forallb (fun e => Nat.ltb (fst e) (nvars t)) (lvars e1 ++ lvars e2) &&
        match r with DGt => gtb || match dl_form W (lin_sub e1 e2) with Some (DTwo false _ _ _) => false | _ => true end | _ => true end
    end
  | _ => false
  end.
Lemma dlegalb_ok s c : dlegalb s c = true -> dlegal L last s c.
Proof.
  unfold dlegalb. destruct (theories s) as [|t [|]] eqn:Et; try discriminate.
  assert (Hr : forall ls, in_range s ls = true -> in_scope s ls) by (intros ls H p Hp; unfold in_range in H; rewrite forallb_forall in H; apply Nat.ltb_lt, H, Hp).
  destruct c as [c| |from to w|from to mn mx|r e1 e2]; cbn [dlegal]; intros H; [|exact Logic.I|..].
  - destruct c; cbn in *; auto; try discriminate. apply Nat.ltb_lt, H.
  - apply andb_prop in H as [H1 H2]. apply andb_prop in H2 as [H2 H3]. split; [apply Hwc, H1|]. exists t. split; [exact Et|]. split; apply Nat.ltb_lt; assumption.
  - apply andb_prop in H as [H1 H2]. apply andb_prop in H2 as [H2 H3]. apply andb_prop in H1 as [H1 H1']. split; [apply Hwc, H1|]. split; [apply Hwc, H1'|]. exists t. split; [exact Et|]. split; apply Nat.ltb_lt; assumption.
  - apply andb_prop in H as [H H4]. apply andb_prop in H as [H H3]. apply andb_prop in H as [H1 H2]. rewrite forallb_forall in H3. split; [apply cleanb_ok, H1|]. split; [apply cleanb_ok, H2|]. split.
    + exists t. split; [exact Et|]. split; intros x Hx; apply in_map_iff in Hx as (e & <- & He); apply Nat.ltb_lt, H3, in_or_app; auto.
    + intros ->. apply orb_prop in H4 as [H4|H4]; [left; apply Hgt, H4|right]. intros v v1 k E. rewrite E in H4. discriminate.
Qed.
Fixpoint drun (s : st (dl D)) (cs : list dcall) (tr : list devent) : option (st (dl D) * list devent) :=
  match cs with
  | [] => Some (s, tr)
  | c :: r => if dlegalb s c then match dcstep (W := W) last 1000 s c with Ok (s', DR (RBool false)) => None | Ok (s', x) => drun s' r (mk_dev c x :: tr) | _ => None end else None
  end.
Lemma drun_ok size : forall cs s tr s' tr', DTrace L last size tr s -> drun s cs tr = Some (s', tr') -> DTrace L last size tr' s'.
Proof.
  induction cs as [|c cs IH]; intros s tr s' tr' HT; cbn [drun]; [intros E; injection E as <- <-; exact HT|]. destruct (dlegalb s c) eqn:El; [|discriminate]. destruct (dcstep last 1000 s c) as [[s1 x]| |] eqn:E; try discriminate.
  assert (K : x <> DR (RBool false) -> drun s1 cs (mk_dev c x :: tr) = Some (s', tr') -> DTrace L last size tr' s').
  { intros Hx. apply IH. apply (DT_step L last size 1000 tr s c s1 x HT (dlegalb_ok _ _ El) E). intros K. case (Hx K). }
  destruct x as [[ | [] | | ]| | |]; try (apply K; discriminate); discriminate.
Qed.
Definition dexec (size : nat) (cs : list dcall) : option (st (dl D) * list devent) := drun (dinit (W := W) size) cs [].
Lemma dexec_ok size cs s tr : dexec size cs = Some (s, tr) -> DTrace L last size tr s.
Proof. apply drun_ok. constructor. Qed.
End Exec.
Definition qwb (w : qe) : bool := Qeq_bool (snd w) 0 || Qeq_bool (snd w) (-1 # 1).
Lemma qwb_ok w : qwb w = true -> wcon QL w.
Proof. unfold qwb. intros H. apply orb_prop in H as [H|H]; apply Qeq_bool_iff in H; cbn; [left|right]; rewrite H; reflexivity. Qed.
Definition zexec : nat -> list dcall -> option (st (dl Z) * list devent) := dexec (W := Zw) zlast (fun _ => true) false.
Lemma zexec_ok size cs s tr : zexec size cs = Some (s, tr) -> ZTrace size tr s.
Proof. apply (dexec_ok ZL zlast (fun _ => true)); [intros w _; exact Logic.I|discriminate]. Qed.
Definition qexec : nat -> list dcall -> option (st (dl qe) * list devent) := dexec (W := Qw) qlast qwb true.
Lemma qexec_ok size cs s tr : qexec size cs = Some (s, tr) -> QTrace size tr s.
Proof. apply (dexec_ok QL qlast qwb qwb_ok). reflexivity. Qed.

(** Histories with decisions: the preconditions of the functions of sat_core are checked, those of assume too. *)
Definition flegalb {D} (s : st (dl D)) (c : @dcall D) : bool :=
  match c with
  | DSat (CAssume p) => match prop_q s with [] => in_range s [p] | _ => false end
  | DSat CPop => negb (Nat.eqb (dlevel s) 0)
  | DSat c => Nat.eqb (dlevel s) 0 && rlegalb s c
  | _ => Nat.eqb (dlevel s) 0
  end.
Fixpoint frun {D} (W : wops D) last (s : st (dl D)) (cs : list (@dcall D)) (tr : list (@devent D)) : option (st (dl D) * list devent) :=
  match cs with
  | [] => Some (s, tr)
  | c :: r => if flegalb s c then match dcstep (W := W) last 1000 s c with Ok (s', x) => frun W last s' r (mk_dev c x :: tr) | _ => None end else None
  end.
End Srt.
