(** What the histories of FlatTrace.v state, in terms of integers and rationals; executable histories. *)
From Verif Require Import Base Keys Sat SatSpec SatInv SatMain SatApi SatApi2 SatNext Run SatFacts Lin LraExec Qe Dw Dl DlClo DlTight DlTh DlFacts DlApi DlSpec DlQ DlNet DlTrace DlRSpec DlFlat FlatNet FlatTrace.
From Coq Require Import Lqa.
Open Scope nat_scope.
Section Srt.
Context {sr : sorter}.

(** ** Integers. *)
Definition ZFlat : nat -> list fevent -> st (dl Z) -> Prop := FTrace ZL zlast.
(** What a call that returned [r] while the decisions [ds] were in force says about [M] and [y]. *)
Definition zf_said (ds : list lit) (c : dcall) (r : dret) (M : nat -> bool) (y : nat -> Z) : Prop :=
  match c, r with
  | DSat c, DR r => said c ds r M
  | DDist from to w, DP p => mlit M p = true <-> (y to - y from <= w)%Z
  | DCmp r e1 e2, DP p => mlit M p = true <-> rel_holds r (lval (zq y) e1) (lval (zq y) e2)
  | _, _ => True
  end.
Definition zf_stated (tr : list fevent) (M : nat -> bool) (y : nat -> Z) : Prop := M 0 = false /\ y 0 = 0%Z /\ forall e, In e tr -> zf_said (fe_decs e) (fe_call e) (fe_ret e) M y.
Definition noD2 {D} (tr : list (@fevent D)) : Prop := forall e, In e tr -> match fe_call e with DDist2 _ _ _ _ => False | _ => True end.
Lemma flat_noD2 {D} {W : wops D} (L : wlaws W) last size tr s : FTrace L last size tr s -> noD2 tr.
Proof. induction 1 as [|fl tr s c s' r HT IH HL HE HA]; intros e He; [case He|]. destruct He as [<-|He]; [|apply IH, He]. cbn [fe_call]. destruct c; try exact Logic.I. exact HL. Qed.
Lemma zf_said_iff ds c r M (y : nat -> Q) z : match c with DDist2 _ _ _ _ => False | _ => True end -> (forall v, y v == inject_Z (z v))%Q -> (fsaid ZL ds c r M y <-> zf_said ds c r M z).
Proof.
  intros H2 H. pose proof (z_said_iff c r M y z H) as K. destruct c as [c| |from to w|from to mn mx|rl e1 e2], r; cbn [fsaid zf_said dsaid z_said] in *; try tauto; try exact K.
Qed.
Lemma zf_stated_of tr M z : noD2 tr -> zf_stated tr M z -> fstated ZL tr M (zq z).
Proof.
  intros N (A & B & C). split; [exact A|]. split; [apply zq_ok|]. split; [unfold zq; rewrite B; reflexivity|]. intros e He. apply (zf_said_iff _ _ _ M (zq z) z); [apply N, He|intros v; reflexivity|apply C, He].
Qed.
Lemma fstated_z tr M y z : noD2 tr -> (forall v, y v == inject_Z (z v))%Q -> fstated ZL tr M y -> zf_stated tr M z.
Proof.
  intros N H (A & _ & B & C). split; [exact A|]. split; [rewrite H in B; unfold Qeq, inject_Z in B; cbn in B; lia|]. intros e He. apply (zf_said_iff _ _ _ M y z); [apply N, He|exact H|apply C, He].
Qed.
(** ** Rationals. *)
Definition QFlat : nat -> list fevent -> st (dl qe) -> Prop := FTrace QL qlast.
Definition qf_said (ds : list lit) (c : dcall) (r : dret) (M : nat -> bool) (y : nat -> Q) : Prop :=
  match c, r with
  | DSat c, DR r => said c ds r M
  | DDist from to w, DP p => mlit M p = true <-> q_under (y to - y from)%Q w
  | DCmp r e1 e2, DP p => mlit M p = true <-> rel_holds r (lval y e1) (lval y e2)
  | _, _ => True
  end.
Definition qf_stated (tr : list fevent) (M : nat -> bool) (y : nat -> Q) : Prop := M 0 = false /\ (y O == 0)%Q /\ forall e, In e tr -> qf_said (fe_decs e) (fe_call e) (fe_ret e) M y.
Lemma qf_said_iff ds c r M y : match c with DDist2 _ _ _ _ => False | _ => True end -> (fsaid QL ds c r M y <-> qf_said ds c r M y).
Proof.
  intros H2. pose proof (q_said_iff c r M y) as K. destruct c as [c| |from to w|from to mn mx|rl e1 e2], r; cbn [fsaid qf_said dsaid q_said] in *; try tauto; try exact K.
Qed.
Lemma qf_stated_iff tr M y : noD2 tr -> (fstated QL tr M y <-> qf_stated tr M y).
Proof.
  intros N. split.
  - intros (A & _ & B & C). split; [exact A|]. split; [exact B|]. intros e He. apply qf_said_iff; [apply N, He|apply C, He].
  - intros (A & B & C). split; [exact A|]. split; [apply q_vals|]. split; [exact B|]. intros e He. apply qf_said_iff; [apply N, He|apply C, He].
Qed.

(** ** Executable histories. *)
Section Exec.
Context {D : Type} {W : wops D} (L : wlaws W) (last : st (dl D) -> nat -> nat -> nat -> D -> res (st (dl D) * lit)).
Context (wc : D -> bool) (Hwc : forall w, wc w = true -> wcon L w) (gtb : bool) (Hgt : gtb = true -> forall s v v1 k, last s 0 v v1 k = new_distance W s 0 v v1 (wadd W k (wneg W (wunit W)))).
Fixpoint fdecsb (s : st (dl D)) (l : nat) (ds : list lit) : bool :=
  match ds with
  | [] => true
  | p :: r => is_true s p && Nat.eqb (level s (lvar p)) l && fdecsb s (l - 1) r
  end.
Definition quietb (s : st (dl D)) : bool := match prop_q s with [] => true | _ => false end.
Definition fsatb (s : st (dl D)) (c : call) : bool :=
  match c with
  | CVar | CPropagate => true
  | CClause ls | CConj ls | CDisj ls | CAmo ls | CExct ls => Nat.eqb (dlevel s) 0 && in_range s ls
  | CEq l r => Nat.eqb (dlevel s) 0 && in_range s [l; r]
  | CAssume p => Nat.eqb (dlevel s) 0 && quietb s && in_range s [p]
  | CPop => negb (Nat.eqb (dlevel s) 0)
  | CCheck ls => Nat.eqb (dlevel s) 0 && quietb s && in_range s ls && Nat.leb (length ls) 1
  | CNext => fdecsb s (dlevel s) (decisions s)
  | CSimplify => Nat.eqb (dlevel s) 0
  | CListen v _ => Nat.ltb v (nv s)
  end.
Definition glegalb (s : st (dl D)) (c : @dcall D) : bool :=
  match c with
  | DSat c => fsatb s c
  | DDist2 _ _ _ _ | DCmp DEq _ _ => false
  | c => Nat.eqb (dlevel s) 0 && dlegalb (W := W) wc gtb s c &&
      match pair_of (W := W) c, theories s with
      | Some (u, v), [t] => forallb (fun k => negb (Nat.eqb (c_from k) u && Nat.eqb (c_to k) v) && negb (Nat.eqb (c_from k) v && Nat.eqb (c_to k) u)) (dcons t)
      | _, _ => true
      end
  end.
Lemma fdecsb_ok (s : st (dl D)) : forall ds l, fdecsb s l ds = true -> forall k p, nth_error ds k = Some p -> value s p = LTrue /\ level s (lvar p) = l - k.
Proof.
  induction ds as [|d r IH]; intros l H k p E; [destruct k; discriminate|]. cbn [fdecsb] in H. apply andb_prop in H as [H H2]. apply andb_prop in H as [H H1].
  destruct k as [|k]; cbn in E.
  - injection E as <-. split; [|apply Nat.eqb_eq in H1; lia]. unfold is_true in H. destruct (value s d); try discriminate. reflexivity.
  - destruct (IH (l - 1) H2 k p E) as [A B]. split; [exact A|lia].
Qed.
Lemma glegalb_ok s c : glegalb s c = true -> flegal L last s c.
Proof.
  assert (Hr : forall ls, in_range s ls = true -> in_scope s ls) by (intros ls H p Hp; unfold in_range in H; rewrite forallb_forall in H; apply Nat.ltb_lt, H, Hp).
  assert (Hq : quietb s = true -> prop_q s = []) by (unfold quietb; destruct (prop_q s); [reflexivity|discriminate]).
  assert (Hth : forall c, Nat.eqb (dlevel s) 0 && dlegalb (W := W) wc gtb s c &&
      match pair_of (W := W) c, theories s with
      | Some (u, v), [t] => forallb (fun k => negb (Nat.eqb (c_from k) u && Nat.eqb (c_to k) v) && negb (Nat.eqb (c_from k) v && Nat.eqb (c_to k) u)) (dcons t)
      | _, _ => true
      end = true -> dlevel s = 0 /\ dlegal L last s c /\ forall t u v, theories s = [t] -> pair_of (W := W) c = Some (u, v) -> pair_free t u v).
  { intros c0 H. apply andb_prop in H as [H H3]. apply andb_prop in H as [H1 H2]. apply Nat.eqb_eq in H1. split; [exact H1|]. split; [apply (dlegalb_ok L last wc Hwc gtb Hgt), H2|]. intros t u v Et Ep k Hk. rewrite Ep, Et in H3. rewrite forallb_forall in H3. specialize (H3 k Hk). apply andb_prop in H3 as [A B].
    split; intros [E1 E2]; rewrite E1, E2, !Nat.eqb_refl in *; discriminate. }
  destruct c as [c| |from to w|from to mn mx|[] e1 e2]; cbn [glegalb flegal]; try discriminate; try apply Hth.
  intros H. destruct c; cbn [fsatb fsat] in *; auto.
  - apply andb_prop in H as [H1 H2]. apply Nat.eqb_eq in H1. auto.
  - apply andb_prop in H as [H H3]. apply andb_prop in H as [H1 H2]. apply Nat.eqb_eq in H1. auto.
  - destruct (Nat.eqb_spec (dlevel s) 0); [discriminate|assumption].
  - apply andb_prop in H as [H H4]. apply andb_prop in H as [H H3]. apply andb_prop in H as [H1 H2]. apply Nat.eqb_eq in H1. apply Nat.leb_le in H4. auto.
  - exact (fdecsb_ok s _ _ H).
  - apply Nat.eqb_eq, H.
  - apply andb_prop in H as [H1 H2]. apply Nat.eqb_eq in H1. auto.
  - apply andb_prop in H as [H1 H2]. apply Nat.eqb_eq in H1. auto.
  - apply andb_prop in H as [H1 H2]. apply Nat.eqb_eq in H1. auto.
  - apply andb_prop in H as [H1 H2]. apply Nat.eqb_eq in H1. auto.
  - apply andb_prop in H as [H1 H2]. apply Nat.eqb_eq in H1. auto.
  - apply Nat.ltb_lt, H.
Qed.
(** Runs legal calls none of which answers [false]. *)
Fixpoint grun (s : st (dl D)) (cs : list dcall) (tr : list fevent) : option (st (dl D) * list fevent) :=
  match cs with
  | [] => Some (s, tr)
  | c :: r => if glegalb s c then match dcstep (W := W) last 1000 s c with Ok (s', DR (RBool false)) => None | Ok (s', x) => grun s' r (mk_fev c (decisions s) x :: tr) | _ => None end else None
  end.
Lemma grun_ok size : forall cs s tr s' tr', FTrace L last size tr s -> grun s cs tr = Some (s', tr') -> FTrace L last size tr' s'.
Proof.
  induction cs as [|c cs IH]; intros s tr s' tr' HT; cbn [grun]; [intros E; injection E as <- <-; exact HT|]. destruct (glegalb s c) eqn:El; [|discriminate]. destruct (dcstep last 1000 s c) as [[s1 x]| |] eqn:E; try discriminate.
  assert (K : x <> DR (RBool false) -> grun s1 cs (mk_fev c (decisions s) x :: tr) = Some (s', tr') -> FTrace L last size tr' s').
  { intros Hx. apply IH. apply (FT_step L last size 1000 tr s c s1 x HT (glegalb_ok _ _ El) E). intros K. case (Hx K). }
  destruct x as [[ | [] | | ]| | |]; try (apply K; discriminate); discriminate.
Qed.
Definition gexec (size : nat) (cs : list dcall) : option (st (dl D) * list fevent) := grun (dinit (W := W) size) cs [].
Lemma gexec_ok size cs s tr : gexec size cs = Some (s, tr) -> FTrace L last size tr s.
Proof. apply grun_ok. constructor. Qed.
End Exec.
Definition zfexec : nat -> list dcall -> option (st (dl Z) * list fevent) := gexec (W := Zw) zlast (fun _ => true) false.
Lemma zfexec_ok size cs s tr : zfexec size cs = Some (s, tr) -> ZFlat size tr s.
Proof. apply (gexec_ok ZL zlast (fun _ => true)); [intros w _; exact Logic.I|discriminate]. Qed.
Definition qfexec : nat -> list dcall -> option (st (dl qe) * list fevent) := gexec (W := Qw) qlast qwb true.
Lemma qfexec_ok size cs s tr : qfexec size cs = Some (s, tr) -> QFlat size tr s.
Proof. apply (gexec_ok QL qlast qwb qwb_ok). reflexivity. Qed.
End Srt.
