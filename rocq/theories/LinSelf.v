(** Linear expressions: the operators in place when both operands are the same object ([x += x], [x -= x]).
    The loops then run over the map they change: an erased element is the one the loop stands on, and its increment is
    undefined behaviour. *)
From Verif Require Import Base Lin.
Open Scope Q_scope.

(** lin.cpp:103-111 with [right] = [*this]: each element is found, and added to itself; one which becomes zero is erased under the loop. *)
Fixpoint self_add (m : qmap) : res qmap :=
  match m with
  | [] => Ok []
  | (v, c) :: r => if qzero (c + c) then UB else r' <- self_add r ;; Ok ((v, c + c) :: r')
  end.
(** lin.cpp:101-114 *)
Definition lin_add_self (l : lin) : res lin := m <- self_add (lvars l) ;; Ok (mk_lin m (lkt l + lkt l)).
(** lin.cpp:124-132 *)
Fixpoint self_sub (m : qmap) : res qmap :=
  match m with
  | [] => Ok []
  | (v, c) :: r => if qzero (c - c) then UB else r' <- self_sub r ;; Ok ((v, c - c) :: r')
  end.
(** lin.cpp:122-135 *)
Definition lin_sub_self (l : lin) : res lin := m <- self_sub (lvars l) ;; Ok (mk_lin m (lkt l - lkt l)).

Lemma self_add_ok m : nonzero m -> exists m', self_add m = Ok m' /\ map fst m' = map fst m /\ nonzero m' /\ forall x, msum x m' == msum x m + msum x m.
Proof.
  induction m as [|[v c] r IH]; intros H; [exists []; split; [reflexivity|]; split; [reflexivity|]; split; [intros ? ? []|intros; cbn; lra]|].
  destruct IH as (r' & E & Ef & Hn & Hs); [intros w d Hi; apply (H w d); right; exact Hi|]. cbn [self_add].
  assert (Hc : ~ c == 0) by (apply (H v c); left; reflexivity). unfold qzero. destruct (Qeq_bool (c + c) 0) eqn:Ez; [apply Qeq_bool_iff in Ez; exfalso; apply Hc; lra|].
  rewrite E. cbn [rbind]. eexists. split; [reflexivity|]. split; [cbn; rewrite Ef; reflexivity|]. split.
  - intros w d [E1|Hi]; [injection E1 as _ <-; lra|exact (Hn w d Hi)].
  - intros x. cbn [msum]. rewrite Hs. ring.
Qed.
Lemma above_keys v : forall m m', map fst m' = map fst m -> above v m -> above v m'.
Proof.
  intros m. revert v. induction m as [|[k c] r IH]; intros v [|[k' c'] r'] E H; cbn in *; try discriminate; [exact I|]. injection E as -> E. split; [apply H|]. apply IH with (v := k); [exact E|apply H].
Qed.
Lemma asc_keys m m' : map fst m' = map fst m -> asc m -> asc m'.
Proof. destruct m as [|[k c] r], m' as [|[k' c'] r']; cbn; try discriminate; [auto|]. intros E H. injection E as -> E. eapply above_keys; eassumption. Qed.
Lemma lin_add_self_ok l : lin_clean l -> exists r, lin_add_self l = Ok r /\ lin_clean r /\ forall x, lval x r == lval x l + lval x l.
Proof.
  intros [H1 H2]. destruct (self_add_ok (lvars l) H2) as (m & E & Ef & Hn & Hs). unfold lin_add_self. rewrite E. cbn [rbind]. eexists. split; [reflexivity|].
  split; [split; [eapply asc_keys; eassumption|exact Hn]|]. intros x. unfold lval. cbn [lvars lkt]. rewrite Hs. ring.
Qed.
Lemma lin_sub_self_const l : lvars l = [] -> exists r, lin_sub_self l = Ok r /\ forall x, lval x r == 0.
Proof. intros E. unfold lin_sub_self. rewrite E. cbn. eexists. split; [reflexivity|]. intros x. unfold lval. cbn. lra. Qed.
Lemma lin_sub_self_vars l : lvars l <> [] -> lin_sub_self l = UB.
Proof.
  unfold lin_sub_self. destruct (lvars l) as [|[v c] r]; [congruence|]. intros _. cbn [self_sub]. unfold qzero.
  destruct (Qeq_bool (c - c) 0) eqn:E; [reflexivity|]. apply Qeq_bool_neq in E. exfalso. apply E. lra.
Qed.
