(** Model of linear expressions: include/arith/lin.h, src/arith/lin.cpp.
    [utils::rational] (not in the repository) is modelled by [Q]; infinite rationals as coefficients,
    known terms or factors are not modelled. *)
From Coq Require Export QArith Lqa.
From Verif Require Import Base.
Open Scope Q_scope.

(** ** [std::map<const var, utils::rational>]: an association list, ascending keys. *)
Definition qmap := list (nat * Q).
Fixpoint mfind (v : nat) (m : qmap) : option Q :=
  match m with
  | [] => None
  | (k, c) :: r => if Nat.eqb k v then Some c else mfind v r
  end.
(** Inserts, or replaces the value of an existing key. *)
Fixpoint mput (v : nat) (c : Q) (m : qmap) : qmap :=
  match m with
  | [] => [(v, c)]
  | (k, d) :: r => if Nat.ltb v k then (v, c) :: m else if Nat.eqb k v then (v, c) :: r else (k, d) :: mput v c r
  end.
Fixpoint mdel (v : nat) (m : qmap) : qmap :=
  match m with
  | [] => []
  | (k, c) :: r => if Nat.eqb k v then r else (k, c) :: mdel v r
  end.
Definition mmap (f : Q -> Q) (m : qmap) : qmap := map (fun x => (fst x, f (snd x))) m.
Definition qzero (q : Q) : bool := Qeq_bool q 0.

(** include/arith/lin.h:62-63 *)
Record lin := mk_lin { lvars : qmap; lkt : Q }.

(** lin.cpp:7 *)
Definition lin_zero : lin := mk_lin [] 0.
(** lin.cpp:8 *)
Definition lin_const (k : Q) : lin := mk_lin [] k.
(** lin.cpp:9 *)
Definition lin_var (v : nat) (c : Q) : lin := mk_lin [(v, c)] 0.

(** lin.cpp:14-25 and 103-111: one term of the right-hand side is added. *)
Definition add_term (m : qmap) (t : nat * Q) : qmap :=
  match mfind (fst t) m with
  | None => mput (fst t) (snd t) m
  | Some d => if qzero (d + snd t) then mdel (fst t) m else mput (fst t) (d + snd t) m
  end.
(** lin.cpp:47-55 and 124-132 *)
Definition sub_term (m : qmap) (t : nat * Q) : qmap :=
  match mfind (fst t) m with
  | None => mput (fst t) (- snd t) m
  | Some d => if qzero (d - snd t) then mdel (fst t) m else mput (fst t) (d - snd t) m
  end.

(** lin.cpp:11-28: note the left known term on line 26. *)
Definition lin_add (l r : lin) : lin := mk_lin (fold_left add_term (lvars r) (lvars l)) (lkt l + lkt l).
(** lin.cpp:30-35 *)
Definition lin_add_k (l : lin) (k : Q) : lin := mk_lin (lvars l) (lkt l + k).
(** lin.cpp:37-42 *)
Definition k_add_lin (k : Q) (l : lin) : lin := mk_lin (lvars l) (lkt l + k).
(** lin.cpp:44-58 *)
Definition lin_sub (l r : lin) : lin := mk_lin (fold_left sub_term (lvars r) (lvars l)) (lkt l - lkt r).
(** lin.cpp:60-65 *)
Definition lin_sub_k (l : lin) (k : Q) : lin := mk_lin (lvars l) (lkt l - k).
(** lin.cpp:74-81 *)
Definition lin_mul (l : lin) (k : Q) : lin := mk_lin (mmap (fun c => c * k) (lvars l)) (lkt l * k).
(** lin.cpp:83-90 *)
Definition k_mul_lin (k : Q) (l : lin) : lin := mk_lin (mmap (fun c => c * k) (lvars l)) (lkt l * k).
(** lin.cpp:92-99; for a non-zero divisor. *)
Definition lin_div (l : lin) (k : Q) : lin := mk_lin (mmap (fun c => c / k) (lvars l)) (lkt l / k).
(** lin.cpp:101-114 *)
Definition lin_add_in (l r : lin) : lin := mk_lin (fold_left add_term (lvars r) (lvars l)) (lkt l + lkt r).
(** lin.cpp:116-120 *)
Definition lin_add_in_k (l : lin) (k : Q) : lin := mk_lin (lvars l) (lkt l + k).
(** lin.cpp:122-135 *)
Definition lin_sub_in (l r : lin) : lin := mk_lin (fold_left sub_term (lvars r) (lvars l)) (lkt l - lkt r).
(** lin.cpp:137-141 *)
Definition lin_sub_in_k (l : lin) (k : Q) : lin := mk_lin (lvars l) (lkt l - k).
(** lin.cpp:143-155: the known term is not scaled. *)
Definition lin_mul_in (l : lin) (k : Q) : lin :=
  if qzero k then mk_lin [] 0 else mk_lin (mmap (fun c => c * k) (lvars l)) (lkt l).
(** lin.cpp:157-170; finite divisor. *)
Definition lin_div_in (l : lin) (k : Q) : res lin :=
  if qzero k then UB else Ok (mk_lin (mmap (fun c => c / k) (lvars l)) (lkt l / k)).
(** lin.cpp:172-179: [res.vars.at(v)] throws on the first variable (res.vars is empty) inside a
    noexcept function: std::terminate. *)
Definition lin_neg (l : lin) : res lin :=
  match lvars l with [] => Ok (mk_lin [] (- lkt l)) | _ => UB end.
(** lin.cpp:67-72 *)
Definition k_sub_lin (k : Q) (l : lin) : res lin := r <- lin_neg l ;; Ok (mk_lin (lvars r) (lkt r + k)).

(** ** Specification: the value of an expression under an assignment. *)
Fixpoint msum (x : nat -> Q) (m : qmap) : Q :=
  match m with [] => 0 | (v, c) :: r => c * x v + msum x r end.
Definition lval (x : nat -> Q) (l : lin) : Q := msum x (lvars l) + lkt l.

(** Well-formed maps: ascending keys.  Clean expressions: no zero coefficients. *)
Fixpoint above (v : nat) (m : qmap) : Prop :=
  match m with [] => True | (k, _) :: r => (v < k)%nat /\ above k r end.
Definition asc (m : qmap) : Prop := match m with [] => True | (k, _) :: r => above k r end.
Definition nonzero (m : qmap) : Prop := forall v c, In (v, c) m -> ~ c == 0.
Definition lin_wf (l : lin) : Prop := asc (lvars l).
Definition lin_clean (l : lin) : Prop := asc (lvars l) /\ nonzero (lvars l).

(** ** Facts about maps. *)
Local Arguments Nat.ltb : simpl never.
Local Arguments Nat.eqb : simpl never.
Lemma above_weaken v w m : (v <= w)%nat -> above w m -> above v m.
Proof. destruct m as [|[k c] r]; cbn [mput mdel mfind above asc msum mmap map fst snd In]; [auto|]. intros H [A B]. split; [lia|exact B]. Qed.
Lemma above_asc v m : above v m -> asc m.
Proof. destruct m as [|[k c] r]; cbn [mput mdel mfind above asc msum mmap map fst snd In]; tauto. Qed.
Lemma above_in v m : above v m -> forall k c, In (k, c) m -> (v < k)%nat.
Proof.
  revert v. induction m as [|[k c] r IH]; cbn [mput mdel mfind above asc msum mmap map fst snd In]; intros v H k' c' Hi; [destruct Hi|]. destruct H as [A B]. destruct Hi as [E|Hi].
  - inversion E; subst. exact A.
  - specialize (IH k B _ _ Hi). lia.
Qed.
Lemma mfind_in v m c : mfind v m = Some c -> In (v, c) m.
Proof. induction m as [|[k d] r IH]; cbn [mput mdel mfind above asc msum mmap map fst snd In]; [discriminate|]. destruct (Nat.eqb_spec k v) as [->|]; [intros E; inversion E; auto|auto]. Qed.
Lemma mfind_none v m : mfind v m = None -> forall c, ~ In (v, c) m.
Proof.
  induction m as [|[k d] r IH]; cbn [mput mdel mfind above asc msum mmap map fst snd In]; [auto|]. destruct (Nat.eqb_spec k v) as [->|Hn]; [discriminate|]. intros E c [H|H]; [inversion H; congruence|exact (IH E c H)].
Qed.
Lemma mfind_above v m : above v m -> mfind v m = None.
Proof.
  intros H. destruct (mfind v m) as [c|] eqn:E; [|reflexivity]. apply mfind_in in E. apply (above_in _ _ H) in E. lia.
Qed.
Lemma asc_tail k c r : asc ((k, c) :: r) -> above k r /\ asc r.
Proof. cbn [mput mdel mfind above asc msum mmap map fst snd In lvars lkt]. intros H. split; [exact H|eapply above_asc, H]. Qed.
Lemma asc_in_find m : asc m -> forall v c, In (v, c) m -> mfind v m = Some c.
Proof.
  induction m as [|[k d] r IH]; intros H v c Hi; [destruct Hi|]. apply asc_tail in H as [A B]. cbn [mput mdel mfind above asc msum mmap map fst snd In lvars lkt]. destruct Hi as [E|Hi].
  - inversion E; subst. rewrite Nat.eqb_refl. reflexivity.
  - pose proof (above_in _ _ A _ _ Hi) as Hlt. destruct (Nat.eqb_spec k v); [lia|]. apply IH; assumption.
Qed.

Lemma mput_above w v c m : above w m -> (w < v)%nat -> above w (mput v c m).
Proof.
  revert w. induction m as [|[k d] r IH]; cbn [mput mdel mfind above asc msum mmap map fst snd In]; intros w H Hv; [auto|]. destruct H as [A B].
  destruct (Nat.ltb_spec v k); [cbn [mput mdel mfind above asc msum mmap map fst snd In]; auto|]. destruct (Nat.eqb_spec k v) as [->|]; cbn [mput mdel mfind above asc msum mmap map fst snd In]; [auto|]. split; [exact A|]. apply IH; [exact B|lia].
Qed.
Lemma mput_asc v c m : asc m -> asc (mput v c m).
Proof.
  destruct m as [|[k d] r]; cbn [mput mdel mfind above asc msum mmap map fst snd In]; intros H; [exact I|]. destruct (Nat.ltb_spec v k); [cbn [mput mdel mfind above asc msum mmap map fst snd In]; auto|].
  destruct (Nat.eqb_spec k v) as [->|]; cbn [mput mdel mfind above asc msum mmap map fst snd In]; [exact H|]. apply mput_above; [exact H|lia].
Qed.
Lemma mdel_above w v m : above w m -> above w (mdel v m).
Proof.
  revert w. induction m as [|[k d] r IH]; cbn [mput mdel mfind above asc msum mmap map fst snd In]; intros w H; [auto|]. destruct H as [A B]. destruct (Nat.eqb k v); [eapply above_weaken; [|exact B]; lia|].
  cbn [mput mdel mfind above asc msum mmap map fst snd In lvars lkt]. split; [exact A|apply IH, B].
Qed.
Lemma mdel_asc v m : asc m -> asc (mdel v m).
Proof. destruct m as [|[k d] r]; cbn [mput mdel mfind above asc msum mmap map fst snd In]; intros H; [exact I|]. destruct (Nat.eqb k v); [eapply above_asc, H|]. cbn [mput mdel mfind above asc msum mmap map fst snd In lvars lkt]. apply mdel_above, H. Qed.

Lemma mput_find v c m w : asc m -> mfind w (mput v c m) = if Nat.eqb v w then Some c else mfind w m.
Proof.
  induction m as [|[k d] r IH]; intros H; cbn.
  - destruct (Nat.eqb_spec v w); reflexivity.
  - apply asc_tail in H as [A B]. destruct (Nat.ltb_spec v k) as [Hlt|Hge].
    + cbn [mput mdel mfind above asc msum mmap map fst snd In lvars lkt]. destruct (Nat.eqb_spec v w) as [->|]; reflexivity.
    + destruct (Nat.eqb_spec k v) as [->|Hn]; cbn.
      * destruct (Nat.eqb_spec v w); reflexivity.
      * rewrite (IH B). destruct (Nat.eqb_spec k w) as [->|]; [|reflexivity]. destruct (Nat.eqb_spec v w); [lia|reflexivity].
Qed.
Lemma mdel_find v m w : asc m -> mfind w (mdel v m) = if Nat.eqb v w then None else mfind w m.
Proof.
  induction m as [|[k d] r IH]; intros H; cbn [mput mdel mfind above asc msum mmap map fst snd In]; [destruct (Nat.eqb v w); reflexivity|]. apply asc_tail in H as [A B].
  destruct (Nat.eqb_spec k v) as [->|Hn].
  - destruct (Nat.eqb_spec v w) as [->|]; [apply mfind_above, A|reflexivity].
  - cbn [mput mdel mfind above asc msum mmap map fst snd In lvars lkt]. rewrite (IH B). destruct (Nat.eqb_spec k w) as [->|]; [|reflexivity]. destruct (Nat.eqb_spec v w); [lia|reflexivity].
Qed.
Lemma mput_in v c m k d : asc m -> In (k, d) (mput v c m) <-> (k = v /\ d = c) \/ (k <> v /\ In (k, d) m).
Proof.
  intros H. split.
  - intros Hi. apply asc_in_find in Hi; [|apply mput_asc, H]. rewrite mput_find in Hi by exact H. destruct (Nat.eqb_spec v k) as [->|Hn].
    + inversion Hi; auto.
    + right. split; [congruence|]. apply mfind_in, Hi.
  - intros [[-> ->]|[Hn Hi]]; apply mfind_in; rewrite mput_find by exact H.
    + rewrite Nat.eqb_refl. reflexivity.
    + destruct (Nat.eqb_spec v k); [congruence|]. apply asc_in_find; assumption.
Qed.
Lemma mdel_in v m k d : asc m -> In (k, d) (mdel v m) <-> k <> v /\ In (k, d) m.
Proof.
  intros H. split.
  - intros Hi. apply asc_in_find in Hi; [|apply mdel_asc, H]. rewrite mdel_find in Hi by exact H. destruct (Nat.eqb_spec v k) as [->|Hn]; [discriminate|].
    split; [congruence|]. apply mfind_in, Hi.
  - intros [Hn Hi]. apply mfind_in. rewrite mdel_find by exact H. destruct (Nat.eqb_spec v k); [congruence|]. apply asc_in_find; assumption.
Qed.

(** Sums. *)
Lemma msum_put_none x v c m : mfind v m = None -> msum x (mput v c m) == msum x m + c * x v.
Proof.
  induction m as [|[k d] r IH]; cbn [mput mdel mfind above asc msum mmap map fst snd In]; intros H; [ring|]. destruct (Nat.ltb v k); [cbn [mput mdel mfind above asc msum mmap map fst snd In]; ring|].
  destruct (Nat.eqb_spec k v) as [->|Hn]; [discriminate|]. cbn [mput mdel mfind above asc msum mmap map fst snd In lvars lkt]. rewrite (IH H). ring.
Qed.
Lemma msum_put_some x v c m d : asc m -> mfind v m = Some d -> msum x (mput v c m) == msum x m + (c - d) * x v.
Proof.
  induction m as [|[k e] r IH]; cbn [mfind mput msum]; intros H E; [discriminate|]. apply asc_tail in H as [A B].
  destruct (Nat.ltb_spec v k) as [Hlt|Hge].
  - destruct (Nat.eqb_spec k v); [lia|]. rewrite mfind_above in E; [discriminate|]. eapply above_weaken; [|exact A]. lia.
  - destruct (Nat.eqb_spec k v) as [->|Hn]; cbn [msum].
    + inversion E; subst. ring.
    + rewrite (IH B E). ring.
Qed.
Lemma msum_del x v m d : mfind v m = Some d -> msum x (mdel v m) == msum x m - d * x v.
Proof.
  induction m as [|[k e] r IH]; cbn [mfind mdel msum]; intros E; [discriminate|]. destruct (Nat.eqb_spec k v) as [->|Hn].
  - inversion E; subst. ring.
  - cbn [msum]. rewrite (IH E). ring.
Qed.
Lemma msum_mmap x f k m : (forall c, f c == c * k) -> msum x (mmap f m) == msum x m * k.
Proof. intros H. induction m as [|[v c] r IH]; cbn [mput mdel mfind above asc msum mmap map fst snd In]; [ring|]. rewrite IH, H. ring. Qed.
Lemma qzero_iff q : qzero q = true <-> q == 0.
Proof. apply Qeq_bool_iff. Qed.

Lemma add_term_asc m t : asc m -> asc (add_term m t).
Proof. intros H. unfold add_term. destruct (mfind (fst t) m); [destruct (qzero _)|]; auto using mput_asc, mdel_asc. Qed.
Lemma sub_term_asc m t : asc m -> asc (sub_term m t).
Proof. intros H. unfold sub_term. destruct (mfind (fst t) m); [destruct (qzero _)|]; auto using mput_asc, mdel_asc. Qed.
Lemma add_term_sum x m t : asc m -> msum x (add_term m t) == msum x m + snd t * x (fst t).
Proof.
  intros H. unfold add_term. destruct (mfind (fst t) m) as [d|] eqn:E; [|apply msum_put_none, E]. destruct (qzero _) eqn:Z.
  - apply qzero_iff in Z. rewrite (msum_del _ _ _ _ E). setoid_replace (snd t) with (- d) by lra. ring.
  - rewrite (msum_put_some _ _ _ _ _ H E). ring.
Qed.
Lemma sub_term_sum x m t : asc m -> msum x (sub_term m t) == msum x m - snd t * x (fst t).
Proof.
  intros H. unfold sub_term. destruct (mfind (fst t) m) as [d|] eqn:E; [|rewrite (msum_put_none _ _ _ _ E); ring]. destruct (qzero _) eqn:Z.
  - apply qzero_iff in Z. rewrite (msum_del _ _ _ _ E). setoid_replace (snd t) with d by lra. ring.
  - rewrite (msum_put_some _ _ _ _ _ H E). ring.
Qed.
Lemma add_term_nonzero m t : asc m -> nonzero m -> ~ snd t == 0 -> nonzero (add_term m t).
Proof.
  intros Ha Hn Ht v c Hi. unfold add_term in Hi. destruct (mfind (fst t) m) as [d|] eqn:E; [destruct (qzero _) eqn:Z|].
  - apply mdel_in in Hi as [_ Hi]; [|exact Ha]. exact (Hn _ _ Hi).
  - apply mput_in in Hi as [[-> ->]|[_ Hi]]; [|exact (Hn _ _ Hi)|exact Ha]. intros H. apply qzero_iff in H. congruence.
  - apply mput_in in Hi as [[-> ->]|[_ Hi]]; [exact Ht|exact (Hn _ _ Hi)|exact Ha].
Qed.
Lemma sub_term_nonzero m t : asc m -> nonzero m -> ~ snd t == 0 -> nonzero (sub_term m t).
Proof.
  intros Ha Hn Ht v c Hi. unfold sub_term in Hi. destruct (mfind (fst t) m) as [d|] eqn:E; [destruct (qzero _) eqn:Z|].
  - apply mdel_in in Hi as [_ Hi]; [|exact Ha]. exact (Hn _ _ Hi).
  - apply mput_in in Hi as [[-> ->]|[_ Hi]]; [|exact (Hn _ _ Hi)|exact Ha]. intros H. apply qzero_iff in H. congruence.
  - apply mput_in in Hi as [[-> ->]|[_ Hi]]; [|exact (Hn _ _ Hi)|exact Ha]. intros H. apply Ht. rewrite <- (Qopp_involutive (snd t)), H. reflexivity.
Qed.
Lemma fold_add x : forall r m, asc m -> asc (fold_left add_term r m) /\ msum x (fold_left add_term r m) == msum x m + msum x r /\
  (nonzero m -> nonzero r -> nonzero (fold_left add_term r m)).
Proof.
  induction r as [|t r IH]; intros m H; cbn [fold_left].
  - split; [exact H|]. split; [cbn [mput mdel mfind above asc msum mmap map fst snd In]; ring|auto].
  - destruct (IH _ (add_term_asc m t H)) as (A & B & D). split; [exact A|]. split; [rewrite B, (add_term_sum _ _ _ H); destruct t; cbn [mput mdel mfind above asc msum mmap map fst snd In]; ring|].
    intros Hm Hr. apply D; [|intros v c Hi; apply (Hr v c); right; exact Hi]. apply add_term_nonzero; auto. destruct t as [v c]. apply (Hr v c). left; reflexivity.
Qed.
Lemma fold_sub x : forall r m, asc m -> asc (fold_left sub_term r m) /\ msum x (fold_left sub_term r m) == msum x m - msum x r /\
  (nonzero m -> nonzero r -> nonzero (fold_left sub_term r m)).
Proof.
  induction r as [|t r IH]; intros m H; cbn [fold_left].
  - split; [exact H|]. split; [cbn [mput mdel mfind above asc msum mmap map fst snd In]; ring|auto].
  - destruct (IH _ (sub_term_asc m t H)) as (A & B & D). split; [exact A|]. split; [rewrite B, (sub_term_sum _ _ _ H); destruct t; cbn [mput mdel mfind above asc msum mmap map fst snd In]; ring|].
    intros Hm Hr. apply D; [|intros v c Hi; apply (Hr v c); right; exact Hi]. apply sub_term_nonzero; auto. destruct t as [v c]. apply (Hr v c). left; reflexivity.
Qed.
Lemma mmap_above f w m : above w m -> above w (mmap f m).
Proof. revert w. induction m as [|[k c] r IH]; cbn [mput mdel mfind above asc msum mmap map fst snd In]; intros w; [auto|]. intros [A B]. auto. Qed.
Lemma mmap_asc f m : asc m -> asc (mmap f m).
Proof. destruct m as [|[k c] r]; cbn [mput mdel mfind above asc msum mmap map fst snd In]; [auto|]. apply mmap_above. Qed.

(** ** The operations. *)
Lemma lin_add_in_ok x l r : lin_wf l -> lval x (lin_add_in l r) == lval x l + lval x r.
Proof. intros H. unfold lval, lin_add_in. cbn [mput mdel mfind above asc msum mmap map fst snd In lvars lkt]. destruct (fold_add x (lvars r) (lvars l) H) as (_ & E & _). rewrite E. ring. Qed.
Lemma lin_sub_ok x l r : lin_wf l -> lval x (lin_sub l r) == lval x l - lval x r.
Proof. intros H. unfold lval, lin_sub. cbn [mput mdel mfind above asc msum mmap map fst snd In lvars lkt]. destruct (fold_sub x (lvars r) (lvars l) H) as (_ & E & _). rewrite E. ring. Qed.
Lemma lin_add_ok x l r : lin_wf l -> lval x (lin_add l r) == lval x l + lval x r + (lkt l - lkt r).
Proof. intros H. unfold lval, lin_add. cbn [mput mdel mfind above asc msum mmap map fst snd In lvars lkt]. destruct (fold_add x (lvars r) (lvars l) H) as (_ & E & _). rewrite E. ring. Qed.
Lemma lin_add_clean l r : lin_clean l -> lin_clean r -> lin_clean (lin_add_in l r) /\ lin_clean (lin_add l r) /\ lin_clean (lin_sub l r).
Proof.
  intros [A B] [_ D]. destruct (fold_add (fun _ => 0) (lvars r) (lvars l) A) as (P & _ & R). destruct (fold_sub (fun _ => 0) (lvars r) (lvars l) A) as (P' & _ & R').
  repeat split; cbn [mput mdel mfind above asc msum mmap map fst snd In]; auto.
Qed.
Lemma lin_mul_ok x l k : lval x (lin_mul l k) == lval x l * k.
Proof. unfold lval, lin_mul. cbn [mput mdel mfind above asc msum mmap map fst snd In lvars lkt]. rewrite (msum_mmap x _ k); [ring|]. intros c. reflexivity. Qed.
Lemma lin_div_ok x l k : ~ k == 0 -> lval x (lin_div l k) == lval x l / k.
Proof. intros Hk. unfold lval, lin_div. cbn [mput mdel mfind above asc msum mmap map fst snd In lvars lkt]. rewrite (msum_mmap x _ (/ k)); [field; exact Hk|]. intros c. unfold Qdiv. ring. Qed.
Lemma mmap_nonzero f m : (forall c, ~ c == 0 -> ~ f c == 0) -> nonzero m -> nonzero (mmap f m).
Proof. intros Hf Hn v c Hi. unfold mmap in Hi. apply in_map_iff in Hi as ([k d] & E & Hi). inversion E; subst. apply Hf, (Hn _ _ Hi). Qed.
