(** Weights of difference constraints: [utils::I] for the integer theory, [utils::inf_rational] for the
    real one.  Both theories are the same program up to the type of the weights, see Dl.v.
    An infinite distance is [None]: [rational::POSITIVE_INFINITY] in rdl_theory.cpp:9, and the
    sentinel [idl_theory::inf()] (idl_theory.h:144) in the integer theory, where the model
    assumes that no sum of weights reaches it. *)
From Verif Require Import Base Lin Qe.
From Coq Require Import Lqa.
Open Scope Q_scope.

(** What the program does with weights; [wunit] is what separates a weight from the next one (1 in
    idl_theory.cpp:464, epsilon in rdl_theory.cpp:443); [wofq] reads a known term, [None] when the
    program throws because it is not an integer. *)
Record wops (D : Type) := mk_wops { w0 : D; wadd : D -> D -> D; wneg : D -> D; wleb : D -> D -> bool; wunit : D; wofq : Q -> option D }.
Arguments mk_wops {D}.
Arguments w0 {D}.
Arguments wadd {D}.
Arguments wneg {D}.
Arguments wleb {D}.
Arguments wunit {D}.
Arguments wofq {D}.

(** [is_integer], [numerator] of a normalised rational *)
Definition z_of_q (q : Q) : option Z := if Z.eqb (Z.modulo (Qnum q) (Zpos (Qden q))) 0 then Some (Z.div (Qnum q) (Zpos (Qden q))) else None.
Definition Zw : wops Z := mk_wops 0%Z Z.add Z.opp Z.leb 1%Z z_of_q.
Definition qe_neg (a : qe) : qe := (- fst a, - snd a).
Definition Qw : wops qe := mk_wops (0, 0) qe_add qe_neg qe_leb (0, 1) (fun q => Some (q, 0)).

(** Statements that hold for every small enough epsilon. *)
Definition evt (P : Q -> Prop) : Prop := exists d0, 0 < d0 /\ forall d, 0 < d -> d <= d0 -> P d.
Lemma evt_all (P : Q -> Prop) : (forall d, 0 < d -> P d) -> evt P.
Proof. intros H. exists 1. split; [lra|]. auto. Qed.
Lemma evt_mp (P R : Q -> Prop) : evt P -> evt (fun d => P d -> R d) -> evt R.
Proof.
  intros (a & Ha & HP) (b & Hb & HR). destruct (Qlt_le_dec a b) as [H|H]; [exists a|exists b]; (split; [assumption|]); intros d H0 Hd; (apply HR; [assumption|lra|apply HP; [assumption|lra]]).
Qed.
Lemma evt_ex P : evt P -> exists d, 0 < d /\ P d.
Proof. intros (d & Hd & H). exists d. split; [assumption|apply H; [assumption|apply Qle_refl]]. Qed.
Lemma evt_and (P R : Q -> Prop) : evt P -> evt R -> evt (fun d => P d /\ R d).
Proof. intros HP HR. apply (evt_mp _ _ HP), (evt_mp _ _ HR), evt_all. auto. Qed.
Lemma evt_const (P : Prop) : evt (fun _ => P) <-> P.
Proof. split; [intros H; destruct (evt_ex _ H) as (_ & _ & K); exact K|]. intros H. apply evt_all. auto. Qed.
Lemma evt_list {A} (P : A -> Q -> Prop) (l : list A) : (forall a, In a l -> evt (P a)) -> evt (fun d => forall a, In a l -> P a d).
Proof.
  induction l as [|a l IH]; intros H; [apply evt_all; intros d _ a []|].
  apply (evt_mp _ _ (H a (or_introl eq_refl))), (evt_mp _ _ (IH (fun b Hb => H b (or_intror Hb)))), evt_all. intros d _ H1 H2 b [<-|Hb]; auto.
Qed.

(** ** The meaning of weights.  [ev w d]: the number denoted by [w] when epsilon is [d].
    [isv]: the numbers that variables range over.  [wcon]: the weights of constraints.
    [wok]: the weights of distances.  [wint]: the sums and differences of weights. *)
Record wlaws {D} (W : wops D) := mk_wlaws {
  ev : D -> Q -> Q;
  isv : Q -> Prop;
  wcon : D -> Prop;
  wok : D -> Prop;
  wint : D -> Prop;
  ev_0 : forall d, ev (w0 W) d == 0;
  ev_add : forall a b d, ev (wadd W a b) d == ev a d + ev b d;
  ev_neg : forall a d, ev (wneg W a) d == - ev a d;
  leb_true : forall a b, wleb W a b = true <-> evt (fun d => ev a d <= ev b d);
  leb_false : forall a b, wleb W a b = false <-> evt (fun d => ev b d < ev a d);
  isv_ev : forall a d, isv (ev a d);
  isv_eq : forall a b, a == b -> isv a -> isv b;
  isv_sub : forall a b, isv a -> isv b -> isv (a - b);
  con_ok : forall w, wcon w -> wok w;
  ok_0 : wok (w0 W);
  ok_add : forall a b, wok a -> wok b -> wok (wadd W a b);
  ok_int : forall a, wok a -> wint a;
  int_add : forall a b, wint a -> wint b -> wint (wadd W a b);
  int_neg : forall a, wint a -> wint (wneg W a);
  int_unit : wint (wunit W);
  con_neg : forall w, wcon w -> wcon (wadd W (wneg W w) (wneg W (wunit W)));
  sat_neg : forall w v, wcon w -> isv v -> (evt (fun d => - v <= ev (wadd W (wneg W w) (wneg W (wunit W))) d) <-> ~ evt (fun d => v <= ev w d));
  sat_real : forall w x, wok w -> wleb W x w = true -> evt (fun d => evt (fun d' => ev x d <= ev w d'));
  unsat_real : forall w x, wcon w -> wint x -> wleb W x w = false -> evt (fun d => ~ evt (fun d' => ev x d <= ev w d'));
  unit_gap : forall a b, wint a -> wint b -> wleb W a b = false -> wleb W (wadd W b (wunit W)) a = true;
  unit_pos : wleb W (wunit W) (w0 W) = false;
  sat_dec : forall w v, evt (fun d => v <= ev w d) \/ ~ evt (fun d => v <= ev w d) }.
Arguments ev {D W}.
Arguments isv {D W}.
Arguments wcon {D W}.
Arguments wok {D W}.
Arguments wint {D W}.

(** The number [v] respects the bound [w]. *)
Definition wsat {D} {W : wops D} (L : wlaws W) (w : D) (v : Q) : Prop := evt (fun d => v <= ev L w d).

(** ** Integers. *)
Lemma Zle_Q a b : (a <= b)%Z <-> inject_Z a <= inject_Z b.
Proof. rewrite <- Zle_Qle. reflexivity. Qed.
Lemma Zlt_Q a b : (a < b)%Z <-> inject_Z a < inject_Z b.
Proof. rewrite <- Zlt_Qlt. reflexivity. Qed.
Definition ZL : wlaws Zw.
Proof.
  refine (mk_wlaws Z Zw (fun z _ => inject_Z z) (fun q => exists z, q == inject_Z z) (fun _ => True) (fun _ => True) (fun _ => True) _ _ _ _ _ _ _ _ _ _ _ _ _ _ _ _ _ _ _ _ _ _); cbn; try (intros; exact I).
  - reflexivity.
  - intros. rewrite inject_Z_plus. reflexivity.
  - intros. rewrite inject_Z_opp. reflexivity.
  - intros. rewrite evt_const, <- Zle_Q. apply Z.leb_le.
  - intros. rewrite evt_const, <- Zlt_Q. apply Z.leb_gt.
  - intros. exists a. reflexivity.
  - intros a b E [z Hz]. exists z. rewrite <- E. exact Hz.
  - intros a b [x Hx] [y Hy]. exists (x - y)%Z. rewrite Hx, Hy. unfold Z.sub. rewrite inject_Z_plus, inject_Z_opp. reflexivity.
  - intros w v _ [z Hz]. rewrite !evt_const, Hz, <- inject_Z_opp, <- !Zle_Q. lia.
  - intros w x _ H. rewrite !evt_const, <- Zle_Q. apply Z.leb_le, H.
  - intros w x _ _ H. apply evt_const. rewrite evt_const. rewrite <- Zle_Q. apply Z.leb_gt in H. lia.
  - intros a b _ _ H. apply Z.leb_gt in H. apply Z.leb_le. lia.
  - reflexivity.
  - intros w v. rewrite evt_const. destruct (Qlt_le_dec (inject_Z w) v); [right; lra|left; lra].
Defined.

(** ** Rationals with an infinitesimal. *)
Definition at_q (a : qe) (d : Q) : Q := fst a + snd a * d.
Lemma at_le a b : qle a b -> evt (fun d => at_q a d <= at_q b d).
Proof.
  unfold qle, at_q. destruct a as [a e], b as [b f]; cbn. intros [H|[H H']].
  - destruct (Qlt_le_dec f e) as [K|K].
    + exists ((b - a) / (e - f)). split; [apply Qlt_shift_div_l; lra|]. intros d H0 Hd.
      assert (Hx : d * (e - f) <= b - a).
      { apply Qle_trans with ((b - a) / (e - f) * (e - f)); [apply Qmult_le_compat_r; lra|]. unfold Qdiv. rewrite <- Qmult_assoc, (Qmult_comm (/ (e - f))), Qmult_inv_r; lra. }
      lra.
    + apply evt_all. intros d Hd. assert (Hx : 0 <= (f - e) * d) by (apply Qmult_le_0_compat; lra). lra.
  - apply evt_all. intros d Hd. assert (Hx : 0 <= (f - e) * d) by (apply Qmult_le_0_compat; lra). lra.
Qed.
Lemma at_lt a b : qlt a b -> evt (fun d => at_q a d < at_q b d).
Proof.
  unfold qlt. destruct a as [a e], b as [b f]; cbn. intros [H|[H H']].
  - assert (H1 : qle (a, e) ((a + b) / (2 # 1), f)) by (left; cbn; apply Qlt_shift_div_l; lra).
    apply at_le in H1. apply (evt_mp _ _ H1), evt_all. intros d _. unfold at_q; cbn. assert ((a + b) / (2 # 1) < b) by (apply Qlt_shift_div_r; lra). lra.
  - apply evt_all. intros d Hd. unfold at_q; cbn. assert (Hx : 0 < (f - e) * d) by (apply Qmult_lt_0_compat; lra). lra.
Qed.
Lemma at_le_iff a b : qle a b <-> evt (fun d => at_q a d <= at_q b d).
Proof.
  split; [apply at_le|]. intros H. destruct (qe_leb a b) eqn:E; [apply qe_leb_iff, E|]. apply qe_leb_false, at_lt in E.
  destruct (evt_ex _ (evt_and _ _ H E)) as (d & _ & H1 & H2). lra.
Qed.
Lemma at_lt_iff a b : qlt a b <-> evt (fun d => at_q a d < at_q b d).
Proof.
  split; [apply at_lt|]. intros H. apply qe_leb_false. destruct (qe_leb b a) eqn:E; [|reflexivity]. apply qe_leb_iff, at_le in E.
  destruct (evt_ex _ (evt_and _ _ H E)) as (d & _ & H1 & H2). lra.
Qed.
Lemma wsat_qe v w : evt (fun d => v <= at_q w d) <-> v <= fst w /\ (snd w < 0 -> v < fst w).
Proof.
  assert (E : evt (fun d => v <= at_q w d) <-> evt (fun d => at_q (v, 0) d <= at_q w d)).
  { split; intros H; apply (evt_mp _ _ H), evt_all; unfold at_q; cbn; intros; lra. }
  rewrite E, <- at_le_iff. unfold qle; cbn. split; [intros [H|H]; lra|]. intros [H H']. destruct (Qlt_le_dec (snd w) 0); [left; lra|]. destruct (Qlt_le_dec v (fst w)); [left; lra|right; lra].
Qed.
Definition QL : wlaws Qw.
Proof.
  refine (mk_wlaws qe Qw at_q (fun _ => True) (fun w => snd w == 0 \/ snd w == - (1)) (fun w => exists z, (z <= 0)%Z /\ snd w == inject_Z z) (fun w => exists z, snd w == inject_Z z)
    _ _ _ _ _ _ _ _ _ _ _ _ _ _ _ _ _ _ _ _ _ _); try (intros; exact I).
  - intros d. unfold at_q. cbn. lra.
  - intros a b d. unfold at_q. cbn. lra.
  - intros a d. unfold at_q. cbn. lra.
  - intros a b. rewrite <- at_le_iff. apply qe_leb_iff.
  - intros a b. rewrite <- at_lt_iff. apply qe_leb_false.
  - intros w [H|H]; [exists 0%Z|exists (-1)%Z]; (split; [lia|exact H]).
  - exists 0%Z. split; [lia|reflexivity].
  - intros a b (x & Hx & Ex) (y & Hy & Ey). exists (x + y)%Z. split; [lia|]. cbn. rewrite inject_Z_plus, Ex, Ey. reflexivity.
  - intros a (z & _ & E). exists z. exact E.
  - intros a b (x & Ex) (y & Ey). exists (x + y)%Z. cbn. rewrite inject_Z_plus, Ex, Ey. reflexivity.
  - intros a (x & Ex). exists (- x)%Z. cbn. rewrite inject_Z_opp, Ex. reflexivity.
  - exists 1%Z. reflexivity.
  - intros w H. cbn. lra.
  - intros w v H _. rewrite !wsat_qe. cbn. lra.
  - intros w x (z & Hz & Ez) H. apply qe_leb_iff in H. assert (Hz' : inject_Z z <= 0) by (apply (Zle_Q z 0); exact Hz).
    destruct (Qlt_le_dec (fst x) (fst w)) as [K|K].
    + assert (K' : qlt x (fst w, 0)) by (left; exact K). apply at_lt in K'. apply (evt_mp _ _ K'), evt_all. intros d _ H1. apply wsat_qe. unfold at_q in H1 at 2; cbn in H1. lra.
    + apply evt_all. intros d Hd. apply wsat_qe. destruct H as [H|[H H']]; [lra|]. unfold at_q. assert (0 <= (- snd x) * d) by (apply Qmult_le_0_compat; lra).
      split; [lra|]. intros Hn. assert (0 < (- snd x) * d) by (apply Qmult_lt_0_compat; lra). lra.
  - intros w x Hw (z & Ez) H. apply qe_leb_false in H. destruct H as [H|[H H']].
    + assert (K' : qlt (fst w, 0) x) by (left; exact H). apply at_lt in K'. apply (evt_mp _ _ K'), evt_all. intros d _ H1. rewrite wsat_qe. unfold at_q in H1 at 1; cbn in H1. lra.
    + apply evt_all. intros d Hd. rewrite wsat_qe. unfold at_q.
      assert (Hx : (- 1 < z)%Z) by (apply Zlt_Q; change (inject_Z (-1)) with (-1 # 1); lra). assert (Hx' : 0 <= snd x) by (rewrite Ez; apply (Zle_Q 0 z); lia).
      assert (0 <= snd x * d) by (apply Qmult_le_0_compat; lra). destruct Hw as [Hw|Hw]; [assert (0 < snd x * d) by (apply Qmult_lt_0_compat; lra); lra|lra].
  - intros a b (x & Ex) (y & Ey) H. apply qe_leb_false in H. apply qe_leb_iff. destruct H as [H|[H H']]; [left; cbn; lra|right; cbn]. split; [lra|].
    assert (y < x)%Z by (apply Zlt_Q; lra). assert (inject_Z (y + 1) <= inject_Z x) by (apply (Zle_Q (y + 1) x); lia). rewrite inject_Z_plus in *. change (inject_Z 1) with 1 in *. lra.
  - reflexivity.
  - intros w v. rewrite wsat_qe. destruct (Qlt_le_dec (fst w) v); [right; lra|]. destruct (Qlt_le_dec (snd w) 0); [|left; lra]. destruct (Qlt_le_dec v (fst w)); [left; lra|right; lra].
Defined.

(** ** Reasoning with weights. *)
Section Laws.
Context {D : Type} {W : wops D} (L : wlaws W).
Definition wle (a b : D) : Prop := evt (fun d => ev L a d <= ev L b d).
Definition wlt (a b : D) : Prop := evt (fun d => ev L a d < ev L b d).
Definition weq (a b : D) : Prop := evt (fun d => ev L a d == ev L b d).
End Laws.
(** Linear arithmetic on weights: hypotheses about weights and about numbers respecting weights. *)
Ltac wprep L :=
  repeat match goal with
  | H : wleb _ _ _ = true |- _ => apply (leb_true _ L) in H
  | H : wleb _ _ _ = false |- _ => apply (leb_false _ L) in H
  | |- wleb _ _ _ = true => apply (leb_true _ L)
  | |- wleb _ _ _ = false => apply (leb_false _ L)
  end; unfold wsat, wle, wlt, weq in *.
Ltac wlra L :=
  wprep L;
  repeat match goal with H : evt _ |- evt _ => apply (evt_mp _ _ H); clear H end;
  apply evt_all; let d := fresh "d" in intros d _; intros; rewrite ?(ev_add _ L), ?(ev_neg _ L), ?(ev_add _ L), ?(ev_neg _ L), ?(ev_add _ L), ?(ev_0 _ L) in *; lra.
Section Laws2.
Context {D : Type} {W : wops D} (L : wlaws W).
Lemma wle_iff a b : wleb W a b = true <-> wle L a b.
Proof. apply leb_true. Qed.
Lemma wlt_iff a b : wleb W a b = false <-> wlt L b a.
Proof. apply leb_false. Qed.
Lemma wlt_not_le a b : wlt L a b -> ~ wle L b a.
Proof. intros H K. rewrite <- wle_iff in K. rewrite <- wlt_iff in H. congruence. Qed.
Lemma wle_or a b : wle L a b \/ wlt L b a.
Proof. rewrite <- wle_iff, <- wlt_iff. destruct (wleb W a b); auto. Qed.
Lemma wle_refl a : wle L a a.
Proof. wlra L. Qed.
Lemma wle_trans a b c : wle L a b -> wle L b c -> wle L a c.
Proof. intros. wlra L. Qed.
Lemma wsat_le a b v : wle L a b -> wsat L a v -> wsat L b v.
Proof. intros. wlra L. Qed.
Lemma wsat_add a b u v : wsat L a u -> wsat L b v -> wsat L (wadd W a b) (u + v).
Proof. intros. wlra L. Qed.
Lemma wsat_eq a u v : u == v -> wsat L a u -> wsat L a v.
Proof. intros. wlra L. Qed.
End Laws2.
