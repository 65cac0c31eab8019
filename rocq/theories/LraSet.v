(** lra_theory.h:164-166 [set_lb], [set_ub], [set]: bounds set by a client (or another theory) with a literal of its own as the
    reason.  They are [assert_lower], [assert_upper] (lra_theory.cpp:318-384), modelled by [assert_bound] of Lra.v. *)
From Coq Require Import Lqa.
From Verif Require Import Base Sat Lin Qe Lra LraTab LraVal LraInv LraChk LraPro LraCon LraTh.
Open Scope nat_scope.
Local Arguments Nat.ltb : simpl never.
Local Arguments Nat.eqb : simpl never.
Section Srt.
Context {sr : sorter}.

(** The same value. *)
Definition qeq (a b : qe) : Prop := (fst a == fst b /\ snd a == snd b)%Q.
Lemma qeq_refl a : qeq a a.
Proof. split; reflexivity. Qed.
Lemma qeq_sym a b : qeq a b -> qeq b a.
Proof. intros [A B]. split; symmetry; assumption. Qed.
Lemma qeq_le a b : qeq a b -> qle a b.
Proof. unfold qeq, qle. lra. Qed.
Lemma qle_antisym a b : qle a b -> qle b a -> qeq a b.
Proof. unfold qeq, qle. intros [A|[A A']] [B|[B B']]; split; lra. Qed.

Section Set_.
Context (ord : nat -> list nat -> list nat) (Hord : forall k l, Permutation l (ord k l)).

(** lra_theory.h:164 ([s = Lo]), 165 ([s = Up]); [cf]: the conflict, when it returns false. *)
Definition set_bound (t : lra) (s : side) (x : nat) (v : qe) (p : lit) (val : lv) := assert_bound ord t s x v p val.

(** The states of a theory whose client sets bounds as well: any state of a network, then bounds set, levels pushed and popped. *)
Inductive SReach : lra -> Prop :=
| SR_reach t vs : TReach ord t vs -> SReach t
| SR_set t s x v p val t' ls cf : SReach t -> x < nx t -> set_bound t s x v p val = Ok (t', ls, cf) -> SReach t'
| SR_push t : SReach t -> SReach (lra_push t)
| SR_pop t : SReach t -> SReach (lra_pop t).

Definition sane (t : lra) : Prop := wf_tab (nx t) (tab t) (tw t) /\ vsol (tab t) (vals t).
Lemma tell_total s b why al val : exists v ls cf, tell s b why al val = (v, ls, cf).
Proof. destruct (tell s b why al val) as [[v ls] cf]. eauto. Qed.
Lemma row_prop_total t s x r val : wf_tab (nx t) (tab t) (tw t) -> In r (tw t x) -> exists o, row_prop t s x r val = Ok o.
Proof.
  intros Hwf Hr. destruct (tw_rows t (nx t) x Hwf r Hr) as (l & Hl & Hd). unfold row_prop, row_of. rewrite Hl. cbn [rbind].
  unfold dom in Hd. destruct (mfind x (lvars l)) as [c0|] eqn:Ec; [|congruence]. match goal with |- context [row_sum t ?ts ?f _ _ _] => destruct (row_sum t ts f (lvars l) (Some (qe_of 0)) []) as [[tot why]|] end; [|eauto].
  destruct (bsle _ _ _); eauto.
Qed.
Lemma rows_prop_total t s x : wf_tab (nx t) (tab t) (tw t) -> forall rs val, (forall r, In r rs -> In r (tw t x)) -> exists v ls cf, rows_prop t s x rs val = Ok (v, ls, cf).
Proof.
  intros Hwf. induction rs as [|r rs IH]; intros val H; cbn [rows_prop]; [eauto|]. destruct (row_prop_total t s x r val Hwf (H r (or_introl eq_refl))) as [[[v1 l1] cf] ->]. cbn [rbind].
  destruct cf as [c|]; [eauto|]. destruct (IH v1 (fun r' Hr => H r' (or_intror Hr))) as (v2 & l2 & cf2 & ->). cbn [rbind]. eauto.
Qed.

(** What one call does. *)
Definition set_spec (t : lra) (s : side) (x : nat) (v : qe) (p : lit) (t' : lra) (cf : option (list lit)) : Prop :=
  (forall s' y, (s', y) <> (s, x) -> cb t' s' y = cb t s' y) /\
  (if bsle s (Some v) (bound t s x) then cb t' s x = cb t s x /\ cf = None
   else if match bound t (other s) x with Some b => negb (sle s v b) | None => false end
   then cb t' s x = cb t s x /\ cf = Some [negl p; negl (breason t (other s) x)]
   else cb t' s x = (Some v, p)) /\
  (forall y, gfind y (tab t) = None -> y <> x -> vals t' y = vals t y) /\
  (gfind x (tab t) = None -> cf = None -> inb s (bound t s x) (vals t x) -> inb s (bound t' s x) (vals t' x)) /\
  tab t' = tab t /\ nx t' = nx t.
Lemma set_ok t s x v p val : sane t -> x < nx t -> exists t' ls cf, set_bound t s x v p val = Ok (t', ls, cf) /\ sane t' /\ set_spec t s x v p t' cf /\
  (cb t' = cb t /\ layers t' = layers t \/ exists b, cb t' = updc (cb t) s x b /\ layers t' = save t s x).
Proof.
  intros [Hwf Hv] Hx. unfold set_bound, assert_bound, set_spec. destruct (bsle s (Some v) (bound t s x)) eqn:E1.
  { exists t, [], None. split; [reflexivity|]. split; [split; assumption|]. split; [|left; auto]. repeat split; auto. }
  destruct (match bound t (other s) x with Some b0 => negb (sle s v b0) | None => false end) eqn:E2.
  { eexists t, [], _. split; [reflexivity|]. split; [split; assumption|]. split; [|left; auto]. repeat split; auto; discriminate. }
  cbv zeta. set (t1 := set_cb (updc (cb t) s x (Some v, p)) (set_layers (save t s x) t)).
  assert (Hu : exists vs', (if negb (sle s v (vals t1 x)) && negb (is_basic t1 x) then update t1 x v else Ok t1) = Ok (set_vals vs' t1) /\
    vsol (tab t) vs' /\ (forall z, gfind z (tab t) = None -> z <> x -> vs' z = vals t z) /\ (gfind x (tab t) = None -> sleP s v (vs' x))).
  { destruct (negb (sle s v (vals t1 x)) && negb (is_basic t1 x)) eqn:E.
    - apply andb_true_iff in E as [_ E]. apply negb_true_iff in E. unfold is_basic in E. cbn [t1 tab set_cb set_layers] in E.
      destruct (gfind x (tab t)) eqn:Ex; [discriminate|]. destruct (update_ok t1 (nx t) x v Hwf Ex Hv) as (vs' & A & B & D & F).
      exists vs'. split; [exact A|]. split; [exact B|]. split; [exact F|]. intros _. rewrite D. apply sleP_refl.
    - exists (vals t). split; [reflexivity|]. split; [exact Hv|]. split; [reflexivity|]. intros Ex. apply andb_false_iff in E as [E|E].
      + apply negb_false_iff, sle_iff in E. exact E.
      + apply negb_false_iff in E. unfold is_basic in E. cbn [t1 tab set_cb set_layers] in E. rewrite Ex in E. discriminate. }
  destruct Hu as (vs' & -> & Hsol & Hvo & Hvx). cbn [rbind]. set (t2 := set_tick (S (tick (set_vals vs' t1))) (set_vals vs' t1)).
  assert (H2 : forall cf : option (list lit), sane t2 /\ ((forall s' y, (s', y) <> (s, x) -> cb t2 s' y = cb t s' y) /\ cb t2 s x = (Some v, p) /\ (forall y, gfind y (tab t) = None -> y <> x -> vals t2 y = vals t y) /\
    (gfind x (tab t) = None -> cf = None -> inb s (bound t s x) (vals t x) -> inb s (bound t2 s x) (vals t2 x)) /\ tab t2 = tab t /\ nx t2 = nx t) /\
    (cb t2 = cb t /\ layers t2 = layers t \/ exists b, cb t2 = updc (cb t) s x b /\ layers t2 = save t s x)).
  { intros cf. split; [split; [exact Hwf|exact Hsol]|]. split; [|right; eexists; split; reflexivity]. split; [|split; [apply updc_eq|split; [exact Hvo|split; [|split; reflexivity]]]].
    - intros s' y Hn. cbn [t2 t1 cb set_tick set_vals set_cb]. apply updc_neq. destruct (side_eqb_spec s' s) as [->|A]; [right; intros ->; apply Hn; reflexivity|left; exact A].
    - intros Ex _ _. unfold bound. cbn [t2 t1 cb set_tick set_vals set_cb]. rewrite updc_eq. cbn. apply Hvx, Ex. }
  destruct (tell s (bound t2 s x) [negl (breason t2 s x)] (aw t2 x) val) as [[v1 l1] c1]. destruct c1 as [c|].
  - exists t2, l1, (Some c). split; [reflexivity|]. apply H2.
  - destruct (rows_prop_total t2 s x Hwf (ord (tick t2) (tw t2 x)) v1) as (v2 & l2 & c2 & ->).
    + intros r Hr. apply (Permutation_in r (Permutation_sym (Hord (tick t2) (tw t2 x)))), Hr.
    + cbn [rbind]. exists t2, (l1 ++ l2), c2. split; [reflexivity|]. apply H2.
Qed.
Lemma SReach_sane t : SReach t -> sane t.
Proof.
  induction 1 as [t vs H|t s x v p val t' ls cf H IH Hx E|t H IH|t H IH].
  - pose proof (TReach_inv ord Hord t vs H) as I. split; [apply (ti_wf _ _ I)|apply (ti_val _ _ I)].
  - destruct (set_ok t s x v p val IH Hx) as (t1 & l1 & c1 & E1 & S & _). rewrite E in E1. injection E1 as <- _ _. exact S.
  - exact IH.
  - unfold lra_pop. destruct (layers t); exact IH.
Qed.

(** The bounds set since a push are undone by the pop. *)
Inductive Sets : lra -> lra -> Prop :=
| Se_none t : Sets t t
| Se_set t t1 s x v p val t' ls cf : Sets t t1 -> x < nx t1 -> set_bound t1 s x v p val = Ok (t', ls, cf) -> Sets t t'.
Lemma undo_saved t s x b L r : layers t = L :: r -> exists L', save t s x = L' :: r /\ forall s' y, undo L' (updc (cb t) s x b) s' y = undo L (cb t) s' y.
Proof.
  intros E. unfold save. rewrite E. destruct (existsb _ L) eqn:Ex.
  - exists L. split; [reflexivity|]. intros s' y. unfold undo, lookup_layer. destruct (find _ L) as [e|] eqn:F; [reflexivity|]. unfold updc.
    destruct (side_eqb s' s && Nat.eqb y x) eqn:Es; [|reflexivity]. apply andb_true_iff in Es as [A B]. apply Nat.eqb_eq in B. destruct (side_eqb_spec s' s); [|discriminate]. subst.
    apply existsb_exists in Ex as (e & He & Hk). pose proof (find_none _ _ F e He) as K. cbv beta in K. rewrite Hk in K. discriminate.
  - eexists. split; [reflexivity|]. intros s' y. unfold undo, lookup_layer. cbn [find fst snd]. rewrite (Nat.eqb_sym x y). replace (side_eqb s s') with (side_eqb s' s) by (destruct s, s'; reflexivity).
    destruct (side_eqb s' s && Nat.eqb y x) eqn:Es.
    + apply andb_true_iff in Es as [A B]. apply Nat.eqb_eq in B. destruct (side_eqb_spec s' s); [|discriminate]. subst. cbn [snd].
      destruct (find _ L) as [e|] eqn:F; [|reflexivity]. apply find_some in F as [Fi Fk]. exfalso. rewrite <- Bool.not_true_iff_false in Ex. apply Ex. apply existsb_exists. eauto.
    + unfold updc. rewrite Es. reflexivity.
Qed.
Lemma sets_undone t0 t' : sane t0 -> Sets (lra_push t0) t' -> (forall s x, cb (lra_pop t') s x = cb t0 s x) /\ layers (lra_pop t') = layers t0.
Proof.
  intros HS HR. assert (K : sane t' /\ exists L, layers t' = L :: layers t0 /\ forall s x, undo L (cb t') s x = cb t0 s x).
  { remember (lra_push t0) as tp eqn:Ep. induction HR as [t|t t1 s x v p val t' ls cf HR IH Hx E].
    - subst. split; [exact HS|]. exists []. split; reflexivity.
    - destruct (IH Ep) as (S1 & L & EL & EU). destruct (set_ok t1 s x v p val S1 Hx) as (t2 & l2 & c2 & E2 & S2 & _ & HB). rewrite E in E2. injection E2 as <- _ _. split; [exact S2|].
      destruct HB as [[Ec El]|(b & Ec & El)]; rewrite Ec, El; [exists L; split; assumption|]. destruct (undo_saved t1 s x b L (layers t0) EL) as (L' & A & B). exists L'. split; [exact A|]. intros s' y. rewrite B. apply EU. }
  destruct K as (_ & L & EL & EU). unfold lra_pop. rewrite EL. cbn [cb layers set_layers set_cb]. auto.
Qed.
End Set_.
End Srt.
