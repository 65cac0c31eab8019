(** Histories of the linear real arithmetic theory, as seen from the theory itself. *)
From Verif Require Import Base Sat SatSpec SatInv Lin Qe Lra LraTab LraVal LraInv LraChk LraPro LraCon LraNew.
From Coq Require Import Lqa.
Open Scope Q_scope.
Local Arguments Nat.ltb : simpl never.
Local Arguments Nat.eqb : simpl never.

Section Th.
Context (ord : nat -> list nat -> list nat) (Hord : forall k l, Permutation l (ord k l)).

(** The valuation [val] is a partial assignment that makes true the literals [ps] that the theory has
    been told of. *)
Record vals_of (val : lv) (ps : list lit) : Prop := {
  vo_neg : vneg val;
  vo_true : val TRUE_lit = LTrue;
  vo_told : forall q, In q ps -> val q = LTrue }.

(** The states of the theory driven by a core that respects the protocol of theory.h: at each level
    the literals it has been told of (innermost level first).  After a conflict the core backtracks. *)
Inductive TReach : lra -> list (list lit) -> Prop :=
| TR_init : TReach lra_init [[]]
| TR_var t vs : TReach t vs -> TReach (fst (t_new_var t)) vs
| TR_slack t v l t' x : TReach t [v] -> slackable t l -> t_new_slack true t l = Ok (t', x) -> TReach t' [v]
| TR_asrt t vs s x c w : TReach t vs -> ~ atoms t w -> w <> 0%nat -> (x < nx t)%nat -> bok s c -> (forall l, gfind x (tab t) = Some l -> lkt l == 0) -> TReach (add_asrt t s x c w) vs
| TR_prop t v vs val p t' ls : TReach t (v :: vs) -> atoms t (lvar p) -> vals_of val (p :: concat (v :: vs)) ->
    lra_prop ord t val p = Ok (t', ls, None) -> TReach t' ((p :: v) :: vs)
| TR_prop_pop t v w vs val p t' ls c : TReach t (v :: w :: vs) -> atoms t (lvar p) -> vals_of val (p :: concat (v :: w :: vs)) ->
    lra_prop ord t val p = Ok (t', ls, Some c) -> TReach (lra_pop t') (w :: vs)
| TR_check t vs fl t' : TReach t vs -> lra_check fl t = Ok (t', None) -> TReach t' vs
| TR_check_pop t v w vs fl t' c : TReach t (v :: w :: vs) -> lra_check fl t = Ok (t', Some c) -> TReach (lra_pop t') (w :: vs)
| TR_push t vs : TReach t vs -> feas t (cb t) -> TReach (lra_push t) ([] :: vs)
| TR_pop t v w vs : TReach t (v :: w :: vs) -> TReach (lra_pop t) (w :: vs).

Lemma prop_TInv t v vs val p t' ls cf : TInv t (v :: vs) -> atoms t (lvar p) -> vals_of val (p :: concat (v :: vs)) -> lra_prop ord t val p = Ok (t', ls, cf) ->
  exists v', TInv t' (v' :: vs) /\ (cf = None -> v' = p :: v).
Proof.
  intros HI Ha [Hn HT HV] E. destruct (lra_prop_ok ord Hord t v vs val p (fun _ => 0) HI Ha Hn HT) as (t2 & l2 & c2 & E2 & _ & H & _); [intros q Hq; apply HV; right; exact Hq|apply HV; left; reflexivity|].
  assert (t2 = t' /\ c2 = cf) as [-> ->] by (split; congruence). exact H.
Qed.
Lemma check_TInv t vs fl t' cf : TInv t vs -> lra_check fl t = Ok (t', cf) -> TInv t' vs.
Proof. intros HI E. pose proof (lra_check_ok fl t vs HI) as H. rewrite E in H. apply H. Qed.

Theorem TReach_inv t vs : TReach t vs -> TInv t vs.
Proof.
  induction 1 as [|t vs H IH|t v l t' x H IH Hl E|t vs s x c w H IH H1 H2 H3 H4 H5|t v vs val p t' ls H IH Ha HV E|t v w vs val p t' ls c H IH Ha HV E|t vs fl t' H IH E|t v w vs fl t' c H IH E|t vs H IH HF|t v w vs H IH].
  - apply lra_init_inv.
  - apply new_var_ok, IH.
  - destruct (new_slack_ok true t v l IH Hl eq_refl) as (t2 & x2 & E2 & A & _). rewrite E2 in E. inversion E; subst. exact A.
  - apply (add_asrt_ok t vs s x c w IH H5 H1 H2 H3 H4).
  - destruct (prop_TInv t v vs val p t' ls None IH Ha HV E) as (v' & A & B). rewrite (B eq_refl) in A. exact A.
  - destruct (prop_TInv t v (w :: vs) val p t' ls (Some c) IH Ha HV E) as (v' & A & B). apply (pop_ok t' v' w vs A).
  - apply (check_TInv t vs fl t' None IH E).
  - apply (pop_ok t' v w vs). apply (check_TInv t _ fl t' (Some c) IH E).
  - apply (push_ok t vs IH HF).
  - apply (pop_ok t v w vs IH).
Qed.

(** ** Between a push and the matching pop. *)
(** [Since t0 n t]: from [t0] (just before a push) to [t], with [n] pushes not yet undone; propagations
    and checks may end in any way, new variables and new assertions may appear. *)
Inductive Since (t0 : lra) : nat -> lra -> Prop :=
| SI_push : Since t0 1 (lra_push t0)
| SI_deeper n t : Since t0 n t -> Since t0 (S n) (lra_push t)
| SI_pop n t : Since t0 (S (S n)) t -> Since t0 (S n) (lra_pop t)
| SI_prop n t val p t' ls cf : Since t0 n t -> lra_prop ord t val p = Ok (t', ls, cf) -> Since t0 n t'
| SI_check n t fl t' cf : Since t0 n t -> lra_check fl t = Ok (t', cf) -> Since t0 n t'
| SI_var n t : Since t0 n t -> Since t0 n (fst (t_new_var t))
| SI_slack n t l t' x : Since t0 n t -> t_new_slack false t l = Ok (t', x) -> Since t0 n t'
| SI_asrt n t s x c w : Since t0 n t -> Since t0 n (add_asrt t s x c w).

Definition kept2 (t t' : lra) : Prop := cb t' = cb t /\ layers t' = layers t /\ nx t' = nx t.
Lemma pivot_kept t xi xj t' : pivot t xi xj = Ok t' -> kept2 t t'.
Proof.
  unfold pivot. destruct (row_of t xi) as [l| |]; cbn [rbind]; try discriminate. cbv zeta. destruct (lin_div_in _ _) as [e0| |]; cbn [rbind]; try discriminate.
  destruct (rfold _ _ _) as [[tb1 w1]| |]; cbn [rbind]; try discriminate. destruct (new_row _ _ _ _) as [tb2 w2]. intros E. inversion E; subst. repeat split.
Qed.
Lemma pivupd_kept t xi xj v t' : pivot_and_update t xi xj v = Ok t' -> kept2 t t'.
Proof.
  unfold pivot_and_update. destruct (is_basic t xi); cbn [guard]; [|discriminate]. destruct (negb (is_basic t xj)); cbn [guard]; [|discriminate].
  destruct (row_coef t xi xj) as [a| |]; cbn [rbind]; try discriminate. destruct (negb (qzero a)); cbn [guard]; [|discriminate]. cbv zeta.
  destruct (rfold _ _ _) as [vs| |]; cbn [rbind]; try discriminate. intros E. apply (pivot_kept (set_vals vs t) xi xj t') in E. exact E.
Qed.
Lemma check_kept : forall fl t t' cf, lra_check fl t = Ok (t', cf) -> kept2 t t'.
Proof.
  induction fl as [|fl IH]; intros t t' cf; cbn [lra_check]; [discriminate|]. destruct (find _ (tab t)) as [[xi l]|]; [|intros E; inversion E; subst; repeat split].
  set (s := if viol t Lo xi then Lo else Up). unfold fix_row. destruct (find _ (lvars l)) as [[xj k]|].
  - destruct (bound t s xi) as [b|]; cbn [rbind]; try discriminate. destruct (pivot_and_update t xi xj b) as [t1| |] eqn:E1; cbn [rbind]; try discriminate.
    intros E. apply IH in E. apply pivupd_kept in E1. destruct E as (A & B & D), E1 as (A1 & B1 & D1). repeat split; congruence.
  - cbn [rbind]. intros E. inversion E; subst. repeat split.
Qed.
Lemma upd_kept t x v t' : update t x v = Ok t' -> kept2 t t'.
Proof.
  unfold update. destruct (negb (is_basic t x)); cbn [guard]; [|discriminate]. destruct (rfold _ _ _) as [vs| |]; cbn [rbind]; try discriminate.
  intros E. inversion E; subst. repeat split.
Qed.
(** A propagation leaves bounds and layers alone or asserts one bound, saved in the current layer. *)
Lemma prop_saves t val p t' ls cf : lra_prop ord t val p = Ok (t', ls, cf) -> nx t' = nx t /\
  ((cb t' = cb t /\ layers t' = layers t) \/ exists s x b, cb t' = updc (cb t) s x b /\ layers t' = save t s x).
Proof.
  assert (HA : forall s x v, assert_bound ord t s x v p val = Ok (t', ls, cf) -> nx t' = nx t /\ ((cb t' = cb t /\ layers t' = layers t) \/ exists s x b, cb t' = updc (cb t) s x b /\ layers t' = save t s x)).
  { intros s x v. unfold assert_bound. destruct (bsle s (Some v) (bound t s x)); [intros E; inversion E; subst; auto|].
    destruct (match bound t (other s) x with Some b0 => negb (sle s v b0) | None => false end); [intros E; inversion E; subst; auto|].
    cbv zeta. set (t1 := set_cb (updc (cb t) s x (Some v, p)) (set_layers (save t s x) t)).
    assert (H : forall t2, (if negb (sle s v (vals t1 x)) && negb (is_basic t1 x) then update t1 x v else Ok t1) = Ok t2 -> kept2 t1 (set_tick (S (tick t2)) t2)).
    { intros t2 E. destruct (negb _ && negb _); [apply upd_kept in E; exact E|inversion E; repeat split]. }
    destruct (if negb (sle s v (vals t1 x)) && negb (is_basic t1 x) then update t1 x v else Ok t1) as [t2| |]; cbn [rbind]; try discriminate. specialize (H t2 eq_refl).
    assert (H' : nx (set_tick (S (tick t2)) t2) = nx t /\ ((cb (set_tick (S (tick t2)) t2) = cb t /\ layers (set_tick (S (tick t2)) t2) = layers t) \/ exists s x b, cb (set_tick (S (tick t2)) t2) = updc (cb t) s x b /\ layers (set_tick (S (tick t2)) t2) = save t s x)).
    { destruct H as (A & B & D). split; [rewrite D; reflexivity|]. right. exists s, x, (Some v, p). split; [rewrite A; reflexivity|rewrite B; reflexivity]. }
    destruct (tell _ _ _ _ _) as [[v1 l1] [c1|]]; [intros E; inversion E; subst; exact H'|]. destruct (rows_prop _ _ _ _ _) as [[[v2 l2] c2]| |]; cbn [rbind]; try discriminate. intros E; inversion E; subst; exact H'. }
  unfold lra_prop. destruct (gfind (lvar p) (v_asrts t)) as [a|]; [|discriminate]. destruct (val (a_b a)); [apply HA|apply HA|]. intros E. inversion E; subst; auto.
Qed.

Lemma undo_at L (f f' : bfun) s x : f' s x = f s x -> undo L f' s x = undo L f s x.
Proof. intros E. unfold undo. destruct (lookup_layer L s x); [reflexivity|exact E]. Qed.
Lemma unwind_at : forall Ls (f f' : bfun) s x, f' s x = f s x -> unwind Ls f' s x = unwind Ls f s x.
Proof. induction Ls as [|L Ls IH]; intros f f' s x E; cbn; [exact E|]. apply IH, undo_at, E. Qed.

Record SInv (t0 : lra) (n : nat) (t : lra) : Prop := {
  sv_nx : (nx t0 <= nx t)%nat;
  sv_n : (0 < n)%nat;
  sv_ls : exists top, length top = n /\ layers t = top ++ layers t0 /\ forall s x, (x < nx t0)%nat -> unwind top (cb t) s x = cb t0 s x }.
Lemma since_inv t0 n t : Since t0 n t -> SInv t0 n t.
Proof.
  induction 1 as [|n t H IH|n t H IH|n t val p t' ls cf H IH E|n t fl t' cf H IH E|n t H IH|n t l t' x H IH E|n t s x c w H IH].
  - constructor; [cbn; lia|lia|]. exists [[]]. repeat split.
  - destruct IH as [A B (top & L1 & L2 & L3)]. constructor; [exact A|lia|]. exists ([] :: top). cbn [length lra_push layers set_layers cb app unwind]. split; [lia|]. split; [rewrite L2; reflexivity|]. exact L3.
  - destruct IH as [A B (top & L1 & L2 & L3)]. destruct top as [|L top]; [discriminate L1|]. unfold lra_pop. rewrite L2. cbn [app]. constructor; [exact A|lia|]. exists top. cbn [layers set_layers cb set_cb]. split; [cbn in L1; lia|]. split; [reflexivity|]. exact L3.
  - destruct IH as [A B (top & L1 & L2 & L3)]. destruct (prop_saves t val p t' ls cf E) as [En [[E1 E2]|(s & x & b & E1 & E2)]].
    + constructor; [lia|exact B|]. exists top. rewrite E1, E2. auto.
    + destruct top as [|L top]; [cbn in L1; lia|]. unfold save in E2. rewrite L2 in E2. cbn [app] in E2. constructor; [lia|exact B|].
      pose proof (undo_save (cb t) L s x b) as HU. destruct (existsb _ L).
      * exists (L :: top). split; [exact L1|]. split; [exact E2|]. intros s' x' Hx. rewrite <- (L3 s' x' Hx). cbn [unwind]. rewrite E1. apply unwind_at, HU.
      * exists ((((s, x), cb t s x) :: L) :: top). split; [exact L1|]. split; [exact E2|]. intros s' x' Hx. rewrite <- (L3 s' x' Hx). cbn [unwind]. rewrite E1. apply unwind_at, HU.
  - destruct IH as [A B (top & L1 & L2 & L3)]. destruct (check_kept fl t t' cf E) as (E1 & E2 & E3). constructor; [lia|exact B|]. exists top. rewrite E1, E2. auto.
  - destruct IH as [A B (top & L1 & L2 & L3)]. unfold t_new_var. cbn [fst]. constructor; [cbn; lia|exact B|]. exists top. split; [exact L1|]. split; [exact L2|]. intros s x Hx. rewrite <- (L3 s x Hx). cbn [cb]. apply unwind_at.
    rewrite !updc_neq; [reflexivity| |]; right; lia.
  - assert (t' = t) as ->; [|exact IH]. rewrite t_new_slack_eq in E. destruct (lvars l); cbn [guard] in E; [discriminate|]. destruct (find_slack t l); cbn [guard] in E; [congruence|discriminate].
  - destruct IH as [A B (top & L1 & L2 & L3)]. constructor; [exact A|exact B|]. exists top. auto.
Qed.
End Th.
