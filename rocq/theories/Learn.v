(** The conflicts met above root level by one call of propagate(), and what is learnt from them. *)
From Verif Require Import Base Keys Sat SatSpec SatInv SatPop SatImp SatRec SatAn SatProp SatLoop SatMain SatApi Listen.

Section Learn.
Context {T : Type} {ops : theory_ops T} (C : contract ops).
Notation st := (st T).
Notation record := (Sat.record ops).

(** The same loop as [propagate] (sat_core.cpp:396-468), collecting the (state, falsified clause)
    pairs given to the conflict analysis. *)
Fixpoint conflicts (fuel : nat) (s : st) : list (st * list lit) :=
  match fuel with
  | 0 => []
  | S f =>
    let resolve_then (s3 : st) (c : list lit) (r : res st) :=
      (s3, c) :: match r with Ok s4 => conflicts f s4 | _ => [] end in
    match prop_q s with
    | p :: q =>
      match prop_clauses (set_watches (updl (watches s) p []) (set_prop_q q s)) p (watches s p) with
      | Ok (s2, Some c) =>
        let s3 := set_prop_q [] s2 in
        if root_level s3 then [] else resolve_then s3 (cls s3 c) (resolve ops s3 (cls s3 c))
      | Ok (s2, None) =>
        match th_prop_all ops s2 (visit (sorter := th_sort ops) (bounds s2 (lvar p))) p with
        | Ok (s3, Some c) =>
          let s4 := set_prop_q [] s3 in
          if root_level s4 then [] else resolve_then s4 c (theory_resolve ops s4 c)
        | Ok (s3, None) => conflicts f (if root_level s3 then set_bounds (upd (bounds s3) (lvar p) []) s3 else s3)
        | _ => []
        end
      | _ => []
      end
    | [] =>
      match th_check_all ops s (length (theories s)) 0 with
      | Ok (s1, Some c) => if root_level s1 then [] else resolve_then s1 c (theory_resolve ops s1 c)
      | _ => []
      end
    end
  end.

(** What the analysis of the falsified clause [lits] in the state [s] must produce. *)
Record asserting (s : st) (lits : list lit) : Prop := {
  as_above : dlevel s <> 0;
  as_false : forall q, In q lits -> value s q = LFalse;
  as_result : exists s1 p learnt bt s2, analyze s lits = Ok (s1, negl p :: learnt, bt) /\
    value s p = LTrue /\ level s (lvar p) = dlevel s /\
    (forall l, In l learnt -> value s l = LFalse /\ 0 < level s (lvar l) /\ level s (lvar l) <= bt) /\
    NoDup (lvar p :: map lvar learnt) /\ bt < dlevel s /\
    ((bt = 0 /\ learnt = []) \/ exists l, In l learnt /\ level s (lvar l) = bt) /\
    (forall M, smodels C s M -> mcl M (negl p :: learnt)) /\
    resolve ops s lits = Ok s2 /\ dlevel s2 = bt /\ value s2 (negl p) = LTrue /\ (forall l, In l learnt -> value s2 l = LFalse) }.

Lemma pop_dl (s s' : st) : pop ops s = Ok s' -> S (dlevel s') = dlevel s.
Proof.
  unfold pop, dlevel. destruct (trail_lim s) as [|n tl] eqn:El; [discriminate|].
  destruct (pop_until _ s n) as [s1| |] eqn:E1; cbn [rbind]; try discriminate. destruct (decisions s1); [discriminate|].
  intros E; inversion E; subst. reflexivity.
Qed.
Lemma pop_to_dl n : forall (s s' : st) l, l <= dlevel s -> pop_to ops n s l = Ok s' -> dlevel s' = l.
Proof.
  induction n as [|n IH]; intros s s' l Hl; cbn [pop_to]; destruct (Nat.ltb_spec l (dlevel s)); try discriminate; try (intros E; inversion E; subst; lia).
  destruct (pop ops s) as [s1| |] eqn:E1; cbn [rbind]; try discriminate. apply pop_dl in E1. apply IH. lia.
Qed.
Lemma record_val (s s' : st) l0 tl : record s (l0 :: tl) = Ok s' -> value s' l0 = LTrue /\ dlevel s' = dlevel s.
Proof.
  unfold Sat.record. intros E. do 5 apply guard_ok in E as [? E]. apply is_undef_iff in H0.
  assert (He : forall (x : st) c, value x l0 = LUndef -> exists y, enqueue x l0 c = (y, true) /\ value y l0 = LTrue /\ trail_lim y = trail_lim x).
  { intros x c Hx. unfold enqueue. rewrite Hx. eexists. split; [reflexivity|]. split; [|reflexivity].
    unfold value, vlit. cbn. unfold upd. rewrite Nat.eqb_refl. destruct (lsgn l0); reflexivity. }
  destruct tl as [|l1 tl].
  - apply guard_ok in E as [_ E]. destruct (He s None H0) as (y & Ey & Hy & Ht). rewrite Ey in E. cbn [guard] in E. inversion E; subst. unfold dlevel. rewrite Ht. auto.
  - destruct (new_constr s _) as [[s1 c]| |] eqn:E1; cbn [rbind] in E; try discriminate.
    assert (Hs1 : value s1 l0 = LUndef /\ trail_lim s1 = trail_lim s).
    { unfold new_constr in E1. match type of E1 with match ?l with _ => _ end = _ => destruct l as [|a [|b t]]; try discriminate end; inversion E1; subst; (split; [exact H0|reflexivity]). }
    destruct Hs1 as [K1 K1']. destruct (He s1 (Some c) K1) as (y & Ey & Hy & Ht). rewrite Ey in E. cbn [guard] in E. inversion E; subst. unfold dlevel. cbn. rewrite Ht, K1'. auto.
Qed.

Lemma asserting_ok (s : st) lits : InvX C s -> dlevel s <> 0 ->
  (forall q, In q lits -> value s q = LFalse) ->
  (exists q, In q lits /\ level s (lvar q) = dlevel s) ->
  (forall M, smodels C s M -> mcl M lits) -> asserting s lits.
Proof.
  intros HX Hd Hf Hex Hent. constructor; [exact Hd|exact Hf|].
  destruct (resolve_ok C s lits HX Hd Hf Hex Hent)
    as (s' & s2' & p' & learnt' & rem' & E & HI & Es' & HR & HI2 & Hq2 & HU2 & Hdl & _).
  destruct (analyze_ok C s lits HX Hd Hf Hex Hent)
    as (s1 & p & learnt & bt & rem & E1 & HX1 & HU & EL & ED & ET & Hin & Hlv & Hl & Hnd & Hbt & Hbtin & HM).
  pose proof (x_t _ _ HX) as HT.
  assert (Hpt : In p (trail s)) by (rewrite (u_trail _ _ _ HU); apply in_or_app; auto).
  assert (Hl' : forall l, In l learnt -> ~ In (lvar l) (map lvar rem) /\ value s l = LFalse /\ level s1 (lvar l) = level s (lvar l)).
  { intros l Hl0. destruct (Hl l Hl0) as (A & _). destruct (undo_value_true s s1 rem l HU ltac:(congruence)) as (B & D & F). split; [exact B|split; congruence]. }
  exists s1, p, learnt, bt, s'. split; [exact E1|]. split; [apply (t_true s HT p Hpt)|]. split; [apply Hlv, Hin|].
  split. { intros l Hl0. destruct (Hl' l Hl0) as (_ & A & B). destruct (Hl l Hl0) as (_ & D & F). rewrite B in *. auto. }
  split. { constructor; [|exact Hnd]. intros Hi. apply in_map_iff in Hi as (l & El & Hl0). destruct (Hl' l Hl0) as (A & _). apply A. rewrite El. apply in_map, Hin. }
  split; [exact Hbt|].
  split. { destruct Hbtin as [-> |(l & Hl0 & El)]; [left; split; [reflexivity|]|right; exists l; split; [exact Hl0|]; destruct (Hl' l Hl0) as (_ & _ & <-); exact El].
    destruct learnt as [|l r]; [reflexivity|]. exfalso. destruct (Hl l (or_introl eq_refl)) as (_ & A & B). lia. }
  split; [exact HM|]. split; [exact E|].
  unfold resolve in E. rewrite E1 in E. cbn [rbind] in E. unfold backjump in E.
  destruct (pop_to ops (dlevel s1) s1 bt) as [s3| |] eqn:E3; cbn [rbind] in E; try discriminate.
  assert (Hd1 : dlevel s1 = dlevel s) by (unfold dlevel; rewrite EL; reflexivity).
  pose proof (pop_to_dl _ s1 s3 bt ltac:(lia) E3) as Hd3.
  destruct (backjump_ok C s1 bt HX1 ltac:(lia)) as (s2 & rem2 & E2 & _ & _ & _ & HU3 & Hr2 & _). unfold backjump in E2. rewrite E3 in E2. inversion E2; subst s2; clear E2.
  destruct (record_val _ _ _ _ E) as [A B]. split; [congruence|]. split; [exact A|]. intros l Hl0.
  assert (Hv3 : value s3 l = LFalse).
  { rewrite (undo_value _ _ _ _ HU3); [apply (Hl l Hl0)|]. intros Hi. apply in_map_iff in Hi as (q & Eq & Hq). apply Hr2 in Hq. destruct (Hl l Hl0) as (_ & _ & H). rewrite Eq in Hq. lia. }
  assert (Hg : forall (x y : st) ls, record x ls = Ok y -> forall q, value x q <> LUndef -> value y q = value x q).
  { clear. intros x y [|l0 tl] E q Hq; [discriminate|]. unfold Sat.record in E. do 5 apply guard_ok in E as [? E]. apply is_undef_iff in H0.
    assert (He : forall (z : st) c w b, assigns z = assigns x -> enqueue z l0 c = (w, b) -> value w q = value x q).
    { intros z c w b Ea. unfold enqueue. assert (Hz : value z l0 = LUndef) by (unfold value; rewrite Ea; exact H0). rewrite Hz. intros Ew. inversion Ew; subst.
      unfold value, vlit. cbn. unfold upd. destruct (Nat.eqb_spec (lvar q) (lvar l0)) as [El|Hn]; [|rewrite Ea; reflexivity].
      exfalso. apply Hq. apply value_undef in H0. apply value_undef. rewrite El. exact H0. }
    destruct tl as [|l1 tl].
    - apply guard_ok in E as [_ E]. destruct (enqueue x l0 None) as [w b] eqn:Ew. apply guard_ok in E as [_ E]. inversion E; subst. apply (He x None y b eq_refl Ew).
    - destruct (new_constr x _) as [[x1 c]| |] eqn:E1; cbn [rbind] in E; try discriminate.
      assert (Hx1 : assigns x1 = assigns x).
      { unfold new_constr in E1. match type of E1 with match ?l with _ => _ end = _ => destruct l as [|a [|b t]]; try discriminate end; inversion E1; reflexivity. }
      destruct (enqueue x1 l0 (Some c)) as [w b] eqn:Ew. apply guard_ok in E as [_ E]. inversion E; subst. apply (He x1 (Some c) w b Hx1 Ew). }
  rewrite (Hg _ _ _ E l ltac:(congruence)). exact Hv3.
Qed.

Theorem conflicts_ok : forall fuel (s : st), Inv C s -> forall x c, In (x, c) (conflicts fuel s) -> asserting x c.
Proof.
  induction fuel as [|fuel IH]; intros s HI x c0; cbn [conflicts]; [intros []|].
  pose proof HI as [HT HC HR HW HQ HH].
  assert (Hcont : forall (s3 : st) c, InvX C s3 -> dlevel s3 <> 0 -> (forall q, In q c -> value s3 q = LFalse) -> (exists q, In q c /\ level s3 (lvar q) = dlevel s3) ->
     (forall M, smodels C s3 M -> mcl M c) -> In (x, c0) ((s3, c) :: match resolve ops s3 c with Ok s4 => conflicts fuel s4 | _ => [] end) -> asserting x c0).
  { intros s3 c A B D E F [Hi|Hi]; [inversion Hi; subst; apply asserting_ok; assumption|].
    destruct (resolve_ok C s3 c A B D E F) as (s4 & _ & _ & _ & _ & E4 & HI4 & _). rewrite E4 in Hi. apply (IH s4 HI4 x c0 Hi). }
  destruct (prop_q s) as [|p q] eqn:Eq.
  - pose proof (th_check_all_ok C (length (theories s)) s 0 HI Eq ltac:(lia) ltac:(intros; lia)) as HK.
    destruct (th_check_all ops s (length (theories s)) 0) as [[s1 cf]| |] eqn:Ek; [|intros []|intros []].
    destruct HK as (HM & Hg & HI1 & Hq1 & Htr1 & Hcf). destruct cf as [c|]; [|intros []].
    destruct (root_level s1) eqn:Er; [intros []|]. apply root_dlevel_false in Er.
    rewrite theory_resolve_eq; [|apply (i_t _ _ HI1)|apply (tc_len _ _ _ Hcf); exact Er|apply Hcf].
    apply Hcont; [apply (Inv_InvX C s1 HI1 Hq1)|exact Er|apply Hcf|apply (tc_lvl _ _ _ Hcf Er)|apply Hcf].
  - set (s1 := set_watches (updl (watches s) p []) (set_prop_q q s)).
    assert (Hpt : In p (trail s) /\ level s (lvar p) = dlevel s) by (apply (q_on s HQ); rewrite Eq; left; reflexivity).
    destruct Hpt as [Hpt Hlp]. pose proof (t_true s HT p Hpt) as Hp.
    pose proof (start_ok C s p q HI Eq) as HG1. fold s1 in HG1.
    destruct (prop_clauses_ok C (fun i l => l = p /\ In i (bounds s (lvar p))) p (watches s p) s1 HG1 Hp Hlp)
      as (s2 & o & E2 & HM2 & Hg2 & Et2 & Eb2 & Hps2 & Ho).
    rewrite E2.
    assert (Hp2 : value s2 p = LTrue /\ level s2 (lvar p) = dlevel s2).
    { rewrite (proj1 (grow_value _ _ p Hg2 ltac:(change (value s p <> LUndef); congruence))),
        (proj2 (grow_value _ _ p Hg2 ltac:(change (value s p <> LUndef); congruence))), (grow_dlevel _ _ Hg2). auto. }
    destruct Hp2 as [Hp2 Hlp2].
    destruct o as [c|].
    + destruct Ho as (HG2 & Hc & Hfal & Hnp). pose proof HG2 as [AT AC AR AW AQ AH].
      set (s3 := set_prop_q [] s2).
      assert (HX3 : InvX C s3).
      { eapply InvG_conflict; [exact HG2| |].
        - intros k l [H| ->]; [apply (q_on s2 AQ l H)|exact Hlp2].
        - intros k l [[-> _]|H]; [exact Hlp2|apply (q_on s2 AQ l H)]. }
      destruct (root_level s3) eqn:Er; [intros []|]. apply root_dlevel_false in Er.
      apply Hcont; [exact HX3|exact Er|exact Hfal| |intros M HM; apply (sm_cls _ _ _ HM), Hc].
      exists (negl p). split; [exact Hnp|]. rewrite lvar_negl. exact Hlp2.
    + assert (Eb2' : bounds s2 = bounds s) by exact Eb2.
      assert (HG2 : InvG C (fun _ l => In l (prop_q s2)) (fun j l => (l = p /\ In j (bounds s2 (lvar p))) \/ In l (prop_q s2)) s2).
      { rewrite Eb2'. exact Ho. }
      pose proof HG2 as [AT AC AR AW AQ AH].
      set (vis := visit (sorter := th_sort ops) (bounds s2 (lvar p))).
      assert (Hvis : Permutation (bounds s2 (lvar p)) vis) by apply visit_perm.
      assert (HG2' : InvG C (fun _ l => In l (prop_q s2)) (fun j l => (l = p /\ In j vis) \/ In l (prop_q s2)) s2).
      { eapply InvG_mono; [| |exact HG2]; cbn; [auto|]. intros k l [[El Hk]|Hk]; [left; split; [exact El|apply (Permutation_in _ Hvis Hk)]|right; exact Hk]. }
      pose proof (th_prop_all_ok C p vis s2 HG2' (Permutation_NoDup Hvis (h_nodup _ _ _ _ AH (lvar p))) (fun i Hi => Permutation_in _ (Permutation_sym Hvis) Hi) Hp2 Hlp2) as HK.
      destruct (th_prop_all ops s2 vis p) as [[s3 tcf]| |] eqn:E3; [|intros []|intros []].
      destruct HK as (HM3 & Hg3 & Eb3 & Hps3 & Hcf).
      destruct tcf as [c|].
      * destruct Hcf as [HX4 Htc]. set (s4 := set_prop_q [] s3) in *.
        assert (HM4 : forall M, smodels C s4 M <-> smodels C s3 M) by (intros M; apply smodels_q).
        destruct (root_level s4) eqn:Er; [intros []|]. apply root_dlevel_false in Er.
        rewrite theory_resolve_eq; [|apply (x_t _ _ HX4)|apply (tc_len _ _ _ Htc); exact Er|apply Htc].
        apply Hcont; [exact HX4|exact Er|apply Htc|apply (tc_lvl _ _ _ Htc Er)|intros M HM; apply Htc, HM4, HM].
      * intros Hi. set (s4 := if root_level s3 then set_bounds (upd (bounds s3) (lvar p) []) s3 else s3) in Hi.
        apply (IH s4); [|exact Hi].
        apply (unbind_inv C s s2 s3 p q); assumption.
Qed.
End Learn.
