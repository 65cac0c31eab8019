(** A value is lost only with its decision level. *)
From Verif Require Import Base Keys Sat SatSpec SatInv SatPop SatImp SatRec SatAn SatProp SatLoop SatMain SatApi SatApi2 SatNext SatSimp Reify Amo Run Listen.
Local Arguments Nat.ltb : simpl never.
Local Arguments Nat.eqb : simpl never.

Section Kept.
Context {T : Type} {ops : theory_ops T} (C : contract ops).
Notation st := (st T).
Lemma kept_value0 (s s' : st) : InvT s -> InvT s' -> dlevel s' = 0 -> dlevel s = 0 -> (forall p, value s p <> LUndef -> value s' p = value s p) -> kept s s'.
Proof.
  intros HT HT' Hd' Hd H q Hv _. split; [rewrite H; congruence|]. pose proof (level_le s HT (lvar q)). pose proof (level_le s' HT' (lvar q)). lia.
Qed.
Lemma kept_ext (s s' : st) : Inv C s -> dlevel s = 0 -> ext C s s' -> kept s s'.
Proof. intros HI Hd HE. apply kept_value0; [apply HI|apply (e_inv _ _ _ HE)|rewrite (e_dl _ _ _ HE); exact Hd|exact Hd|apply (e_val _ _ _ HE)]. Qed.
Lemma kept_grow (s s' : st) : grow s s' -> kept s s'.
Proof. intros Hg q Hv _. destruct (grow_value _ _ q Hg) as [A B]; [congruence|]. split; congruence. Qed.
Theorem kept_step fuel (s s' : st) c r : good C s -> legal C s c -> step (ops := ops) fuel s c = Ok (s', r) -> kept s s'.
Proof.
  intros G L E. pose proof (g_inv _ _ G) as HI. pose proof (g_cache _ _ G) as Hc. destruct c; cbn [step legal] in *.
  - destruct (new_var_ok C s HI) as [Ev V]. destruct (new_var s) as [s1 v]. injection E as <- _. cbn [fst] in V. intros q Hv _. unfold value, vlit in *. rewrite (vp_assigns _ _ _ V), (vp_level _ _ _ V). auto.
  - destruct L as [Hd Hr]. destruct (new_clause_ok C s ls HI Hd Hr) as (s1 & b & E1 & P). rewrite E1 in E. cbn [rbind] in E. injection E as <- _. apply kept_grow, P.
  - pose proof (propagate_ok C (dlevel s) fuel s HI (le_n _)) as H. destruct (propagate ops fuel s) as [[s1 b]| |]; cbn [rbind] in E; try discriminate E. injection E as <- _. apply H.
  - destruct L as (Hq & Hs & Hr). pose proof (quiet_of C s G Hq Hs) as Q. assert (Hp : lvar p < nv s) by (apply Hr; left; reflexivity).
    rewrite (assume_eq C) in E by assumption. destruct (assumed_ok C s p Q Hp) as (HIa & HMa & Hga).
    assert (Kp : forall s1, dlevel s1 <= S (dlevel s) -> kept (@push_st T ops s p) s1 -> kept s s1) by (intros s1 _ K q Hv Hl; apply (K q Hv Hl)).
    destruct (lbool_eqb_spec (value s p) LFalse) as [Ef|Ef].
    { rewrite Ef in E. cbn [rbind] in E. injection E as <- _. intros q Hv _. auto. }
    assert (Eas : match value s p with LFalse => Ok (@push_st T ops s p, false) | _ => propagate ops fuel (@assumed T ops s p) end = propagate ops fuel (@assumed T ops s p)) by (destruct (value s p); congruence).
    rewrite Eas in E. pose proof (propagate_ok C (dlevel (@assumed T ops s p)) fuel (@assumed T ops s p) HIa (le_n _)) as H. destruct (propagate ops fuel (@assumed T ops s p)) as [[s1 b]| |]; cbn [rbind] in E; try discriminate E. injection E as <- _.
    intros q Hv Hl. destruct (grow_value _ _ q Hga) as [A B]; [change (value (@push_st T ops s p) q) with (value s q); congruence|]. destruct (pp_kept _ _ _ _ H q) as [V Lv]; [rewrite A; exact Hv|rewrite B; exact Hl|]. split; [exact V|rewrite Lv, B; reflexivity].
  - destruct (g_up _ _ G L) as [Hq Hs]. destruct (pop_ok C s (Inv_InvX C s HI Hq) L) as (s1 & rem & E1 & HI1 & Hq1 & Hs1 & HU & Hrem & El & Ed & Hlen & Hth & Hlv & HM). rewrite E1 in E. cbn [rbind] in E. injection E as <- _.
    assert (Hd1 : S (dlevel s1) = dlevel s) by (unfold dlevel; rewrite El; unfold dlevel in L; destruct (trail_lim s); cbn in *; lia).
    intros q Hv Hl. assert (Hn : ~ In (lvar q) (map lvar rem)) by (intros Hi; apply in_map_iff in Hi as (q0 & E0 & Hi); pose proof (Hrem q0 Hi) as Hr0; rewrite E0 in Hr0; lia).
    rewrite (undo_value _ _ _ q HU Hn). destruct (u_keep _ _ _ HU _ Hn) as (_ & L1 & _). auto.
  - destruct L as (Hq & Hs & Hr). pose proof (quiet_of C s G Hq Hs) as Q. pose proof (check_ok C fuel s ls Q Hr) as H. destruct (check ops fuel s ls) as [[s1 b]| |]; cbn [rbind] in E; try discriminate E. injection E as <- _. destruct H as (_ & _ & _ & _ & _ & H).
    destruct b; [destruct H as [_ Hss]|apply H]. intros q Hv Hl. unfold value, vlit in *. rewrite (ss_assigns _ _ Hss), (ss_level _ _ Hss). auto.
  - destruct (Nat.eq_dec (dlevel s) 0) as [Hd|Hd].
    + rewrite (next_root fuel s Hd) in E. cbn [rbind] in E. injection E as <- _. intros q Hv _. auto.
    + destruct (g_up _ _ G Hd) as [Hq Hs]. pose proof (quiet_of C s G Hq Hs) as Q. pose proof (next_ok C fuel s Q L Hd) as H. destruct (next ops fuel s) as [[s1 b]| |]; cbn [rbind] in E; try discriminate E. injection E as <- _. apply H.
  - pose proof (simplify_db_ok C fuel s HI L) as H. destruct (simplify_db ops fuel s) as [[s1 b]| |] eqn:E1; cbn [rbind] in E; try discriminate E. injection E as <- _. destruct H as (_ & Hd1 & _ & _ & _ & Hv & _ & Hb). destruct b.
    + intros q Vq _. split; [apply Hv, Vq|]. destruct Hb as [[HI1 _ _] _]. pose proof (level_le s1 (i_t _ _ HI1) (lvar q)). pose proof (level_le s (i_t _ _ HI) (lvar q)). lia.
    + unfold simplify_db in E1. apply guard_ok in E1 as [_ E1]. pose proof (propagate_ok C (dlevel s) fuel s HI (le_n _)) as H. destruct (propagate ops fuel s) as [[s2 b2]| |]; cbn [rbind] in E1; try discriminate E1.
      destruct b2; [|injection E1 as <-; apply H]. destruct (simp_loop _ s2 [] _ []) as [[s3 k] o]. destruct (rfold destroy o _) as [s4| |]; cbn [rbind] in E1; discriminate E1.
  - destruct L as [Hd Hr]. destruct (new_eq_ok C s l r0 HI Hc Hd) as (s1 & p & E1 & HE & _); [apply Hr; left; reflexivity|apply Hr; right; left; reflexivity|]. rewrite E1 in E. cbn [rbind] in E. injection E as <- _. apply kept_ext; assumption.
  - destruct L as [Hd Hr]. destruct (new_conj_ok C s ls HI Hc Hd Hr) as (s1 & p & E1 & HE & _). rewrite E1 in E. cbn [rbind] in E. injection E as <- _. apply kept_ext; assumption.
  - destruct L as [Hd Hr]. destruct (new_disj_ok C s ls HI Hc Hd Hr) as (s1 & p & E1 & HE & _). rewrite E1 in E. cbn [rbind] in E. injection E as <- _. apply kept_ext; assumption.
  - destruct L as [Hd Hr]. destruct (amo_f_ok C (S (length ls)) s ls ltac:(lia) HI Hc Hd Hr) as (s1 & p & E1 & P). unfold new_at_most_one in E. rewrite E1 in E. cbn [rbind] in E. injection E as <- _. destruct P as [HE _ _ _ _ _]. apply kept_ext; assumption.
  - destruct L as [Hd Hr]. destruct (exct_ok C s ls HI Hc Hd Hr) as (s1 & p & E1 & P). rewrite E1 in E. cbn [rbind] in E. injection E as <- _. destruct P as [HE _ _ _]. apply kept_ext; assumption.
  - unfold listen in E. destruct (v <? nv s); cbn [guard] in E; [|discriminate E]. destruct (is_undef s (mk_lit v true)); [destruct (memn l (listening s v))|]; cbn [rbind] in E; injection E as <- _; intros q Hv _; auto.
Qed.
(** Values of root level are final. *)
Theorem root_final (s s' : st) q : good C s -> Reach C s s' -> value s q = LTrue -> level s (lvar q) = 0 -> value s' q = LTrue /\ level s' (lvar q) = 0.
Proof.
  intros G H Hv Hl. induction H as [|fuel s1 c s2 r HR IH HL HE HA]; [auto|]. destruct (kept_step fuel s1 s2 c r (reach_good C s s1 G HR) HL HE q) as [A B]; [apply IH|destruct IH as [_ ->]; lia|]. split; [exact A|rewrite B; apply IH].
Qed.
(** While the decision level does not go below [d], what is known at the levels up to [d] stays. *)
Inductive Above (s0 : st) (d : nat) : st -> Prop :=
| Ab_init : d <= dlevel s0 -> Above s0 d s0
| Ab_step fuel s c s' r : Above s0 d s -> legal C s c -> step (ops := ops) fuel s c = Ok (s', r) -> alive C s' r -> d <= dlevel s' -> Above s0 d s'.
Lemma above_reach s0 d s : Above s0 d s -> Reach C s0 s.
Proof. induction 1; [constructor|econstructor; eassumption]. Qed.
Theorem above_kept (s0 s : st) d : good C s0 -> Above s0 d s -> forall q, value s0 q = LTrue -> level s0 (lvar q) <= d -> value s q = LTrue /\ level s (lvar q) = level s0 (lvar q).
Proof.
  intros G H q Hv Hl. induction H as [|fuel s c s' r H IH HL HE HA Hd]; [auto|]. destruct (kept_step fuel s s' c r (reach_good C s0 s G (above_reach _ _ _ H)) HL HE q) as [A B]; [apply IH|destruct IH as [_ ->]; lia|]. split; [exact A|rewrite B; apply IH].
Qed.
End Kept.
