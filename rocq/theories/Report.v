(** The part of the interface that a theory uses outside of the search (include/theory.h:33-36):
    [backtrack_analyze_and_backjump], [swap_conflict] and [record]. *)
From Verif Require Import Base Keys Sat SatSpec SatInv SatPop SatRec SatAn SatLoop SatMain SatApi SatApi2 SatNext SatSimp Reify Amo Run.

Section Report.
Context {T : Type} {ops : theory_ops T}.
Notation st := (st T).
Notation record := (Sat.record ops).
Notation recorded := (SatRec.recorded (ops := ops)).
Notation rec_lits := (SatRec.rec_lits (ops := ops)).

(** theory.cpp:17-21: the highest level among the literals of the conflict. *)
Definition cnfl_level (s : st) (cnfl : list lit) : nat :=
  fold_left (fun bt l => if bt <? level s (lvar l) then level s (lvar l) else bt) cnfl 0.

(** theory.cpp:15-32.  The conflict is a parameter; the second list of the result is what is left in [cnfl] at the end: a copy of it is passed
    to [new_clause] at root level (line 27), it is moved and cleared otherwise (lines 36-42).  UB when a literal has no variable (line 20). *)
Definition report (fuel : nat) (s : st) (cnfl : list lit) : res (st * bool * list lit) :=
  guard (in_range s cnfl)
  (s1 <- backjump ops s (cnfl_level s cnfl) ;;
   if root_level s1 then
     '(s2, b) <- new_clause s1 cnfl ;;
     if b then '(s3, b3) <- propagate ops fuel s2 ;; Ok (s3, b3, cnfl) else Ok (s2, false, cnfl)
   else
     s2 <- theory_resolve ops s1 cnfl ;;
     '(s3, b) <- propagate ops fuel s2 ;; Ok (s3, b, [])).

(** theory.cpp:13: the two theories exchange their conflicts. *)
Definition swap_conflict (a b : list lit) : list lit * list lit := (b, a).

(** theory.cpp:51, followed by a propagation. *)
Definition tell (fuel : nat) (s : st) (lits : list lit) : res (st * bool) :=
  s1 <- record s lits ;; propagate ops fuel s1.

Context (C : contract ops).

Lemma cnfl_level_gen (s : st) : forall c m, m <= fold_left (fun bt l => if bt <? level s (lvar l) then level s (lvar l) else bt) c m /\
  (forall l, In l c -> level s (lvar l) <= fold_left (fun bt l => if bt <? level s (lvar l) then level s (lvar l) else bt) c m) /\
  (fold_left (fun bt l => if bt <? level s (lvar l) then level s (lvar l) else bt) c m = m \/
   exists l, In l c /\ level s (lvar l) = fold_left (fun bt l => if bt <? level s (lvar l) then level s (lvar l) else bt) c m).
Proof.
  induction c as [|x c IH]; intros m; cbn [fold_left]; [split; [lia|]; split; [intros l []|left; reflexivity]|].
  destruct (Nat.ltb_spec m (level s (lvar x))) as [H|H].
  - destruct (IH (level s (lvar x))) as (A & B & D). split; [lia|]. split; [intros l [<-|Hl]; [exact A|apply B, Hl]|]. right.
    destruct D as [D|(l & Hl & D)]; [exists x; split; [left; reflexivity|symmetry; exact D]|exists l; split; [right; exact Hl|exact D]].
  - destruct (IH m) as (A & B & D). split; [exact A|]. split; [intros l [<-|Hl]; [lia|apply B, Hl]|].
    destruct D as [D|(l & Hl & D)]; [left; exact D|right; exists l; split; [right; exact Hl|exact D]].
Qed.
Lemma cnfl_level_le (s : st) c l : In l c -> level s (lvar l) <= cnfl_level s c.
Proof. apply (cnfl_level_gen s c 0). Qed.
Lemma cnfl_level_in (s : st) c : cnfl_level s c <> 0 -> exists l, In l c /\ level s (lvar l) = cnfl_level s c.
Proof. intros H. destruct (cnfl_level_gen s c 0) as (_ & _ & [D|D]); [destruct (H D)|exact D]. Qed.

(** What a reported conflict must be: all its literals are false, and no model of the network (and of its theories) violates it; above root
    level it has at least two literals (an assert of clause.cpp). *)
Record conflicting (s : st) (cnfl : list lit) : Prop := {
  cf_false : forall q, In q cnfl -> value s q = LFalse;
  cf_ent : forall M, smodels C s M -> mcl M cnfl;
  cf_len : (exists q, In q cnfl /\ level s (lvar q) <> 0) -> 2 <= length cnfl }.

Lemma skipn_0_of {A} (l : list A) n : n = 0 -> skipn n l = l.
Proof. intros ->. reflexivity. Qed.

Theorem report_ok fuel (s : st) c : good C s -> conflicting s c ->
  match report fuel s c with
  | UB => False
  | OOF => th_total C -> fuel <= enough s
  | Ok (s', b, left_over) =>
      (forall M, smodels C s' M <-> smodels C s M) /\
      (dlevel s' < cnfl_level s c \/ b = false) /\ nv s' = nv s /\ exprs s' = exprs s /\
      dlevel s' <= dlevel s /\ decisions s' = skipn (dlevel s - dlevel s') (decisions s) /\ kept s s' /\
      (b = true -> quiet C s' /\ left_over = []) /\ (b = false -> doomed C s')
  end.
Proof.
  intros G [Hf Hent Hlen]. pose proof (g_inv _ _ G) as HI. pose proof (i_t _ _ HI) as HT.
  assert (Hr : forall p, In p c -> lvar p < nv s) by (intros p Hp; apply trail_range; [exact HT|rewrite (Hf p Hp); discriminate]).
  unfold report. assert (Er : in_range s c = true) by (apply in_range_iff; exact Hr). rewrite Er. cbn [guard].
  set (n := cnfl_level s c). assert (Hn : n <= dlevel s).
  { destruct (Nat.eq_dec n 0) as [->|H]; [lia|]. destruct (cnfl_level_in s c H) as (l & _ & E). fold n in E. rewrite <- E. apply level_le, HT. }
  (* after backtracking *)
  assert (HB : exists s1 rem, backjump ops s n = Ok s1 /\ Inv C s1 /\ (n <> 0 -> prop_q s1 = []) /\ undo s s1 rem /\
     (forall p, In p rem -> n < level s (lvar p)) /\ dlevel s1 = n /\ trail_lim s1 = skipn (dlevel s - n) (trail_lim s) /\
     decisions s1 = skipn (dlevel s - n) (decisions s) /\ length (theories s1) = length (theories s) /\
     (forall M, smodels C s M <-> smodels C s1 M)).
  { unfold backjump. destruct (Nat.eq_dec (dlevel s) n) as [E|E].
    - exists s, []. assert (Hb : (n <? dlevel s) = false) by (apply Nat.ltb_ge; lia).
      assert (HP : forall k, pop_to ops k s n = Ok s) by (intros [|k]; cbn [pop_to]; rewrite Hb; reflexivity).
      split; [apply HP|]. split; [exact HI|].
      split; [intros Hn0; apply (g_up _ _ G); lia|]. split; [apply undo_refl|]. split; [intros p []|]. split; [exact E|].
      rewrite E, Nat.sub_diag. cbn [skipn]. split; [reflexivity|]. split; [reflexivity|]. split; [reflexivity|tauto].
    - destruct (g_up _ _ G ltac:(lia)) as [Hq Hs].
      destruct (pop_to_ok C (dlevel s) s n (Inv_InvX C s HI Hq) ltac:(lia) ltac:(lia)) as (s1 & rem & E1 & HI1 & Hq1 & Hs1 & HU & Hrem & Hlv & Hd & El & Ed & Hth & HM).
      exists s1, rem. split; [exact E1|]. split; [exact HI1|]. split; [intros _; exact Hq1|]. split; [exact HU|]. split; [exact Hrem|].
      split; [exact Hd|]. split; [exact El|]. split; [exact Ed|]. split; [exact Hth|exact HM]. }
  destruct HB as (s1 & rem & E1 & HI1 & Hq1 & HU & Hrem & Hd1 & El & Ed & Hth & HM1). rewrite E1. cbn [rbind].
  assert (Hkeep : forall q, level s (lvar q) <= n -> value s1 q = value s q /\ level s1 (lvar q) = level s (lvar q)).
  { intros q Hl. assert (Hni : ~ In (lvar q) (map lvar rem)).
    { intros Hi. apply in_map_iff in Hi as (x & Ex & Hx). apply Hrem in Hx. rewrite Ex in Hx. lia. }
    split; [apply (undo_value _ _ _ q HU Hni)|]. apply (u_keep _ _ _ HU _ Hni). }
  assert (Hf1 : forall q, In q c -> value s1 q = LFalse).
  { intros q Hq. destruct (Hkeep q (cnfl_level_le s c q Hq)) as [-> _]. apply Hf, Hq. }
  assert (Hent1 : forall M, smodels C s1 M -> mcl M c) by (intros M HM; apply Hent, HM1, HM).
  assert (Hk1 : kept s s1) by (intros q Hv Hl; rewrite Hd1 in Hl; destruct (Hkeep q Hl) as [-> ->]; auto).
  destruct (Nat.eq_dec n 0) as [Hn0|Hn0].
  - assert (Err : root_level s1 = true) by (apply root_dlevel; lia). rewrite Err.
    destruct (new_clause_ok C s1 c HI1 ltac:(lia)) as (s2 & b & E2 & P).
    { intros p Hp. rewrite (u_nv _ _ _ HU). apply Hr, Hp. }
    rewrite E2. cbn [rbind].
    assert (Hun : unsat C s1).
    { intros M HM. destruct (Hent1 M HM) as (q & Hq & Em). pose proof (Hf1 q Hq) as V. apply value_false_true in V.
      apply (sm_facts _ _ _ HM) in V; [rewrite mlit_negl, Em in V; discriminate|]. pose proof (level_le s1 (i_t _ _ HI1) (lvar (negl q))). lia. }
    assert (Hb : b = false).
    { destruct b; [exfalso|reflexivity]. unfold new_clause in E2.
      assert (EK : clause_filter (value s1) None (sort_by lvar c) = Some []).
      { pose proof (filter_clause C s1 c HI1 ltac:(lia)) as HF. destruct (clause_filter (value s1) None (sort_by lvar c)) as [k|] eqn:Ek.
        - destruct HF as (A & _). destruct k as [|x k]; [reflexivity|]. destruct (A x (or_introl eq_refl)) as [X1 X2]. rewrite (Hf1 x X1) in X2. discriminate.
        - exfalso. pose proof (clause_filter_spec (value s1) (sort_by lvar c) None (sort_by_sorted lvar c) ltac:(discriminate)) as HS. rewrite Ek in HS.
          destruct HS as [(q & Hq & Ev)|(q & Hq & [Hn1|Hn1])]; [apply sort_by_In in Hq; rewrite (Hf1 q Hq) in Ev; discriminate| |discriminate].
          apply sort_by_In in Hq. apply sort_by_In in Hn1. pose proof (Hf1 _ Hn1) as V. rewrite value_negl, (Hf1 q Hq) in V. discriminate. }
      rewrite Err, EK in E2. cbn [guard] in E2. destruct (in_range s1 c); cbn [guard] in E2; discriminate. }
    subst b. destruct (cp_false _ _ _ _ _ P eq_refl) as [-> _]. cbn beta iota.
    split; [intros M; symmetry; apply HM1|]. split; [right; reflexivity|]. split; [apply (u_nv _ _ _ HU)|]. split; [apply (u_exprs _ _ _ HU)|].
    split; [lia|]. split; [rewrite Hd1; exact Ed|]. split; [exact Hk1|]. split; [discriminate|]. intros _. apply Inv_doomed; [exact HI1|lia|exact Hun].
  - assert (Err : root_level s1 = false) by (apply root_dlevel_false; lia). rewrite Err.
    destruct (cnfl_level_in s c Hn0) as (l & Hl & Ell). fold n in Ell.
    rewrite theory_resolve_eq; [|apply HI1|apply Hlen; exists l; split; [exact Hl|lia]|exact Hf1].
    pose proof (Inv_InvX C s1 HI1 (Hq1 Hn0)) as HX1.
    destruct (resolve_step C s1 c (dlevel s1) HX1 ltac:(lia) (le_n _) Hf1) as (s2 & E2 & HI2 & HS & Hdl2 & _ & _ & _).
    { exists l. split; [exact Hl|]. destruct (Hkeep l ltac:(lia)) as [_ ->]. lia. }
    { exact Hent1. }
    rewrite E2. cbn [rbind]. pose proof (propagate_ok C (dlevel s2) fuel s2 HI2 (le_n _)) as HP.
    destruct (propagate ops fuel s2) as [[s3 b]| |]; cbn [rbind]; [|exact HP|].
    + pose proof (pp_dl _ _ _ _ HP) as Hd3. pose proof (sp_dl _ _ _ HS) as Hd2.
      split; [intros M; rewrite (pp_models _ _ _ _ HP), (sp_models _ _ _ HS); symmetry; apply HM1|]. split; [left; lia|].
      split; [rewrite (pp_nv _ _ _ _ HP), (sp_nv _ _ _ HS); apply (u_nv _ _ _ HU)|].
      split; [rewrite (pp_exprs _ _ _ _ HP), (sp_exprs _ _ _ HS); apply (u_exprs _ _ _ HU)|]. split; [lia|].
      split; [rewrite (pp_dec _ _ _ _ HP), (sp_dec _ _ _ HS), Ed, !skipn_skipn; f_equal; lia|].
      split; [|split; [intros ->; split; [|reflexivity]; destruct (pp_true _ _ _ _ HP eq_refl) as (A & B & D); constructor; assumption|intros ->; apply (pp_false _ _ _ _ HP eq_refl)]].
      intros q Hv Hlq. destruct (Hk1 q Hv ltac:(lia)) as [V1 L1]. destruct (sp_kept _ _ _ HS q V1 ltac:(lia)) as [V2 L2].
      destruct (pp_kept _ _ _ _ HP q V2 ltac:(lia)) as [V3 L3]. split; [exact V3|lia].
    + intros Ht. specialize (HP Ht). pose proof (mu_enough C s2 HI2) as He. unfold enough in *.
      pose proof (sp_nv _ _ _ HS) as En. rewrite (u_nv _ _ _ HU) in En. rewrite En in He.
      assert (Hpw : nv s ^ dlevel s2 <= nv s ^ dlevel s) by (apply Nat.pow_le_mono_r; [pose proof (t_nv s HT); lia|lia]).
      pose proof (Nat.mul_le_mono_l _ _ (nv s) Hpw). lia.
Qed.

(** What a recorded clause must be: its first literal unassigned, the others false and distinct, one of them at the current level. *)
Record tellable (s : st) (lits : list lit) : Prop := {
  te_in : in_scope s lits;
  te_first : exists p tl, lits = p :: tl /\ value s p = LUndef /\ (forall q, In q tl -> value s q = LFalse) /\ NoDup tl /\
    (tl = [] -> dlevel s = 0) /\ (tl <> [] -> exists q, In q tl /\ level s (lvar q) = dlevel s) }.

Theorem tell_ok fuel (s : st) ls : good C s -> tellable s ls ->
  match tell fuel s ls with
  | UB => False
  | OOF => th_total C -> fuel <= enough s
  | Ok (s', b) =>
      (forall M, smodels C s' M <-> smodels C s M /\ mcl M ls) /\ nv s' = nv s /\ exprs s' = exprs s /\
      dlevel s' <= dlevel s /\ decisions s' = skipn (dlevel s - dlevel s') (decisions s) /\ kept s s' /\
      (b = true -> quiet C s') /\ (b = false -> doomed C s')
  end.
Proof.
  intros G [Hin (p & tl & -> & Hu & Hf & Hnd & Hr0 & Hl0)]. pose proof (g_inv _ _ G) as HI. pose proof (i_t _ _ HI) as HT.
  assert (R : rec_pre s p tl).
  { constructor; auto; [apply Hin; left; reflexivity|apply NoDup_filter, Hnd]. }
  unfold tell. rewrite (record_eq s p tl HT R). cbn [rbind]. set (s2 := recorded s p tl).
  assert (Hq : forall l, In l (prop_q s2) <-> In l (prop_q s) \/ l = p).
  { intros l. destruct (recorded_same (ops := ops) s p tl) as (_ & _ & _ & Rq). unfold s2. rewrite Rq, in_app_iff. cbn. intuition. }
  destruct (recorded_gen C (fun _ l => In l (prop_q s)) (fun _ l => In l (prop_q s)) (fun _ l => In l (prop_q s2)) (fun _ l => In l (prop_q s2)) s p tl) as (G2 & Hg2 & HM2);
    [apply Inv_G, HI|exact R|intros _ l Hl; apply Hq; auto|intros _; apply Hq; auto|intros _ l Hl; apply Hq; auto|intros _; apply Hq; auto|].
  assert (HI2 : Inv C s2) by (apply Inv_G, G2). fold s2 in Hg2, HM2. pose proof (grow_dlevel _ _ Hg2) as Hdl2.
  pose proof (propagate_ok C (dlevel s2) fuel s2 HI2 (le_n _)) as HP.
  destruct (propagate ops fuel s2) as [[s' b]| |]; [|exact HP|].
  - pose proof (pp_dl _ _ _ _ HP) as Hd'.
    split; [intros M; rewrite (pp_models _ _ _ _ HP); apply HM2|].
    split; [rewrite (pp_nv _ _ _ _ HP); apply Hg2|]. split; [rewrite (pp_exprs _ _ _ _ HP); apply Hg2|]. split; [lia|].
    split; [rewrite (pp_dec _ _ _ _ HP), Hdl2, (gr_dec _ _ Hg2); reflexivity|].
    split; [|split; [intros ->; destruct (pp_true _ _ _ _ HP eq_refl) as (A & B & D); constructor; assumption|intros ->; apply (pp_false _ _ _ _ HP eq_refl)]].
    intros q Vq Lq. destruct (grow_value _ _ q Hg2) as [V2 L2]; [congruence|]. fold s2 in V2, L2. destruct (pp_kept _ _ _ _ HP q) as [V3 L3]; [congruence|lia|]. split; [exact V3|lia].
  - intros Ht. specialize (HP Ht). pose proof (mu_enough C s2 HI2) as He. unfold enough in *. rewrite (gr_nv _ _ Hg2), Hdl2 in He. rewrite Hdl2 in HP. lia.
Qed.

(** ** Histories in which a theory reports conflicts and records clauses between the calls of the client. *)
Inductive xcall := XCall (c : call) | XReport (cnfl : list lit) | XTell (lits : list lit).
Definition xstep (fuel : nat) (s : st) (c : xcall) : res (st * ret) :=
  match c with
  | XCall c => step (ops := ops) fuel s c
  | XReport cn => '(s1, b, _) <- report fuel s cn ;; Ok (s1, RBool b)
  | XTell ls => '(s1, b) <- tell fuel s ls ;; Ok (s1, RBool b)
  end.
Definition xlegal (s : st) (c : xcall) : Prop :=
  match c with XCall c => legal C s c | XReport cn => conflicting s cn | XTell ls => tellable s ls end.
Definition xsaid (c : xcall) (ds : list lit) (r : ret) (M : nat -> bool) : Prop :=
  match c with XCall c => said c ds r M | XReport _ => True | XTell ls => mcl M ls end.
Definition xexact (c : xcall) : Prop := match c with XCall c => exact c | _ => True end.
Definition xfuel (s : st) (c : xcall) : nat := match c with XCall c => fuel_bound s c | _ => enough s end.
Record xevent := mk_xev { xe_call : xcall; xe_decs : list lit; xe_ret : ret }.
Inductive XTrace (s0 : st) : list xevent -> st -> Prop :=
| XT_init : XTrace s0 [] s0
| XT_step fuel tr s c s' r : XTrace s0 tr s -> xlegal s c -> xstep fuel s c = Ok (s', r) -> alive C s' r ->
    XTrace s0 (mk_xev c (decisions s) r :: tr) s'.

Theorem xstep_ok fuel (s : st) c : good C s -> xlegal s c ->
  match xstep fuel s c with
  | UB => False
  | OOF => th_total C -> fuel <= xfuel s c
  | Ok (s', r) => (good C s' \/ (r = RBool false /\ doomed C s')) /\ nv s <= nv s' /\
      (forall M, smodels C s' M -> smodels C s M /\ xsaid c (decisions s) r M) /\
      (xexact c -> forall M, smodels C s M -> xsaid c (decisions s) r M -> smodels C s' M)
  end.
Proof.
  intros G L. destruct c as [c|cn|ls]; cbn [xstep xlegal xfuel xsaid xexact] in *.
  - apply step_ok; assumption.
  - pose proof (report_ok fuel s cn G L) as H. destruct (report fuel s cn) as [[[s1 b] lo]| |]; cbn [rbind]; [|exact H|exact H].
    destruct H as (HM & _ & Hn & Hx & _ & _ & _ & Ht & Hf).
    split; [|split; [lia|split; [intros M H; split; [apply HM, H|exact I]|intros _ M H _; apply HM, H]]].
    destruct b; [left|right; split; [reflexivity|apply Hf; reflexivity]]. apply (good_mono C s); auto; [apply Ht; reflexivity|intros M H; apply HM, H].
  - pose proof (tell_ok fuel s ls G L) as H. destruct (tell fuel s ls) as [[s1 b]| |]; cbn [rbind]; [|exact H|exact H].
    destruct H as (HM & Hn & Hx & _ & _ & _ & Ht & Hf).
    split; [|split; [lia|split; [intros M H; apply HM, H|intros _ M H1 H2; apply HM; auto]]].
    destruct b; [left|right; split; [reflexivity|apply Hf; reflexivity]]. apply (good_mono C s); auto; intros M H; apply HM, H.
Qed.
Theorem xtrace_good s0 tr s : good C s0 -> XTrace s0 tr s -> good C s.
Proof.
  intros G0 H. induction H as [|fuel tr s c s' r HR IH HL HE HA]; [exact G0|].
  pose proof (xstep_ok fuel s c IH HL) as HS. rewrite HE in HS. destruct HS as ([G|[-> Hu]] & _); [exact G|].
  exfalso. destruct (HA eq_refl) as (M & HM). exact (de_unsat _ _ Hu M HM).
Qed.
Theorem xtrace_models s0 tr s : good C s0 -> XTrace s0 tr s -> (forall e, In e tr -> xexact (xe_call e)) ->
  forall M, smodels C s M <-> smodels C s0 M /\ forall e, In e tr -> xsaid (xe_call e) (xe_decs e) (xe_ret e) M.
Proof.
  intros G0 H. induction H as [|fuel tr s c s' r HR IH HL HE HA]; intros Hx M.
  - split; [intros HM; split; [exact HM|intros e []]|tauto].
  - pose proof (xstep_ok fuel s c (xtrace_good _ _ _ G0 HR) HL) as HS. rewrite HE in HS. destruct HS as (_ & _ & H1 & H2).
    assert (Hx' : forall e, In e tr -> xexact (xe_call e)) by (intros e He; apply Hx; right; exact He). specialize (IH Hx' M). split.
    + intros HM. apply H1 in HM as [HM Hs]. apply IH in HM as [HM0 Ha]. split; [exact HM0|]. intros e [<-|He]; [exact Hs|apply Ha, He].
    + intros [HM0 Ha]. apply H2; [exact (Hx _ (or_introl eq_refl))| |apply (Ha _ (or_introl eq_refl))]. apply IH. split; [exact HM0|].
      intros e He. apply Ha. right; exact He.
Qed.
End Report.

Lemma trace_xtrace {T} {ops : theory_ops T} (C : contract ops) (s0 : st T) tr s : Trace C s0 tr s ->
  XTrace C s0 (map (fun e => mk_xev (XCall (ev_call e)) (ev_decs e) (ev_ret e)) tr) s.
Proof. induction 1 as [|fuel tr s c s' r HR IH HL HE HA]; [constructor|]. cbn [map]. exact (XT_step C s0 fuel _ s (XCall c) s' r IH HL HE HA). Qed.
