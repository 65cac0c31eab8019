(** The SAT core as a state machine driven by the calls of its public interface
    (include/sat_core.h:42-157), and the states a client can reach. *)
From Coq Require Import String.
From Verif Require Import Base Keys Sat SatSpec SatInv SatPop SatImp SatRec SatAn SatProp SatLoop SatMain SatApi SatApi2 SatNext SatSimp Reify Amo.

Inductive call :=
| CVar | CClause (ls : list lit) | CPropagate | CAssume (p : lit) | CPop | CCheck (ls : list lit) | CNext | CSimplify
| CEq (l r : lit) | CConj (ls : list lit) | CDisj (ls : list lit) | CAmo (ls : list lit) | CExct (ls : list lit)
| CListen (v l : nat).
Inductive ret := RVar (v : nat) | RBool (b : bool) | RLit (p : lit) | RUnit.

Section Run.
Context {T : Type} {ops : theory_ops T} (C : contract ops).
Notation st := (st T).

Definition step (fuel : nat) (s : st) (c : call) : res (st * ret) :=
  match c with
  | CVar => let (s1, v) := new_var s in Ok (s1, RVar v)
  | CClause ls => '(s1, b) <- new_clause s ls ;; Ok (s1, RBool b)
  | CPropagate => '(s1, b) <- propagate ops fuel s ;; Ok (s1, RBool b)
  | CAssume p => '(s1, b) <- assume ops fuel s p ;; Ok (s1, RBool b)
  | CPop => s1 <- pop ops s ;; Ok (s1, RUnit)
  | CCheck ls => '(s1, b) <- check ops fuel s ls ;; Ok (s1, RBool b)
  | CNext => '(s1, b) <- next ops fuel s ;; Ok (s1, RBool b)
  | CSimplify => '(s1, b) <- simplify_db ops fuel s ;; Ok (s1, RBool b)
  | CEq l r => '(s1, p) <- new_eq s l r ;; Ok (s1, RLit p)
  | CConj ls => '(s1, p) <- new_conj s ls ;; Ok (s1, RLit p)
  | CDisj ls => '(s1, p) <- new_disj s ls ;; Ok (s1, RLit p)
  | CAmo ls => '(s1, p) <- new_at_most_one s ls ;; Ok (s1, RLit p)
  | CExct ls => '(s1, p) <- new_exct_one s ls ;; Ok (s1, RLit p)
  | CListen v l => s1 <- listen s v l ;; Ok (s1, RUnit)
  end.

Definition in_scope (s : st) (ls : list lit) : Prop := forall p, In p ls -> lvar p < nv s.

(** The preconditions of each call: the asserts of the code (root level for whatever adds
    constraints, nothing pending when a decision is taken), existing variables, something to pop;
    and, for [next], that every decision took effect (was unassigned when it was taken). *)
Definition legal (s : st) (c : call) : Prop :=
  match c with
  | CVar | CPropagate => True
  | CClause ls | CConj ls | CDisj ls | CAmo ls | CExct ls => dlevel s = 0 /\ in_scope s ls
  | CEq l r => dlevel s = 0 /\ in_scope s [l; r]
  | CAssume p => prop_q s = [] /\ settled C s /\ in_scope s [p]
  | CPop => dlevel s <> 0
  | CCheck ls => prop_q s = [] /\ settled C s /\ in_scope s ls
  | CNext => decs_ok s
  | CSimplify => dlevel s = 0
  | CListen v _ => v < nv s
  end.

(** A client goes on unless it has been told that the network is inconsistent. *)
Definition alive (s' : st) (r : ret) : Prop := r = RBool false -> exists M, smodels C s' M.

Inductive Reach (s0 : st) : st -> Prop :=
| R_init : Reach s0 s0
| R_step fuel s c s' r : Reach s0 s -> legal s c -> step fuel s c = Ok (s', r) -> alive s' r -> Reach s0 s'.

Record good (s : st) : Prop := {
  g_inv : Inv C s;
  g_cache : cache_ok C s;
  g_up : dlevel s <> 0 -> prop_q s = [] /\ settled C s }.

(** The models after a call, given the models before it, the decisions before it and its result.
    (New variables are unconstrained; a call that fails at stating a clause states nothing; the
    control literal of at-most-one and exactly-one is only half constrained and hides auxiliary
    variables, so that only inclusion is stated here.) *)
Definition said (c : call) (ds : list lit) (r : ret) (M : nat -> bool) : Prop :=
  match c, r with
  | CClause ls, RBool true => mcl M ls
  | CNext, RBool _ => ds <> [] -> exists d, In d ds /\ mlit M d = false
  | CConj ls, RLit p => mlit M p = forallb (mlit M) ls
  | CDisj ls, RLit p => mlit M p = existsb (mlit M) ls
  | _, _ => True
  end.
Definition exact (c : call) : Prop := match c with CAmo _ | CExct _ | CEq _ _ => False | _ => True end.

Lemma quiet_of (s : st) : good s -> prop_q s = [] -> settled C s -> quiet C s.
Proof. intros [A _ _] B D. constructor; assumption. Qed.

Lemma good_mono (s s' : st) : good s -> quiet C s' -> exprs s' = exprs s -> nv s' = nv s -> (forall M, smodels C s' M -> smodels C s M) -> good s'.
Proof.
  intros [A B D] [E F G] Hx Hn HM. constructor; [exact E| |intros _; auto].
  eapply cache_mono; [exact B|exact Hx|lia|exact HM].
Qed.

Definition fuel_bound (s : st) (c : call) : nat :=
  match c with
  | CCheck ls => S (2 * (nv s * nv s ^ (dlevel s + length ls)) + nv s)
  | CAssume _ => S (2 * (nv s * nv s ^ S (dlevel s)) + nv s)
  | _ => S (2 * (nv s * nv s ^ dlevel s) + nv s)
  end.

Lemma ext_good (s s' : st) : good s -> dlevel s = 0 -> ext C s s' -> good s'.
Proof. intros G Hd HE. constructor; [apply HE|apply HE|]. intros H. rewrite (e_dl _ _ _ HE) in H. lia. Qed.

Theorem step_ok fuel (s : st) c : good s -> legal s c ->
  match step fuel s c with
  | UB => False
  | OOF => th_total C -> fuel <= fuel_bound s c
  | Ok (s', r) => (good s' \/ (r = RBool false /\ doomed C s')) /\ nv s <= nv s' /\
      (forall M, smodels C s' M -> smodels C s M /\ said c (decisions s) r M) /\
      (exact c -> forall M, smodels C s M -> said c (decisions s) r M -> smodels C s' M)
  end.
Proof.
  intros G L. pose proof (g_inv _ G) as HI. pose proof (g_cache _ G) as Hc.
  destruct c; cbn [step legal] in *.
  - (* new_var *)
    destruct (new_var_ok C s HI) as [Ev V]. destruct (new_var_ext C s HI Hc) as (HE & _ & _). destruct (new_var s) as [s1 v]. cbn [fst snd] in *.
    split; [left; constructor; [apply HE|apply HE|]|].
    { intros Hd. rewrite (e_dl _ _ _ HE) in Hd. destruct (g_up _ G Hd) as [A B]. split; [rewrite (vp_q _ _ _ V); exact A|].
      intros t Ht. rewrite (vp_ths _ _ _ V) in Ht. apply B, Ht. }
    split; [rewrite (vp_nv _ _ _ V); lia|]. split; [intros M HM; split; [apply (vp_models _ _ _ V), HM|exact I]|].
    intros _ M HM _. apply (vp_models _ _ _ V), HM.
  - (* new_clause *)
    destruct L as [Hd Hr]. destruct (new_clause_ok C s ls HI Hd Hr) as (s1 & b & -> & P). cbn [rbind]. destruct P as [P1 P2 P3 P4 P5 P6].
    assert (Hd1 : dlevel s1 = 0) by (rewrite (grow_dlevel _ _ P2); exact Hd).
    split; [left; constructor; [exact P1| |lia]|].
    { apply (cache_mono C s); [exact Hc|apply (gr_exprs _ _ P2)|rewrite (gr_nv _ _ P2); lia|].
      destruct b; [intros M HM; apply (P5 eq_refl), HM|destruct (P6 eq_refl) as [-> _]; auto]. }
    split; [rewrite (gr_nv _ _ P2); lia|]. destruct b; cbn [said].
    + split; intros M HM; [apply (P5 eq_refl), HM|]. intros HM1 Hs. apply (P5 eq_refl). split; assumption.
    + destruct (P6 eq_refl) as [-> _]. split; [auto|]. intros _ M HM _. exact HM.
  - (* propagate *)
    pose proof (propagate_ok C (dlevel s) fuel s HI (le_n _)) as H.
    destruct (propagate ops fuel s) as [[s1 b]| |]; cbn [rbind]; [|exact H|intros Ht; specialize (H Ht); pose proof (mu_enough C s HI) as He; unfold enough in He; cbn; lia].
    split; [|split; [rewrite (pp_nv _ _ _ _ H); lia|split; [intros M HM; split; [apply (pp_models _ _ _ _ H), HM|exact I]|intros _ M HM _; apply (pp_models _ _ _ _ H), HM]]].
    destruct b; [left|right; split; [reflexivity|apply (pp_false _ _ _ _ H eq_refl)]].
    destruct (pp_true _ _ _ _ H eq_refl) as (A & B & D). apply (good_mono s); [exact G|constructor; assumption|apply H|apply H|intros M HM; apply (pp_models _ _ _ _ H), HM].
  - (* assume *)
    destruct L as (Hq & Hs & Hr). pose proof (quiet_of s G Hq Hs) as Q. assert (Hp : lvar p < nv s) by (apply Hr; left; reflexivity).
    rewrite (assume_eq C) by assumption. destruct (assumed_ok C s p Q Hp) as (HIa & HMa & Hga). destruct (push_quiet C s p Q Hp) as [Hqp HMp].
    destruct (lbool_eqb_spec (value s p) LFalse) as [Ef|Ef].
    { rewrite Ef. cbn [rbind]. split; [left; apply (good_mono s); [exact G|exact Hqp|reflexivity|reflexivity|intros M HM; apply HMp, HM]|].
      split; [cbn; lia|]. split; [intros M HM; split; [apply HMp, HM|exact I]|]. intros _ M HM _. apply HMp, HM. }
    assert (Eas : match value s p with LFalse => Ok (@push_st T ops s p, false) | _ => propagate ops fuel (@assumed T ops s p) end = propagate ops fuel (@assumed T ops s p))
      by (destruct (value s p); congruence).
    rewrite Eas. pose proof (propagate_ok C (dlevel (@assumed T ops s p)) fuel (@assumed T ops s p) HIa (le_n _)) as H.
    assert (Hna : nv (@assumed T ops s p) = nv s) by apply (gr_nv _ _ Hga).
    destruct (propagate ops fuel (@assumed T ops s p)) as [[s1 b]| |]; cbn [rbind]; [|exact H|].
    2:{ intros Ht; specialize (H Ht); pose proof (mu_enough C _ HIa) as He; unfold enough in He.
        rewrite Hna in He. rewrite (grow_dlevel _ _ Hga) in *. cbn [fuel_bound]. change (dlevel (@push_st T ops s p)) with (S (dlevel s)) in *. lia. }
    assert (HMM : forall M, smodels C s1 M <-> smodels C s M) by (intros M; rewrite (pp_models _ _ _ _ H); apply HMa).
    split; [|split; [rewrite (pp_nv _ _ _ _ H); lia|split; [intros M HM; split; [apply HMM, HM|exact I]|intros _ M HM _; apply HMM, HM]]].
    destruct b; [left|right; split; [reflexivity|apply (pp_false _ _ _ _ H eq_refl)]].
    destruct (pp_true _ _ _ _ H eq_refl) as (A & B & D). apply (good_mono s); [exact G|constructor; assumption| | |intros M HM; apply HMM, HM].
    + rewrite (pp_exprs _ _ _ _ H). apply (gr_exprs _ _ Hga).
    + rewrite (pp_nv _ _ _ _ H). exact Hna.
  - (* pop *)
    destruct (g_up _ G L) as [Hq Hs].
    destruct (pop_ok C s (Inv_InvX C s HI Hq) L) as (s1 & rem & -> & HI1 & Hq1 & Hs1 & HU & _ & _ & _ & _ & _ & _ & HM). cbn [rbind].
    split; [left; apply (good_mono s); [exact G|constructor; assumption|apply (u_exprs _ _ _ HU)|apply (u_nv _ _ _ HU)|intros M; apply HM]|].
    split; [rewrite (u_nv _ _ _ HU); lia|]. split; [intros M H; split; [apply HM, H|exact I]|]. intros _ M H _. apply HM, H.
  - (* check *)
    destruct L as (Hq & Hs & Hr). pose proof (quiet_of s G Hq Hs) as Q. pose proof (check_ok C fuel s ls Q Hr) as H.
    destruct (check ops fuel s ls) as [[s1 b]| |]; cbn [rbind]; [|exact H|exact H].
    destruct H as (HM & _ & Hn & Hx & Hst & Hb).
    split; [|split; [lia|split; [intros M H; split; [apply HM, H|exact I]|intros _ M H _; apply HM, H]]].
    destruct b.
    + left. destruct Hb as [Q1 _]. apply (good_mono s); auto. intros M H. apply HM, H.
    + destruct Hst as [Q1|Hu]; [left|right; auto]. apply (good_mono s); auto. intros M H. apply HM, H.
  - (* next *)
    destruct (Nat.eq_dec (dlevel s) 0) as [Hd|Hd].
    + rewrite (next_root fuel s Hd). cbn [rbind]. split; [left; exact G|]. split; [lia|].
      assert (Ed : decisions s = []) by (apply length_zero_iff_nil; rewrite (t_dec s (i_t _ _ HI)); exact Hd).
      cbn [said]. split; [intros M HM; split; [exact HM|intros H; congruence]|auto].
    + destruct (g_up _ G Hd) as [Hq Hs]. pose proof (quiet_of s G Hq Hs) as Q. pose proof (next_ok C fuel s Q L Hd) as H.
      destruct (next ops fuel s) as [[s1 b]| |]; cbn [rbind]; [|exact H|exact H].
      destruct H as (HM & _ & Hn & Hx & _ & _ & _ & Ht & Hf). cbn [said].
      split; [|split; [lia|split; [intros M H; apply HM in H as [A B]; auto|]]].
      * destruct b; [left|right; split; [reflexivity|apply Hf; reflexivity]]. apply (good_mono s); auto. intros M H. apply HM, H.
      * intros _ M H1 H2. apply HM. split; [exact H1|]. apply H2. intros E. apply Hd. unfold dlevel. rewrite <- (t_dec s (i_t _ _ HI)), E. reflexivity.
  - (* simplify_db *)
    pose proof (simplify_db_ok C fuel s HI L) as H. destruct (simplify_db ops fuel s) as [[s1 b]| |]; cbn [rbind]; [|exact H|exact H].
    destruct H as (HM & _ & Hn & Hx & _ & _ & _ & Hb).
    split; [|split; [lia|split; [intros M H; split; [apply HM, H|exact I]|intros _ M H _; apply HM, H]]].
    destruct b; [left|right; auto]. destruct Hb as [Q1 _]. apply (good_mono s); auto. intros M H. apply HM, H.
  - (* new_eq *)
    destruct L as [Hd Hr]. destruct (new_eq_ok C s l r HI Hc Hd) as (s1 & p & -> & HE & _ & Hp & _); [apply Hr; left; reflexivity|apply Hr; right; left; reflexivity|].
    cbn [rbind]. split; [left; apply (ext_good s); assumption|]. split; [apply HE|]. cbn [said exact].
    split; [intros M HM; split; [apply HE, HM|exact I]|intros []].
  - (* new_conj *)
    destruct L as [Hd Hr]. destruct (new_conj_ok C s ls HI Hc Hd Hr) as (s1 & p & -> & HE & Hcons & Hp & Hm & _). cbn [rbind].
    split; [left; apply (ext_good s); assumption|]. split; [apply HE|]. cbn [said].
    split; [intros M HM; apply Hm, HM|]. intros _ M H1 H2. apply Hm. auto.
  - (* new_disj *)
    destruct L as [Hd Hr]. destruct (new_disj_ok C s ls HI Hc Hd Hr) as (s1 & p & -> & HE & Hcons & Hp & Hm). cbn [rbind].
    split; [left; apply (ext_good s); assumption|]. split; [apply HE|]. cbn [said].
    split; [intros M HM; apply Hm, HM|]. intros _ M H1 H2. apply Hm. auto.
  - (* amo *)
    destruct L as [Hd Hr]. destruct (amo_f_ok C (S (length ls)) s ls ltac:(lia) HI Hc Hd Hr) as (s1 & p & E & P).
    unfold new_at_most_one. rewrite E. cbn [rbind]. destruct P as [HE Hp _ _ _ _].
    split; [left; apply (ext_good s); assumption|]. split; [apply HE|]. cbn [said exact].
    split; [intros M HM; split; [apply HE, HM|exact I]|intros []].
  - (* exct *)
    destruct L as [Hd Hr]. destruct (exct_ok C s ls HI Hc Hd Hr) as (s1 & p & E & P).
    rewrite E. cbn [rbind]. destruct P as [HE Hp _ _].
    split; [left; apply (ext_good s); assumption|]. split; [apply HE|]. cbn [said exact].
    split; [intros M HM; split; [apply HE, HM|exact I]|intros []].
  - (* listen *)
    unfold listen. assert (E : (v <? nv s) = true) by (apply Nat.ltb_lt, L). rewrite E. cbn [guard].
    assert (K : forall f, good (set_listening f s) /\ forall M, smodels C (set_listening f s) M <-> smodels C s M).
    { intros f. assert (HM : forall M, smodels C (set_listening f s) M <-> smodels C s M) by (intros M; split; intros [A B D F]; constructor; assumption).
      split; [|exact HM]. destruct G as [[A B D F H J] K1 K2]. constructor.
      - constructor.
        + destruct A; constructor; assumption.
        + destruct B; constructor; assumption.
        + destruct D; constructor; assumption.
        + exact F.
        + destruct H; constructor; assumption.
        + destruct J; constructor; assumption.
      - apply (cache_mono C s); [exact K1|reflexivity|cbn; lia|intros M; apply HM].
      - exact K2. }
    assert (K0 : (good s \/ RUnit = RBool false /\ doomed C s) /\ nv s <= nv s /\
      (forall M, smodels C s M -> smodels C s M /\ True) /\ (True -> forall M, smodels C s M -> True -> smodels C s M)).
    { split; [left; exact G|]. split; [lia|]. split; auto. }
    destruct (is_undef s (mk_lit v true)); [destruct (memn l (listening s v))|]; cbn [rbind said exact]; try exact K0.
    destruct (K (upd (listening s) v (listening s v ++ [l]))) as [K1 K2]. split; [left; exact K1|]. split; [cbn; lia|].
    split; intros M HM; [split; [apply K2, HM|exact I]|]. intros HM2 _. apply K2, HM2.
Qed.

(** ** The initial state *)
Lemma init_good ths : (forall t, In t ths -> th_inv C t [[]] /\ th_feas C t /\ forall v, ~ th_atom C t v) ->
  quiet C (init ths) /\ good (init ths) /\ (forall M, smodels C (init ths) M <-> M 0 = false /\ forall t, In t ths -> th_model C t M).
Proof.
  intros H. assert (Hv : forall p, value (init ths) p = LTrue -> p = TRUE_lit).
  { intros [v b]. unfold value, vlit. cbn. unfold upd. destruct (Nat.eqb_spec v 0) as [->|Hn]; cbn; [destruct b; [discriminate|reflexivity]|].
    destruct v; [lia|]. discriminate. }
  assert (HM : forall M, smodels C (init ths) M <-> M 0 = false /\ forall t, In t ths -> th_model C t M).
  { intros M. split; [intros [A B D F]; split; [exact A|exact F]|]. intros [A F]. constructor; [exact A|intros c []| |exact F].
    intros p Hp _. rewrite (Hv p Hp). unfold mlit. cbn. rewrite A. reflexivity. }
  assert (HI : Inv C (init ths)).
  { constructor.
    - constructor; cbn.
      + lia.
      + reflexivity.
      + reflexivity.
      + intros v Hv0. unfold upd. destruct v; [lia|reflexivity].
      + intros v _. unfold upd. destruct (v =? 0); split; reflexivity.
      + intros p [].
      + intros p [].
      + constructor.
      + intros pre p post E. destruct pre; discriminate.
      + intros v Hn. exfalso. apply Hn. unfold upd. destruct (v =? 0); reflexivity.
      + constructor.
      + intros n [].
      + reflexivity.
      + intros p [].
      + intros pre p post E. destruct pre; discriminate.
    - constructor; cbn; try (intros ? []); try constructor.
      intros Hp. unfold updl in Hp. repeat (match type of Hp with context [if ?b then _ else _] => destruct b end); destruct Hp.
    - constructor; cbn.
      + intros v c. unfold upd. destruct (v =? 0); discriminate.
      + intros pre p post c E. destruct pre; discriminate.
      + intros v c _. unfold upd. destruct (v =? 0); discriminate.
    - intros c [].
    - constructor; cbn; [intros p []|constructor].
    - constructor; cbn.
      + intros i t Et. apply nth_error_In in Et. destruct (H t Et) as (A & B & D). exists [[]]. split; [exact A|]. split; [cbn; lia|]. split.
        * intros [|j] v l Ej _ Hl; cbn in Ej; [inversion Ej; subst; destruct Hl|destruct j; discriminate].
        * intros l Hl. destruct (D _ Hl).
      + intros i t v Et Ha. apply nth_error_In in Et. destruct (H t Et) as (_ & _ & D). destruct (D _ Ha).
      + intros i t v Et Ha. apply nth_error_In in Et. destruct (H t Et) as (_ & _ & D). destruct (D _ Ha).
      + intros i v [].
      + intros v. constructor.
      + intros i t n v Et Hf. apply nth_error_In in Et. destruct (H t Et) as (_ & _ & D). destruct (D v (fx_atom _ _ _ _ (c_fixed ops C) t n v Hf)). }
  assert (Hset : settled C (init ths)) by (intros t Ht; apply (H t Ht)).
  split; [constructor; [exact HI|reflexivity|exact Hset]|]. split; [|exact HM]. constructor; [exact HI| |auto].
  intros k p [Hi|[]]. inversion Hi; subst. exists (OVar 0). split; [reflexivity|]. split; [intros q [<-|[]]; cbn; lia|]. split; [cbn; lia|].
  intros M _. reflexivity.
Qed.

Theorem reach_good (s0 s : st) : good s0 -> Reach s0 s -> good s.
Proof.
  intros G0 H. induction H as [|fuel s c s' r HR IH HL HE HA]; [exact G0|].
  pose proof (step_ok fuel s c IH HL) as HS. rewrite HE in HS. destruct HS as ([G|[-> Hu]] & _); [exact G|].
  exfalso. destruct (HA eq_refl) as (M & HM). exact (de_unsat _ _ Hu M HM).
Qed.

(** ** Traces: what has been stated, as the client sees it. *)
Record event := mk_ev { ev_call : call; ev_decs : list lit; ev_ret : ret }.
Inductive Trace (s0 : st) : list event -> st -> Prop :=
| T_init : Trace s0 [] s0
| T_step fuel tr s c s' r : Trace s0 tr s -> legal s c -> step fuel s c = Ok (s', r) -> alive s' r ->
    Trace s0 (mk_ev c (decisions s) r :: tr) s'.
Lemma trace_reach s0 tr s : Trace s0 tr s -> Reach s0 s.
Proof. induction 1; [constructor|econstructor; eassumption]. Qed.
Theorem trace_models s0 tr s : good s0 -> Trace s0 tr s -> (forall e, In e tr -> exact (ev_call e)) ->
  forall M, smodels C s M <-> smodels C s0 M /\ forall e, In e tr -> said (ev_call e) (ev_decs e) (ev_ret e) M.
Proof.
  intros G0 H. induction H as [|fuel tr s c s' r HR IH HL HE HA]; intros Hx M.
  - split; [intros HM; split; [exact HM|intros e []]|tauto].
  - pose proof (step_ok fuel s c (reach_good _ _ G0 (trace_reach _ _ _ HR)) HL) as HS. rewrite HE in HS. destruct HS as (_ & _ & H1 & H2).
    assert (Hx' : forall e, In e tr -> exact (ev_call e)) by (intros e He; apply Hx; right; exact He). specialize (IH Hx' M). split.
    + intros HM. apply H1 in HM as [HM Hs]. apply IH in HM as [HM0 Ha]. split; [exact HM0|]. intros e [<-|He]; [exact Hs|apply Ha, He].
    + intros [HM0 Ha]. apply H2; [exact (Hx _ (or_introl eq_refl))| |apply (Ha _ (or_introl eq_refl))]. apply IH. split; [exact HM0|].
      intros e He. apply Ha. right; exact He.
Qed.
End Run.

(** ** A core without theories. *)
Section Pure.
Context {sr : sorter}.
Definition pure_ops : theory_ops Empty_set :=
  mk_ops (fun (t : Empty_set) _ _ => match t with end) (fun (t : Empty_set) _ => match t with end) (fun t => t) (fun t => t) sr.
Definition pureC : contract pure_ops.
Proof.
  refine (mk_strict pure_ops (fun _ _ => True) (fun _ _ => False) (fun _ _ => True) (fun _ => True) _ _ _ _ _);
    intros t; destruct t.
Defined.
Lemma pure_total : th_total pureC.
Proof. split; intros t; destruct t. Qed.
Definition pinit : st Empty_set := init [].
Lemma pinit_good : good pureC pinit.
Proof. apply init_good. intros t []. Qed.
Lemma pure_settled (s : st Empty_set) : settled pureC s.
Proof. intros t. destruct t. Qed.
End Pure.
