(** [sat_stack] with a theory: the theory is shared by all the cores, push and pop of the stack are
    forwarded to it. *)
From Verif Require Import Base Keys Sat SatSpec SatInv SatPop SatImp SatRec SatAn SatProp SatLoop SatMain SatApi SatApi2 SatNext SatSimp Stack Reify Amo Run Listen ThRel.

Lemma last_app2 {A} (l m : list A) d : m <> [] -> last (l ++ m) d = last m d.
Proof. intros H. destruct (exists_last H) as (x & y & ->). rewrite app_assoc, !last_last. reflexivity. Qed.
Lemma last_concat {A} (l : list (list A)) q : In q (last l []) -> In q (concat l).
Proof.
  induction l as [|a l IH]; cbn [last concat]; [tauto|]. intros H. apply in_or_app. destruct l as [|a' l]; [left; exact H|right; apply IH, H].
Qed.
Lemma last_sub {A} (d : list A) p b base q : In q (last ((p :: b) :: base) d) -> In q (p :: b ++ concat base).
Proof.
  intros H. destruct base as [|x base]; [cbn in *; rewrite app_nil_r; exact H|]. right. apply in_or_app. right. apply last_concat.
  change ((p :: b) :: x :: base) with ([p :: b] ++ x :: base) in H. rewrite last_app2 in H by discriminate.
  destruct (exists_last (l := x :: base) ltac:(discriminate)) as (y & z & E). rewrite E, last_last in *. exact H.
Qed.

(** ** The contract of a theory whose lower levels are covered.
    The literals told below ([base]) are facts for the core on top. *)
Section Deep.
Context {T : Type} {ops : theory_ops T} (C : contract ops) (t0 : T) (base : list (list lit)).
Definition dinv (t : T) (ws : list (list lit)) : Prop := exists front b, ws = front ++ [b ++ concat base] /\ th_inv C t (front ++ b :: base) /\
  (forall M, th_model C t M <-> th_model C t0 M) /\ (forall v, th_atom C t v <-> th_atom C t0 v) /\ plain C.
Lemma dinv_split t v ws : dinv t (v :: ws) -> (ws = [] /\ exists b, v = b ++ concat base /\ th_inv C t (b :: base)) \/
  (exists front b, ws = front ++ [b ++ concat base] /\ th_inv C t (v :: front ++ b :: base)).
Proof.
  intros (front & b & E & H & _). destruct front as [|f front]; cbn in E.
  - left. inversion E; subst. split; [reflexivity|]. exists b. auto.
  - right. inversion E; subst. exists front, b. auto.
Qed.
Lemma dinv_keeps t ws : dinv t ws -> (forall M, th_model C t M <-> th_model C t0 M) /\ (forall v, th_atom C t v <-> th_atom C t0 v).
Proof. intros (front & b & _ & _ & A & B & _). auto. Qed.
Lemma dinv_plain t ws : dinv t ws -> plain C.
Proof. intros (front & b & _ & _ & _ & _ & B). exact B. Qed.
Lemma dinv_one t b : plain C -> th_inv C t (b :: base) -> (forall M, th_model C t M <-> th_model C t0 M) -> (forall v, th_atom C t v <-> th_atom C t0 v) -> dinv t [b ++ concat base].
Proof. intros P H A B. exists [], b. auto. Qed.
Lemma dinv_more t v front b : plain C -> th_inv C t (v :: front ++ b :: base) -> (forall M, th_model C t M <-> th_model C t0 M) -> (forall x, th_atom C t x <-> th_atom C t0 x) ->
  dinv t (v :: front ++ [b ++ concat base]).
Proof. intros P H A B. exists (v :: front), b. auto. Qed.
Definition deepC : contract ops.
Proof.
  refine (mk_contract T ops (th_model C) (th_atom C) dinv (th_feas C) no_fixed (no_fixed_rules _ _ _) (c_model_ext ops C) _ _ _ _).
  - intros t ws HD HF. pose proof HD as (front & b & -> & H & Km & Ka & PL). destruct (c_push ops C t _ H HF) as (A & B & D & E).
    split; [|auto]. exists ([] :: front), b. split; [reflexivity|]. split; [exact A|]. split; [intros M; rewrite D; apply Km|split; [intros v; rewrite E; apply Ka|exact PL]].
  - intros t v w ws HD. destruct (dinv_keeps _ _ HD) as [Km Ka]. pose proof (dinv_plain _ _ HD) as PL. destruct (dinv_split _ _ _ HD) as [[E _]|(front & b & E & H)]; [discriminate|].
    assert (HH : exists x r, front ++ b :: base = x :: r) by (destruct front; cbn; eauto). destruct HH as (x & r & Ex). rewrite Ex in H. destruct (c_pop ops C t v x r H) as (A & B & D & F).
    split; [|auto]. exists front, b. split; [exact E|]. split; [rewrite Ex; exact A|]. split; [intros M; rewrite D; apply Km|split; [intros y; rewrite F; apply Ka|exact PL]].
  - intros t v ws val p HD Hp Hn HT HV HP _ _. destruct (dinv_keeps _ _ HD) as [Km Ka]. pose proof (dinv_plain _ _ HD) as PL. destruct (dinv_split _ _ _ HD) as [(-> & b & -> & H)|(front & b & -> & H)].
    + assert (HV' : forall q, In q (concat (b :: base)) -> val q = LTrue) by (intros q Hq; apply HV; cbn in *; rewrite app_nil_r; exact Hq).
      pose proof (c_prop ops C t b base val p H Hp Hn HT HV' HP (fun m y X => match PL _ _ _ X with end) (fun m X => match PL _ _ _ X with end)) as R. destruct (th_prop ops t val p) as [[[t' ls] cf]| |]; cbn [safe] in *; auto.
      destruct R as ((v' & I1 & I2) & A & B & val' & D1 & D2). split; [exists (v' ++ concat base); split; [apply dinv_one; [exact PL|exact I1|intros M; rewrite A; apply Km|intros x; rewrite B; apply Ka]|intros E; rewrite (I2 E); reflexivity]|].
      split; [exact A|]. split; [exact B|]. exists val'.
      assert (HR : forall M, rooted (th_model C t) [p :: b ++ concat base] M -> rooted (th_model C t) ((p :: b) :: base) M).
      { intros M [K1 K2]. split; [exact K1|]. intros q Hq. apply K2. cbn [last]. apply (last_sub [] p b base q Hq). }
      split; [apply (lat_mono (base <> []) _ (rooted (th_model C t) ((p :: b) :: base))); [congruence|exact HR|exact D1]|].
      intros c Hc. destruct (D2 c Hc) as (_ & F2 & _ & F4). split; [congruence|]. split; [exact F2|]. split; [congruence|]. intros M H0 HM. apply F4; [exact H0|apply HR, HM].
    + assert (HV' : forall q, In q (concat (v :: front ++ b :: base)) -> val q = LTrue).
      { intros q Hq. apply HV. cbn [concat] in *. rewrite !concat_app in *. cbn [concat] in *. rewrite app_nil_r. exact Hq. }
      pose proof (c_prop ops C t v _ val p H Hp Hn HT HV' HP (fun m y X => match PL _ _ _ X with end) (fun m X => match PL _ _ _ X with end)) as R. destruct (th_prop ops t val p) as [[[t' ls] cf]| |]; cbn [safe] in *; auto.
      destruct R as ((v' & I1 & I2) & A & B & val' & D1 & D2). split; [exists v'; split; [apply dinv_more; [exact PL|exact I1|intros M; rewrite A; apply Km|intros x; rewrite B; apply Ka]|exact I2]|].
      split; [exact A|]. split; [exact B|]. exists val'.
      assert (HU : front ++ b :: base <> []) by (destruct front; discriminate).
      assert (HR : forall M, rooted (th_model C t) ((p :: v) :: front ++ [b ++ concat base]) M -> rooted (th_model C t) ((p :: v) :: front ++ b :: base) M).
      { intros M [K1 K2]. split; [exact K1|]. intros q Hq. apply K2. rewrite app_comm_cons in Hq |- *. rewrite last_last. destruct base as [|b' base']; [rewrite last_last in Hq; cbn; rewrite app_nil_r; exact Hq|].
        change (b :: b' :: base') with ([b] ++ b' :: base') in Hq. rewrite app_assoc in Hq. rewrite last_app2 in Hq by discriminate. apply in_or_app. right. apply last_concat, Hq. }
      split; [apply (lat_mono (front ++ b :: base <> []) _ (rooted (th_model C t) ((p :: v) :: front ++ b :: base))); [auto|exact HR|exact D1]|].
      intros c Hc. destruct (D2 c Hc) as (F1 & F2 & F3 & F4). split; [auto|]. split; [exact F2|]. split; [auto|]. intros M H0 HM. apply F4; [exact H0|apply HR, HM].
  - intros t v ws val HD Hn HT HV. destruct (dinv_keeps _ _ HD) as [Km Ka]. pose proof (dinv_plain _ _ HD) as PL. destruct (dinv_split _ _ _ HD) as [(-> & b & -> & H)|(front & b & -> & H)].
    + assert (HV' : forall q, In q (concat (b :: base)) -> val q = LTrue) by (intros q Hq; apply HV; cbn in *; rewrite app_nil_r; exact Hq).
      pose proof (c_check ops C t b base val H Hn HT HV') as R. destruct (th_check ops t val) as [[t' cf]| |]; cbn [safe] in *; auto.
      destruct R as (I1 & I2 & A & B & D). split; [apply dinv_one; [exact PL|exact I1|intros M; rewrite A; apply Km|intros x; rewrite B; apply Ka]|]. split; [exact I2|]. split; [exact A|]. split; [exact B|].
      intros c Hc. destruct (D c Hc) as (D1 & D2 & D3 & _). split; [exact D1|]. split; [exact D2|]. split; [exact D3|]. intros E. congruence.
    + assert (HV' : forall q, In q (concat (v :: front ++ b :: base)) -> val q = LTrue).
      { intros q Hq. apply HV. cbn [concat] in *. rewrite !concat_app in *. cbn [concat] in *. rewrite app_nil_r. exact Hq. }
      pose proof (c_check ops C t v _ val H Hn HT HV') as R. destruct (th_check ops t val) as [[t' cf]| |]; cbn [safe] in *; auto.
      destruct R as (I1 & I2 & A & B & D). split; [apply dinv_more; [exact PL|exact I1|intros M; rewrite A; apply Km|intros x; rewrite B; apply Ka]|]. split; [exact I2|]. split; [exact A|]. split; [exact B|].
      intros c Hc. destruct (D c Hc) as (D1 & D2 & D3 & D4). split; [exact D1|]. split; [exact D2|]. split; [exact D3|]. intros _. apply D4. intros E. apply (f_equal (@length (list lit))) in E. rewrite app_length in E. cbn in E. lia.
Defined.
Lemma deep_smodels s M : smodels deepC s M <-> smodels C s M.
Proof. split; intros [A B D E]; constructor; assumption. Qed.
Lemma deep_total : th_total C -> th_total deepC.
Proof.
  assert (E : forall front b, concat (front ++ [b ++ concat base]) = concat (front ++ b :: base)) by (intros front b; rewrite !concat_app; cbn; rewrite app_nil_r; reflexivity).
  intros [A B]. split; [intros t ws val p (front & b & -> & H & _ & _ & PL) Hp Hn HT HV HP _ _; rewrite E in HV; apply (A t _ val p H Hp Hn HT HV HP); intros *; intros X; destruct (PL _ _ _ X)|intros t ws val (front & b & -> & H & _) Hn HT HV; rewrite E in HV; apply (B t _ val H Hn HT HV)].
Qed.
End Deep.

Lemma quiet_th {T} {ops : theory_ops T} (C C' : contract ops) (s : st T) (t t' : T) : quiet C s -> theories s = [t] ->
  (forall v, th_atom C' t' v <-> th_atom C t v) -> th_feas C' t' -> plain C' ->
  (exists vs, th_inv C' t' vs /\ length vs = S (dlevel s) /\
    (forall j v l, nth_error vs j = Some v -> In l v -> value s l = LTrue /\ level s (lvar l) = dlevel s - j) /\
    (forall l, th_atom C t (lvar l) -> value s l = LTrue -> exists j v, nth_error vs j = Some v /\ In l v /\ level s (lvar l) = dlevel s - j)) ->
  quiet C' (set_theories [t'] s).
Proof.
  intros [[HT HC HR HW HQ HH] Hq Hs] Et Ka HF PL (vs & V1 & V2 & V3 & V4). constructor; [|exact Hq|intros u [<-|[]]; exact HF].
  assert (One : forall i u, nth_error [t'] i = Some u -> i = 0 /\ u = t') by (intros [|[|i]] u E; cbn in E; inversion E; auto).
  constructor; try (destruct HT; constructor; assumption); try (destruct HC; constructor; assumption); try (destruct HR; constructor; assumption); try (destruct HQ; constructor; assumption); [exact HW|].
  constructor.
  - intros i u E. destruct (One i u E) as [-> ->]. exists vs. split; [exact V1|]. split; [exact V2|]. split; [intros j v l Ej _ Hl; apply (V3 j v l Ej Hl)|].
    intros l Hl Hv. right. apply V4; [apply Ka, Hl|exact Hv].
  - intros i u v E Ha. destruct (One i u E) as [-> ->]. apply (h_range _ _ _ _ HH 0 t v); [rewrite Et; reflexivity|apply Ka, Ha].
  - intros i u v E Ha H. destruct (One i u E) as [-> ->]. apply (h_bound _ _ _ _ HH 0 t v); [rewrite Et; reflexivity|apply Ka, Ha|exact H].
  - intros i v Hi. destruct (h_owned _ _ _ _ HH i v Hi) as (u & Eu & Ha). rewrite Et in Eu. destruct i as [|[|i]]; cbn in Eu; inversion Eu; subst u. exists t'. split; [reflexivity|apply Ka, Ha].
  - apply (h_nodup _ _ _ _ HH).
  - intros i u n v _ Hf. destruct (PL _ _ _ Hf).
Qed.

Section Push.
Context {T : Type} {ops : theory_ops T} (C : contract ops) (PLC : plain C).
(** What the views of a quiet core are. *)
Lemma quiet_views (s : st T) t : quiet C s -> theories s = [t] -> exists vs, th_inv C t vs /\ length vs = S (dlevel s) /\
    (forall j v l, nth_error vs j = Some v -> In l v -> value s l = LTrue /\ level s (lvar l) = dlevel s - j) /\
    (forall l, th_atom C t (lvar l) -> value s l = LTrue -> exists j v, nth_error vs j = Some v /\ In l v /\ level s (lvar l) = dlevel s - j).
Proof.
  intros [HI Hq Hs] Et. destruct (h_views _ _ _ _ (i_h _ _ HI) 0 t) as (vs & V1 & V2 & V3 & V4); [rewrite Et; reflexivity|]. exists vs. split; [exact V1|]. split; [exact V2|].
  split; [intros j v l Ej Hl; apply (V3 j v l Ej (or_introl I) Hl)|]. intros l Hl Hv. destruct (V4 l Hl Hv) as [H|H]; [rewrite Hq in H; destruct H|exact H].
Qed.
(** The child core after a push: either it is a good core for the covered theory, with the values of its
    parent as facts, or no model of the parent extends the values it had. *)
Lemma stack_push_th fuel (s : st T) r t : quiet C s -> cache_ok C s -> theories s = [t] ->
  match stack_push ops fuel (s :: r) with
  | UB => False
  | OOF => th_total C -> fuel = 0
  | Ok k => exists s1, k = s1 :: s :: r /\ dlevel s1 = 0 /\ nv s1 = nv s /\ (forall p, value s1 p = value s p) /\
     ((forall M, smodels C s1 M <-> smodels C s M /\ forall p, value s p = LTrue -> mlit M p = true) /\ (exists vs, th_inv C t vs /\ length vs = S (dlevel s) /\
        (forall j v l, nth_error vs j = Some v -> In l v -> value s l = LTrue /\ level s (lvar l) = dlevel s - j) /\
        (forall l, th_atom C t (lvar l) -> value s l = LTrue -> exists j v, nth_error vs j = Some v /\ In l v /\ level s (lvar l) = dlevel s - j) /\
        good (deepC C t vs) s1 /\ quiet (deepC C t vs) s1) \/
      forall M, ~ (smodels C s M /\ forall p, value s p = LTrue -> mlit M p = true))
  end.
Proof.
  intros Q HX Et. destruct (quiet_views s t Q Et) as (vs & V1 & V2 & V3 & V4). destruct vs as [|v vs]; [discriminate V2|].
  assert (Hin : forall l, In l (v ++ concat vs) <-> exists j w, nth_error (v :: vs) j = Some w /\ In l w).
  { intros l. change (v ++ concat vs) with (concat (v :: vs)). rewrite in_concat. split; [intros (w & Hw & Hl); destruct (In_nth_error _ _ Hw) as (j & Ej); eauto|intros (j & w & Ej & Hl); exists w; split; [eapply nth_error_In; eassumption|exact Hl]]. }
  set (C1 := deepC C t vs). destruct (copy_core_gen C C1 s Q) as (s1 & Es1 & Q1 & D1 & N1 & A1 & X1 & T1 & Tr1 & De1 & M1).
  { intros i u Eu. rewrite Et in Eu. destruct i as [|[|i]]; cbn in Eu; inversion Eu; subst u. split; [intros; reflexivity|]. split; [intros; reflexivity|]. split; [apply (qu_set _ _ Q); rewrite Et; left; reflexivity|].
    exists (v ++ concat vs). split; [apply dinv_one; [exact PLC|exact V1|intros; reflexivity|intros; reflexivity]|]. split.
    - intros l Hl. apply Hin in Hl as (j & w & Ej & Hl). apply (V3 j w l Ej Hl).
    - intros l Hl Hv. apply Hin. destruct (V4 l Hl Hv) as (j & w & Ej & Hw & _). eauto. }
  { intros i u n x _ []. }
  unfold stack_push, copy_ctor. rewrite Es1. cbn [rbind]. unfold simplify_db. assert (Er : root_level s1 = true) by (apply root_dlevel, D1). rewrite Er. cbn [guard].
  destruct fuel as [|fuel]; [cbn; auto|]. cbn [propagate]. rewrite (qu_q _ _ Q1). rewrite T1, Et. cbn [length th_check_all nth_error]. rewrite T1, Et. cbn [nth_error].
  assert (Ev : forall q, value s1 q = value s q) by (intros q; unfold value; rewrite A1; reflexivity).
  assert (HV : forall q, In q (concat (v :: vs)) -> value s1 q = LTrue) by (intros q Hq; rewrite Ev; apply (proj1 (Hin q)) in Hq as (j & w & Ej & Hq); apply (V3 j w q Ej Hq)).
  pose proof (c_check ops C t v vs (value s1) V1 (value_negl s1) (true_lit_true s1 (i_t _ _ (qu_inv _ _ Q1))) HV) as R.
  pose proof (deep_total C t vs) as DT.
  destruct (th_check ops t (value s1)) as [[t1 cf]| |] eqn:Ec; cbn [safe rbind] in R |- *; [|exact R|].
  2:{ intros [_ H]. destruct (H t (v :: vs) (value s1) V1 (value_negl s1) (true_lit_true s1 (i_t _ _ (qu_inv _ _ Q1))) HV Ec). }
  destruct R as (I1 & If & Im & Ia & Ic). set (s2 := set_theories [t1] s1). change (set_theories (set_nth [t] 0 t1) s1) with s2.
  assert (HM2 : forall M, smodels C s2 M <-> smodels C s1 M).
  { intros M. split; intros [A B D F]; constructor; try assumption; cbn [s2 set_theories theories] in *.
    - rewrite T1, Et. intros u [<-|[]]. apply Im, F. left; reflexivity.
    - intros u [<-|[]]. apply Im, F. rewrite T1, Et. left; reflexivity. }
  assert (HM1 : forall M, smodels C s1 M <-> smodels C s M /\ forall p, value s p = LTrue -> mlit M p = true) by (intros M; rewrite <- M1; symmetry; apply deep_smodels).
  destruct cf as [c|].
  - assert (Er2 : root_level s2 = true) by exact Er. cbn [rbind]. rewrite Er2. cbn [rbind]. eexists. split; [reflexivity|].
    split; [exact D1|]. split; [exact N1|]. split; [exact Ev|]. right. intros M [HM Hv]. destruct (Ic c eq_refl) as (_ & C2 & C3 & _).
    destruct (C3 M (sm_false _ _ _ HM)) as (q & Hq & Eq); [apply (sm_th _ _ _ HM); rewrite Et; left; reflexivity|]. rewrite Forall_forall in C2. specialize (C2 q Hq).
    assert (Hn : value s (negl q) = LTrue) by (rewrite <- Ev, value_negl, C2; reflexivity). apply Hv in Hn. rewrite mlit_negl, Eq in Hn. discriminate.
  - cbn [rbind].
    assert (Q2 : quiet C1 s2).
    { apply (quiet_th C1 C1 s1 t t1 Q1); [congruence|exact Ia|apply If; reflexivity|intros x n y []|]. exists [v ++ concat vs]. split; [apply dinv_one; [exact PLC|exact I1|exact Im|exact Ia]|]. split; [rewrite D1; reflexivity|].
      assert (L0 : forall x, level s1 x = 0) by (intros x; pose proof (level_le s1 (i_t _ _ (qu_inv _ _ Q1)) x); lia). split.
      - intros [|[|j]] w l Ej Hl; [|discriminate..]. inversion Ej; subst w. split; [apply HV, Hl|rewrite L0, D1; reflexivity].
      - intros l Hl Hv. exists 0, (v ++ concat vs). split; [reflexivity|]. split; [|rewrite L0, D1; reflexivity]. apply Hin. rewrite Ev in Hv. destruct (V4 l Hl Hv) as (j & w & Ej & Hw & _). eauto. }
    pose proof (simplify_tail C1 s2 Q2 D1) as HS. destruct (simp_loop (length (constrs s2)) s2 [] (constrs s2) []) as [[s3 kept] out].
    destruct HS as (s4 & E4 & Q4 & M4 & _ & _ & _ & E1 & E2 & E3 & E5 & E6 & E7 & E8 & E9 & E10 & _). rewrite E4. cbn [rbind]. rewrite E9. cbn [s2 set_theories theories map].
    set (s5 := set_theories [th_push ops t1] s4). eexists. split; [reflexivity|].
    assert (D5 : dlevel s5 = 0) by (unfold dlevel; cbn [s5 set_theories trail_lim]; rewrite E5; exact D1). split; [exact D5|]. split; [cbn [s5 set_theories nv]; rewrite E7; exact N1|].
    assert (Ev5 : forall p, value s5 p = value s p) by (intros p; unfold value; cbn [s5 set_theories assigns]; rewrite E1; exact (Ev p)). split; [exact Ev5|]. left.
    destruct (c_push ops C t1 _ I1 (If eq_refl)) as (P1 & P2 & P3 & P4).
    assert (HM5 : forall M, smodels C s5 M <-> smodels C s M /\ forall p, value s p = LTrue -> mlit M p = true).
    { intros M. rewrite <- HM1, <- HM2. assert (H42 : smodels C s4 M <-> smodels C s2 M) by (rewrite <- (deep_smodels C t vs s2 M), <- (deep_smodels C t vs s4 M); apply M4). rewrite <- H42.
      split; intros [A B D F]; constructor; try assumption; cbn [s5 set_theories theories] in *.
      - rewrite E9. intros u [<-|[]]. apply P3, F. left; reflexivity.
      - intros u [<-|[]]. apply P3, F. rewrite E9. left; reflexivity. }
    split; [exact HM5|]. exists (v :: vs). split; [exact V1|]. split; [exact V2|]. split; [exact V3|]. split; [exact V4|].
    set (C2 := deepC C t (v :: vs)).
    assert (Q5 : quiet C2 s5).
    { apply (quiet_th C1 C2 s4 t1 (th_push ops t1) Q4); [rewrite E9; reflexivity|exact P4|exact P2|intros x n y []|]. exists [[] ++ concat (v :: vs)].
      split; [apply dinv_one; [exact PLC|exact P1|intros M; rewrite P3; apply Im|intros x; rewrite P4; apply Ia]|].
      assert (D4 : dlevel s4 = 0) by exact D5. split; [rewrite D4; reflexivity|]. assert (L0 : forall x, level s4 x = 0) by (intros x; pose proof (level_le s4 (i_t _ _ (qu_inv _ _ Q4)) x); lia). split.
      - intros [|[|j]] w l Ej Hl; [|discriminate..]. inversion Ej; subst w. cbn [app] in Hl. split; [|rewrite L0, D4; reflexivity]. change (value s5 l = LTrue). rewrite Ev5, <- Ev. apply HV, Hl.
      - intros l Hl Hv. exists 0, ([] ++ concat (v :: vs)). split; [reflexivity|]. split; [|rewrite L0, D4; reflexivity]. apply Hin. change (value s5 l = LTrue) in Hv. rewrite Ev5 in Hv. apply Ia in Hl.
        destruct (V4 l Hl Hv) as (j & w & Ej & Hw & _). eauto. }
    split; [|exact Q5]. constructor; [apply Q5| |intros H; congruence].
    intros k p Hi. cbn [s5 set_theories exprs] in Hi. rewrite E8 in Hi. cbn [s2 set_theories exprs] in Hi. rewrite X1 in Hi. destruct (HX k p Hi) as (o & K1 & K2 & K3 & K4).
    assert (N5 : nv s5 = nv s) by (cbn [s5 set_theories nv]; rewrite E7; exact N1). exists o. rewrite N5. split; [exact K1|]. split; [exact K2|]. split; [exact K3|]. intros M HM. apply K4. apply (proj1 (deep_smodels C t (v :: vs) s5 M)) in HM. apply HM5, HM.
Qed.

(** Popping the child, whatever was done in it and at whatever state it is (at root level). *)
Lemma stack_pop_th (s s1 : st T) r t vs : quiet C s -> cache_ok C s -> theories s = [t] ->
  (th_inv C t vs /\ length vs = S (dlevel s) /\
    (forall j v l, nth_error vs j = Some v -> In l v -> value s l = LTrue /\ level s (lvar l) = dlevel s - j) /\
    (forall l, th_atom C t (lvar l) -> value s l = LTrue -> exists j v, nth_error vs j = Some v /\ In l v /\ level s (lvar l) = dlevel s - j)) ->
  forall t1 b, theories s1 = [t1] -> th_inv C t1 (b :: vs) -> (forall M, th_model C t1 M <-> th_model C t M) -> (forall v, th_atom C t1 v <-> th_atom C t v) ->
  exists s2 t2, stack_pop ops (s1 :: s :: r) = Ok (s2 :: r) /\ theories s2 = [t2] /\ (exists lg, s2 = set_log lg (set_theories [t2] s)) /\
    (forall v, th_atom C t2 v <-> th_atom C t v) /\ good C s2 /\ quiet C s2 /\ (forall M, smodels C s2 M <-> smodels C s M).
Proof.
  intros Q HX Et (V1 & V2 & V3 & V4) t1 b Et1 W1 Km Ka.
  destruct vs as [|v vs]; [discriminate V2|]. destruct (c_pop ops C t1 b v vs W1) as (P1 & P2 & P3 & P4).
  cbn [stack_pop]. rewrite Et1. cbn [map]. eexists _, (th_pop ops t1). split; [reflexivity|]. split; [reflexivity|]. split; [eexists; reflexivity|]. split; [intros x; rewrite P4; apply Ka|].
  match goal with |- context [set_log ?lg _] => set (L := lg) end.
  assert (Q2 : quiet C (set_theories [th_pop ops t1] s)).
  { apply (quiet_th C C s t); [exact Q|exact Et|intros x; rewrite P4; apply Ka|exact P2|exact PLC|]. exists (v :: vs). auto. }
  assert (HM : forall M, smodels C (set_log L (set_theories [th_pop ops t1] s)) M <-> smodels C s M).
  { intros M. split; intros [A B D F]; constructor; try assumption; cbn [set_log set_theories theories] in *.
    - rewrite Et. intros u [<-|[]]. apply Km, P3, F. left; reflexivity.
    - intros u [<-|[]]. apply P3, Km, F. rewrite Et. left; reflexivity. }
  assert (Q3 : quiet C (set_log L (set_theories [th_pop ops t1] s))).
  { destruct Q2 as [[A B D E F G] H1 H2]. constructor; [|exact H1|exact H2]. constructor; try (destruct A; constructor; assumption); try (destruct B; constructor; assumption); try (destruct D; constructor; assumption); try (destruct F; constructor; assumption); [exact E|].
    destruct G; constructor; assumption. }
  split; [|split; [exact Q3|exact HM]]. constructor; [apply Q3| |intros _; split; [apply Q3|apply (qu_set _ _ Q3)]]. apply (cache_mono C s); [exact HX|reflexivity|apply le_n|intros M; apply HM].
Qed.
End Push.

(** ** Client view *)
Section Client.
Context {T : Type} {ops : theory_ops T} (C : contract ops).

(** The states that a client may leave a core in: any legal history of calls, of which the last one
    may have reported a definite inconsistency. *)
Definition left_in (s1 s2 : st T) : Prop := Reach C s1 s2 \/ exists fuel s c r, Reach C s1 s /\ legal C s c /\ step (ops := ops) fuel s c = Ok (s2, r).

Lemma deep_legal t base s c : legal C s c -> legal (deepC C t base) s c.
Proof. destruct c; cbn; auto. Qed.
Lemma deep_reach t base s1 s2 : Reach C s1 s2 -> Reach (deepC C t base) s1 s2.
Proof.
  induction 1 as [|fuel s c s' r HR IH HL HE HA]; [constructor|]. apply (R_step _ _ fuel s c s' r IH); [apply deep_legal, HL|exact HE|].
  intros E. destruct (HA E) as (M & HM). exists M. apply deep_smodels, HM.
Qed.
Lemma deep_left t base s1 s2 : good (deepC C t base) s1 -> left_in s1 s2 -> dlevel s2 = 0 ->
  forall i u, nth_error (theories s2) i = Some u -> exists b, th_inv C u (b :: base) /\ (forall M, th_model C u M <-> th_model C t M) /\ (forall v, th_atom C u v <-> th_atom C t v).
Proof.
  intros G HL HD i u Eu. assert (HV : exists ws, dinv C t base u ws /\ length ws = 1).
  { destruct HL as [HR|(fuel & s & c & r & HR & Hc & E)].
    - pose proof (reach_good _ _ _ G (deep_reach t base _ _ HR)) as G2. destruct (h_views _ _ _ _ (i_h _ _ (g_inv _ _ G2)) i u Eu) as (ws & A & B & _). exists ws. split; [exact A|congruence].
    - pose proof (reach_good _ _ _ G (deep_reach t base _ _ HR)) as G2. pose proof (step_ok _ fuel s c G2 (deep_legal t base s c Hc)) as H. rewrite E in H. destruct H as ([G3|[_ Hd]] & _).
      + destruct (h_views _ _ _ _ (i_h _ _ (g_inv _ _ G3)) i u Eu) as (ws & A & B & _). exists ws. split; [exact A|congruence].
      + destruct (de_th _ _ Hd i u Eu) as (ws & A & B). exists ws. split; [exact A|congruence]. }
  destruct HV as (ws & (front & b & -> & H & Km & Ka & _) & Hl). rewrite app_length in Hl. cbn in Hl. destruct front; [|cbn in Hl; lia]. exists b. auto.
Qed.
Lemma left_theories s1 s2 : left_in s1 s2 -> length (theories s2) = length (theories s1).
Proof.
  assert (H1 : forall fuel s s' c r, step (ops := ops) fuel s c = Ok (s', r) -> length (theories s') = length (theories s)).
  { intros fuel s s' c r E. assert (H : map (fun _ : T => tt) (theories s') = map (fun _ : T => tt) (theories s)) by (apply (K_step ops (fun _ => tt)) with (fuel := fuel) (c := c) (r := r); auto).
    apply (f_equal (@length unit)) in H. rewrite !map_length in H. exact H. }
  assert (H2 : forall s, Reach C s1 s -> length (theories s) = length (theories s1)).
  { induction 1 as [|fuel s c s' r HR IH HL HE HA]; [reflexivity|]. rewrite <- IH. eapply H1, HE. }
  intros [H|(fuel & s & c & r & HR & _ & E)]; [apply H2, H|]. rewrite (H1 _ _ _ _ _ E). apply H2, HR.
Qed.

(** Two cores with the same content, up to the theories and the record of the notifications. *)
Record same_but_th (s s' : st T) : Prop := {
  sb_nv : nv s' = nv s; sb_cls : cls s' = cls s; sb_constrs : constrs s' = constrs s;
  sb_watches : watches s' = watches s; sb_assigns : assigns s' = assigns s; sb_level : level s' = level s;
  sb_reason : reason s' = reason s; sb_q : prop_q s' = prop_q s; sb_trail : trail s' = trail s; sb_lim : trail_lim s' = trail_lim s;
  sb_dec : decisions s' = decisions s; sb_exprs : exprs s' = exprs s; sb_bounds : bounds s' = bounds s; sb_listening : listening s' = listening s }.

Theorem shared_theory s0 s r t fuel : plain C -> good C s0 -> Reach C s0 s -> theories s = [t] -> prop_q s = [] -> settled C s ->
  match stack_push ops fuel (s :: r) with
  | UB => False
  | OOF => th_total C -> fuel = 0
  | Ok k => exists s1, k = s1 :: s :: r /\ dlevel s1 = 0 /\ nv s1 = nv s /\ (forall p, value s1 p = value s p) /\
     ((forall M, ~ (smodels C s M /\ forall p, value s p = LTrue -> mlit M p = true)) \/
      (forall M, smodels C s1 M <-> smodels C s M /\ forall p, value s p = LTrue -> mlit M p = true) /\ prop_q s1 = [] /\ settled C s1 /\
      forall s2, left_in s1 s2 -> dlevel s2 = 0 ->
        exists s3, stack_pop ops (s2 :: s :: r) = Ok (s3 :: r) /\ same_but_th s s3 /\ good C s3 /\ settled C s3 /\ (forall M, smodels C s3 M <-> smodels C s M))
  end.
Proof.
  intros PL G0 HR Et Hq Hs. pose proof (reach_good C _ _ G0 HR) as G. pose proof (quiet_of C s G Hq Hs) as Q. pose proof (stack_push_th C PL fuel s r t Q (g_cache _ _ G) Et) as H.
  destruct (stack_push ops fuel (s :: r)) as [k| |] eqn:Ek; [|exact H|exact H]. destruct H as (s1 & -> & D1 & N1 & V & H). exists s1. split; [reflexivity|]. split; [exact D1|]. split; [exact N1|]. split; [exact V|].
  destruct H as [(HM & vs & V1 & V2 & V3 & V4 & G1 & Q1)|H]; [right|left; exact H]. split; [exact HM|]. split; [apply Q1|]. split; [apply (qu_set _ _ Q1)|].
  assert (L1 : length (theories s1) = 1).
  { unfold stack_push, copy_ctor in Ek. destruct (copy_core s) as [sc| |] eqn:Ec; cbn [rbind] in Ek; try discriminate. destruct (simplify_db ops fuel sc) as [[sd b]| |] eqn:Ed; cbn [rbind] in Ek; try discriminate. inversion Ek; subst s1. cbn [set_theories theories].
    rewrite map_length. assert (Hc : theories sc = theories s). { unfold copy_core in Ec. apply guard_ok in Ec as [_ Ec]. apply guard_ok in Ec as [_ Ec]. apply guard_ok in Ec as [_ Ec]. inversion Ec; subst. reflexivity. }
    assert (Hd : map (fun _ : T => tt) (theories sd) = map (fun _ : T => tt) (theories sc)).
    { apply (K_step ops (fun _ => tt)) with (fuel := fuel) (c := CSimplify) (r := RBool b); auto. cbn [step]. rewrite Ed. reflexivity. }
    apply (f_equal (@length unit)) in Hd. rewrite !map_length, Hc, Et in Hd. exact Hd. }
  intros s2 HL HD. pose proof (left_theories s1 s2 HL) as L2. rewrite L1 in L2. destruct (theories s2) as [|t2 [|? ?]] eqn:Et2; try discriminate L2.
  destruct (deep_left t vs s1 s2 G1 HL HD 0 t2) as (b & B1 & B2 & B3); [rewrite Et2; reflexivity|].
  destruct (stack_pop_th C PL s s2 r t vs Q (g_cache _ _ G) Et (conj V1 (conj V2 (conj V3 V4))) t2 b Et2 B1 B2 B3) as (s3 & t3 & E3 & Et3 & (lg & Es3) & _ & G3 & Q3 & M3).
  exists s3. split; [exact E3|]. split; [subst s3; constructor; reflexivity|]. split; [exact G3|]. split; [apply Q3|exact M3].
Qed.
End Client.
