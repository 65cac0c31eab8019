(** Creation of variables and assertions in the linear real arithmetic theory. *)
From Verif Require Import Base Sat SatSpec SatInv Lin Qe Lra LraTab LraVal LraInv LraChk LraPro LraCon.
From Coq Require Import Lqa.
Open Scope Q_scope.
Local Arguments Nat.ltb : simpl never.
Local Arguments Nat.eqb : simpl never.

(** [t'] has more variables, atoms and facts than [t]. *)
Record wider (t t' : lra) : Prop := {
  wd_nx : (nx t <= nx t')%nat;
  wd_mean : forall p m, lmean t p = Some m -> lmean t' p = Some m;
  wd_joint : forall M y, joint t' M y -> joint t M y;
  wd_sol : forall y, tsol (tab t') y -> tsol (tab t) y;
  wd_va : forall v a, In (v, a) (v_asrts t) -> In (v, a) (v_asrts t');
  wd_lay : layers t' = layers t;
  wd_cb : tighter (cb t) (cb t') }.
Lemma wider_trans a b c : wider a b -> wider b c -> wider a c.
Proof.
  intros [A1 A2 A3 A4 A5 A6 A7] [B1 B2 B3 B4 B5 B6 B7]. constructor; auto; try lia; try congruence. intros s x. eapply bsle_trans; [apply A7|apply B7].
Qed.
Lemma wider_refl t : wider t t.
Proof. constructor; auto. apply tighter_refl. Qed.
Lemma wider_rootb t t' s x b : wider t t' -> rootb t s x b -> rootb t' s x b.
Proof. intros W R M y HM HJ. apply (R M y HM), (wd_joint _ _ W), HJ. Qed.
Lemma BInv_wider t t' f f' vs : wider t t' -> (forall s x, f' s x = f s x) -> BInv t f vs -> BInv t' f' vs.
Proof.
  intros W E [B1 B2 B3 B4 B5 B6]. constructor.
  - intros s x. rewrite E. apply B1.
  - intros s x Hx. rewrite E. apply B2. pose proof (wd_nx _ _ W). lia.
  - intros s x b. rewrite E. intros H. destruct (B3 s x b H) as [[A B]|[A B]]; [left|right].
    + split; [exact A|]. apply (wider_rootb t); assumption.
    + split; [exact A|]. apply (wd_mean _ _ W), B.
  - intros s x. rewrite E. apply B4.
  - intros p Hp. destruct (B5 p Hp) as (s & x & b & A & B). exists s, x, b. rewrite E. split; [apply (wd_mean _ _ W), A|exact B].
  - intros s x a b. rewrite !E. apply B6.
Qed.
Lemma LS_wider t t' : wider t t' -> (forall vs, vsol (tab t) vs -> vsol (tab t') vs) -> forall Ls vs f f', (forall s x, f' s x = f s x) -> LS t f Ls vs -> LS t' f' Ls vs.
Proof.
  intros W HV. induction Ls as [|L Ls IH]; intros [|v vs] f f' E H; cbn in *; try exact H.
  destruct vs as [|w vs]; [exact H|]. destruct H as (H0 & H1 & H2 & H3 & H4 & H5). pose proof (undo_ext L f f' E) as EU.
  split; [intros e He; specialize (H0 e He); pose proof (wd_nx _ _ W); lia|]. split; [apply (BInv_wider t t' (undo L f)); assumption|].
  split; [destruct H2 as (us & A & B); exists us; split; [apply HV, A|intros s x; rewrite EU; apply B]|].
  split; [intros s x; rewrite EU, E; apply H3|]. split; [intros s x; rewrite EU, E; apply H4|]. exact (IH _ _ _ EU H5).
Qed.

(** ** lra_theory.cpp:28-39 *)
Lemma wf_tab_more n m tb w w' : wf_tab n tb w -> (n <= m)%nat -> (forall v, w' v = w v) -> wf_tab m tb w'.
Proof.
  intros [A B D F G H] Hn Hw. constructor; auto.
  - intros x l Hi. specialize (B x l Hi). lia.
  - intros x l v Hi Hd. destruct (F x l v Hi Hd). split; [lia|assumption].
  - intros v r. rewrite Hw. apply G.
  - intros v. rewrite Hw. apply H.
Qed.
Lemma fresh_nonbasic t vs x : TInv t vs -> (nx t <= x)%nat -> gfind x (tab t) = None /\ tw t x = [] /\ aw t x = [] /\ forall r l, In (r, l) (tab t) -> ~ dom (lvars l) x.
Proof.
  intros HI Hx. pose proof (ti_wf _ _ HI) as Hwf.
  assert (Hd : forall r l, In (r, l) (tab t) -> ~ dom (lvars l) x) by (intros r l Hi Hd; destruct (wt_var _ _ _ Hwf r l x Hi Hd); lia).
  split; [|split; [|split; [|exact Hd]]].
  - destruct (gfind x (tab t)) as [l|] eqn:E; [|reflexivity]. apply gfind_in in E. pose proof (wt_key _ _ _ Hwf x l E). lia.
  - destruct (tw t x) as [|r rs] eqn:E; [reflexivity|]. assert (Hr : In r (tw t x)) by (rewrite E; left; reflexivity). apply (wt_tw _ _ _ Hwf) in Hr as (l & Hl & Hd'). destruct (Hd r l Hl Hd').
  - destruct (aw t x) as [|a al] eqn:E; [reflexivity|]. assert (Ha : In a (aw t x)) by (rewrite E; left; reflexivity). apply (ti_aw _ _ HI) in Ha as [(v & Hv) Ha]. destruct (ti_atom _ _ HI _ _ Hv) as (_ & _ & H & _). lia.
Qed.
Lemma vsol_upd t vs x q : TInv t vs -> (nx t <= x)%nat -> forall us, vsol (tab t) us -> vsol (tab t) (upd us x q).
Proof.
  intros HI Hx us [A B]. destruct (fresh_nonbasic t vs x HI Hx) as (F1 & F2 & F3 & F4).
  assert (G : forall k y z, tsolk k (tab t) y -> (forall v, v <> x -> z v == y v) -> tsolk k (tab t) z).
  { intros k y z Hy Hz r l Hi. assert (Hr : r <> x) by (intros ->; apply (gasc_in_find _ (wt_asc _ _ _ (ti_wf _ _ HI))) in Hi; congruence).
    rewrite (Hz r Hr), (Hy r l Hi). unfold lvalk. rewrite (msum_ext z y (lvars l)); [reflexivity|]. intros v Hv. apply Hz. intros ->. exact (F4 r l Hi Hv). }
  apply tsolk_1 in A. split; [apply tsolk_1, (G 1 (rat us))|apply (G 0 (eps us))]; auto; intros v Hv; unfold rat, eps; rewrite upd_neq by exact Hv; reflexivity.
Qed.

Lemma loose_more t t' x : loose t x -> aw t' x = [] -> (forall e, In e (xexprs t) -> In e (xexprs t')) -> tighter (rootcb t) (rootcb t') ->
  (forall s, bsle s (bound t' s x) (bound t s x) = true) -> loose t' x.
Proof.
  intros (_ & l & B & D & F & G) H1 H2 H3 H4. split; [exact H1|]. exists l. split; [apply H2, B|]. split; [exact D|]. split; [exact F|]. intros s.
  eapply bsle_trans; [apply H4|]. eapply bsle_trans; [apply G|]. apply tighter_bsum; assumption.
Qed.
Lemma new_var_ok t vs : TInv t vs -> TInv (fst (t_new_var t)) vs /\ wider t (fst (t_new_var t)) /\ (forall M y, joint (fst (t_new_var t)) M y <-> joint t M y) /\
  (forall s x, cb (fst (t_new_var t)) s x = cb t s x) /\ (feas t (cb t) -> feas (fst (t_new_var t)) (cb (fst (t_new_var t)))).
Proof.
  intros HI. set (t' := fst (t_new_var t)). destruct (fresh_nonbasic t vs (nx t) HI (le_n _)) as (F1 & F2 & F3 & F4).
  assert (Ecb : forall s x, cb t' s x = cb t s x).
  { intros s x. cbn [t' t_new_var fst cb]. destruct (updc_dec Up (nx t) s x) as [[-> ->]|H]; [rewrite updc_eq; symmetry; apply (b_out _ _ _ (ti_b _ _ HI)); lia|rewrite updc_neq by exact H].
    destruct (updc_dec Lo (nx t) s x) as [[-> ->]|H']; [rewrite updc_eq; symmetry; apply (b_out _ _ _ (ti_b _ _ HI)); lia|rewrite updc_neq by exact H'; reflexivity]. }
  assert (HJ : forall M y, joint t' M y <-> joint t M y) by (intros M y; reflexivity).
  assert (W : wider t t') by (constructor; try apply tighter_eq, Ecb; cbn; auto; intros; apply HJ; assumption).
  split; [|split; [exact W|split; [exact HJ|split; [exact Ecb|]]]].
  - pose proof HI as [I1 I2 I3 I4 I5 I6 I7 I8 Ik I9 I10 I11 I12]. constructor; auto.
    + cbn [t' t_new_var fst nx tab tw]. eapply wf_tab_more; [exact I1|lia|]. intros v. unfold upd. destruct (Nat.eqb_spec v (nx t)) as [->|]; [symmetry; exact F2|reflexivity].
    + cbn [t' t_new_var fst tab vals]. apply (vsol_upd t vs); auto.
    + intros s x Ex. unfold bound. rewrite Ecb. cbn [t' t_new_var fst tab vals] in *. unfold upd. destruct (Nat.eqb_spec x (nx t)) as [->|]; [|apply I4, Ex].
      rewrite (b_out _ _ _ I11) by lia. exact I.
    + intros v a Ha. destruct (I5 v a Ha) as (A & B & D & E). cbn. repeat split; auto; lia.
    + intros x a. cbn [t' t_new_var fst aw v_asrts]. unfold upd. destruct (Nat.eqb_spec x (nx t)) as [->|]; [|apply I7]. rewrite <- F3. apply I7.
    + intros l x Hx. cbn [t' t_new_var fst xexprs nx tab] in *. apply in_app_or in Hx as [Hx|[Hx|[]]].
      * destruct (I8 l x Hx). split; [lia|assumption].
      * inversion Hx; subst. split; [lia|]. intros k y _. unfold lvalk, lin_var; cbn. ring.
    + intros x l Hi Hn. pose proof (Ik x l Hi Hn) as HL. apply (loose_more t t' x HL).
      * cbn [t' t_new_var fst aw]. unfold upd. destruct (Nat.eqb x (nx t)); [reflexivity|apply HL].
      * intros e He. cbn [t' t_new_var fst xexprs]. apply in_or_app. left; exact He.
      * apply tighter_eq. intros s z. unfold rootcb. cbn [t' t_new_var fst layers]. apply unwind_ext, Ecb.
      * intros s. unfold bound. rewrite Ecb. apply bsle_refl.
    + apply (BInv_wider t t' (cb t)); auto.
    + apply (LS_wider t t' W (fun us H => H) _ _ (cb t)); auto.
  - intros (us & A & B). exists us. split; [exact A|]. intros s x. rewrite Ecb. apply B.
Qed.

(** ** lra_theory.cpp:41-58 *)
Lemma qmap_eqb_sum y : forall a b, qmap_eqb a b = true -> msum y a == msum y b.
Proof.
  induction a as [|[v c] a IH]; intros [|[w d] b]; cbn; try discriminate; [reflexivity|]. intros H. apply andb_true_iff in H as [H H3]. apply andb_true_iff in H as [H1 H2].
  apply Nat.eqb_eq in H1. apply Qeq_bool_iff in H2. subst. rewrite H2, (IH b H3). reflexivity.
Qed.
Lemma find_slack_okk t vs l x : TInv t vs -> find_slack t l = Some x -> (x < nx t)%nat /\ forall k y, tsolk k (tab t) y -> y x == lvalk k y l.
Proof.
  intros HI H. unfold find_slack in H. destruct (find _ (xexprs t)) as [[l' x']|] eqn:E; [|discriminate]. inversion H; subst. apply find_some in E as [E1 E2].
  cbn [fst snd] in *. destruct (ti_cache _ _ HI _ _ E1) as [A B]. split; [exact A|]. intros k y Hy. rewrite (B k y Hy). unfold lin_eqb in E2. apply andb_true_iff in E2 as [E2 E3].
  apply Qeq_bool_iff in E3. unfold lvalk. rewrite (qmap_eqb_sum y _ _ E2), E3. reflexivity.
Qed.
Lemma find_slack_ok t vs l x : TInv t vs -> find_slack t l = Some x -> (x < nx t)%nat /\ forall y, tsol (tab t) y -> y x == lval y l.
Proof. intros HI H. destruct (find_slack_okk t vs l x HI H) as [A B]. split; [exact A|]. intros y Hy. apply tsolk_1 in Hy. rewrite (B 1 y Hy). apply lvalk_1. Qed.
Lemma val_lin_sum t l : fst (val_lin t l) == lkt l + fst (qsum (vals t) (lvars l)) /\ snd (val_lin t l) == snd (qsum (vals t) (lvars l)).
Proof.
  unfold val_lin. assert (G : forall m acc, fst (fold_left (fun acc e => qe_add acc (qe_scale (snd e) (vals t (fst e)))) m acc) == fst acc + msum (rat (vals t)) m /\
    snd (fold_left (fun acc e => qe_add acc (qe_scale (snd e) (vals t (fst e)))) m acc) == snd acc + msum (eps (vals t)) m).
  { induction m as [|[v c] m IH]; intros acc; cbn [fold_left msum]; [split; ring|]. destruct (IH (qe_add acc (qe_scale c (vals t v)))) as [A B]. cbn [fst snd] in *. rewrite A, B. cbn. unfold rat, eps. split; ring. }
  destruct (G (lvars l) (qe_of (lkt l))) as [A B]. rewrite A, B. cbn. split; ring.
Qed.

(** The expressions for which a slack variable may be created. *)
Record slackable (t : lra) (l : lin) : Prop := {
  sl_clean : lin_clean l;
  sl_ne : lvars l <> [];
  sl_var : forall v, dom (lvars l) v -> (v < nx t)%nat /\ gfind v (tab t) = None }.

Lemma bound_lin_joint t vs l : TInv t vs -> lin_clean l -> forall s M y, M 0%nat = false -> joint t M y ->
  (forall v c, In (v, c) (lvars l) -> mlit M (breason t (tside s c) v) = true) -> bhold s (bound_lin t s l) (lval y l).
Proof.
  intros HI [_ Hz] s M y HM HJ Hr. rewrite bound_lin_sum. destruct (bsum_hold s (fun v c => bound t (tside s c) v) y (lvars l) (Some (qe_of (lkt l))) (lkt l)) as [_ A]; auto.
  - intros v c Hc. split; [apply (b_sgn _ _ _ (ti_b _ _ HI))|]. apply (bound_holds t vs HI (cb t) vs (ti_b _ _ HI) _ _ M y HM HJ). apply Hr, Hc.
  - destruct s; cbn; lra.
  - destruct s; cbn; lra.
  - eapply bhold_eq; [|exact A]. unfold lval. ring.
Qed.
Lemma bound_lin_sgn t vs l s : TInv t vs -> lin_clean l -> bsgn s (bound_lin t s l).
Proof. intros HI [_ Hz]. rewrite bound_lin_sum. apply bsum_sgn; [exact Hz|intros v c _; apply (b_sgn _ _ _ (ti_b _ _ HI))|destruct s; cbn; lra]. Qed.
Lemma bound_lin_inb t l us s : lin_clean l -> within (cb t) us -> inb s (bound_lin t s l) (qe_add (qe_of (lkt l)) (qsum us (lvars l))).
Proof. intros [_ Hz] H. rewrite bound_lin_sum. apply bsum_inb; [exact Hz| |apply sleP_refl]. intros v c _. apply H. Qed.
(** The lower bound of an expression is not above its upper bound. *)
Lemma bound_lin_le t vs l s a b : TInv t vs -> lin_clean l -> bound_lin t s l = Some a -> bound_lin t (other s) l = Some b -> sleP s a b.
Proof.
  intros HI [_ Hz]. rewrite !bound_lin_sum. pose proof (b_ok _ _ _ (ti_b _ _ HI)) as Hok.
  assert (G : forall m p q, nonzero m -> sleP s p q -> forall a b, bsum (fun v c => bound t (tside s c) v) m (Some p) = Some a -> bsum (fun v c => bound t (tside (other s) c) v) m (Some q) = Some b -> sleP s a b).
  { induction m as [|[v c] m IH]; intros p q Hm Hpq a' b'; cbn [bsum fold_left fst snd].
    - intros E1 E2. inversion E1; inversion E2; subst. exact Hpq.
    - assert (Hc : ~ c == 0) by (apply (Hm v c); left; reflexivity). rewrite tside_other.
      destruct (bound t (tside s c) v) as [u|] eqn:Eu; [|intros E1; exfalso; exact (bsum_none (fun v c => bound t (tside s c) v) m _ E1)].
      destruct (bound t (other (tside s c)) v) as [w|] eqn:Ew; [|intros _ E2; exfalso; exact (bsum_none (fun v c => bound t (tside (other s) c) v) m _ E2)]. cbn [bscale badd].
      apply IH; [intros v' c' Hi; apply (Hm v' c'); right; exact Hi|].
      assert (Huw := Hok (tside s c) v u w Eu Ew).
      assert (A := badd_inb s (Some p) (bscale c (Some u)) q (qe_scale c w) Hpq (bscale_inb s c (Some u) w Hc Huw)). exact A. }
  apply G; [exact Hz|apply sleP_refl].
Qed.

(** The state after a new row for the fresh variable [x]. *)
Definition slack_st (t : lra) (x : nat) (l : lin) : lra :=
  mk_lra (nx t) (updc (updc (cb t) Lo x (bound_lin t Lo l, TRUE_lit)) Up x (bound_lin t Up l, TRUE_lit))
    (upd (vals t) x (val_lin t l)) (fst (new_row x l (tab t) (tw t))) (snd (new_row x l (tab t) (tw t)))
    (xexprs t ++ [(l, x)]) (s_asrts t) (v_asrts t) (aw t) (layers t) (just_lits t l ++ facts t) (tick t).
Lemma t_new_slack_eq root t l : t_new_slack root t l =
  guard (match lvars l with [] => false | _ => true end)
  (match find_slack t l with Some x => Ok (t, x) | None => guard root (Ok (slack_st (fst (t_new_var t)) (nx t) l, nx t)) end).
Proof. reflexivity. Qed.

Section Slack.
Context (t : lra) (v : list lit) (HI : TInv t [v]) (x : nat) (l : lin) (Hx : (x < nx t)%nat)
  (Hf : gfind x (tab t) = None) (Hfr : forall r k, In (r, k) (tab t) -> ~ dom (lvars k) x) (Hb : forall s, cb t s x = (None, TRUE_lit))
  (Hl : slackable t l) (Hlx : ~ dom (lvars l) x).
Let t' := slack_st t x l.

Lemma slack_find r : gfind r (tab t') = if Nat.eqb x r then Some l else gfind r (tab t).
Proof. apply gput_find, (ti_wf _ _ HI). Qed.
Lemma slack_wf : wf_tab (nx t') (tab t') (tw t').
Proof.
  pose proof (ti_wf _ _ HI) as [A B D F G H]. assert (Ha : gasc (tab t')) by (apply gput_asc, A).
  assert (Hin : forall r k, In (r, k) (tab t') -> (r = x /\ k = l) \/ In (r, k) (tab t)).
  { intros r k Hi. apply (gasc_in_find _ Ha) in Hi. rewrite slack_find in Hi. revert Hi. destruct (Nat.eqb_spec x r) as [->|]; intros Hi; [left; split; congruence|right; apply gfind_in, Hi]. }
  constructor.
  - exact Ha.
  - intros r k Hi. destruct (Hin r k Hi) as [[-> ->]|Hi']; [exact Hx|exact (B _ _ Hi')].
  - intros r k Hi. destruct (Hin r k Hi) as [[-> ->]|Hi']; [apply Hl|exact (D _ _ Hi')].
  - intros r k u Hi Hd. rewrite slack_find. destruct (Hin r k Hi) as [[-> ->]|Hi'].
    + destruct (sl_var _ _ Hl u Hd) as [P1 P2]. split; [exact P1|]. destruct (Nat.eqb_spec x u) as [->|]; [contradiction|exact P2].
    + destruct (F r k u Hi' Hd) as [P1 P2]. split; [exact P1|]. destruct (Nat.eqb_spec x u) as [->|]; [destruct (Hfr r k Hi' Hd)|exact P2].
  - intros u r. cbn [t' slack_st tw new_row snd]. rewrite (new_row_in 0), G. split.
    + intros [(k & Hk & Hd)|[-> Hd]].
      * exists k. split; [|exact Hd]. apply gfind_in. rewrite slack_find. destruct (Nat.eqb_spec x r) as [->|]; [apply (gasc_in_find _ A) in Hk; congruence|apply (gasc_in_find _ A), Hk].
      * exists l. split; [|exact Hd]. apply gfind_in. rewrite slack_find, Nat.eqb_refl. reflexivity.
    + intros (k & Hk & Hd). destruct (Hin r k Hk) as [[-> ->]|Hi']; [right; auto|left; exists k; auto].
  - intros u. apply new_row_nodup, H.
Qed.
Lemma slack_tsolk q y : tsolk q (tab t') y <-> tsolk q (tab t) y /\ y x == lvalk q y l.
Proof.
  rewrite (tsol_find q _ y (wt_asc _ _ _ slack_wf)), (tsol_find q _ y (wt_asc _ _ _ (ti_wf _ _ HI))). split.
  - intros H. split; [|apply H; rewrite slack_find, Nat.eqb_refl; reflexivity]. intros r k Hk. apply H. rewrite slack_find. destruct (Nat.eqb_spec x r) as [->|]; [congruence|exact Hk].
  - intros [H1 H2] r k. rewrite slack_find. destruct (Nat.eqb_spec x r) as [->|]; intros Hk; [inversion Hk; subst; exact H2|apply H1, Hk].
Qed.
Lemma slack_tsol y : tsol (tab t') y <-> tsol (tab t) y /\ y x == lval y l.
Proof. rewrite <- !tsolk_1, slack_tsolk, lvalk_1. reflexivity. Qed.
Lemma just_in s u c : In (u, c) (lvars l) -> breason t (tside s c) u = TRUE_lit \/ In (breason t (tside s c) u) (just_lits t l).
Proof.
  intros Hi. destruct (lit_eqb_spec (breason t (tside s c) u) TRUE_lit) as [E|E]; [left; exact E|right]. unfold just_lits. apply filter_In. split.
  - apply in_flat_map. exists (u, c). split; [exact Hi|]. cbn [fst snd In]. destruct s; auto.
  - destruct (lit_eqb_spec (breason t (tside s c) u) TRUE_lit); [contradiction|reflexivity].
Qed.
(** The recorded reasons are root-level literals of the theory. *)
Lemma just_root p : In p (just_lits t l) -> In p v /\ atoms t (lvar p).
Proof.
  unfold just_lits. intros H. apply filter_In in H as [H1 H2]. apply in_flat_map in H1 as ((u & c) & Hi & Hp).
  assert (E : exists s, p = breason t s u) by (cbn in Hp; destruct Hp as [<-|[<-|[]]]; eexists; reflexivity). destruct E as (s & ->).
  assert (Hn : breason t s u <> TRUE_lit) by (intros E; rewrite E in H2; destruct (lit_eqb_spec TRUE_lit TRUE_lit); [discriminate|contradiction]).
  unfold breason in *. destruct (fst (cb t s u)) as [b|] eqn:Eb; [|destruct (Hn (b_none _ _ _ (ti_b _ _ HI) s u Eb))].
  destruct (b_why _ _ _ (ti_b _ _ HI) s u b Eb) as [[A _]|[A B]]; [contradiction|]. cbn in A. rewrite app_nil_r in A. split; [exact A|]. apply lmean_atom. congruence.
Qed.
Lemma slack_joint M y : joint t' M y <-> joint t M y /\ y x == lval y l /\ (forall p, In p (just_lits t l) -> mlit M p = true).
Proof.
  unfold joint. rewrite slack_tsol. cbn [t' slack_st v_asrts facts]. split.
  - intros ([A1 A2] & B & D). split; [|split; [exact A2|]].
    + split; [exact A1|]. split; [exact B|]. intros p Hp Ha. apply D; [apply in_or_app; right; exact Hp|exact Ha].
    + intros p Hp. apply D; [apply in_or_app; left; exact Hp|apply (just_root p Hp)].
  - intros ((A & B & D) & E & F). split; [split; assumption|]. split; [exact B|]. intros p Hp Ha. apply in_app_or in Hp as [Hp|Hp]; [apply F, Hp|apply D; assumption].
Qed.
Lemma slack_bound s u : cb t' s u = if Nat.eqb u x then (bound_lin t s l, TRUE_lit) else cb t s u.
Proof. cbn [t' slack_st cb]. unfold updc. destruct (Nat.eqb u x); destruct s; reflexivity. Qed.
Lemma slack_rootb s b : bound_lin t s l = Some b -> rootb t' s x b.
Proof.
  intros E M y HM HJ. apply slack_joint in HJ as (HJ & Ex & Hj). rewrite <- E. apply (bhold_eq s _ (lval y l)); [symmetry; exact Ex|].
  apply (bound_lin_joint t [v] l HI (sl_clean _ _ Hl) s M y HM HJ). intros u c Hi. destruct (just_in s u c Hi) as [->|Hj']; [|apply Hj, Hj']. unfold mlit. cbn. rewrite HM. reflexivity.
Qed.
Lemma slack_wider : wider t t'.
Proof.
  constructor; auto.
  - intros M y HJ. apply slack_joint in HJ. apply HJ.
  - intros y Hy. apply slack_tsol in Hy. apply Hy.
  - intros s u. rewrite slack_bound. destruct (Nat.eqb_spec u x) as [->|]; [rewrite Hb; reflexivity|apply bsle_refl].
Qed.
Lemma slack_BInv : BInv t' (cb t') [v].
Proof.
  pose proof (ti_b _ _ HI) as [B1 B2 B3 B4 B5 B6]. pose proof slack_wider as W. constructor.
  - intros s u. rewrite slack_bound. destruct (Nat.eqb u x); [cbn [fst]; apply (bound_lin_sgn t [v]); [exact HI|apply Hl]|apply B1].
  - intros s u Hu. rewrite slack_bound. destruct (Nat.eqb_spec u x) as [->|]; [cbn in Hu; lia|apply B2, Hu].
  - intros s u b. rewrite slack_bound. destruct (Nat.eqb_spec u x) as [->|]; cbn [fst snd].
    + intros E. left. split; [reflexivity|]. apply slack_rootb, E.
    + intros E. destruct (B3 s u b E) as [[A R]|[A R]]; [left; split; [exact A|apply (wider_rootb t); assumption]|right; split; [exact A|exact R]].
  - intros s u. rewrite slack_bound. destruct (Nat.eqb u x); [reflexivity|apply B4].
  - intros p Hp. destruct (B5 p Hp) as (s & u & b & A & B). exists s, u, b. split; [exact A|]. rewrite slack_bound. destruct (Nat.eqb_spec u x) as [->|]; [|exact B].
    rewrite Hb in B. discriminate B.
  - intros s u a b. rewrite !slack_bound. destruct (Nat.eqb u x); [apply (bound_lin_le t [v]); [exact HI|apply Hl]|apply B6].
Qed.
Definition slack_val (us : nat -> qe) : qe := qe_add (qe_of (lkt l)) (qsum us (lvars l)).
Lemma slack_ext q y z : tsolk q (tab t') z -> (forall u, z u == y u) -> tsolk q (tab t') y.
Proof. intros Hz E r k Hi. rewrite <- (E r), (Hz r k Hi). unfold lvalk. rewrite (msum_ext z y (lvars k)); [reflexivity|]. intros; apply E. Qed.
Lemma slack_solk k y q : tsolk k (tab t) y -> q == lvalk k y l -> tsolk k (tab t') (upd y x q).
Proof.
  intros Hy Hq. apply slack_tsolk.
  assert (HE : forall u, u <> x -> upd y x q u == y u) by (intros u Hu; rewrite upd_neq by exact Hu; reflexivity). split.
  - intros r j Hi. assert (Hr : r <> x) by (intros ->; apply (gasc_in_find _ (wt_asc _ _ _ (ti_wf _ _ HI))) in Hi; congruence).
    rewrite (HE r Hr), (Hy r j Hi). unfold lvalk. rewrite (msum_ext (upd y x q) y (lvars j)); [reflexivity|]. intros u Hu. apply HE. intros ->. exact (Hfr r j Hi Hu).
  - rewrite upd_eq. transitivity (lvalk k y l); [exact Hq|]. unfold lvalk. rewrite (msum_ext (upd y x q) y (lvars l)); [ring|]. intros u Hu. apply HE. intros ->. exact (Hlx Hu).
Qed.
Lemma slack_vsol us : vsol (tab t) us -> vsol (tab t') (upd us x (slack_val us)).
Proof.
  intros [A B]. apply tsolk_1 in A. split; [apply tsolk_1, (slack_ext 1 _ (upd (rat us) x (lvalk 1 (rat us) l)))|apply (slack_ext 0 _ (upd (eps us) x (lvalk 0 (eps us) l)))].
  - apply slack_solk; [exact A|reflexivity].
  - intros u. unfold rat at 3, upd. destruct (Nat.eqb u x); [|reflexivity]. unfold lvalk. cbn. ring.
  - apply slack_solk; [exact B|reflexivity].
  - intros u. unfold eps at 3, upd. destruct (Nat.eqb u x); [|reflexivity]. unfold lvalk. cbn. ring.
Qed.
Lemma slack_feas : feas t (cb t) -> feas t' (cb t').
Proof.
  intros (us & A & B). exists (upd us x (slack_val us)). split; [apply slack_vsol, A|]. intros s u. rewrite slack_bound. unfold upd. destruct (Nat.eqb u x); [|apply B].
  cbn [fst]. exact (bound_lin_inb t l us s (sl_clean _ _ Hl) B).
Qed.
Lemma slack_ok : aw t x = [] -> (forall u, dom (lvars l) u -> (u < x)%nat) -> TInv t' [v].
Proof.
  intros Haw Hlt. pose proof HI as [I1 I2 I3 I4 I5 I6 I7 I8 Ik I9 I10 I11 I12]. constructor.
  - exact slack_wf.
  - intros r k Hi. apply (gasc_in_find _ (wt_asc _ _ _ slack_wf)) in Hi. rewrite slack_find in Hi. destruct (Nat.eqb x r); [inversion Hi; subst; apply Hl|apply gfind_in in Hi; exact (I2 _ _ Hi)].
  - destruct (slack_vsol (vals t) I3) as [A B]. destruct (val_lin_sum t l) as [V1 V2].
    apply tsolk_1 in A. split; [apply tsolk_1; eapply slack_ext; [exact A|]|eapply slack_ext; [exact B|]]; intros u; unfold rat, eps; cbn [t' slack_st vals]; unfold upd; destruct (Nat.eqb u x); try reflexivity.
    + rewrite V1. cbn. ring.
    + rewrite V2. cbn. ring.
  - intros s u. rewrite slack_find. intros E. unfold bound. rewrite slack_bound. cbn [t' slack_st vals]. destruct (Nat.eqb_spec u x) as [->|Hn]; [rewrite Nat.eqb_refl in E; discriminate|].
    rewrite upd_neq by exact Hn. revert E. destruct (Nat.eqb_spec x u); [congruence|]. apply I4.
  - exact I5.
  - exact I6.
  - exact I7.
  - intros k u Hi. cbn [t' slack_st xexprs nx] in *. apply in_app_or in Hi as [Hi|[Hi|[]]].
    + destruct (I8 k u Hi) as [A B]. split; [exact A|]. intros q y Hy. apply B. apply slack_tsolk in Hy. apply Hy.
    + assert (k = l /\ u = x) as [-> ->] by (split; congruence). split; [exact Hx|]. intros q y Hy. apply slack_tsolk in Hy. apply Hy.
  - intros r k Hi Hn. apply (gasc_in_find _ (wt_asc _ _ _ slack_wf)) in Hi. rewrite slack_find in Hi. destruct (Nat.eqb_spec x r) as [<-|Hr].
    + inversion Hi; subst k. split; [exact Haw|]. exists l. split; [cbn [t' slack_st xexprs]; apply in_or_app; right; left; reflexivity|]. split; [apply Hl|]. split; [exact Hlt|]. intros s.
      unfold bound. rewrite slack_bound, Nat.eqb_refl. cbn [fst]. rewrite bound_lin_sum. apply bsum_mono; [apply Hl| |apply bsle_refl]. intros u c Hu.
      assert (Hd : dom (lvars l) u) by (apply (min_iff _ (proj1 (sl_clean _ _ Hl))) in Hu; unfold dom; congruence).
      unfold rootcb. cbn [t' slack_st layers]. destruct (layers t) as [|L Ls]; [|destruct I12]. cbn [unwind]. fold t'. rewrite slack_bound.
      destruct (Nat.eqb_spec u x) as [->|]; [contradiction|apply bsle_refl].
    + apply gfind_in in Hi. apply (loose_more t t' r (Ik r k Hi Hn)).
      * apply (Ik r k Hi Hn).
      * intros e He. cbn [t' slack_st xexprs]. apply in_or_app. left; exact He.
      * unfold rootcb. cbn [t' slack_st layers]. destruct (layers t) as [|L Ls]; [|destruct I12]. cbn [unwind]. fold t'. apply slack_wider.
      * intros s. unfold bound. rewrite slack_bound. destruct (Nat.eqb_spec r x) as [E|]; [congruence|apply bsle_refl].
  - exact I9.
  - intros p Hp. cbn [t' slack_st facts] in Hp. apply in_app_or in Hp as [Hp|Hp]; [|apply I10, Hp]. cbn [last]. apply (just_root p Hp).
  - exact slack_BInv.
  - cbn [t' slack_st layers]. destruct (layers t) as [|L Ls]; [exact I|destruct I12].
Qed.
End Slack.

(** Asking for the slack variable of an expression over non-basic variables. *)
Theorem new_slack_ok root t v l : TInv t [v] -> slackable t l -> root = true ->
  exists t' x, t_new_slack root t l = Ok (t', x) /\ TInv t' [v] /\ (x < nx t')%nat /\ wider t t' /\
    (forall y, tsol (tab t') y -> y x == lval y l) /\ v_asrts t' = v_asrts t /\ s_asrts t' = s_asrts t /\
    (feas t (cb t) -> feas t' (cb t')) /\
    (forall s, inb s (bound t' s x) (vals t' x) \/ is_basic t' x = true) /\
    (forall M y, (forall p, In p v -> mlit M p = true) -> joint t M y -> exists q, joint t' M (if Nat.ltb x (nx t) then y else upd y x q)) /\
    (lkt l == 0 -> forall k, gfind x (tab t') = Some k -> lkt k == 0).
Proof.
  intros HI Hl ->. rewrite t_new_slack_eq.
  assert (Eg : (match lvars l with [] => false | _ => true end) = true) by (pose proof (sl_ne _ _ Hl); destruct (lvars l); [contradiction|reflexivity]). rewrite Eg. cbn [guard].
  assert (Hcase : forall t' x, TInv t' [v] -> forall s, inb s (bound t' s x) (vals t' x) \/ is_basic t' x = true).
  { intros t' x H s. unfold is_basic. destruct (gfind x (tab t')) eqn:E; [right; reflexivity|left; apply (ti_nb _ _ H), E]. }
  destruct (find_slack t l) as [x|] eqn:Ef.
  - destruct (find_slack_ok t [v] l x HI Ef) as [A B]. exists t, x. split; [reflexivity|]. split; [exact HI|]. split; [exact A|]. split; [apply wider_refl|].
    split; [exact B|]. split; [reflexivity|]. split; [reflexivity|]. split; [auto|]. split; [apply Hcase, HI|]. split; [intros M y _ HJ; exists 0; destruct (Nat.ltb_spec x (nx t)); [exact HJ|lia]|].
    intros Hk k Ek. pose proof (extend_sol (nx t) (tab t) (tw t) (fun _ => 0) (ti_wf _ _ HI)) as HS. apply B in HS. unfold extend at 1 in HS. rewrite Ek in HS.
    assert (Z : forall m, msum (fun _ => 0) m == 0) by (induction m as [|[u c] m IHm]; cbn [msum]; [reflexivity|rewrite IHm; ring]).
    unfold lval in HS. rewrite (Z (lvars k)), (msum_ext (extend (tab t) (fun _ => 0)) (fun _ => 0) (lvars l)), Z, Hk in HS; [lra|].
    intros u Hu. destruct (sl_var _ _ Hl u Hu) as [_ E]. unfold extend. rewrite E. reflexivity.
  - destruct (new_var_ok t [v] HI) as (N1 & N2 & N3 & N4 & N5). set (t1 := fst (t_new_var t)) in *. set (x := nx t).
    destruct (fresh_nonbasic t [v] x HI (le_n _)) as (F1 & F2 & F3 & F4).
    assert (Hl1 : slackable t1 l). { destruct Hl as [A B E]. constructor; auto. intros u Hu. destruct (E u Hu). split; [cbn; lia|assumption]. }
    assert (Hlx : ~ dom (lvars l) x) by (intros Hd; destruct (sl_var _ _ Hl x Hd); unfold x in *; lia).
    assert (Hb1 : forall s, cb t1 s x = (None, TRUE_lit)) by (intros s; rewrite N4; apply (b_out _ _ _ (ti_b _ _ HI)); apply le_n).
    assert (Hx1 : (x < nx t1)%nat) by (cbn; unfold x; lia).
    assert (Ha1 : aw t1 x = []) by (unfold t1; cbn [t_new_var fst aw]; apply upd_eq).
    assert (T' := slack_ok t1 v N1 x l Hx1 F1 F4 Hb1 Hl1 Hlx Ha1 (fun u Hu => proj1 (sl_var _ _ Hl u Hu))). assert (J := slack_joint t1 v N1 x l Hx1 F1 F4 Hb1 Hl1 Hlx).
    exists (slack_st t1 x l), x. split; [reflexivity|]. split; [exact T'|]. split; [exact Hx1|].
    split; [pose proof (slack_wider t1 v N1 x l Hx1 F1 F4 Hb1 Hl1 Hlx) as W2; eapply wider_trans; eassumption|]. split; [intros y Hy; apply (slack_tsol t1 v N1 x l Hx1 F1 F4 Hb1 Hl1 Hlx) in Hy; apply Hy|].
    split; [reflexivity|]. split; [reflexivity|]. split; [intros Hfe; apply (slack_feas t1 v N1 x l Hx1 F1 F4 Hb1 Hl1 Hlx), N5, Hfe|]. split; [apply Hcase, T'|].
    split; [|intros Hk k Ek; rewrite (slack_find t1 v N1 x l) in Ek by assumption; rewrite Nat.eqb_refl in Ek; inversion Ek; subst; exact Hk].
    intros M y Hv HJ. exists (lval y l). change (nx t) with x. rewrite Nat.ltb_irrefl. apply J.
    assert (HE : forall u, u <> x -> upd y x (lval y l) u == y u) by (intros u Hu; rewrite upd_neq by exact Hu; reflexivity).
    split; [|split].
    + apply N3. destruct HJ as (J1 & J2 & J3). split; [|split; [|exact J3]].
      * intros r k Hi. assert (Hr : r <> x) by (intros ->; apply (gasc_in_find _ (wt_asc _ _ _ (ti_wf _ _ HI))) in Hi; congruence).
        rewrite (HE r Hr), (J1 r k Hi). unfold lval. rewrite (msum_ext (upd y x _) y (lvars k)); [reflexivity|]. intros u Hu. apply HE. intros ->. exact (F4 r k Hi Hu).
      * intros w a Ha. rewrite (J2 w a Ha). unfold ahold. destruct (ti_atom _ _ HI w a Ha) as (_ & _ & Hax & _). rewrite upd_neq by (unfold x; lia). reflexivity.
    + rewrite upd_eq. unfold lval at 2. rewrite (msum_ext (upd y x _) y (lvars l)); [reflexivity|]. intros u Hu. apply HE. intros ->. exact (Hlx Hu).
    + intros p Hp. apply Hv. apply (just_root t1 v N1 l p Hp).
Qed.

(** ** lra_constraint.cpp:8, lra_theory.cpp:94-98 *)
Lemma add_asrt_ok t vs s x c w : TInv t vs -> (forall l, gfind x (tab t) = Some l -> lkt l == 0) -> ~ atoms t w -> w <> 0%nat -> (x < nx t)%nat -> bok s c ->
  TInv (add_asrt t s x c w) vs /\ wider t (add_asrt t s x c w) /\ (forall u, atoms (add_asrt t s x c w) u <-> atoms t u \/ u = w) /\
  (feas t (cb t) -> feas (add_asrt t s x c w) (cb (add_asrt t s x c w))) /\
  (forall M y, joint (add_asrt t s x c w) M y <-> joint t M y /\ (M w = true <-> bhold s (Some c) (y x)) /\ (In (mk_lit w true) (facts t) -> M w = true) /\ (In (mk_lit w false) (facts t) -> M w = false)).
Proof.
  intros HI Hkx Hw H0 Hx Hc. set (t' := add_asrt t s x c w).
  assert (Hat : forall u, atoms t' u <-> atoms t u \/ u = w).
  { intros u. unfold atoms. cbn [t' add_asrt v_asrts]. rewrite map_app, in_app_iff. cbn. intuition. }
  assert (Hf : forall u a, gfind u (v_asrts t) = Some a -> gfind u (v_asrts t') = Some a).
  { intros u a. cbn [t' add_asrt v_asrts]. generalize (v_asrts t). induction l as [|[k d] l IH]; cbn; [discriminate|]. destruct (Nat.eqb k u); auto. }
  assert (HJ : forall M y, joint t' M y <-> joint t M y /\ (M w = true <-> bhold s (Some c) (y x)) /\ (In (mk_lit w true) (facts t) -> M w = true) /\ (In (mk_lit w false) (facts t) -> M w = false)).
  { intros M y. unfold joint. cbn [t' add_asrt tab v_asrts facts]. split.
    - intros (A & B & D). split; [split; [exact A|split]|split; [|split]].
      + intros u a Ha. apply B, in_or_app. left; exact Ha.
      + intros p Hp Ha. apply D; [exact Hp|]. apply Hat. left; exact Ha.
      + apply (B w (mk_asrt s (mk_lit w true) x c)). apply in_or_app. right; left; reflexivity.
      + intros Hp. specialize (D _ Hp). unfold mlit in D. cbn in D. assert (E : atoms t' w) by (apply Hat; right; reflexivity). specialize (D E). destruct (M w); [reflexivity|discriminate].
      + intros Hp. specialize (D _ Hp). unfold mlit in D. cbn in D. assert (E : atoms t' w) by (apply Hat; right; reflexivity). specialize (D E). destruct (M w); [discriminate|reflexivity].
    - intros ((A & B & D) & E & F & G). split; [exact A|]. split.
      + intros u a Ha. apply in_app_or in Ha as [Ha|[Ha|[]]]; [apply B, Ha|]. inversion Ha; subst. exact E.
      + intros [u b] Hp Ha. apply Hat in Ha as [Ha|Ha]; [apply D; assumption|]. cbn in Ha. subst u. unfold mlit; cbn. destruct b; [rewrite (F Hp)|rewrite (G Hp)]; reflexivity. }
  assert (W : wider t t').
  { constructor; auto.
    - intros p m. unfold lmean. destruct (gfind (lvar p) (v_asrts t)) as [a|] eqn:E; [|discriminate]. rewrite (Hf _ _ E). auto.
    - intros M y H. apply HJ in H. apply H.
    - intros u a Ha. cbn [t' add_asrt v_asrts]. apply in_or_app. left; exact Ha.
    - apply tighter_refl. }
  split; [|split; [exact W|split; [exact Hat|split; [auto|exact HJ]]]].
  pose proof HI as [I1 I2 I3 I4 I5 I6 I7 I8 Ik I9 I10 I11 I12]. constructor; auto.
  - intros u a Ha. cbn [t' add_asrt v_asrts nx] in *. apply in_app_or in Ha as [Ha|[Ha|[]]]; [apply I5, Ha|]. inversion Ha; subst. cbn. auto.
  - cbn [t' add_asrt v_asrts]. rewrite map_app. apply (Permutation_NoDup (Permutation_cons_append _ _)). constructor; assumption.
  - intros u a. cbn [t' add_asrt v_asrts aw]. unfold upd. destruct (Nat.eqb_spec u x) as [->|Hn].
    + rewrite in_app_iff, I7. cbn [In]. split.
      * intros [[(k & Hk) E]|[<-|[]]]; [split; [exists k; apply in_or_app; left; exact Hk|exact E]|split; [exists w; apply in_or_app; right; left; reflexivity|reflexivity]].
      * intros [(k & Hk) E]. apply in_app_or in Hk as [Hk|[Hk|[]]]; [left; split; [exists k; exact Hk|exact E]|right; left; inversion Hk; reflexivity].
    + rewrite I7. split; intros [(k & Hk) E]; (split; [|exact E]); exists k; [apply in_or_app; left; exact Hk|]. apply in_app_or in Hk as [Hk|[Hk|[]]]; [exact Hk|]. inversion Hk; subst. cbn in Hn. congruence.
  - intros z l Hz Hn. pose proof (Ik z l Hz Hn) as HL. apply (loose_more t t' z HL); [|auto|apply tighter_refl|intros; apply bsle_refl].
    cbn [t' add_asrt aw]. unfold upd. destruct (Nat.eqb_spec z x) as [->|]; [|apply HL]. destruct (Hn (Hkx l (gasc_in_find _ (wt_asc _ _ _ I1) _ _ Hz))).
  - intros s1 x1 c1 p Hp. cbn [t' add_asrt v_asrts s_asrts] in *. apply in_app_or in Hp as [Hp|[Hp|[]]].
    + destruct (I9 s1 x1 c1 p Hp) as (a & A & B). exists a. split; [apply in_or_app; left; exact A|exact B].
    + inversion Hp; subst. exists (mk_asrt s1 (mk_lit w true) x1 c1). split; [apply in_or_app; right; left; reflexivity|cbn; auto].
  - apply (BInv_wider t t' (cb t)); auto.
  - apply (LS_wider t t' W (fun us H => H) _ _ (cb t)); auto.
Qed.
