(** Difference logic theories: reachable states and their invariant. *)
From Verif Require Import Base Sat Lin Qe Dw Dl DlClo DlTight DlEdge.
From Coq Require Import Lqa.
Open Scope nat_scope.
Local Arguments Nat.ltb : simpl never.
Local Arguments Nat.eqb : simpl never.
Local Arguments Nat.div : simpl never.

(** The values a theory may read when [ps] are the literals it has been told: the negation of a literal has the
    opposite value and the literals of [ps] are true. *)
Definition reads (val : lit -> lbool) (ps : list lit) : Prop := (forall q, val (negl q) = lneg (val q)) /\ forall q, In q ps -> val q = LTrue.

Section Th.
Context {D : Type} {W : wops D} (L : wlaws W).
Notation "a +' b" := (wadd W a b) (at level 50, left associativity).
Notation "-' a" := (wneg W a) (at level 35).
Notation dl := (dl D).
Notation dcon := (dcon D).

(** ** Meaning of the literals. *)
Definition con_sat (c : dcon) (y : nat -> Q) : Prop := wsat L (c_w c) (y (c_to c) - y (c_from c))%Q.
(** The literals of [ps] that control a constraint tell the truth about it. *)
Definition lits_hold (t : dl) (ps : list lit) (y : nat -> Q) : Prop :=
  forall p c, In p ps -> In c (dcons t) -> lvar (c_b c) = lvar p -> if lsgn p then con_sat c y else ~ con_sat c y.
Definition good_con (n : nat) (c : dcon) : Prop := wcon L (c_w c) /\ c_from c < n /\ c_to c < n /\ c_from c <> c_to c /\ lsgn (c_b c) = true.
Definition atom (t : dl) (v : nat) : Prop := exists c, In c (dcons t) /\ lvar (c_b c) = v.

(** ** Histories. *)
Inductive dstep : dl -> list (list lit) -> dl -> list (list lit) -> Prop :=
| ds_var t vs : dstep t vs (fst (t_dl_var W t)) vs
| ds_con t vs c : good_con (nvars t) c -> ~ atom t (lvar (c_b c)) -> dstep t vs (add_con t c) vs
| ds_prop t v vs p val t' ls : atom t (lvar p) -> reads val (p :: concat (v :: vs)) -> dl_prop W t val p = Ok (t', ls, None) -> dstep t (v :: vs) t' ((p :: v) :: vs)
| ds_push t vs : dstep t vs (dl_push t) ([] :: vs)
| ds_pop t v v' vs : dstep t (v :: v' :: vs) (dl_pop t) (v' :: vs).
Inductive DReach : dl -> list (list lit) -> Prop :=
| DR_init size : 0 < size -> DReach (dl_init W size) [[]]
| DR_step t vs t' vs' : DReach t vs -> dstep t vs t' vs' -> DReach t' vs'.
(** What can happen between a push and the matching pop. *)
Inductive Inside (n : nat) : dl -> list (list lit) -> dl -> list (list lit) -> Prop :=
| In_refl t vs : Inside n t vs t vs
| In_step t vs t1 vs1 t2 vs2 : Inside n t vs t1 vs1 -> dstep t1 vs1 t2 vs2 -> n < length vs2 -> Inside n t vs t2 vs2.

(** ** Invariant. *)
Record DCore (t : dl) (ps : list lit) : Prop := {
  dc_n : 0 < nvars t <= cap t;
  dc_in : inside (dists t) (nvars t);
  dc_closed : closed L (dists t);
  dc_paths : paths L (virt L (dists t)) (dists t) (preds t);
  dc_cons : forall c, In c (dcons t) -> good_con (nvars t) c;
  dc_nodup : NoDup (map (fun c => lvar (c_b c)) (dcons t));
  dc_atoms : forall p, In p ps -> atom t (lvar p);
  dc_sols : forall y, vals_ok L y -> (respects L (dists t) y <-> lits_hold t ps y);
  dc_enf : forall k c, In (k, c) (dist_constr t) -> In c (dcons t) /\
    ((In (c_b c) ps /\ k = (c_from c, c_to c)) \/ (In (negl (c_b c)) ps /\ k = (c_to c, c_from c))) }.
Inductive DInv : dl -> list (list lit) -> Prop :=
| DI_root t v : dlayers t = [] -> DCore t v -> DInv t [v]
| DI_up t v vs l r : dlayers t = l :: r -> DCore t (v ++ concat vs) -> (forall k o, In (k, o) (old_constrs l) -> kfind k (dist_constr t) <> None) ->
    DInv (dl_pop t) vs -> DInv t (v :: vs).
Lemma DInv_core t vs : DInv t vs -> DCore t (concat vs).
Proof. intros [t0 v _ H|t0 v vs0 l r _ H _ _]; cbn; [rewrite app_nil_r; exact H|exact H]. Qed.
Lemma DInv_cons t vs : DInv t vs -> exists v w, vs = v :: w.
Proof. intros []; eauto. Qed.

(** Growth: more variables, more constraints, fewer predecessors. *)
Record sim (t t' : dl) : Prop := {
  sm_n : nvars t <= nvars t' <= cap t';
  sm_d : forall i j, dists t' i j = dists t i j;
  sm_p : blurred (preds t) (preds t');
  sm_con : dist_constr t' = dist_constr t;
  sm_cons : exists ex, dcons t' = dcons t ++ ex;
  sm_good : forall c, In c (dcons t') -> good_con (nvars t') c;
  sm_nodup : NoDup (map (fun c => lvar (c_b c)) (dcons t'));
  sm_lay : dlayers t' = dlayers t }.
Lemma sim_trans t1 t2 t3 : sim t1 t2 -> sim t2 t3 -> sim t1 t3.
Proof.
  intros [A1 A2 A3 A4 [x A5] A6 A7 A8] [B1 B2 B3 B4 [y B5] B6 B7 B8]. 
  constructor; [lia|intros i j; rewrite B2; apply A2|eapply blur_trans; eassumption|congruence|exists (x ++ y); rewrite B5, A5, app_assoc; reflexivity|exact B6|exact B7|congruence].
Qed.
Lemma sim_refl t ps : DCore t ps -> sim t t.
Proof. intros []. constructor; auto; [lia|apply blur_refl|exists []; rewrite app_nil_r; reflexivity]. Qed.
Lemma nodup_con (l : list dcon) c c' : NoDup (map (fun c => lvar (c_b c)) l) -> In c l -> In c' l -> lvar (c_b c) = lvar (c_b c') -> c = c'.
Proof.
  induction l as [|a l IH]; cbn; [intros _ []|]. intros H. inversion H as [|x r Hn HN]; subst. intros [<-|Hc] [<-|Hc'] E; auto; exfalso; apply Hn, in_map_iff; [exists c'|exists c]; auto.
Qed.
Lemma lits_hold_grow (t t' : dl) ps y : (exists ex, dcons t' = dcons t ++ ex) -> NoDup (map (fun c => lvar (c_b c)) (dcons t')) -> (forall p, In p ps -> atom t (lvar p)) -> (lits_hold t' ps y <-> lits_hold t ps y).
Proof.
  intros [ex E] HN HA. split; intros H p c Hp Hc Ev.
  - apply (H p c Hp); [rewrite E; apply in_or_app; auto|exact Ev].
  - destruct (HA p Hp) as (c' & Hc' & Ev'). assert (c = c') as ->; [|apply (H p c' Hp Hc' Ev')].
    apply (nodup_con (dcons t')); auto; [rewrite E; apply in_or_app; auto|congruence].
Qed.
Lemma sim_core t t' ps : sim t t' -> DCore t ps -> DCore t' ps.
Proof.
  intros [A1 A2 A3 A4 A5 A6 A7 A8] [B1 B2 B3 B4 B5 B6 B7 B8 B9].
  assert (HC' : closed L (dists t')) by (apply (closed_ext L (dists t)); auto).
  constructor; auto.
  - lia.
  - intros i j a E Hn. rewrite A2 in E. destruct (B2 i j a E Hn). lia.
  - apply (blur_paths L _ (preds t)); auto. intros r v Hv. rewrite A2 in Hv. apply (path_ext L (virt L (dists t)) _ (dists t) (preds t)); auto.
    intros i j x. unfold virt. rewrite A2. auto.
  - intros p Hp. destruct (B7 p Hp) as (c & Hc & E). destruct A5 as [ex A5]. exists c. split; [rewrite A5; apply in_or_app; auto|exact E].
  - intros y Hy. rewrite (lits_hold_grow t t' ps y A5 A7 B7), <- (B8 y Hy). unfold respects. split; intros H i j a E; apply H; [rewrite A2|rewrite <- A2]; exact E.
  - intros k c Hk. rewrite A4 in Hk. destruct (B9 k c Hk) as [Hc H]. split; [|exact H]. destruct A5 as [ex A5]. rewrite A5. apply in_or_app. auto.
Qed.
Lemma restore_ext {A} m (f g : nat -> nat -> A) i j : (f i j = g i j) -> restore m f i j = restore m g i j.
Proof. intros E. unfold restore. destruct (kfind (i, j) m); auto. Qed.
Lemma sim_pop t t' : sim t t' -> sim (dl_pop t) (dl_pop t').
Proof.
  intros [A1 A2 A3 A4 A5 A6 A7 A8]. unfold dl_pop. rewrite A8. destruct (dlayers t) as [|l r] eqn:El.
  - constructor; auto. congruence.
  - constructor; cbn; auto.
    + intros i j. apply restore_ext, A2.
    + intros i j Hij. unfold restore. destruct (kfind (i, j) (old_preds l)); [auto|]. apply A3, Hij.
    + rewrite A4. reflexivity.
Qed.
Lemma sim_inv t t' vs : DInv t vs -> sim t t' -> DInv t' vs.
Proof.
  intros HI. revert t'. induction HI as [t v El HC|t v vs l r El HC Hk HI IH]; intros t' HS.
  - apply DI_root; [rewrite (sm_lay _ _ HS); exact El|apply (sim_core t); auto].
  - apply (DI_up _ _ _ l r); [rewrite (sm_lay _ _ HS); exact El|apply (sim_core t); auto|rewrite (sm_con _ _ HS); exact Hk|]. apply IH, sim_pop, HS.
Qed.

(** ** The steps that only grow. *)
Lemma var_sim t ps : DCore t ps -> sim t (fst (t_dl_var W t)) /\ nvars (fst (t_dl_var W t)) = S (nvars t).
Proof.
  intros [B1 B2 B3 B4 B5 B6 B7 B8 B9]. unfold t_dl_var. cbn [fst cap].
  assert (Hout : forall i j, (Nat.ltb i (cap t) && Nat.ltb j (cap t)) = false -> dists t i j = if Nat.eqb i j then Some (w0 W) else None).
  { intros i j H. destruct (Nat.eqb_spec i j) as [<-|Hn]; [apply (cl_diag L _ B3)|]. destruct (dists t i j) as [a|] eqn:E; [|reflexivity]. destruct (B2 i j a E Hn).
    destruct (Nat.ltb_spec i (cap t)), (Nat.ltb_spec j (cap t)); cbn in H; try discriminate; lia. }
  assert (Hg : forall c, In c (dcons t) -> good_con (S (nvars t)) c) by (intros c Hc; destruct (B5 c Hc) as (? & ? & ? & ?); split; [assumption|]; repeat split; try lia; tauto).
  destruct (Nat.eqb_spec (cap t) (nvars t)) as [Ec|Ec]; cbn [dl_resize nvars cap dcons]; (split; [|reflexivity]); constructor; cbn; auto.
  - split; [lia|]. rewrite Ec. pose proof (Nat.div_le_mono (nvars t * 2) (nvars t * 3) 2 ltac:(lia) ltac:(lia)) as H. rewrite Nat.div_mul in H by lia. lia.
  - intros i j. destruct (Nat.ltb i (cap t) && Nat.ltb j (cap t)) eqn:E; [reflexivity|symmetry; apply Hout, E].
  - intros i j Hij. destruct (Nat.ltb i (cap t) && Nat.ltb j (cap t)) eqn:E; [auto|]. destruct (Nat.eqb_spec i j); [contradiction|auto].
  - exists []. rewrite app_nil_r. reflexivity.
  - lia.
  - apply blur_refl.
  - exists []. rewrite app_nil_r. reflexivity.
Qed.
Lemma con_sim t ps c : DCore t ps -> good_con (nvars t) c -> ~ atom t (lvar (c_b c)) -> sim t (add_con t c).
Proof.
  intros [B1 B2 B3 B4 B5 B6 B7 B8 B9] Hc Hn. constructor; cbn; auto.
  - lia.
  - apply blur_refl.
  - exists [c]. reflexivity.
  - intros c' H. apply in_app_or in H as [H|[<-|[]]]; auto.
  - rewrite map_app. apply (Permutation_NoDup (Permutation_cons_append _ _)). constructor; [|exact B6]. intros H. apply in_map_iff in H as (c' & E & H). apply Hn. exists c'. auto.
Qed.

(** ** Explanations terminate. *)
Lemma steps_walk (t : dl) val r l v : steps (preds t) r l v -> forall fuel, length l <= fuel -> exists e, walk fuel t val r v = Ok e.
Proof.
  induction 1 as [|u v l Hv E _ IH]; intros fuel Hf.
  - exists []. destruct fuel; cbn; rewrite Nat.eqb_refl; reflexivity.
  - cbn in Hf. destruct fuel as [|f]; [lia|]. cbn. destruct (Nat.eqb_spec v r); [contradiction|]. rewrite E. destruct (IH f ltac:(lia)) as (e & Ee). rewrite Ee. cbn. eauto.
Qed.
Lemma explain_ok t ps val r v : DCore t ps -> dists t r v <> None -> exists e, explain t val r v = Ok e.
Proof.
  intros [B1 B2 B3 B4 _ _ _ _ _] Hv. destruct (path_steps L _ _ _ r v (B4 r v Hv)) as (l & Hl & Hin). apply (steps_walk t val r l v Hl).
  enough (length l <= nvars t) by lia. apply bounded_nodup; [apply (steps_nodup _ _ _ _ Hl)|]. intros x Hx. destruct (Hin x Hx) as [Hn Hd].
  destruct (dists t r x) as [a|] eqn:E; [|congruence]. apply (B2 r x a E). congruence.
Qed.
Lemma tell_ok t ps (l : list dcon) : DCore t ps -> forall a, exists r, rfold (tell_step W t) l a = Ok r.
Proof.
  intros HC. induction l as [|c l IH]; intros a; cbn [rfold]; [eauto|].
  enough (exists a1, tell_step W t a c = Ok a1) as (a1 & E) by (rewrite E; cbn [rbind]; apply IH).
  destruct a as [val ls]. unfold tell_step. destruct (val (c_b c)); eauto.
  destruct (dist_lt W (dists t (c_to c) (c_from c)) (Some (-' c_w c))) eqn:E1; [|destruct (dist_le W (dists t (c_from c) (c_to c)) (Some (c_w c))) eqn:E2].
  - apply (dist_lt_some L) in E1 as (x & Ex & _). destruct (explain_ok t ps val (c_to c) (c_from c) HC) as (e & Ee); [congruence|]. rewrite Ee. cbn. eauto.
  - apply (dist_le_some L) in E2 as (x & Ex & _). destruct (explain_ok t ps val (c_from c) (c_to c) HC) as (e & Ee); [congruence|]. rewrite Ee. cbn. eauto.
  - eauto.
Qed.

(** ** A literal as an edge. *)
Definition e_from (c : dcon) (p : lit) : nat := if lsgn p then c_from c else c_to c.
Definition e_to (c : dcon) (p : lit) : nat := if lsgn p then c_to c else c_from c.
Definition e_w (c : dcon) (p : lit) : D := if lsgn p then c_w c else nega W (c_w c).
Lemma e_con n c p : good_con n c -> wcon L (e_w c p).
Proof. intros (H & _). unfold e_w, nega. destruct (lsgn p); [exact H|apply con_neg, H]. Qed.
Lemma e_sat n c p y : good_con n c -> vals_ok L y -> ((if lsgn p then con_sat c y else ~ con_sat c y) <-> wsat L (e_w c p) (y (e_to c p) - y (e_from c p))%Q).
Proof.
  intros (H & _) Hy. unfold con_sat, e_w, e_to, e_from. destruct (lsgn p); [reflexivity|].
  pose proof (sat_neg _ L (c_w c) (y (c_to c) - y (c_from c))%Q H (isv_sub _ L _ _ (Hy _) (Hy _))) as HS. unfold wsat, nega. rewrite <- HS.
  split; intros K; apply (evt_mp _ _ K), evt_all; intros; lra.
Qed.
Lemma find_con_ok (t : dl) c : NoDup (map (fun c : dcon => lvar (c_b c)) (dcons t)) -> In c (dcons t) -> find_con t (lvar (c_b c)) = Some c.
Proof.
  intros HN Hc. unfold find_con. destruct (find (fun c0 => Nat.eqb (lvar (c_b c0)) (lvar (c_b c))) (dcons t)) as [c'|] eqn:E.
  - apply find_some in E as [Hc' E]. apply Nat.eqb_eq in E. f_equal. apply (nodup_con (dcons t)); auto.
  - apply (find_none _ _ E) in Hc. rewrite Nat.eqb_refl in Hc. discriminate.
Qed.
Lemma lits_hold_cons (t : dl) ps p c y : NoDup (map (fun c : dcon => lvar (c_b c)) (dcons t)) -> In c (dcons t) -> lvar (c_b c) = lvar p ->
  (lits_hold t (p :: ps) y <-> lits_hold t ps y /\ if lsgn p then con_sat c y else ~ con_sat c y).
Proof.
  intros HN Hc Ev. split.
  - intros H. split; [intros q c' Hq; apply H; right; exact Hq|]. apply (H p c); auto. left. reflexivity.
  - intros [H Hp] q c' [<-|Hq] Hc' E'; [|apply H; auto]. assert (c' = c) as -> by (apply (nodup_con (dcons t)); auto; congruence). exact Hp.
Qed.
Lemma reads_sign val ps p (c : dcon) : reads val (p :: ps) -> lsgn (c_b c) = true -> lvar (c_b c) = lvar p -> val (c_b c) = if lsgn p then LTrue else LFalse.
Proof.
  intros [Hn Ht] Hs Ev. pose proof (Ht p (or_introl eq_refl)) as Hp. destruct (c_b c) as [v s], p as [v' s']. cbn in *. subst. destruct s'; [exact Hp|].
  specialize (Hn (mk_lit v' true)). change (negl (mk_lit v' true)) with (mk_lit v' false) in Hn. rewrite Hp in Hn. destruct (val (mk_lit v' true)); try discriminate. reflexivity.
Qed.
(** [dl_prop] in terms of edges. *)
Lemma prop_cases t ps p c val : DCore t ps -> In c (dcons t) -> lvar (c_b c) = lvar p -> reads val (p :: ps) ->
  dl_prop W t val p =
    if dist_lt W (dists t (e_to c p) (e_from c p)) (Some (-' e_w c p)) then e <- explain t val (e_to c p) (e_from c p) ;; Ok (t, [], Some (e ++ [negl p]))
    else if dist_lt W (Some (e_w c p)) (dists t (e_from c p) (e_to c p)) then '(t1, ls) <- prop_edge W (enforce t (e_from c p, e_to c p) c) val (e_from c p) (e_to c p) (e_w c p) ;; Ok (t1, ls, None)
    else Ok (t, [], None).
Proof.
  intros HC Hc Ev HR. unfold dl_prop. rewrite <- Ev, (find_con_ok t c (dc_nodup _ _ HC) Hc). destruct (dc_cons _ _ HC c Hc) as (Hw & _ & _ & _ & Hs).
  rewrite (reads_sign val ps p c HR Hs Ev). unfold e_from, e_to, e_w. destruct (lsgn p); [reflexivity|].
  assert (Hi : forall i j x, dists t i j = Some x -> wint L x) by (intros i j x E; apply ok_int, (cl_ok L _ (dc_closed _ _ HC) i j x E)).
  pose proof (ok_int _ L _ (con_ok _ L _ Hw)) as Hwi. pose proof (unit_pos _ L) as HU.
  assert (E1 : dist_le W (dists t (c_from c) (c_to c)) (Some (c_w c)) = dist_lt W (dists t (c_from c) (c_to c)) (Some (-' nega W (c_w c)))).
  { unfold dist_le. destruct (dists t (c_from c) (c_to c)) as [x|] eqn:E; cbn; [|reflexivity]. f_equal. unfold nega. destruct (wleb W x (c_w c)) eqn:K; cbn.
    - symmetry. wlra L.
    - apply (unit_gap _ L _ _ (Hi _ _ _ E) Hwi) in K. symmetry. wlra L. }
  assert (E2 : dist_le W (Some (-' c_w c)) (dists t (c_to c) (c_from c)) = dist_lt W (Some (nega W (c_w c))) (dists t (c_to c) (c_from c))).
  { unfold dist_le. destruct (dists t (c_to c) (c_from c)) as [x|] eqn:E; cbn; [|reflexivity]. f_equal. unfold nega. destruct (wleb W (-' c_w c) x) eqn:K; cbn.
    - symmetry. wlra L.
    - apply (unit_gap _ L _ _ (int_neg _ L _ Hwi) (Hi _ _ _ E)) in K. symmetry. wlra L. }
  rewrite E1, E2. reflexivity.
Qed.

(** ** A constraint is enforced. *)
Lemma kerase_emplace {A} k (a : A) m : kfind k m = None -> kerase k (kemplace k a m) = m.
Proof.
  intros E. unfold kemplace. rewrite E. unfold kerase. cbn. rewrite key_eqb_refl. cbn.
  unfold kfind in E. destruct (find (fun e => key_eqb (fst e) k) m) eqn:F; [discriminate|]. pose proof (find_none _ _ F) as H. clear E F.
  induction m as [|e m IH]; [reflexivity|]. cbn. rewrite (H e (or_introl eq_refl)). cbn. f_equal. apply IH. intros x Hx. apply H. right. exact Hx.
Qed.
Lemma kemplace_in {A} k (a b : A) m : kfind k m = Some b -> kemplace k a m = m.
Proof. intros E. unfold kemplace. rewrite E. reflexivity. Qed.
Lemma enforce_pop (t : dl) k c : (forall l r, dlayers t = l :: r -> forall k' o, In (k', o) (old_constrs l) -> kfind k' (dist_constr t) <> None) ->
  dist_constr (dl_pop (enforce t k c)) = dist_constr (dl_pop t) \/ dlayers t = [].
Proof.
  intros H. unfold dl_pop, enforce. cbn. destruct (dlayers t) as [|l r]; [auto|left]. cbn. specialize (H l r eq_refl).
  unfold kemplace at 1. destruct (kfind k (old_constrs l)) as [o|] eqn:E.
  - apply kfind_In in E. specialize (H k o E). destruct (kfind k (dist_constr t)) as [b|] eqn:F; [|congruence]. rewrite (kemplace_in k c b _ F). reflexivity.
  - cbn. destruct (kfind k (dist_constr t)) as [b|] eqn:F.
    + rewrite (kemplace_in k c b _ F). unfold restore_con at 2. cbn. rewrite (kemplace_in k b b _ F). reflexivity.
    + unfold restore_con at 2. cbn [snd fst]. rewrite (kerase_emplace k c _ F). reflexivity.
Qed.

(** A state that differs from [t] by matrices and an enforced edge. *)
Record follows (t t' : dl) : Prop := {
  fo_n : nvars t' = nvars t;
  fo_cap : cap t' = cap t;
  fo_cons : dcons t' = dcons t;
  fo_con : forall e, In e (dist_constr t) -> In e (dist_constr t');
  fo_old : (forall l r, dlayers t = l :: r -> forall k o, In (k, o) (old_constrs l) -> kfind k (dist_constr t) <> None) ->
     (forall l r, dlayers t' = l :: r -> forall k o, In (k, o) (old_constrs l) -> kfind k (dist_constr t') <> None);
  fo_lay : (dlayers t = [] /\ dlayers t' = []) \/ (exists l r l', dlayers t = l :: r /\ dlayers t' = l' :: r);
  fo_notes : exists k, notes t' = k ++ notes t /\ forall v, In v k \/ (dists t' 0 v = dists t 0 v /\ dists t' v 0 = dists t v 0) }.

Theorem prop_core t ps p c val : DCore t ps -> In c (dcons t) -> lvar (c_b c) = lvar p -> reads val (p :: ps) ->
  (exists e, dl_prop W t val p = Ok (t, [], Some (e ++ [negl p])) /\ explain t val (e_to c p) (e_from c p) = Ok e /\ (exists x, dists t (e_to c p) (e_from c p) = Some x /\ wlt L x (-' e_w c p)) /\
     forall y, vals_ok L y -> ~ lits_hold t (p :: ps) y) \/
  (dl_prop W t val p = Ok (t, [], None) /\ DCore t (p :: ps)) \/
  (exists t' us val' ls, dl_prop W t val p = Ok (t', ls, None) /\ DCore t' (p :: ps) /\ follows t t' /\
     ((forall l r, dlayers t = l :: r -> forall k o, In (k, o) (old_constrs l) -> kfind k (dist_constr t) <> None) -> dlayers t <> [] -> sim (dl_pop t) (dl_pop t')) /\
     rfold (tell_step W t') (flat_map (cons_at t') us) (val, []) = Ok (val', ls) /\
     updated L (e_from c p) (e_to c p) (e_w c p) (dists t) (preds t) (dists t') (preds t') /\ reached L (e_from c p) (e_to c p) (e_w c p) (dists t) (dists t') /\
     dist_constr t' = kemplace (e_from c p, e_to c p) c (dist_constr t) /\
     close W (enforce t (e_from c p, e_to c p) c) (e_from c p) (e_to c p) (e_w c p) = Ok (t', us)).
Proof.
  intros HC Hc Ev HR. rewrite (prop_cases t ps p c val HC Hc Ev HR).
  pose proof (dc_cons _ _ HC c Hc) as Hg. pose proof (e_con _ c p Hg) as Hw. pose proof (fun y => e_sat _ c p y Hg) as HS.
  assert (Hfg : e_from c p < nvars t /\ e_to c p < nvars t /\ e_from c p <> e_to c p) by (destruct Hg as (_ & H1 & H2 & H3 & _); unfold e_from, e_to; destruct (lsgn p); auto).
  destruct Hfg as (Hf & Hto & Hne). set (f := e_from c p) in *. set (g := e_to c p) in *. set (w := e_w c p) in *.
  destruct (dist_lt W (dists t g f) (Some (-' w))) eqn:E1.
  - left. apply (dist_lt_some L) in E1. assert (Hx : dists t g f <> None) by (destruct E1 as (x & Ex & _); congruence).
    destruct (explain_ok t ps val g f HC Hx) as (e & Ee). rewrite Ee. exists e. split; [reflexivity|]. split; [reflexivity|]. split; [exact E1|]. intros y Hy H.
    apply (lits_hold_cons t ps p c y (dc_nodup _ _ HC) Hc Ev) in H as [H1 H2]. apply (HS y Hy) in H2. apply (dc_sols _ _ HC y Hy) in H1.
    apply (proj1 (refutes_iff L (dists t) (nvars t) f g w (dc_closed _ _ HC) (dc_in _ _ HC) Hf Hto Hw) E1 y Hy H1 H2).
  - right. destruct (dist_lt W (Some w) (dists t f g)) eqn:E2.
    + right. apply (dist_lt_left L) in E2. set (t1 := enforce t (f, g) c).
      assert (Hcon : forall x, dists t1 g f = Some x -> wle L (w0 W) (w +' x)).
      { intros x Ex. change (dists t1) with (dists t) in Ex. rewrite Ex in E1. cbn in E1. apply negb_false_iff in E1. wlra L. }
      destruct (close_ok L f g w t1 (dc_closed _ _ HC) (dc_in _ _ HC) Hcon (con_ok _ L _ Hw) E2 Hne Hf Hto) as (t' & us & Ecl & HT & HU & HRe).
      change (dists t1) with (dists t) in HU, HRe, Hcon. change (preds t1) with (preds t) in HU.
      pose proof (dc_closed _ _ HC) as HCl.
      assert (HC' : DCore t' (p :: ps)).
      { assert (Ecs : dcons t' = dcons t) by apply (tc_cons _ _ HT). assert (En : nvars t' = nvars t) by apply (tc_n _ _ HT).
        assert (Hlh : forall y, lits_hold t' (p :: ps) y <-> lits_hold t (p :: ps) y) by (intros y; unfold lits_hold; rewrite Ecs; reflexivity).
        constructor.
        - rewrite En, (tc_cap _ _ HT). apply HC.
        - intros i j a E Hij. rewrite En. destruct (HU i j) as [[Ed _]|(a1 & b1 & c1 & A1 & B1 & _)]; [apply (dc_in _ _ HC i j a); congruence|].
          split; [destruct (Nat.eq_dec i f) as [->|K]; [exact Hf|apply (dc_in _ _ HC i f a1 A1 K)]|destruct (Nat.eq_dec g j) as [<-|K]; [exact Hto|apply (dc_in _ _ HC g j b1 B1 K)]].
        - apply (closed_edge L f g w (dists t) (preds t) HCl Hcon _ (preds t') HU HRe).
        - apply (paths_edge L f g w (dists t) (preds t) HCl Hcon (virt L (dists t)) (virt L (dists t'))); auto.
          + intros u v x H. apply (upd_le L f g w (dists t) (preds t) (dists t') (preds t') u v x HU H).
          + destruct (HRe f g (w0 W) (w0 W) (cl_diag L _ HCl f) (cl_diag L _ HCl g)) as (x & Ex & Hx). exists x. split; [exact Ex|]. unfold cand in Hx. wlra L.
          + apply HC.
        - rewrite Ecs, En. apply HC.
        - rewrite Ecs. apply HC.
        - unfold atom. rewrite Ecs. intros q [<-|Hq]; [exists c; auto|apply HC, Hq].
        - intros y Hy. rewrite (respects_edge L f g w (dists t) (preds t) HCl _ _ y (cl_diag L _ HCl f) HU HRe), Hlh, (lits_hold_cons t ps p c y (dc_nodup _ _ HC) Hc Ev), (dc_sols _ _ HC y Hy).
          pose proof (HS y Hy) as K. tauto.
        - intros k c0 Hk. rewrite (tc_con _ _ HT) in Hk. cbn in Hk. rewrite Ecs. unfold kemplace in Hk. destruct (kfind (f, g) (dist_constr t)).
          + destruct (dc_enf _ _ HC k c0 Hk) as [H1 H2]. split; [exact H1|]. cbn. tauto.
          + destruct Hk as [K|Hk]; [|destruct (dc_enf _ _ HC k c0 Hk) as [H1 H2]; split; [exact H1|cbn; tauto]]. injection K as <- <-. split; [exact Hc|].
            destruct Hg as (_ & _ & _ & _ & Hs). subst f g. unfold e_from, e_to. destruct (c_b c) as [v s], p as [v' s']; cbn in *; subst. destruct s'; [left|right]; auto. }
      destruct (tell_ok t' _ (flat_map (cons_at t') us) HC' (val, [])) as ([val' ls] & Etl).
      exists t', us, val', ls. split; [unfold prop_edge; rewrite Ecl; cbn [rbind]; unfold lv in *; rewrite Etl; reflexivity|]. split; [exact HC'|].
      split; [|split; [|split; [exact Etl|split; [exact HU|split; [exact HRe|split; [exact (tc_con _ _ HT)|exact Ecl]]]]]].
      * constructor.
        -- apply (tc_n _ _ HT).
        -- apply (tc_cap _ _ HT).
        -- apply (tc_cons _ _ HT).
        -- intros e He. rewrite (tc_con _ _ HT). cbn. unfold kemplace. destruct (kfind (f, g) (dist_constr t)); [exact He|right; exact He].
        -- intros Hk l r El k o Hin. rewrite (tc_con _ _ HT). cbn [t1 enforce set_constr dist_constr]. rewrite kfind_emplace.
           pose proof (tc_lay _ _ HT) as Hl. rewrite El in Hl. cbn in Hl. destruct (dlayers t) as [|l0 r0] eqn:El0; cbn in Hl; [contradiction|]. destruct Hl as (_ & Eo & _). rewrite Eo in Hin. cbn in Hin.
           destruct (kfind k (dist_constr t)) eqn:Ek; [discriminate|]. unfold kemplace in Hin. destruct (kfind (f, g) (old_constrs l0)); [exfalso; apply (Hk l0 r0 eq_refl k o Hin); exact Ek|].
           destruct Hin as [K|Hin]; [injection K as <- _; rewrite key_eqb_refl; discriminate|exfalso; apply (Hk l0 r0 eq_refl k o Hin); exact Ek].
        -- pose proof (tc_lay _ _ HT) as Hl. cbn in Hl. destruct (dlayers t) as [|l0 r0] eqn:El0, (dlayers t') as [|l' r'] eqn:El'; try contradiction; [auto|right]. destruct Hl as (-> & _). exists l0, r0, l'. auto.
        -- apply (tc_notes _ _ HT).
      * intros Hk Hnil. destruct (enforce_pop t (f, g) c Hk) as [Econ|]; [|contradiction].
        pose proof (tc_lay _ _ HT) as Hl. cbn in Hl. destruct (dlayers t) as [|l0 r0] eqn:El0; [congruence|]. destruct (dlayers t') as [|l' r'] eqn:El'; [contradiction|]. destruct Hl as (-> & Eo & Edi & Epr). cbn in Eo, Edi, Epr.
        unfold dl_pop in *. cbn in Econ. rewrite El0 in *. rewrite El'. cbn in Econ.
        constructor; cbn.
        -- rewrite (tc_n _ _ HT), (tc_cap _ _ HT). cbn. pose proof (dc_n _ _ HC). lia.
        -- exact Edi.
        -- exact Epr.
        -- rewrite (tc_con _ _ HT), Eo. cbn. exact Econ.
        -- exists []. rewrite app_nil_r. apply (tc_cons _ _ HT).
        -- rewrite (tc_cons _ _ HT), (tc_n _ _ HT). apply HC.
        -- rewrite (tc_cons _ _ HT). apply HC.
        -- reflexivity.
    + left. split; [reflexivity|]. assert (Hle : dle L (dists t f g) w) by (destruct (dle_or L (dists t f g) w) as [K|K]; [exact K|apply (dist_lt_left L) in K; congruence]).
      destruct HC as [B1 B2 B3 B4 B5 B6 B7 B8 B9]. constructor; auto.
      * intros q [<-|Hq]; [exists c; auto|auto].
      * intros y Hy. rewrite (lits_hold_cons t ps p c y B6 Hc Ev), <- (B8 y Hy). split; [|tauto]. intros Hr. split; [exact Hr|]. apply (HS y Hy). destruct Hle as (x & Ex & Hx). apply (wsat_le L x); [exact Hx|apply Hr, Ex].
      * intros k c0 Hk. destruct (B9 k c0 Hk) as [H1 H2]. split; [exact H1|]. cbn. tauto.
Qed.

(** ** The invariant holds in every reachable state. *)
Lemma init_core size : 0 < size -> DCore (dl_init W size) [].
Proof.
  intros Hs. assert (HD : forall i j a, dists (dl_init W size) i j = Some a -> i = j /\ a = w0 W) by (intros i j a; cbn; destruct (Nat.eqb_spec i j); [intros E; injection E as <-; auto|discriminate]).
  constructor; cbn [dcons nvars cap dl_init dist_constr].
  - lia.
  - intros i j a E Hn. destruct (HD i j a E). contradiction.
  - split.
    + intros i. cbn. rewrite Nat.eqb_refl. reflexivity.
    + intros i j k a b Ea Eb. destruct (HD i j a Ea) as [-> ->], (HD j k b Eb) as [-> ->]. exists (w0 W). split; [cbn; rewrite Nat.eqb_refl; reflexivity|]. wlra L.
    + intros i j a E. destruct (HD i j a E) as [_ ->]. apply ok_0.
  - intros r v Hv. destruct (dists (dl_init W size) r v) as [a|] eqn:E; [|congruence]. destruct (HD r v a E) as [-> _]. constructor.
  - intros c [].
  - constructor.
  - intros p [].
  - intros y _. split; [intros _ p c []|]. intros _ i j a E. destruct (HD i j a E) as [-> ->]. apply evt_all. intros d _. rewrite (ev_0 _ L). lra.
  - intros k c [].
Qed.
Lemma pop_push (t : dl) : dl_pop (dl_push t) = t.
Proof. destruct t. reflexivity. Qed.
Lemma DInv_keys t vs : DInv t vs -> forall l r, dlayers t = l :: r -> forall k o, In (k, o) (old_constrs l) -> kfind k (dist_constr t) <> None.
Proof. intros [t0 v E _|t0 v vs0 l0 r0 E _ H _] l r El; rewrite E in El; [discriminate|]. injection El as <- <-. exact H. Qed.
Lemma push_core t ps : DCore t ps -> DCore (dl_push t) ps.
Proof. intros []. constructor; assumption. Qed.
Theorem step_inv t vs t' vs' : DInv t vs -> dstep t vs t' vs' -> DInv t' vs'.
Proof.
  intros HI HS. destruct HS as [t vs|t vs c Hg Hn|t v vs p val t' ls (c & Hc & Ev) HR E|t vs|t v v' vs].
  - apply (sim_inv t); [exact HI|]. apply (var_sim t (concat vs)), DInv_core, HI.
  - apply (sim_inv t); [exact HI|]. apply (con_sim t (concat vs)); auto. apply DInv_core, HI.
  - destruct (prop_core t (concat (v :: vs)) p c val (DInv_core _ _ HI) Hc Ev HR) as [(e & E' & _)|[(E' & HC)|(t1 & us & val' & ls' & E' & HC & HF & HS & _)]]; rewrite E' in E; [discriminate| |].
    + injection E as <- <-. inversion HI as [t0 v0 El HC0|t0 v0 vs0 l r El HC0 Hk HP]; subst.
      * apply DI_root; [exact El|]. cbn in HC. rewrite app_nil_r in HC. exact HC.
      * apply (DI_up _ _ _ l r); auto.
    + injection E as <- <-. pose proof (fo_lay _ _ HF) as Hl. pose proof (fo_old _ _ HF (DInv_keys _ _ HI)) as Hk'. inversion HI as [t0 v0 El HC0|t0 v0 vs0 l r El HC0 Hk HP]; subst.
      * destruct Hl as [[_ El']|(l & r & l' & El' & _)]; [|congruence]. apply DI_root; [exact El'|]. cbn in HC. rewrite app_nil_r in HC. exact HC.
      * destruct Hl as [[El' _]|(l0 & r0 & l' & E0 & El')]; [congruence|]. rewrite El in E0. injection E0 as <- <-. apply (DI_up _ _ _ l' r); auto.
        -- intros k o. apply (Hk' l' r El').
        -- apply (sim_inv (dl_pop t)); [exact HP|]. apply HS; [apply (DInv_keys _ _ HI)|congruence].
  - apply (DI_up _ _ _ (mk_dlayer [] [] []) (dlayers t)); [reflexivity|apply push_core; cbn; apply DInv_core, HI|intros k o []|]. rewrite pop_push. exact HI.
  - inversion HI; subst. assumption.
Qed.
Theorem reach_inv t vs : DReach t vs -> DInv t vs.
Proof.
  induction 1 as [size Hs|t vs t' vs' _ IH HS]; [|apply (step_inv _ _ _ _ IH HS)]. apply DI_root; [reflexivity|apply init_core, Hs].
Qed.

(** ** Push and pop. *)
Fixpoint popn (k : nat) (t : dl) : dl := match k with O => t | S k => popn k (dl_pop t) end.
Lemma sim_popn k : forall t t', sim t t' -> sim (popn k t) (popn k t').
Proof. induction k as [|k IH]; intros t t' H; cbn; [exact H|]. apply IH, sim_pop, H. Qed.
Lemma popn_inv k : forall t vs, DInv t vs -> k < length vs -> DInv (popn k t) (skipn k vs).
Proof.
  induction k as [|k IH]; intros t vs HI Hk; cbn; [exact HI|]. inversion HI; subst; cbn in *; [lia|]. apply IH; [assumption|lia].
Qed.
Lemma inside_sim n t vs t' vs' : DInv t vs -> length vs = S n -> Inside n t vs t' vs' -> DInv t' vs' /\ n < length vs' /\ (0 < n -> sim (dl_pop t) (popn (length vs' - n) t')).
Proof.
  intros HI Hlen HS. induction HS as [t vs|t vs t1 vs1 t2 vs2 HS IH HD Hn].
  - split; [exact HI|]. split; [lia|]. intros H0. replace (length vs - n) with 1 by lia. cbn. inversion HI; subst; cbn in *; [lia|]. eapply sim_refl, DInv_core. eassumption.
  - destruct (IH HI Hlen) as (HI1 & Hn1 & Hs). split; [apply (step_inv _ _ _ _ HI1 HD)|]. split; [exact Hn|]. intros H0. specialize (Hs H0). apply (sim_trans _ _ _ Hs). clear Hs IH HS.
    assert (HR : forall k, k < length vs1 -> sim (popn k t1) (popn k t1)) by (intros k Hk; eapply sim_refl, DInv_core, popn_inv; eassumption).
    destruct HD as [t1 vs1|t1 vs1 c Hg Hnc|t1 v vs1 p val t2 ls (c & Hc & Ev) Hr E|t1 vs1|t1 v v' vs1].
    + apply sim_popn, (var_sim t1 (concat vs1)), DInv_core, HI1.
    + apply sim_popn, (con_sim t1 (concat vs1)); auto. apply DInv_core, HI1.
    + cbn [length] in *. destruct (S (length vs1) - n) as [|k] eqn:Ek; [lia|]. cbn [popn].
      destruct (prop_core t1 (concat (v :: vs1)) p c val (DInv_core _ _ HI1) Hc Ev Hr) as [(e & E' & _)|[(E' & HC)|(t3 & us & val' & ls' & E' & HC & HF & HS & _)]]; rewrite E' in E; [discriminate| |].
      * injection E as <- <-. apply (HR (S k)). lia.
      * injection E as <- <-. apply sim_popn, HS; [apply (DInv_keys _ _ HI1)|]. inversion HI1; subst; cbn in *; [lia|congruence].
    + cbn [length] in *. replace (S (length vs1) - n) with (S (length vs1 - n)) by lia. cbn [popn]. rewrite pop_push. apply HR. lia.
    + cbn [length] in *. replace (S (S (length vs1)) - n) with (S (S (length vs1) - n)) by lia. cbn [popn]. apply (HR (S (S (length vs1) - n))). lia.
Qed.
(** [pop] after a [push] and anything balanced in between. *)
Theorem pop_sim t vs t' vs' : DReach t vs -> Inside (length vs) (dl_push t) ([] :: vs) t' vs' -> length vs' = S (length vs) -> sim t (dl_pop t') /\ DInv (dl_pop t') (tl vs').
Proof.
  intros HR HS Hl. pose proof (reach_inv _ _ HR) as HI.
  assert (HIp : DInv (dl_push t) ([] :: vs)) by (apply (step_inv t vs); [exact HI|constructor]).
  destruct (inside_sim (length vs) _ _ _ _ HIp eq_refl HS) as (HI' & _ & H). destruct (DInv_cons _ _ HI) as (v & w & ->).
  rewrite pop_push, Hl in H. replace (S (length (v :: w)) - length (v :: w)) with 1 in H by lia. split; [apply H; cbn; lia|].
  destruct vs' as [|a [|b vs']]; cbn in Hl; try lia. inversion HI'; subst; assumption.
Qed.
End Th.
