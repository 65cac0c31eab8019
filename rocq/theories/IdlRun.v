(** Integer difference logic on a core, with the integers of a machine: the network answers like the one with unbounded integers. *)
From Verif Require Import Base Sat Run ThRel Lin Qe Dw Dl DlClo DlTight DlEdge DlTh DlFacts DlVal DlApi DlSpec DlQ DlNet Para NvMono Idl IdlBd IdlSim.
Open Scope Z_scope.
Local Arguments Nat.ltb : simpl never.
Local Arguments Nat.eqb : simpl never.
Local Arguments Z.mul : simpl never.
Local Arguments Z.add : simpl never.
Local Arguments Z.sub : simpl never.
Local Arguments Z.opp : simpl never.
Local Arguments Z.leb : simpl never.
Local Arguments Z.ltb : simpl never.

(** ** What the theory is told can always have been told by a core. *)
Lemma sol_consistent t q ps y : z_sol t (q :: ps) y -> (forall p, In p (q :: ps) -> atom t (lvar p)) -> consistent (q :: ps) = true.
Proof.
  intros Hy Ha. unfold consistent. rewrite forallb_forall. intros p Hp. apply negb_true_iff. destruct (existsb (lit_eqb (negl p)) (q :: ps)) eqn:E; [|reflexivity]. apply mem_lit in E. exfalso.
  destruct (Ha p Hp) as (c & Hc & Ev). pose proof (Hy p c Hp Hc Ev) as H1. pose proof (Hy (negl p) c E Hc Ev) as H2. cbn in H2. destruct (lsgn p); cbn in H2; contradiction.
Qed.
Lemma edge_reach t v vs c q : DReach ZL t (v :: vs) -> find_con t (lvar q) = Some c -> lsgn (c_b c) = true -> q = c_b c \/ q = negl (c_b c) ->
  (exists y, z_sol t (concat (v :: vs)) y /\ if lsgn q then z_con c y else ~ z_con c y) ->
  forall t1 us,
    (lsgn q = true -> dist_lt Zw (dists t (c_to c) (c_from c)) (Some (- c_w c)) = false /\ dist_lt Zw (Some (c_w c)) (dists t (c_from c) (c_to c)) = true) ->
    (lsgn q = false -> dist_le Zw (dists t (c_from c) (c_to c)) (Some (c_w c)) = false /\ dist_le Zw (Some (- c_w c)) (dists t (c_to c) (c_from c)) = true) ->
    close Zw (enforce t (e_from c q, e_to c q) c) (e_from c q) (e_to c q) (e_w (W := Zw) c q) = Ok (t1, us) -> DReach ZL t1 ((q :: v) :: vs).
Proof.
  intros HR Hf Hs Hq (y & Hy & Hcy) t1 us HT HF Ec. pose proof (reach_core ZL t _ HR) as HC. pose proof Hf as Hf'. apply find_some in Hf' as [Hc Ev]. apply Nat.eqb_eq in Ev.
  set (ps := concat (v :: vs)) in *.
  assert (Hat : forall p, In p (q :: ps) -> atom t (lvar p)) by (intros p [<-|Hp]; [exists c; split; [exact Hc|exact Ev]|apply (dc_atoms ZL _ _ HC), Hp]).
  assert (Hy' : z_sol t (q :: ps) y).
  { intros p c' [<-|Hp] Hc' Ev'; [|apply (Hy p c' Hp Hc' Ev')]. assert (Ecc : c' = c); [|subst; exact Hcy].
    pose proof (dc_nodup ZL _ _ HC) as Hn. clear - Hc Hc' Ev Ev' Hn. assert (Ee : lvar (c_b c') = lvar (c_b c)) by congruence. clear Ev Ev'. induction (dcons t) as [|d l IH]; [destruct Hc|]. cbn in Hn. inversion Hn as [|? ? Hni Hnd]; subst.
    destruct Hc as [<-|Hc], Hc' as [<-|Hc']; auto.
    - exfalso. apply Hni. apply in_map_iff. exists c'. auto.
    - exfalso. apply Hni. apply in_map_iff. exists c. auto. }
  pose proof (sol_consistent _ _ _ _ Hy' Hat) as Hcon. pose proof (val_of_reads _ Hcon) as Hrd.
  assert (Hval : val_of (q :: ps) (c_b c) = if lsgn q then LTrue else LFalse).
  { destruct Hrd as [Hneg Htr]. pose proof (Htr q (or_introl eq_refl)) as Hqv. destruct Hq as [->| ->]; cbn [lsgn negl] in *; rewrite Hs in *; cbn; [exact Hqv|].
    pose proof (Hneg (c_b c)) as Hn. rewrite Hqv in Hn. destruct (val_of _ (c_b c)); cbn in Hn; congruence. }
  assert (Hex : exists ls, dl_prop Zw t (val_of (q :: ps)) q = Ok (t1, ls, None)).
  { pose proof (prop_core ZL t ps q c _ HC Hc Ev Hrd) as HP. unfold dl_prop in HP |- *. rewrite Hf in HP |- *. rewrite Hval in HP |- *. change (wneg Zw (c_w c)) with (- c_w c) in HP |- *.
    unfold e_from, e_to, e_w in Ec. destruct (lsgn q).
    - destruct (HT eq_refl) as [T1 T2]. rewrite T1, T2 in HP |- *. unfold prop_edge in HP |- *. rewrite Ec in HP |- *. cbn [rbind] in HP |- *. destruct (rfold (tell_step Zw t1) _ _) as [[v' ls]| |]; cbn [rbind] in HP |- *; [eauto| |];
      exfalso; destruct HP as [(e & HP & _)|[(HP & _)|(? & ? & ? & ? & HP & _)]]; discriminate.
    - destruct (HF eq_refl) as [T1 T2]. rewrite T1, T2 in HP |- *. unfold prop_edge in HP |- *. rewrite Ec in HP |- *. cbn [rbind] in HP |- *. destruct (rfold (tell_step Zw t1) _ _) as [[v' ls]| |]; cbn [rbind] in HP |- *; [eauto| |];
      exfalso; destruct HP as [(e & HP & _)|[(HP & _)|(? & ? & ? & ? & HP & _)]]; discriminate. }
  destruct Hex as (ls & E). apply (DR_step ZL t (v :: vs)); [exact HR|]. apply (ds_prop ZL t v vs q (val_of (q :: ps)) t1 ls); [apply Hat; left; reflexivity|exact Hrd|exact E].
Qed.

Section Run.
Context {sr : sorter}.
(** [mx]: the greatest machine integer; [N]: the number of variables, with the origin; [M]: what weights never exceed. *)
Variables (mx M : Z) (N : nat).
Notation inf := (inf mx).
Notation idl := Idl.idl.
Notation B := (Z.of_nat N * (M + 1)).
Hypothesis HM : 1 <= M.
Hypothesis Hroom : (2 * Z.of_nat N + 1) * (M + 1) < inf.
Lemma HB : 0 <= B.
Proof. nia. Qed.
Lemma Hinf : 2 * B + (M + 1) < inf.
Proof. lia. Qed.
Definition Ri (t : dl Z) (m : idl) : Prop := repr mx t m /\ small_cons M t /\ (nvars t <= N)%nat /\ exists v vs, DReach ZL t (v :: vs).
Lemma Ri_all t v vs : DReach ZL t (v :: vs) -> small_cons M t -> (nvars t <= N)%nat -> allb B t.
Proof. intros HR Hs Hn i j d E. pose proof (z_bounded_all t _ M i j d HR ltac:(lia) Hs E) as H. nia. Qed.

Lemma prop_edge_close t val from to w t1 ls : prop_edge Zw t val from to w = Ok (t1, ls) -> exists us, close Zw t from to w = Ok (t1, us).
Proof. unfold prop_edge. destruct (close Zw t from to w) as [[t2 us]| |]; cbn [rbind]; try discriminate. destruct (rfold _ _ _) as [[x y]| |]; cbn [rbind]; try discriminate. intros E. injection E as <- _. eauto. Qed.

Definition redge (a : dl Z * list (list lit)) (b : idl * list (list lit)) : Prop := Ri (fst a) (fst b) /\ snd b = snd a.
(** The edge of an unsatisfied constraint. *)
Lemma Ri_edge t m val v vs c q : repr mx t m -> small_cons M t -> (nvars t <= N)%nat -> DReach ZL t (v :: vs) -> find_con t (lvar q) = Some c -> lsgn (c_b c) = true -> q = c_b c \/ q = negl (c_b c) ->
  (lsgn q = true -> dist_lt Zw (dists t (c_to c) (c_from c)) (Some (- c_w c)) = false /\ dist_lt Zw (Some (c_w c)) (dists t (c_from c) (c_to c)) = true) ->
  (lsgn q = false -> dist_le Zw (dists t (c_from c) (c_to c)) (Some (c_w c)) = false /\ dist_le Zw (Some (- c_w c)) (dists t (c_to c) (c_from c)) = true) ->
  rr redge (prop_edge Zw (enforce t (e_from c q, e_to c q) c) val (e_from c q) (e_to c q) (e_w (W := Zw) c q))
           (i_prop_edge mx (i_enforce m (e_from c q, e_to c q) c) val (e_from c q) (e_to c q) (e_w (W := Zw) c q)).
Proof.
  intros R Hs Hn HR Hf Hsg Hq HT HF. pose proof (reach_core ZL t _ HR) as HC. pose proof (Ri_all t v vs HR Hs Hn) as Hb. pose proof Hf as Hc. apply find_some in Hc as [Hc _].
  pose proof (Hs c Hc) as Hw. destruct (dc_cons ZL _ _ HC c Hc) as (_ & Hfr & Hto & Hne & _).
  assert (Hd0 : forall i, dists t i i = Some 0) by (intros i; apply (cl_diag ZL _ (dc_closed ZL _ _ HC))).
  assert (Hyx : exists y, z_sol t (concat (v :: vs)) y /\ if lsgn q then z_con c y else ~ z_con c y).
  { destruct (z_distance t _ (c_from c) (c_to c) HR Hfr Hto) as [Hl Hu]. unfold distance in Hl, Hu. cbn [fst snd] in Hl, Hu. unfold z_con. destruct (lsgn q).
    - destruct (HT eq_refl) as [T1 _]. destruct (dists t (c_to c) (c_from c)) as [x|]; cbn [option_map] in Hl.
      + destruct Hl as (_ & y & Hy & _ & Ey). exists y. split; [exact Hy|]. unfold Qeq in Ey. cbn in Ey. unfold dist_lt in T1. cbn in T1. change (wneg Zw x) with (- x) in Ey. lia.
      + destruct (Hl (inject_Z (c_w c))) as (y & Hy & _ & Ey). exists y. split; [exact Hy|]. rewrite <- Zlt_Qlt in Ey. lia.
    - destruct (HF eq_refl) as [F1 _]. destruct (dists t (c_from c) (c_to c)) as [x|].
      + destruct Hu as (_ & y & Hy & _ & Ey). exists y. split; [exact Hy|]. unfold Qeq in Ey. cbn in Ey. unfold dist_le in F1. cbn in F1. lia.
      + destruct (Hu (inject_Z (c_w c))) as (y & Hy & _ & Ey). exists y. split; [exact Hy|]. rewrite <- Zlt_Qlt in Ey. lia. }
  assert (Hpost : forall t1 us, close Zw (enforce t (e_from c q, e_to c q) c) (e_from c q) (e_to c q) (e_w (W := Zw) c q) = Ok (t1, us) -> DReach ZL t1 ((q :: v) :: vs) /\ small_cons M t1 /\ (nvars t1 <= N)%nat).
  { intros t1 us E. split; [exact (edge_reach t v vs c q HR Hf Hsg Hq Hyx t1 us HT HF E)|]. pose proof (sh_close Zw _ _ _ _ _ _ E) as Es. rewrite sh_enforce in Es. injection Es as E1 E2. split; [intros x Hx; apply Hs; congruence|lia]. }
  refine (rr_mono (fun a b => (repr mx (fst a) (fst b) /\ snd b = snd a) /\ (small_cons M (fst a) /\ (nvars (fst a) <= N)%nat /\ exists v vs, DReach ZL (fst a) (v :: vs))) redge _ _ _ _).
  { intros a b ((X1 & X2) & X3 & X4 & X5). split; [split; [exact X1|split; [exact X3|split; [exact X4|exact X5]]]|exact X2]. }
  assert (HS : rr (fun a b => repr mx (fst a) (fst b) /\ snd b = snd a) (prop_edge Zw (enforce t (e_from c q, e_to c q) c) val (e_from c q) (e_to c q) (e_w (W := Zw) c q))
           (i_prop_edge mx (i_enforce m (e_from c q, e_to c q) c) val (e_from c q) (e_to c q) (e_w (W := Zw) c q))).
  { apply (sim_edge mx M B HM HB Hinf).
    - apply repr_enforce, R.
    - exact Hb.
    - unfold e_from, e_to. destruct (lsgn q); auto.
    - unfold e_w. destruct (lsgn q); [lia|]. change (nega Zw (c_w c)) with (- c_w c + - (1)). lia.
    - apply Hd0.
    - apply Hd0.
    - change (dists (enforce t (e_from c q, e_to c q) c)) with (dists t). intros x Ex. unfold e_from, e_to, e_w in *. destruct (lsgn q).
      + destruct (HT eq_refl) as [T1 _]. rewrite Ex in T1. unfold dist_lt in T1. cbn in T1. lia.
      + destruct (HF eq_refl) as [F1 _]. rewrite Ex in F1. unfold dist_le in F1. cbn in F1. change (nega Zw (c_w c)) with (- c_w c + - (1)). lia.
    - intros t1 us E. destruct (Hpost t1 us E) as (H1 & H2 & H3). split; [exact (Ri_all _ _ _ H1 H2 H3)|exact H2]. }
  destruct (prop_edge Zw _ _ _ _ _) as [[t1 ls]| |] eqn:E; cbn [rr] in HS |- *; [|exact HS|exact HS]. destruct (i_prop_edge _ _ _ _ _ _) as [[m1 ls']| |]; try (destruct HS; fail).
  split; [exact HS|]. cbn [fst]. destruct (prop_edge_close _ _ _ _ _ _ _ E) as [us Ec]. destruct (Hpost _ _ Ec) as (H1 & H2 & H3). eauto.
Qed.

Ltac fits := rewrite (fit_ok mx) by (pose proof (Hmx mx); pose proof HB; pose proof Hinf; lia); cbn [rbind].
Lemma Ri_prop t m val p : Ri t m -> rr (relt Ri) (dl_prop Zw t val p) (i_prop mx m val p).
Proof.
  intros HI. pose proof HI as (R & Hs & Hn & v & vs & HR). pose proof (reach_core ZL t _ HR) as HC. pose proof (Ri_all t v vs HR Hs Hn) as Hb. pose proof Hinf as HI0. pose proof HB as HB0.
  unfold dl_prop, i_prop. assert (Ef : i_find_con m (lvar p) = find_con t (lvar p)) by (unfold i_find_con, find_con; rewrite (rp_k _ _ _ R); reflexivity). rewrite Ef. clear Ef.
  destruct (find_con t (lvar p)) as [c|] eqn:Ef; [|exact Logic.I]. pose proof Ef as Hf. apply find_some in Hf as [Hc Ev]. apply Nat.eqb_eq in Ev. pose proof (Hs c Hc) as Hw. destruct (dc_cons ZL _ _ HC c Hc) as (_ & Hfr & Hto & Hne & Hsg).
  assert (Hex : forall r k, rr (relt Ri) (e <- explain t val r k ;; Ok (t, [], Some (e ++ [negl p]))) (e <- explain t val r k ;; Ok (m, [], Some (e ++ [negl p])))).
  { intros r k. destruct (explain t val r k) as [e| |]; cbn; auto. split; [exact HI|auto]. }
  assert (Hst : relt Ri (t, [], None) (m, [], None)) by (split; [exact HI|auto]).
  assert (Hgo : forall q, q = c_b c \/ q = negl (c_b c) ->
    (lsgn q = true -> dist_lt Zw (dists t (c_to c) (c_from c)) (Some (- c_w c)) = false /\ dist_lt Zw (Some (c_w c)) (dists t (c_from c) (c_to c)) = true) ->
    (lsgn q = false -> dist_le Zw (dists t (c_from c) (c_to c)) (Some (c_w c)) = false /\ dist_le Zw (Some (- c_w c)) (dists t (c_to c) (c_from c)) = true) ->
    rr (relt Ri) ('(t1, ls) <- prop_edge Zw (enforce t (e_from c q, e_to c q) c) val (e_from c q) (e_to c q) (e_w (W := Zw) c q) ;; Ok (t1, ls, None))
      ('(t1, ls) <- i_prop_edge mx (i_enforce m (e_from c q, e_to c q) c) val (e_from c q) (e_to c q) (e_w (W := Zw) c q) ;; Ok (t1, ls, None))).
  { intros q Hq HT HF. apply (rr_bind redge).
    - apply (Ri_edge t m val v vs c q R Hs Hn HR); auto. destruct Hq as [->| ->]; cbn [lvar negl]; rewrite Ev; exact Ef.
    - intros [t1 ls] [m1 ls'] [H E]. cbn [fst snd] in *. subst ls'. split; [exact H|auto]. }
  rewrite !(rp_d _ _ _ R), !(explain_eq mx t m _ _ _ R). change (wneg Zw (c_w c)) with (- c_w c).
  destruct (val (c_b c)).
  - destruct (dist_le Zw (dists t (c_from c) (c_to c)) (Some (c_w c))) eqn:D1; pose proof D1 as D1'; rewrite (le_code mx M B HM HB Hinf) in D1' by lia; rewrite D1'; [apply Hex|].
    fits. destruct (dist_le Zw (Some (- c_w c)) (dists t (c_to c) (c_from c))) eqn:D2; pose proof D2 as D2'; rewrite (ge_code mx M B HM HB Hinf _ _ B (Hb _ _)) in D2' by lia; rewrite D2'; [|exact Hst].
    fits. change (nega Zw (c_w c)) with (- c_w c + - (1)). replace (- c_w c - 1) with (- c_w c + - (1)) by lia.
    specialize (Hgo (negl (c_b c)) (or_intror eq_refl)). unfold e_from, e_to, e_w in Hgo. cbn [lsgn negl] in Hgo. rewrite Hsg in Hgo. cbn [negb] in Hgo. change (nega Zw (c_w c)) with (- c_w c + - (1)) in Hgo. apply Hgo; [discriminate|auto].
  - fits. destruct (dist_lt Zw (dists t (c_to c) (c_from c)) (Some (- c_w c))) eqn:D1; pose proof D1 as D1'; rewrite (lt_code mx M B HM HB Hinf _ _ B (Hb _ _)) in D1' by lia; rewrite D1'; [apply Hex|].
    destruct (dist_lt Zw (Some (c_w c)) (dists t (c_from c) (c_to c))) eqn:D2; pose proof D2 as D2'; rewrite (gt_code mx M B HM HB Hinf) in D2' by lia; rewrite D2'; [|exact Hst].
    specialize (Hgo (c_b c) (or_introl eq_refl)). unfold e_from, e_to, e_w in Hgo. rewrite Hsg in Hgo. apply Hgo; [auto|discriminate].
  - exact Hst.
Qed.
Lemma Ri_check t m val : Ri t m -> rr (relc Ri) (dl_check Zw t val) (i_check mx m val).
Proof.
  intros HI. pose proof HI as (R & Hs & Hn & v & vs & HR). pose proof (reach_core ZL t _ HR) as HC. pose proof (Ri_all t v vs HR Hs Hn) as Hb.
  assert (Hc : forall e, In e (dist_constr t) -> Z.abs (c_w (snd e)) <= M) by (intros [k c] He; apply Hs; destruct (dc_enf ZL _ _ HC k c He) as [H _]; exact H).
  pose proof (check_eq mx M B HM HB Hinf t m val R Hb Hc) as H. unfold dl_check in *. unfold guard in *. destruct (forallb _ _); cbn [rr] in *; [|exact Logic.I].
  destruct (i_check mx m val) as [[m1 o]| |]; try (destruct H; fail). destruct H as [H1 H2]. cbn [fst snd] in *. split; [|auto]. split; [exact H1|]. exact (proj2 HI).
Qed.
Lemma Ri_push t m : Ri t m -> Ri (dl_push t) (i_push m).
Proof. intros (R & Hs & Hn & v & vs & HR). split; [apply repr_push, R|]. split; [exact Hs|]. split; [exact Hn|]. exists [], (v :: vs). apply (DR_step ZL t (v :: vs)); [exact HR|]. apply ds_push. Qed.
Lemma pop_sh (t : dl Z) : sh (dl_pop t) = sh t.
Proof. unfold dl_pop. destruct (dlayers t); reflexivity. Qed.
Lemma Ri_pop t m : Ri t m -> Ri (dl_pop t) (i_pop m).
Proof.
  intros (R & Hs & Hn & v & vs & HR). pose proof (pop_sh t) as Ep. injection Ep as E1 E2. split; [apply repr_pop, R|]. split; [intros c Hc; apply Hs; congruence|]. split; [lia|]. destruct vs as [|v' vs].
  - exists v, []. pose proof (reach_inv ZL t _ HR) as HV. inversion HV as [t0 v0 El _|t0 v0 vs0 l r _ _ _ Hx]; subst; [|exfalso; apply DInv_cons in Hx as (? & ? & Hx); discriminate]. unfold dl_pop. rewrite El. exact HR.
  - exists v', vs. apply (DR_step ZL t (v :: v' :: vs)); [exact HR|]. apply ds_pop.
Qed.
Lemma Ri_init size : (0 < size)%nat -> (1 <= N)%nat -> Ri (dl_init Zw size) (i_init mx size).
Proof. intros Hsz HN. split; [apply repr_init|]. split; [intros c []|]. split; [exact HN|]. exists [], []. apply DR_init, Hsz. Qed.
Lemma Ri_var t m : Ri t m -> (nvars t < N)%nat -> Ri (fst (t_dl_var Zw t)) (fst (i_var mx m)) /\ snd (i_var mx m) = snd (t_dl_var Zw t).
Proof.
  intros (R & Hs & Hn & v & vs & HR) Hlt. destruct (repr_var mx t m R) as [R1 E]. split; [|exact E]. split; [exact R1|]. split.
  - intros c Hc. apply Hs. unfold t_dl_var in Hc. cbn [fst cap nvars] in Hc. destruct (Nat.eqb (cap t) (nvars t)); exact Hc.
  - split; [unfold t_dl_var; cbn [fst cap nvars]; destruct (Nat.eqb (cap t) (nvars t)); cbn; lia|]. exists v, vs. apply (DR_step ZL t (v :: vs)); [exact HR|]. apply ds_var.
Qed.
Lemma Ri_add t m c : Ri t m -> Z.abs (c_w c) <= M -> good_con ZL (nvars t) c -> ~ atom t (lvar (c_b c)) -> Ri (add_con t c) (i_add m c).
Proof.
  intros (R & Hs & Hn & v & vs & HR) Hw Hg Ha. split; [apply repr_add, R|]. split.
  - intros x Hx. unfold add_con in Hx. cbn in Hx. apply in_app_or in Hx as [Hx|[<-|[]]]; [apply Hs, Hx|exact Hw].
  - split; [exact Hn|]. exists v, vs. apply (DR_step ZL t (v :: vs)); [exact HR|]. apply ds_con; assumption.
Qed.
End Run.
