(** Integer difference logic: with numbers that are small for the machine, the machine's theory does what the theory with
    unbounded integers does. *)
From Verif Require Import Base Sat Lin Qe Dw Dl DlClo DlTight DlEdge DlTh DlFacts DlVal DlApi DlSpec DlQ DlNet Para Idl IdlBd.
Open Scope Z_scope.
Local Arguments Nat.ltb : simpl never.
Local Arguments Nat.eqb : simpl never.
Local Arguments Z.mul : simpl never.
Local Arguments Z.div : simpl never.
Local Arguments Z.add : simpl never.
Local Arguments Z.sub : simpl never.
Local Arguments Z.opp : simpl never.
Local Arguments Z.leb : simpl never.
Local Arguments Z.ltb : simpl never.
Local Arguments Z.eqb : simpl never.

Lemma rr_rfold_in {A B C} (R : A -> B -> Prop) (f : A -> C -> res A) (g : B -> C -> res B) : forall l, (forall c a b, In c l -> R a b -> rr R (f a c) (g b c)) -> forall a b, R a b -> rr R (rfold f l a) (rfold g l b).
Proof. induction l as [|c l IH]; intros H a b Hab; cbn [rfold]; [exact Hab|]. apply (rr_bind R); [apply H; [left; reflexivity|exact Hab]|]. apply IH. intros c' a' b' Hc. apply H. right. exact Hc. Qed.
Lemma rr_bind_eq {A B C E} (R : A -> B -> Prop) (Q : C -> E -> Prop) r q k h : rr R r q -> (forall a b, r = Ok a -> R a b -> rr Q (k a) (h b)) -> rr Q (rbind r k) (rbind q h).
Proof. destruct r as [a| |], q as [b| |]; cbn; intros H K; try discriminate; try tauto; try (apply K; [reflexivity|exact H]). Qed.

Section Sim.
Context {sr : sorter}.
(** [mx]: the greatest machine integer; [B]: what distances never exceed; [M]: what weights never exceed. *)
Variables (mx M B : Z).
Notation inf := (inf mx).
Notation fit := (fit mx).
Notation idl := Idl.idl.
Hypothesis HM : 1 <= M.
Hypothesis HB : 0 <= B.
Hypothesis Hinf : 2 * B + (M + 1) < inf.
Lemma Hmx : 2 * inf + 2 <= mx.
Proof. unfold Idl.inf. pose proof (Z.mul_div_le mx 2 ltac:(lia)). lia. Qed.
Lemma fit_ok z : Z.abs z <= mx -> fit z = Ok z.
Proof. intros H. unfold Idl.fit, fitb, guard. destruct (Z.leb_spec (- mx - 1) z); [|lia]. destruct (Z.leb_spec z mx); [reflexivity|lia]. Qed.
Lemma fitb_ok z : Z.abs z <= mx -> fitb mx z = true.
Proof. intros H. unfold fitb. destruct (Z.leb_spec (- mx - 1) z); [|lia]. destruct (Z.leb_spec z mx); [reflexivity|lia]. Qed.
Ltac fits := rewrite fit_ok by (pose proof Hmx; lia); cbn [rbind].

Definition code (o : option Z) : Z := match o with Some d => d | None => inf end.
Record lrep (l : dlayer Z) (k : ilayer) : Prop := { lr_d : io_dists k = map (fun e => (fst e, code (snd e))) (old_dists l); lr_p : io_preds k = old_preds l; lr_c : io_constrs k = old_constrs l }.
Record repr (t : dl Z) (m : idl) : Prop := mk_repr {
  rp_n : ivars m = nvars t; rp_cap : icap m = cap t; rp_d : forall i j, idist m i j = code (dists t i j); rp_p : ipred m = preds t;
  rp_c : icon m = dist_constr t; rp_k : icons m = dcons t; rp_l : Forall2 lrep (dlayers t) (ilayers m); rp_o : inotes m = notes t }.
Definition bnd (b : Z) (o : option Z) : Prop := forall x, o = Some x -> Z.abs x <= b.
Definition allb (b : Z) (t : dl Z) : Prop := forall i j, bnd b (dists t i j).
Lemma bnd_mono b b' o : b <= b' -> bnd b o -> bnd b' o.
Proof. intros H K x E. specialize (K x E). lia. Qed.

(** Comparisons. *)
Lemma lt_code o x b : bnd b o -> Z.abs x < inf -> dist_lt Zw o (Some x) = Z.ltb (code o) x.
Proof.
  intros Hb Hx. destruct o as [y|]; cbn [dist_lt code wleb Zw].
  - destruct (Z.leb_spec x y), (Z.ltb_spec y x); try reflexivity; lia.
  - destruct (Z.ltb_spec inf x); [lia|reflexivity].
Qed.
Lemma gt_code o x : Z.abs x < inf -> dist_lt Zw (Some x) o = Z.ltb x (code o).
Proof.
  intros Hx. destruct o as [y|]; cbn [dist_lt code wleb Zw].
  - destruct (Z.leb_spec y x), (Z.ltb_spec x y); try reflexivity; lia.
  - destruct (Z.ltb_spec x inf); [reflexivity|lia].
Qed.
Lemma le_code o x : Z.abs x < inf -> dist_le Zw o (Some x) = Z.leb (code o) x.
Proof. intros Hx. unfold dist_le. rewrite (gt_code _ _ Hx). destruct (Z.ltb_spec x (code o)), (Z.leb_spec (code o) x); try reflexivity; lia. Qed.
Lemma ge_code o x b : bnd b o -> Z.abs x < inf -> dist_le Zw (Some x) o = Z.leb x (code o).
Proof. intros Hb Hx. unfold dist_le. rewrite (lt_code _ _ b Hb Hx). destruct (Z.ltb_spec (code o) x), (Z.leb_spec x (code o)); try reflexivity; lia. Qed.

(** ** The matrix. *)
Lemma emp_map k (o : option Z) m : kemplace k (code o) (map (fun e : key * option Z => (fst e, code (snd e))) m) = map (fun e => (fst e, code (snd e))) (kemplace k o m).
Proof.
  assert (F : kfind k (map (fun e : key * option Z => (fst e, code (snd e))) m) = option_map code (kfind k m)).
  { unfold kfind. induction m as [|e m IH]; [reflexivity|]. cbn. destruct (key_eqb (fst e) k); [reflexivity|exact IH]. }
  unfold kemplace. rewrite F. destruct (kfind k m); reflexivity.
Qed.
Lemma find_map k (m : list (key * option Z)) : kfind k (map (fun e : key * option Z => (fst e, code (snd e))) m) = option_map code (kfind k m).
Proof. unfold kfind. induction m as [|e m IH]; [reflexivity|]. cbn. destruct (key_eqb (fst e) k); [reflexivity|exact IH]. Qed.
Lemma repr_both t m i j d p : repr t m -> Z.abs d < inf -> rr repr (set_both Zw t i j d p) (i_set_both m i j d p).
Proof.
  intros R Hd. unfold set_both, i_set_both, set_dist, i_set_dist. rewrite (gt_code _ _ Hd), (rp_d _ _ R). unfold guard. destruct (Z.ltb d (code (dists t i j))); cbn [rbind]; [|exact I]. cbn.
  pose proof (rp_l _ _ R) as HL. destruct R as [A1 A2 A3 A4 A5 A6 _ A8]. unfold set_pred, i_set_pred. destruct t as [n c D P K C L N], m as [n' c' D' P' K' C' L' N']. cbn in *. subst.
  inversion HL as [|l k ls ks Hl HLs]; subst; cbn; constructor; cbn; auto; try (intros x y; unfold upd2; destruct (Nat.eqb x i && Nat.eqb y j)%bool; [reflexivity|apply A3]).
  constructor; [|exact HLs]. destruct Hl as [B1 B2 B3]. constructor; cbn; [|rewrite B2; reflexivity|exact B3]. rewrite B1. apply emp_map.
Qed.
Lemma dists_both (t : dl Z) i j d p t' : set_both Zw t i j d p = Ok t' -> forall x y, dists t' x y = if (Nat.eqb x i && Nat.eqb y j)%bool then Some d else dists t x y.
Proof.
  unfold set_both, set_dist, guard. destruct (dist_lt Zw _ _); cbn [rbind]; [|discriminate]. intros E. injection E as <-. intros x y. unfold set_pred, upd2. cbn. destruct (dlayers t); reflexivity.
Qed.
Ltac eqs := repeat match goal with |- context [Nat.eqb ?a ?b] => destruct (Nat.eqb_spec a b); subst; cbn [andb] | H : context [Nat.eqb ?a ?b] |- _ => destruct (Nat.eqb_spec a b); subst; cbn [andb] in H end.

(** ** The scan: no entry that is read has been written. *)
Record sinv (from to : nat) (w : Z) (s : @scan Z) : Prop := {
  si_all : allb (B + (M + 1)) (sc_t s);
  si_col : forall u, bnd B (dists (sc_t s) u from);
  si_row : forall u, bnd B (dists (sc_t s) to u);
  si_ff : dists (sc_t s) from from = Some 0;
  si_tt : dists (sc_t s) to to = Some 0;
  si_ft : dists (sc_t s) from to = Some w;
  si_tf : forall x, dists (sc_t s) to from = Some x -> 0 <= x + w;
  si_i : forall u, In u (sc_i s) -> u <> to /\ dists (sc_t s) u to <> None;
  si_j : forall u, In u (sc_j s) -> u <> to /\ dists (sc_t s) to u <> None }.
Definition srel (from to : nat) (w : Z) (s : @scan Z) (k : iscan) : Prop := sinv from to w s /\ repr (sc_t s) (ic_t k) /\ ic_i k = sc_i s /\ ic_j k = sc_j s /\ ic_u k = sc_u s.
Lemma closer_code a o w : Z.abs a <= B -> Z.abs w <= M + 1 -> closer Zw (Some a) o w = Z.ltb a (code o - w).
Proof.
  intros Ha Hw. destruct o as [y|]; cbn [closer code wleb wadd wneg Zw].
  - destruct (Z.leb_spec (y + - w) a), (Z.ltb_spec a (y - w)); try reflexivity; lia.
  - destruct (Z.ltb_spec a (inf - w)); [reflexivity|lia].
Qed.
Lemma sim_scan_i from to w u s k : from <> to -> Z.abs w <= M + 1 -> srel from to w s k -> rr (srel from to w) (scan_i Zw from to w s u) (i_scan_i mx from to w k u).
Proof.
  intros Hne Hw (H & R & E1 & E2 & E3). unfold scan_i, i_scan_i. rewrite !(rp_d _ _ R). destruct (dists (sc_t s) u from) as [a|] eqn:Ea; cbn [code].
  2:{ rewrite Z.eqb_refl. cbn. split; [exact H|auto]. }
  pose proof (si_col _ _ _ _ H u a Ea) as Ha. destruct (Z.eqb_spec a inf); [lia|].
  assert (Hy : - (B + (M + 1)) <= code (dists (sc_t s) u to) <= inf) by (destruct (dists (sc_t s) u to) as [y|] eqn:Ey; cbn [code]; [pose proof (si_all _ _ _ _ H u to y Ey)|]; lia).
  fits. rewrite (closer_code a _ w Ha Hw). destruct (Z.ltb_spec a (code (dists (sc_t s) u to) - w)) as [Hlt|_]; [|cbn; split; [exact H|auto]].
  fits. change (wadd Zw a w) with (a + w). apply (rr_bind_eq repr); [apply repr_both; [exact R|lia]|]. intros t1 m1 Et R1. cbn. pose proof (dists_both _ _ _ _ _ _ Et) as Hd.
  assert (Hu1 : u <> to) by (intros ->; rewrite (si_tt _ _ _ _ H) in Hlt; cbn [code] in Hlt; pose proof (si_tf _ _ _ _ H a Ea); lia).
  assert (Hu2 : u <> from) by (intros ->; rewrite (si_ft _ _ _ _ H) in Hlt; cbn [code] in Hlt; rewrite (si_ff _ _ _ _ H) in Ea; injection Ea as <-; lia).
  split; [|cbn; rewrite E1, E2, E3; auto]. destruct H as [H1 H2 H3 H4 H5 H6 H7 H8 H9]. constructor; cbn [sc_t sc_i sc_j].
  - intros i j x. rewrite Hd. eqs; try (apply H1). intros E; injection E as <-. lia.
  - intros i x. rewrite Hd. eqs; try (apply H2); congruence.
  - intros i x. rewrite Hd. eqs; try (apply H3); congruence.
  - rewrite Hd. eqs; congruence.
  - rewrite Hd. eqs; congruence.
  - rewrite Hd. eqs; congruence.
  - intros x. rewrite Hd. eqs; try (apply H7); congruence.
  - intros v Hv. rewrite Hd. apply in_app_iff in Hv as [Hv|[<-|[]]]; [destruct (H8 v Hv) as [A C]; split; [exact A|]; eqs; first [discriminate|exact C]|].
    split; [exact Hu1|]. rewrite !Nat.eqb_refl. discriminate.
  - intros v Hv. rewrite Hd. destruct (H9 v Hv) as [A C]. split; [exact A|]. eqs; first [discriminate|exact C].
Qed.
Lemma sim_scan_j from to w u s k : from <> to -> Z.abs w <= M + 1 -> srel from to w s k -> rr (srel from to w) (scan_j Zw from to w s u) (i_scan_j mx from to w k u).
Proof.
  intros Hne Hw (H & R & E1 & E2 & E3). unfold scan_j, i_scan_j. rewrite !(rp_d _ _ R), (rp_p _ _ R). destruct (dists (sc_t s) to u) as [a|] eqn:Ea; cbn [code].
  2:{ rewrite Z.eqb_refl. cbn. split; [exact H|auto]. }
  pose proof (si_row _ _ _ _ H u a Ea) as Ha. destruct (Z.eqb_spec a inf); [lia|].
  assert (Hy : - (B + (M + 1)) <= code (dists (sc_t s) from u) <= inf) by (destruct (dists (sc_t s) from u) as [y|] eqn:Ey; cbn [code]; [pose proof (si_all _ _ _ _ H from u y Ey)|]; lia).
  fits. rewrite (closer_code a _ w Ha Hw). destruct (Z.ltb_spec a (code (dists (sc_t s) from u) - w)) as [Hlt|_]; [|cbn; split; [exact H|auto]].
  fits. change (wadd Zw a w) with (a + w). apply (rr_bind_eq repr); [apply repr_both; [exact R|lia]|]. intros t1 m1 Et R1. cbn. pose proof (dists_both _ _ _ _ _ _ Et) as Hd.
  assert (Hu1 : u <> from) by (intros ->; rewrite (si_ff _ _ _ _ H) in Hlt; cbn [code] in Hlt; pose proof (si_tf _ _ _ _ H a Ea); lia).
  assert (Hu2 : u <> to) by (intros ->; rewrite (si_ft _ _ _ _ H) in Hlt; cbn [code] in Hlt; rewrite (si_tt _ _ _ _ H) in Ea; injection Ea as <-; lia).
  split; [|cbn; rewrite E1, E2, E3; auto]. destruct H as [H1 H2 H3 H4 H5 H6 H7 H8 H9]. constructor; cbn [sc_t sc_i sc_j].
  - intros i j x. rewrite Hd. eqs; try (apply H1). intros E; injection E as <-. lia.
  - intros i x. rewrite Hd. eqs; try (apply H2); congruence.
  - intros i x. rewrite Hd. eqs; try (apply H3); congruence.
  - rewrite Hd. eqs; congruence.
  - rewrite Hd. eqs; congruence.
  - rewrite Hd. eqs; congruence.
  - intros x. rewrite Hd. eqs; try (apply H7); congruence.
  - intros v Hv. rewrite Hd. destruct (H8 v Hv) as [A C]. split; [exact A|]. eqs; first [discriminate|exact C].
  - intros v Hv. rewrite Hd. apply in_app_iff in Hv as [Hv|[<-|[]]]; [destruct (H9 v Hv) as [A C]; split; [exact A|]; eqs; first [discriminate|exact C]|].
    split; [exact Hu2|]. eqs; try congruence.
Qed.
Lemma sim_scan from to w u s k : from <> to -> Z.abs w <= M + 1 -> srel from to w s k -> rr (srel from to w) (scan_step Zw from to w s u) (i_scan_step mx from to w k u).
Proof. intros Hne Hw H. unfold scan_step, i_scan_step. apply (rr_bind (srel from to w)); [apply sim_scan_i; assumption|]. intros a b. apply sim_scan_j; assumption. Qed.

(** ** The second loop. *)
Record cinv (to : nat) (t : dl Z) (si sj : list nat) : Prop := {
  ci_col : forall u, bnd (B + (M + 1)) (dists t u to);
  ci_row : forall u, bnd B (dists t to u);
  ci_i : forall u, In u si -> u <> to /\ dists t u to <> None;
  ci_j : forall u, In u sj -> u <> to /\ dists t to u <> None }.
Definition crel (to : nat) (si sj : list nat) (a : dl Z * list key) (b : idl * list key) : Prop := cinv to (fst a) si sj /\ repr (fst a) (fst b) /\ snd b = snd a.
Lemma sim_cross to si sj e a b : In e (list_prod si sj) -> crel to si sj a b -> rr (crel to si sj) (cross_step Zw to a e) (i_cross_step mx to b e).
Proof.
  destruct e as [i j], a as [t us], b as [m us']. intros He (H & R & E). cbn [fst snd] in *. subst us'. apply in_prod_iff in He as [Hi Hj]. unfold cross_step, i_cross_step. rewrite !(rp_d _ _ R), (rp_p _ _ R).
  destruct (Nat.eqb i j); cbn [negb andb]; [cbn; split; [exact H|auto]|].
  destruct (ci_i _ _ _ _ H i Hi) as [Hit Hin]. destruct (ci_j _ _ _ _ H j Hj) as [Hjt Hjn].
  destruct (dists t i to) as [x|] eqn:Ex; [|congruence]. destruct (dists t to j) as [y|] eqn:Ey; [|congruence]. cbn [code dist_add]. change (wadd Zw x y) with (x + y).
  pose proof (ci_col _ _ _ _ H i x Ex) as Hx. pose proof (ci_row _ _ _ _ H j y Ey) as Hy. fits. rewrite (gt_code _ (x + y)) by lia.
  destruct (Z.ltb_spec (x + y) (code (dists t i j))) as [Hlt|_]; [|cbn; split; [exact H|auto]].
  apply (rr_bind_eq repr); [apply repr_both; [exact R|lia]|]. intros t1 m1 Et R1. cbn. pose proof (dists_both _ _ _ _ _ _ Et) as Hd. split; [|auto]. cbn [fst].
  destruct H as [H1 H2 H3 H4]. constructor.
  - intros u z. rewrite Hd. eqs; try (apply H1); congruence.
  - intros u z. rewrite Hd. eqs; try (apply H2); congruence.
  - intros v Hv. rewrite Hd. destruct (H3 v Hv) as [A C]. split; [exact A|]. eqs; first [discriminate|exact C].
  - intros v Hv. rewrite Hd. destruct (H4 v Hv) as [A C]. split; [exact A|]. eqs; first [discriminate|exact C].
Qed.

(** ** The closure. *)
Definition prel (a : dl Z * list key) (b : idl * list key) : Prop := repr (fst a) (fst b) /\ snd b = snd a.
Lemma sim_close t m from to w : repr t m -> allb B t -> from <> to -> Z.abs w <= M + 1 -> dists t from from = Some 0 -> dists t to to = Some 0 -> (forall x, dists t to from = Some x -> 0 <= x + w) ->
  rr prel (close Zw t from to w) (i_close mx m from to w).
Proof.
  intros R Hb Hne Hw Hff Htt Htf. unfold close, i_close. apply (rr_bind_eq repr); [apply repr_both; [exact R|lia]|]. intros t1 m1 Et R1. pose proof (dists_both _ _ _ _ _ _ Et) as Hd. rewrite (rp_n _ _ R1).
  apply (rr_bind (srel from to w)).
  - apply rr_rfold; [intros u a b; apply sim_scan; assumption|]. split; [|cbn; auto]. constructor; cbn [sc_t sc_i sc_j]; try (intros u []; fail).
    + intros i j x. rewrite Hd. eqs; first [intros E; injection E as <-; lia|intros E; specialize (Hb _ _ x E); lia].
    + intros u x. rewrite Hd. eqs; try congruence; apply Hb.
    + intros u x. rewrite Hd. eqs; try congruence; apply Hb.
    + rewrite Hd. eqs; congruence.
    + rewrite Hd. eqs; congruence.
    + rewrite Hd, !Nat.eqb_refl. reflexivity.
    + intros x. rewrite Hd. eqs; try congruence; apply Htf.
  - intros s k (H & Rs & E1 & E2 & E3). rewrite E1, E2, E3. refine (rr_mono (crel to (sc_i s) (sc_j s)) prel _ _ _ _); [intros a b (_ & X & Y); split; assumption|].
    apply rr_rfold_in; [intros e a b; apply sim_cross|]. split; [|cbn; auto]. destruct H. constructor; cbn [fst]; auto.
Qed.

(** ** Telling. *)
Lemma explain_eq t m val r c : repr t m -> i_explain m val r c = explain t val r c.
Proof.
  intros R. unfold i_explain, explain. cbn [cap iview]. rewrite (rp_cap _ _ R). generalize (S (cap t)). intros n. revert c. induction n as [|n IH]; intros c; cbn [walk]; [reflexivity|].
  destruct (Nat.eqb c r); [reflexivity|]. cbn [preds iview]. rewrite (rp_p _ _ R). destruct (preds t r c) as [u|]; [|reflexivity]. rewrite IH. unfold edge_lits. cbn [dist_constr iview]. rewrite (rp_c _ _ R). reflexivity.
Qed.
Lemma tell_eq t m a c : repr t m -> allb B t -> Z.abs (c_w c) <= M -> i_tell_step mx m a c = tell_step Zw t a c.
Proof.
  intros R Hb Hc. destruct a as [val ls]. unfold i_tell_step, tell_step. destruct (val (c_b c)); try reflexivity. fits. rewrite !(rp_d _ _ R), !(explain_eq _ _ _ _ _ R). change (wneg Zw (c_w c)) with (- c_w c).
  rewrite (lt_code _ (- c_w c) B (Hb _ _)) by lia. rewrite le_code by lia. reflexivity.
Qed.
Lemma tells_eq t m : repr t m -> allb B t -> forall cs a, (forall c, In c cs -> Z.abs (c_w c) <= M) -> rfold (i_tell_step mx m) cs a = rfold (tell_step Zw t) cs a.
Proof.
  intros R Hb. induction cs as [|c cs IH]; intros a H; cbn [rfold]; [reflexivity|]. rewrite (tell_eq t m a c R Hb (H c (or_introl eq_refl))). destruct (tell_step Zw t a c); cbn [rbind]; [apply IH; intros x Hx; apply H; right; exact Hx|reflexivity..].
Qed.
Lemma sim_edge t m val from to w : repr t m -> allb B t -> from <> to -> Z.abs w <= M + 1 -> dists t from from = Some 0 -> dists t to to = Some 0 -> (forall x, dists t to from = Some x -> 0 <= x + w) ->
  (forall t1 us, close Zw t from to w = Ok (t1, us) -> allb B t1 /\ forall c, In c (dcons t1) -> Z.abs (c_w c) <= M) ->
  rr (fun a b => repr (fst a) (fst b) /\ snd b = snd a) (prop_edge Zw t val from to w) (i_prop_edge mx m val from to w).
Proof.
  intros R Hb Hne Hw Hff Htt Htf Hpost. unfold prop_edge, i_prop_edge, guard. destruct (Z.ltb_spec (Z.abs w) inf); [|lia].
  apply (rr_bind_eq prel); [apply sim_close; assumption|]. intros [t1 us] [m1 us'] Et [R1 E]. cbn [fst snd] in *. subst us'. destruct (Hpost t1 us Et) as [Hb1 Hc1].
  assert (Ek : flat_map (i_cons_at m1) us = flat_map (cons_at t1) us) by (apply flat_map_ext; intros k; unfold i_cons_at, cons_at; rewrite (rp_k _ _ R1); reflexivity).
  rewrite Ek, (tells_eq t1 m1 R1 Hb1). 2:{ intros c Hc. apply in_flat_map in Hc as (k & _ & Hc). apply filter_In in Hc. apply Hc1, Hc. }
  destruct (rfold (tell_step Zw t1) _ _) as [[v ls]| |]; cbn; auto.
Qed.
Lemma repr_enforce t m k c : repr t m -> repr (enforce t k c) (i_enforce m k c).
Proof.
  intros [A1 A2 A3 A4 A5 A6 A7 A8]. unfold enforce, i_enforce. destruct t as [n cp D P K C L N], m as [n' c' D' P' K' C' L' N']. cbn in *. subst.
  constructor; cbn; auto. inversion A7 as [|l k' ls ks [B1 B2 B3] HLs]; subst; cbn; constructor; [constructor; cbn; auto|exact HLs]. rewrite B3. reflexivity.
Qed.
Lemma repr_push t m : repr t m -> repr (dl_push t) (i_push m).
Proof. intros [A1 A2 A3 A4 A5 A6 A7 A8]. constructor; cbn; auto. constructor; [constructor; reflexivity|exact A7]. Qed.
Lemma repr_pop t m : repr t m -> repr (dl_pop t) (i_pop m).
Proof.
  intros [A1 A2 A3 A4 A5 A6 A7 A8]. unfold dl_pop, i_pop. inversion A7 as [El El'|l k ls ks [B1 B2 B3] HLs El El'].
  - symmetry in El, El'. constructor; auto; rewrite El, El'; constructor.
  - constructor; cbn; auto; [intros i j; unfold restore; rewrite B1, find_map; destruct (kfind (i, j) (old_dists l)); cbn; [reflexivity|apply A3]|unfold restore; rewrite B2, A4; reflexivity|rewrite B3, A5; reflexivity].
Qed.
Lemma repr_init size : repr (dl_init Zw size) (i_init mx size).
Proof. constructor; cbn; auto. intros i j. destruct (Nat.eqb i j); reflexivity. Qed.
Lemma repr_var t m : repr t m -> repr (fst (t_dl_var Zw t)) (fst (i_var mx m)) /\ snd (i_var mx m) = snd (t_dl_var Zw t).
Proof.
  intros [A1 A2 A3 A4 A5 A6 A7 A8]. unfold t_dl_var, i_var. cbn [fst snd cap icap]. rewrite A1, A2. split; [|reflexivity].
  destruct (Nat.eqb (cap t) (nvars t)); constructor; cbn; auto; try congruence.
  - intros i j. destruct (Nat.ltb i (cap t) && Nat.ltb j (cap t))%bool; [apply A3|]. destruct (Nat.eqb i j); reflexivity.
  - rewrite A4. reflexivity.
Qed.
Lemma repr_add t m c : repr t m -> repr (add_con t c) (i_add m c).
Proof. intros [A1 A2 A3 A4 A5 A6 A7 A8]. constructor; cbn; auto. rewrite A6. reflexivity. Qed.
Lemma check_eq t m val : repr t m -> allb B t -> (forall e, In e (dist_constr t) -> Z.abs (c_w (snd e)) <= M) -> rr (fun a b => repr (fst a) (fst b) /\ snd b = snd a) (dl_check Zw t val) (i_check mx m val).
Proof.
  intros R Hb Hc. unfold dl_check, i_check, guard.
  assert (E : forallb (fun e => i_respected mx m val (snd e)) (icon m) = forallb (fun e => con_respected Zw t val (snd e)) (dist_constr t)).
  { rewrite (rp_c _ _ R). induction (dist_constr t) as [|e l IH]; [reflexivity|]. cbn [forallb]. rewrite IH by (intros x Hx; apply Hc; right; exact Hx). f_equal. specialize (Hc e (or_introl eq_refl)).
    unfold i_respected, con_respected. destruct (val (c_b (snd e))); [| |reflexivity].
    - rewrite fitb_ok by (pose proof Hmx; lia). cbn [andb]. rewrite (rp_d _ _ R). change (wneg Zw (c_w (snd e))) with (- c_w (snd e)). rewrite (lt_code _ _ B (Hb _ _)) by lia. reflexivity.
    - rewrite (rp_d _ _ R), le_code by lia. reflexivity. }
  rewrite E. clear E. match goal with |- context [if ?b then _ else _] => destruct b end; cbn; [split; [exact R|reflexivity]|exact Logic.I].
Qed.
End Sim.
