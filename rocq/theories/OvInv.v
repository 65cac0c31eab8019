(** The object variables: creation of variables and equalities. *)
From Coq Require Import String.
From Verif Require Import Base Keys Sat SatSpec SatInv SatPop SatImp SatRec SatAn SatProp SatLoop SatMain SatApi SatApi2 SatNext SatSimp Reify Amo Run ThGrow ThSum Ov.
Local Arguments Nat.ltb : simpl never.
Local Arguments Nat.eqb : simpl never.
Section Srt.
Context {sr : sorter}.

(** ** Maps *)
Lemma alook_in x l m : alook x m = Some l -> In (x, l) m.
Proof. induction m as [|[y k] m IH]; cbn; [discriminate|]. destruct (Nat.eqb_spec x y) as [->|]; [intros E; injection E as ->; auto|auto]. Qed.
Lemma alook_none x m : alook x m = None <-> ~ In x (map fst m).
Proof.
  induction m as [|[y k] m IH]; cbn; [tauto|]. destruct (Nat.eqb_spec x y) as [->|Hn]; [split; [discriminate|intros H; destruct H; auto]|]. rewrite IH. split; [intros H [K|K]; [congruence|auto]|intros H K; apply H; auto].
Qed.
Lemma alook_nodup x l m : NoDup (map fst m) -> In (x, l) m -> alook x m = Some l.
Proof.
  induction m as [|[y k] m IH]; cbn; [tauto|]. intros Hn [E|Hi]; inversion Hn as [|? ? H1 H2]; subst.
  - injection E as -> ->. rewrite Nat.eqb_refl. reflexivity.
  - destruct (Nat.eqb_spec x y) as [->|]; [|auto]. destruct H1. apply (in_map fst) in Hi. exact Hi.
Qed.
Lemma alook_some x m : In x (map fst m) -> exists l, alook x m = Some l.
Proof. intros H. destruct (alook x m) as [l|] eqn:E; [eauto|]. apply alook_none in E. contradiction. Qed.
Lemma has_iff x m : has x m = true <-> In x (map fst m).
Proof. unfold has. destruct (alook x m) as [l|] eqn:E; [split; [intros _; apply alook_in in E; apply (in_map fst) in E; exact E|reflexivity]|apply alook_none in E; split; [discriminate|contradiction]]. Qed.
Lemma elook_in k p m : elook k m = Some p -> In (k, p) m.
Proof.
  destruct k as [a b]. induction m as [|[[c d] l] m IH]; cbn; [discriminate|]. destruct (Nat.eqb_spec a c) as [->|]; cbn; [destruct (Nat.eqb_spec b d) as [->|]|]; [intros E; injection E as ->; auto|auto|auto].
Qed.
Lemma elook_app k p q m : elook k (m ++ [(k, p)]) = Some q -> elook k m = None -> q = p.
Proof.
  destruct k as [a b]. induction m as [|[[c d] l] m IH]; cbn; [rewrite !Nat.eqb_refl; cbn; congruence|]. destruct (Nat.eqb a c && Nat.eqb b d); [discriminate|exact IH].
Qed.
Lemma elook_here k p m : elook k m = None -> elook k (m ++ [(k, p)]) = Some p.
Proof.
  destruct k as [a b]. induction m as [|[[c d] l] m IH]; cbn; [rewrite !Nat.eqb_refl; reflexivity|]. destruct (Nat.eqb a c && Nat.eqb b d); [discriminate|exact IH].
Qed.
Lemma elook_keep k k' p q m : elook k m = Some q -> elook k (m ++ [(k', p)]) = Some q.
Proof.
  destruct k as [a b]. induction m as [|[[c d] l] m IH]; cbn; [discriminate|]. destruct (Nat.eqb a c && Nat.eqb b d); [auto|exact IH].
Qed.

(** The values an object variable with entries [m] takes under an assignment. *)
Definition takes (M : nat -> bool) (m : list (nat * lit)) (x : nat) : Prop := exists l, In (x, l) m /\ mlit M l = true.
(** It takes the value [x] and no other. *)
Definition takes1 (M : nat -> bool) (m : list (nat * lit)) (x : nat) : Prop := forall y, takes M m y <-> y = x.
(** It takes at most one value. *)
Definition one_at_most (M : nat -> bool) (m : list (nat * lit)) : Prop := forall x y, takes M m x -> takes M m y -> x = y.
(** What the literal of an equality guarantees. *)
Definition eq_means (M : nat -> bool) (p : lit) (dl dr : list (nat * lit)) : Prop :=
  (mlit M p = true -> forall x, takes M dl x <-> takes M dr x) /\ ((exists x, takes M dl x /\ takes M dr x) -> mlit M p = true).
Lemma takes_agree n M M' m x : agree n M M' -> (forall y l, In (y, l) m -> lvar l < n) -> takes M m x <-> takes M' m x.
Proof.
  intros Ha Hr. split; intros (l & Hl & E); exists l; (split; [exact Hl|]).
  - rewrite <- (mlit_agree M M' l n Ha (Hr _ _ Hl)). exact E.
  - rewrite (mlit_agree M M' l n Ha (Hr _ _ Hl)). exact E.
Qed.

(** ** The entries created for a list of items. *)
Fixpoint items_map (n : nat) (xs : list nat) (m : list (nat * lit)) : list (nat * lit) :=
  match xs with [] => m | x :: r => items_map (S n) r (emplace x (mk_lit n true) m) end.
Record fresh_map (a b : nat) (m : list (nat * lit)) : Prop := {
  fm_nd : NoDup (map fst m);
  fm_rng : forall x l, In (x, l) m -> lsgn l = true /\ a <= lvar l < b;
  fm_inj : forall x y l, In (x, l) m -> In (y, l) m -> x = y }.
Lemma fresh_emplace a n x m : a <= n -> fresh_map a n m -> fresh_map a (S n) (emplace x (mk_lit n true) m) /\ forall y, In y (map fst (emplace x (mk_lit n true) m)) <-> y = x \/ In y (map fst m).
Proof.
  intros Ha [A B D]. unfold emplace. destruct (alook x m) as [l|] eqn:E.
  - split; [constructor; [exact A|intros y k Hk; destruct (B y k Hk); split; [assumption|lia]|exact D]|].
    intros y. split; [auto|]. intros [->|H]; [|exact H]. apply alook_in in E. apply (in_map fst) in E. exact E.
  - apply alook_none in E. split; [constructor|].
    + rewrite map_app. cbn. apply (Permutation_NoDup (Permutation_cons_append _ _)). constructor; assumption.
    + intros y k Hk. apply in_app_or in Hk as [Hk|[Hk|[]]]; [destruct (B y k Hk); split; [assumption|lia]|]. injection Hk as <- <-. cbn. split; [reflexivity|lia].
    + intros y z k Hy Hz. apply in_app_or in Hy as [Hy|[Hy|[]]]; apply in_app_or in Hz as [Hz|[Hz|[]]].
      * eapply D; eassumption.
      * injection Hz as <- <-. destruct (B _ _ Hy) as [_ K]. cbn in K. lia.
      * injection Hy as <- <-. destruct (B _ _ Hz) as [_ K]. cbn in K. lia.
      * congruence.
    + intros y. rewrite map_app, in_app_iff. cbn. split; [intros [H|[H|[]]]; auto|intros [->|H]; auto].
Qed.
Lemma fresh_items xs : forall a n m, a <= n -> fresh_map a n m -> fresh_map a (n + length xs) (items_map n xs m) /\ forall y, In y (map fst (items_map n xs m)) <-> In y xs \/ In y (map fst m).
Proof.
  induction xs as [|x xs IH]; intros a n m Ha HF; cbn [items_map length].
  - rewrite Nat.add_0_r. split; [exact HF|]. intros y. cbn. tauto.
  - destruct (fresh_emplace a n x m Ha HF) as [H1 H2]. destruct (IH a (S n) _ ltac:(lia) H1) as [H3 H4]. rewrite Nat.add_succ_r. split; [exact H3|].
    intros y. rewrite H4, H2. cbn. intuition congruence.
Qed.
Lemma fresh_nil a : fresh_map a a [].
Proof. constructor; [constructor|intros x l []|intros x y l []]. Qed.
(** An assignment of the literals of the entries. *)
Definition pick (M : nat -> bool) (m : list (nat * lit)) (f : nat -> bool) : nat -> bool :=
  fun v => match find (fun e => Nat.eqb (lvar (snd e)) v) m with Some e => f (fst e) | None => M v end.
Lemma pick_low a b M m f : fresh_map a b m -> agree a M (pick M m f).
Proof.
  intros HF v Hv. unfold pick. destruct (find _ m) as [[x l]|] eqn:E; [|reflexivity]. apply find_some in E as [Hi Ev]. cbn in Ev. apply Nat.eqb_eq in Ev. destruct (fm_rng _ _ _ HF x l Hi). lia.
Qed.
Lemma pick_in a b M m f x l : fresh_map a b m -> In (x, l) m -> mlit (pick M m f) l = f x.
Proof.
  intros HF Hi. unfold mlit, pick. destruct (fm_rng _ _ _ HF x l Hi) as [Es _]. rewrite Es. destruct (find _ m) as [[y k]|] eqn:E.
  - apply find_some in E as [Hk Ev]. cbn in Ev |- *. apply Nat.eqb_eq in Ev. destruct (fm_rng _ _ _ HF y k Hk) as [Ek _].
    assert (k = l) by (destruct k, l; cbn in *; congruence). subst k. rewrite (fm_inj _ _ _ HF x y l Hi Hk). destruct (f y); reflexivity.
  - exfalso. apply (find_none _ _ E) in Hi. cbn in Hi. rewrite Nat.eqb_refl in Hi. discriminate.
Qed.
Lemma alooks_all m : forall xs, (forall x, In x xs -> In x (map fst m)) -> exists ls, alooks m xs = Some ls /\ (forall l, In l ls <-> exists x, In x xs /\ alook x m = Some l).
Proof.
  induction xs as [|x xs IH]; intros H; cbn; [exists []; split; [reflexivity|]; intros l; split; [intros []|intros (x & [] & _)]|].
  destruct (alook_some x m (H x (or_introl eq_refl))) as (l & El). rewrite El. destruct IH as (ls & -> & K); [intros y Hy; apply H; right; exact Hy|].
  exists (l :: ls). split; [reflexivity|]. intros k. cbn. rewrite K. split.
  - intros [<-|(y & Hy & E)]; [exists x; auto|exists y; auto].
  - intros (y & [<-|Hy] & E); [left; congruence|right; eauto].
Qed.
(** Sorted, unassigned, positive literals: the filter removes the duplicates. *)
Lemma amo_filter_strict v : forall ls p, (forall q, In q ls -> v q = LUndef /\ lsgn q = true) -> StronglySorted (fun a b => lvar a <= lvar b) ls ->
  (forall q, p = Some q -> lsgn q = true /\ forall r, In r ls -> lvar q <= lvar r) ->
  exists k, amo_filter v p ls = Some k /\ StronglySorted (fun a b => lvar a < lvar b) k /\ forall q, p = Some q -> forall r, In r k -> lvar q < lvar r.
Proof.
  induction ls as [|a ls IH]; intros p Hv Hs Hp; cbn [amo_filter]; [exists []; split; [reflexivity|split; [constructor|intros q _ r []]]|].
  destruct (Hv a (or_introl eq_refl)) as [Va Sa]. rewrite Va. cbn [lbool_eqb]. inversion Hs as [|? ? Hs' Hf]; subst. rewrite Forall_forall in Hf.
  assert (Hv' : forall q, In q ls -> v q = LUndef /\ lsgn q = true) by (intros q Hq; apply Hv; right; exact Hq).
  destruct (is_lit p a) eqn:Ep; cbn [negb andb].
  - apply IH; [exact Hv'|exact Hs'|]. intros q Hq. destruct (Hp q Hq) as [A B]. split; [exact A|intros r Hr; apply B; right; exact Hr].
  - destruct (IH (Some a) Hv' Hs') as (k & -> & K1 & K2); [intros q Hq; injection Hq as <-; split; [exact Sa|exact Hf]|].
    exists (a :: k). split; [reflexivity|]. split; [constructor; [exact K1|rewrite Forall_forall; intros r Hr; apply (K2 a eq_refl r Hr)]|].
    intros q Hq r [<-|Hr].
    + destruct (Hp q Hq) as [A B]. specialize (B a (or_introl eq_refl)). subst p. cbn in Ep. destruct (lit_eqb_spec q a) as [|Hn]; [discriminate|].
      destruct (Nat.eq_dec (lvar q) (lvar a)) as [E|]; [|lia]. exfalso. apply Hn. destruct q, a; cbn in *; congruence.
    + destruct (Hp q Hq) as [A B]. specialize (B a (or_introl eq_refl)). specialize (K2 a eq_refl r Hr). lia.
Qed.
Lemma sorted_nodup ls : StronglySorted (fun a b : lit => lvar a < lvar b) ls -> NoDup ls.
Proof. induction 1 as [|a l H IH Hf]; constructor; [|exact IH]. rewrite Forall_forall in Hf. intros Hi. specialize (Hf a Hi). lia. Qed.

Section OvInv.
Context {T : Type} {ops : theory_ops T} (C2 : contract ops).
Notation C := (sumC ov_ops ops ovC C2).
Notation st := (st (ovs + T)).

(** Facts about the object theory that only depend on the models of the network. *)
Record ov_ok (s : st) (o : ovs) : Prop := {
  ok_rng : forall m x l, In m (odom o) -> In (x, l) m -> lvar l < nv s;
  ok_nd : forall m, In m (odom o) -> NoDup (map fst m);
  ok_exp : forall a b p, In ((a, b), p) (oexp o) -> a < b /\ lvar p < nv s /\ exists dl dr, nth_error (odom o) a = Some dl /\ nth_error (odom o) b = Some dr /\
    forall M, smodels C s M -> eq_means M p dl dr }.
Lemma ok_mono (s s' : st) o : ov_ok s o -> nv s <= nv s' -> (forall M, smodels C s' M -> smodels C s M) -> ov_ok s' o.
Proof.
  intros [A B D] Hn HM. constructor.
  - intros m x l Hm Hx. specialize (A m x l Hm Hx). lia.
  - exact B.
  - intros a b p Hp. destruct (D a b p Hp) as (D1 & D2 & dl & dr & D3 & D4 & D5). split; [exact D1|]. split; [lia|]. exists dl, dr. auto.
Qed.
Lemma ok_cont (s : st) o o' : ov_ok s o -> odom o' = odom o -> oexp o' = oexp o -> ov_ok s o'.
Proof. intros [A B D] E1 E2. constructor; rewrite E1; [exact A|exact B|rewrite E2; exact D]. Qed.
Lemma ok_dom (s : st) o m : ov_ok s o -> NoDup (map fst m) -> (forall x l, In (x, l) m -> lvar l < nv s) -> ov_ok s (add_dom o m).
Proof.
  intros [A B D] Hn Hr. constructor; cbn [add_dom odom oexp].
  - intros m' x l Hm. apply in_app_or in Hm as [Hm|[<-|[]]]; [apply (A m' x l Hm)|apply Hr].
  - intros m' Hm. apply in_app_or in Hm as [Hm|[<-|[]]]; [apply (B m' Hm)|exact Hn].
  - intros a b p Hp. destruct (D a b p Hp) as (D1 & D2 & dl & dr & D3 & D4 & D5). split; [exact D1|]. split; [exact D2|]. exists dl, dr.
    split; [rewrite nth_error_app1 by (apply nth_error_Some; congruence); exact D3|]. split; [rewrite nth_error_app1 by (apply nth_error_Some; congruence); exact D4|exact D5].
Qed.

(** The effect of a call on the network and on the object theory number [i]. *)
Record ostep (s : st) (i : nat) (o : ovs) (s' : st) (o' : ovs) : Prop := {
  os_good : good C s';
  os_nth : nth_error (theories s') i = Some (inl o');
  os_ths : forall j, j <> i -> nth_error (theories s') j = nth_error (theories s) j;
  os_nv : nv s <= nv s';
  os_dl : dlevel s' = dlevel s;
  os_ok : ov_ok s o -> ov_ok s' o';
  os_dom : forall v m, nth_error (odom o) v = Some m -> nth_error (odom o') v = Some m;
  os_exp : forall k p, elook k (oexp o) = Some p -> elook k (oexp o') = Some p;
  os_mono : forall M, smodels C s' M -> smodels C s M }.
Lemma os_refl (s : st) i o : good C s -> nth_error (theories s) i = Some (inl o) -> ostep s i o s o.
Proof. intros G E. constructor; auto. Qed.

(** Replacing the object theory by one with the same bound variables. *)
Lemma put_ok (s : st) i o o' : good C s -> nth_error (theories s) i = Some (inl o) -> obnd o' = obnd o ->
  good C (ov_put s i o') /\ nth_error (theories (ov_put s i o')) i = Some (inl o') /\ (forall j, j <> i -> nth_error (theories (ov_put s i o')) j = nth_error (theories s) j) /\
  forall M, smodels C (ov_put s i o') M <-> smodels C s M.
Proof.
  intros G E Eb. assert (Hi : i < length (theories s)) by (apply nth_error_Some; congruence).
  destruct (grow_ok C s i (inl o) (inl o') None G E) as (G' & _ & HM).
  - intros w. cbn. rewrite Eb. intuition discriminate.
  - discriminate.
  - intros vs _ _ _. exact I.
  - auto.
  - auto.
  - intros n v Hf. exact Hf.
  - split; [exact G'|]. split; [cbn; rewrite nth_set_nth by exact Hi; rewrite Nat.eqb_refl; reflexivity|]. split.
    + intros j Hj. cbn. rewrite nth_set_nth by exact Hi. destruct (Nat.eqb_spec j i); [contradiction|reflexivity].
    + intros M. rewrite HM. cbn. tauto.
Qed.

(** One item. *)
Lemma item_ok (s : st) i o id x m : good C s -> nth_error (theories s) i = Some (inl o) ->
  exists s' o', ov_item s i o id x m = (s', o', emplace x (mk_lit (nv s) true) m) /\ good C s' /\ nth_error (theories s') i = Some (inl o') /\
    (forall j, j <> i -> nth_error (theories s') j = nth_error (theories s) j) /\ nv s' = S (nv s) /\ assigns s' = assigns (fst (new_var s)) /\ trail_lim s' = trail_lim s /\
    exprs s' = exprs s ++ [(key_var (nv s), mk_lit (nv s) true)] /\ odom o' = odom o /\ oexp o' = oexp o /\ (forall v, assigns s' v = assigns s v) /\
    forall M, smodels C s' M <-> smodels C s M.
Proof.
  intros G E. unfold ov_item. destruct (new_var_ok C s (g_inv _ _ G)) as [Ev V]. pose proof (step_ok C 1 s CVar G I) as HS. cbn [step] in HS.
  destruct (new_var s) as [s1 bv] eqn:En. cbn [fst snd] in *. destruct HS as ([G1|[HS _]] & _); [|discriminate]. subst bv.
  set (o1 := add_cont (add_bound o (nv s)) (nv s) id).
  assert (E1 : nth_error (theories s1) i = Some (inl o)) by (rewrite (vp_ths _ _ _ V); exact E). assert (Hi : i < length (theories s1)) by (apply nth_error_Some; congruence).
  assert (HV : assigns s (nv s) = LUndef) by (apply (t_out _ (i_t _ _ (g_inv _ _ G))); lia).
  destruct (grow_ok C s1 i (inl o) (inl o1) (Some (nv s)) G1 E1) as (G' & _ & HM).
  - intros w. cbn. rewrite in_app_iff. cbn. split; [intros [H|[H|[]]]; subst; auto|intros [H|H]; [auto|injection H as <-; auto]].
  - intros w Hw. injection Hw as <-. split; [rewrite (vp_nv _ _ _ V); pose proof (t_nv s (i_t _ _ (g_inv _ _ G))); lia|]. split; [rewrite (vp_assigns _ _ _ V); exact HV|].
    intros Ha. pose proof (h_range _ _ _ _ (i_h _ _ (g_inv _ _ G)) i (inl o) (nv s) E Ha). lia.
  - intros vs _ _ _. exact I.
  - auto.
  - auto.
  - intros j u Hx. exact Hx.
  - exists (grow_st s1 i (inl o1) (Some (nv s))), o1. split; [unfold grow_st, ov_put; fold o1; rewrite bind_eq; reflexivity|]. split; [exact G'|]. unfold grow_st. rewrite bind_eq. cbn [theories set_theories set_bounds nv assigns trail_lim exprs odom oexp].
    split; [rewrite nth_set_nth by exact Hi; rewrite Nat.eqb_refl; reflexivity|].
    split; [intros j Hj; rewrite nth_set_nth by exact Hi; destruct (Nat.eqb_spec j i); [contradiction|rewrite (vp_ths _ _ _ V); reflexivity]|].
    split; [apply (vp_nv _ _ _ V)|]. split; [reflexivity|]. split; [apply (proj1 (proj2 (vp_trail _ _ _ V)))|]. split; [apply (vp_exprs _ _ _ V)|].
    split; [reflexivity|]. split; [reflexivity|]. split; [intros v; rewrite (vp_assigns _ _ _ V); reflexivity|]. intros M. unfold grow_st in HM. rewrite bind_eq in HM. rewrite HM. cbn. rewrite (vp_models _ _ _ V). tauto.
Qed.
Lemma items_ok xs : forall (s : st) i o id m, good C s -> nth_error (theories s) i = Some (inl o) ->
  exists s' o', ov_items s i o id xs m = (s', o', items_map (nv s) xs m) /\ good C s' /\ nth_error (theories s') i = Some (inl o') /\
    (forall j, j <> i -> nth_error (theories s') j = nth_error (theories s) j) /\ nv s' = nv s + length xs /\ trail_lim s' = trail_lim s /\
    (forall k e, In (k, e) (exprs s') -> In (k, e) (exprs s) \/ exists v, k = key_var v) /\ odom o' = odom o /\ oexp o' = oexp o /\ (forall v, assigns s' v = assigns s v) /\
    forall M, smodels C s' M <-> smodels C s M.
Proof.
  induction xs as [|x xs IH]; intros s i o id m G E; cbn [ov_items items_map length].
  - exists s, o. split; [reflexivity|]. split; [exact G|]. split; [exact E|]. split; [reflexivity|]. split; [lia|]. split; [reflexivity|]. split; [auto|]. split; [reflexivity|]. split; [reflexivity|]. split; [reflexivity|]. reflexivity.
  - destruct (item_ok s i o id x m G E) as (s1 & o1 & -> & G1 & E1 & T1 & N1 & _ & L1 & X1 & D1 & P1 & A1 & M1).
    destruct (IH s1 i o1 id (emplace x (mk_lit (nv s) true) m) G1 E1) as (s2 & o2 & Eq & G2 & E2 & T2 & N2 & L2 & X2 & D2 & P2 & A2 & M2). rewrite N1 in Eq, N2.
    exists s2, o2. split; [exact Eq|]. split; [exact G2|]. split; [exact E2|]. split; [intros j Hj; rewrite T2, T1 by exact Hj; reflexivity|]. split; [lia|]. split; [congruence|].
    split; [|split; [congruence|split; [congruence|split; [intros v; rewrite A2; apply A1|intros M; rewrite M2; apply M1]]]].
    intros k e Hk. destruct (X2 k e Hk) as [H|H]; [|auto]. rewrite X1 in H. apply in_app_or in H as [H|[H|[]]]; [auto|]. right. exists (nv s). congruence.
Qed.

(** The entries of a new variable all become [f]'s values in some model. *)
Lemma takes_pick a b M m f x : fresh_map a b m -> takes (pick M m f) m x <-> In x (map fst m) /\ f x = true.
Proof.
  intros HF. split.
  - intros (l & Hl & E). rewrite (pick_in a b) with (x := x) in E by assumption. split; [apply (in_map fst) in Hl; exact Hl|exact E].
  - intros [Hx E]. apply in_map_iff in Hx as ([y l] & <- & Hl). exists l. split; [exact Hl|]. rewrite (pick_in a b) with (x := y) by assumption. exact E.
Qed.

(** new_var(items, false) *)
Theorem new_var_free (s : st) i o items : good C s -> nth_error (theories s) i = Some (inl o) -> 2 <= length items ->
  exists s' o' m, ov_new_var s i items false = Ok (s', length (odom o)) /\ ostep s i o s' o' /\ odom o' = odom o ++ [m] /\ oexp o' = oexp o /\
    (forall x, In x (map fst m) <-> In x items) /\
    forall M f, smodels C s M -> exists M', agree (nv s) M M' /\ smodels C s' M' /\ forall x, takes M' m x <-> In x items /\ f x = true.
Proof.
  intros G E Hl. unfold ov_new_var, ov_th. rewrite E. destruct items as [|x1 [|x2 xs]]; [cbn in Hl; lia|cbn in Hl; lia|]. set (items := x1 :: x2 :: xs) in *.
  destruct (items_ok items s i o (length (odom o)) [] G E) as (s1 & o1 & -> & G1 & E1 & T1 & N1 & L1 & X1 & D1 & P1 & A1 & M1).
  destruct (fresh_items items (nv s) (nv s) [] (le_n _) (fresh_nil _)) as [HF HK]. set (m := items_map (nv s) items []) in *.
  destruct (put_ok s1 i o1 (add_dom o1 m) G1 E1 eq_refl) as (G2 & E2 & T2 & M2).
  exists (ov_put s1 i (add_dom o1 m)), (add_dom o1 m), m. split; [reflexivity|]. split; [|split; [|split; [|split]]].
  - constructor.
    + exact G2.
    + exact E2.
    + intros j Hj. rewrite T2, T1 by exact Hj. reflexivity.
    + cbn. lia.
    + unfold dlevel. cbn. rewrite L1. reflexivity.
    + intros H. apply (ok_mono s1); [|cbn; lia|intros M HM; apply M2, HM]. apply ok_dom; [|apply HF|intros x l Hx; destruct (fm_rng _ _ _ HF x l Hx); lia].
      apply (ok_cont s1 o); [|exact D1|exact P1]. apply (ok_mono s); [exact H|lia|intros M HM; apply M1, HM].
    + intros v m' Hm. cbn. rewrite D1, nth_error_app1 by (apply nth_error_Some; congruence). exact Hm.
    + intros k p. cbn. rewrite P1. auto.
    + intros M HM. apply M1, M2, HM.
  - cbn. rewrite D1. reflexivity.
  - exact P1.
  - intros x. rewrite HK. cbn [map In]. tauto.
  - intros M f HM. exists (pick M m f). split; [apply (pick_low _ _ M m f HF)|]. split.
    + apply M2, M1. apply (smodels_agree C s M); [apply G|apply (pick_low _ _ M m f HF)|exact HM].
    + intros x. rewrite (takes_pick _ _ _ _ _ _ HF). rewrite HK. cbn [map In]. tauto.
Qed.

(** new_var(items) with one item *)
Theorem new_var_single (s : st) i o x e : good C s -> nth_error (theories s) i = Some (inl o) ->
  exists s' o' m, ov_new_var s i [x] e = Ok (s', length (odom o)) /\ ostep s i o s' o' /\ odom o' = odom o ++ [m] /\ oexp o' = oexp o /\ m = [(x, TRUE_lit)] /\
    (forall M, smodels C s' M <-> smodels C s M) /\ forall M, smodels C s' M -> takes1 M m x.
Proof.
  intros G E. unfold ov_new_var, ov_th. rewrite E. destruct (put_ok s i o (add_dom o [(x, TRUE_lit)]) G E eq_refl) as (G2 & E2 & T2 & M2).
  exists (ov_put s i (add_dom o [(x, TRUE_lit)])), (add_dom o [(x, TRUE_lit)]), [(x, TRUE_lit)]. split; [reflexivity|]. split; [|split; [|split; [|split; [reflexivity|split; [exact M2|]]]]].
  - constructor.
    + exact G2.
    + exact E2.
    + exact T2.
    + cbn. lia.
    + reflexivity.
    + intros H. apply (ok_mono s); [|cbn; lia|intros M HM; apply M2, HM]. apply ok_dom; [exact H|repeat constructor; auto|]. intros y l [Hy|[]]. injection Hy as <- <-. apply (t_nv s (i_t _ _ (g_inv _ _ G))).
    + intros v m' Hm. cbn. rewrite nth_error_app1 by (apply nth_error_Some; congruence). exact Hm.
    + auto.
    + intros M HM. apply M2, HM.
  - reflexivity.
  - reflexivity.
  - intros M HM y. split; [intros (l & [Hl|[]] & _); congruence|]. intros ->. exists TRUE_lit. split; [left; reflexivity|]. unfold mlit. cbn. rewrite (sm_false _ _ _ HM). reflexivity.
Qed.

(** new_var(items): the assertion fails only if the network has no model *)
Theorem new_var_exact_or (s : st) i o items : good C s -> nth_error (theories s) i = Some (inl o) -> 2 <= length items -> dlevel s = 0 ->
  (ov_new_var s i items true = UB /\ forall M, ~ smodels C s M) \/
  exists s' o' m, ov_new_var s i items true = Ok (s', length (odom o)) /\ ostep s i o s' o' /\ odom o' = odom o ++ [m] /\ oexp o' = oexp o /\
    (forall x, In x (map fst m) <-> In x items) /\
    (forall M, smodels C s' M -> exists x, In x items /\ takes1 M m x) /\
    forall M x, smodels C s M -> In x items -> exists M', agree (nv s) M M' /\ smodels C s' M' /\ takes1 M' m x.
Proof.
  intros G E Hl Hd. unfold ov_new_var, ov_th. rewrite E. destruct items as [|x1 [|x2 xs]]; [cbn in Hl; lia|cbn in Hl; lia|]. set (items := x1 :: x2 :: xs) in *.
  destruct (items_ok items s i o (length (odom o)) [] G E) as (s1 & o1 & -> & G1 & E1 & T1 & N1 & L1 & X1 & D1 & P1 & A1 & M1).
  destruct (fresh_items items (nv s) (nv s) [] (le_n _) (fresh_nil _)) as [HF HK]. set (m := items_map (nv s) items []) in *.
  assert (HK' : forall x, In x (map fst m) <-> In x items) by (intros x; rewrite HK; cbn [map In]; tauto).
  destruct (alooks_all m items) as (lits & -> & HL); [intros x Hx; apply HK', Hx|].
  assert (HL' : forall l, In l lits <-> exists x, In (x, l) m).
  { intros l. rewrite HL. split; [intros (x & _ & H); exists x; apply alook_in, H|]. intros (x & Hx). exists x. split; [apply HK'; apply (in_map fst) in Hx; exact Hx|apply alook_nodup; [apply HF|exact Hx]]. }
  assert (Hd1 : dlevel s1 = 0) by (unfold dlevel in *; rewrite L1; exact Hd).
  assert (Hlr : forall q, In q lits -> value s1 q = LUndef /\ lsgn q = true /\ nv s <= lvar q < nv s1).
  { intros q Hq. apply HL' in Hq as (x & Hx). destruct (fm_rng _ _ _ HF x q Hx) as [S1 S2]. split; [|split; [exact S1|lia]]. apply value_undef. rewrite A1. apply (t_out _ (i_t _ _ (g_inv _ _ G))). lia. }
  destruct (exct_ok C s1 lits (g_inv _ _ G1) (g_cache _ _ G1) Hd1) as (s2 & p & -> & XP); [intros q Hq; apply Hlr, Hq|]. cbn [rbind].
  pose proof (x_ext _ _ _ _ _ XP) as HE.
  destruct (amo_filter_strict (value s1) (sort_by lvar lits) None) as (k & Ek & K1 & _).
  { intros q Hq. apply sort_by_In in Hq. destruct (Hlr q Hq) as (A & B & _). auto. } { apply sort_by_sorted. } { discriminate. }
  assert (Hkin : forall q, In q k <-> In q lits).
  { intros q. split; [intros Hq; apply (amo_filter_in _ _ _ _ Ek) in Hq as [Hq _]; apply sort_by_In in Hq; exact Hq|]. intros Hq.
    destruct (amo_filter_all (value s1) (sort_by lvar lits) None) as (k' & Ek' & H); [intros r Hr; apply sort_by_In in Hr; destruct (Hlr r Hr) as [-> _]; discriminate|].
    assert (k' = k) by congruence. subst k'. destruct (H q) as [?|[Hf|?]]; [apply sort_by_In; exact Hq|assumption| |discriminate]. destruct (Hlr q Hq) as [Hu _]. congruence. }
  assert (Hnk : forall (key : list lit -> string) (mk : list lit -> op), (forall l, key l = key_of (mk l)) -> (forall l, op_lits (mk l) = l) -> (forall l v, ~ op_same (OVar v) (mk l)) -> (forall l o', op_same o' (mk l) -> o' = mk l) ->
     forall e, ~ In (key k, e) (exprs s1)).
  { intros key mk Hk1 Hk2 Hk3 Hk4 e Hi. destruct (X1 _ _ Hi) as [Hi'|(v & Ev)].
    - destruct (g_cache _ _ G _ _ Hi') as (o' & O1 & O2 & _). rewrite Hk1 in O1. symmetry in O1. apply key_of_inj in O1. apply Hk4 in O1. subst o'. rewrite Hk2 in O2.
      assert (Hne : exists q, In q k).
      { assert (Hx : In x1 (map fst m)) by (apply HK'; left; reflexivity). apply in_map_iff in Hx as ([y l] & _ & Hy). exists l. apply Hkin, HL'. eauto. }
      destruct Hne as (q & Hq). specialize (O2 q Hq). apply Hkin in Hq. destruct (Hlr q Hq) as (_ & _ & ?). lia.
    - rewrite Hk1 in Ev. change (key_var v) with (key_of (OVar v)) in Ev. symmetry in Ev. apply key_of_inj in Ev. destruct (Hk3 _ _ Ev). }
  assert (Hna : forall e, ~ In (key_amo k, e) (exprs s1)).
  { apply (Hnk key_amo OAmo); try reflexivity; [intros l v Hs; cbn in Hs; discriminate|]. intros l [] Hs; cbn in Hs; try discriminate; exact Hs. }
  assert (Hnx : forall e, ~ In (key_exct k, e) (exprs s1)).
  { apply (Hnk key_exct OExct); try reflexivity; [intros l v Hs; cbn in Hs; discriminate|]. intros l [] Hs; cbn in Hs; try discriminate; exact Hs. }
  assert (HX : forall M x, smodels C s M -> In x items -> exists M', agree (nv s) M M' /\ smodels C s2 M' /\ mlit M' p = true /\ takes1 M' m x).
  { intros M x HM Hx. set (f := fun y => Nat.eqb y x). assert (Ag : agree (nv s) M (pick M m f)) by apply (pick_low _ _ M m f HF).
    assert (HM1 : smodels C s1 (pick M m f)) by (apply M1, (smodels_agree C s M); [apply G|exact Ag|exact HM]).
    assert (Ht : takes1 (pick M m f) m x).
    { intros y. rewrite (takes_pick _ _ _ _ _ _ HF), HK'. unfold f. rewrite Nat.eqb_eq. split; [tauto|]. intros ->. auto. }
    destruct (x_fresh _ _ _ _ _ XP k Ek) with (M := pick M m f) as (M' & Ag' & HM' & Hp).
    - intros _ q Hq. apply Hkin in Hq. apply Hlr, Hq.
    - exact Hna.
    - exact Hnx.
    - exact HM1.
    - apply amo_pos_of; [apply sorted_nodup, K1|]. intros q r Hq Hr Eq Er. apply Hkin, HL' in Hq as (y & Hy). apply Hkin, HL' in Hr as (z & Hz).
      assert (y = x) by (apply Ht; exists q; auto). assert (z = x) by (apply Ht; exists r; auto). subst y z.
      pose proof (alook_nodup x q m (fm_nd _ _ _ HF) Hy) as Q1. pose proof (alook_nodup x r m (fm_nd _ _ _ HF) Hz) as Q2. congruence.
    - destruct (proj2 (Ht x) eq_refl) as (l & Hi & El). exists l. split; [apply Hkin, HL'; eauto|exact El].
    - exists M'. split; [intros v Hv; rewrite (Ag v Hv); apply Ag'; lia|]. split; [exact HM'|]. split; [exact Hp|].
      intros y. rewrite <- (Ht y). symmetry. apply (takes_agree (nv s1)); [exact Ag'|]. intros z l Hz. destruct (fm_rng _ _ _ HF z l Hz). lia. }
  assert (Hd2 : dlevel s2 = 0) by (rewrite (e_dl _ _ _ HE); exact Hd1).
  destruct (new_clause_ok C s2 [p] (e_inv _ _ _ HE) Hd2) as (s3 & b & -> & CP); [intros q [<-|[]]; apply (x_range _ _ _ _ _ XP)|]. cbn [rbind]. destruct CP as [Q1 Q2 Q3 Q4 Q5 Q6].
  destruct b; cbn [guard].
  2:{ left. split; [reflexivity|]. intros M0 HM0. destruct (Q6 eq_refl) as [_ Q7]. destruct (HX M0 x1 HM0 (or_introl eq_refl)) as (M' & _ & HM' & Hp & _). apply (Q7 M' HM'). exists p. split; [left; reflexivity|exact Hp]. }
  assert (M3 : forall M, smodels C s3 M <-> smodels C s2 M /\ mlit M p = true).
  { intros M. rewrite (Q5 eq_refl). split; intros [A B]; (split; [exact A|]); [destruct B as (q & [<-|[]] & Hq); exact Hq|exists p; split; [left; reflexivity|exact B]]. }
  assert (G3 : good C s3).
  { constructor; [exact Q1| |intros Hn; rewrite (grow_dlevel _ _ Q2) in Hn; lia]. apply (cache_mono C s2); [apply HE|apply (gr_exprs _ _ Q2)|rewrite (gr_nv _ _ Q2); lia|intros M HM; apply M3, HM]. }
  assert (E3 : nth_error (theories s3) i = Some (inl o1)) by (rewrite Q3, (e_ths _ _ _ HE); exact E1).
  destruct (put_ok s3 i o1 (add_dom o1 m) G3 E3 eq_refl) as (G4 & E4 & T4 & M4).
  assert (N3 : nv s1 <= nv s3) by (rewrite (gr_nv _ _ Q2); apply HE).
  right. exists (ov_put s3 i (add_dom o1 m)), (add_dom o1 m), m. split; [reflexivity|]. split; [|split; [|split; [|split; [exact HK'|split]]]].
  - constructor.
    + exact G4.
    + exact E4.
    + intros j Hj. rewrite T4, Q3, (e_ths _ _ _ HE), T1 by exact Hj. reflexivity.
    + cbn. lia.
    + change (dlevel s3 = dlevel s). rewrite (grow_dlevel _ _ Q2). lia.
    + intros H. apply (ok_mono s3); [|cbn; lia|intros M HM; apply M4, HM]. apply ok_dom; [|apply HF|intros x l Hx; destruct (fm_rng _ _ _ HF x l Hx); lia].
      apply (ok_cont s3 o); [|exact D1|exact P1]. apply (ok_mono s); [exact H|lia|intros M HM; apply M1, (e_mono _ _ _ HE), M3, HM].
    + intros v m' Hm. cbn. rewrite D1, nth_error_app1 by (apply nth_error_Some; congruence). exact Hm.
    + intros k' q. cbn. rewrite P1. auto.
    + intros M HM. apply M1, (e_mono _ _ _ HE), M3, M4, HM.
  - cbn. rewrite D1. reflexivity.
  - exact P1.
  - intros M HM. apply M4, M3 in HM as [HM2 Hp]. destruct (x_sound _ _ _ _ _ XP ltac:(intros q Hq; destruct (Hlr q Hq) as [-> _]; discriminate) M HM2 Hp) as [H1 (l & Hl1 & El)].
    apply HL' in Hl1 as (x & Hx). exists x. split; [apply HK'; apply (in_map fst) in Hx; exact Hx|]. intros y. split.
    + intros (l' & Hl' & El'). assert (l' = l) by (apply H1; [apply HL'; eauto|apply HL'; eauto|exact El'|exact El]). subst l'. apply (fm_inj _ _ _ HF y x l Hl' Hx).
    + intros ->. exists l. auto.
  - intros M x HM Hx. destruct (HX M x HM Hx) as (M' & Ag & HM' & Hp & Ht). exists M'. split; [exact Ag|]. split; [apply M4, M3; auto|exact Ht].
Qed.

Theorem new_var_exact (s : st) i o items : good C s -> nth_error (theories s) i = Some (inl o) -> 2 <= length items -> dlevel s = 0 -> (exists M, smodels C s M) ->
  exists s' o' m, ov_new_var s i items true = Ok (s', length (odom o)) /\ ostep s i o s' o' /\ odom o' = odom o ++ [m] /\ oexp o' = oexp o /\
    (forall x, In x (map fst m) <-> In x items) /\
    (forall M, smodels C s' M -> exists x, In x items /\ takes1 M m x) /\
    forall M x, smodels C s M -> In x items -> exists M', agree (nv s) M M' /\ smodels C s' M' /\ takes1 M' m x.
Proof. intros G E Hl Hd (M & HM). destruct (new_var_exact_or s i o items G E Hl Hd) as [[_ H]|H]; [destruct (H M HM)|exact H]. Qed.

(** new_var(lits, vals) *)
Lemma emplace_fold : forall es m, NoDup (map fst m) -> NoDup (map fst (fold_left (fun m (e : lit * nat) => emplace (snd e) (fst e) m) es m)) /\
  forall x l, alook x (fold_left (fun m (e : lit * nat) => emplace (snd e) (fst e) m) es m) = Some l <->
    alook x m = Some l \/ (alook x m = None /\ exists es1 es2, es = es1 ++ (l, x) :: es2 /\ ~ In x (map snd es1)).
Proof.
  induction es as [|[l0 x0] es IH]; intros m Hn; cbn [fold_left].
  - split; [exact Hn|]. intros x l. split; [auto|]. intros [H|(_ & es1 & es2 & H & _)]; [exact H|destruct es1; discriminate].
  - cbn [fst snd]. assert (Hn1 : NoDup (map fst (emplace x0 l0 m))).
    { unfold emplace. destruct (alook x0 m) eqn:E; [exact Hn|]. rewrite map_app. cbn. apply (Permutation_NoDup (Permutation_cons_append _ _)). constructor; [apply alook_none, E|exact Hn]. }
    assert (Ha : forall x, alook x (emplace x0 l0 m) = match alook x m with Some l => Some l | None => if Nat.eqb x x0 then Some l0 else None end).
    { intros x. unfold emplace. destruct (alook x0 m) eqn:E.
      - destruct (alook x m) eqn:E'; [reflexivity|]. destruct (Nat.eqb_spec x x0); [congruence|reflexivity].
      - assert (K : forall m', alook x (m' ++ [(x0, l0)]) = match alook x m' with Some l => Some l | None => if Nat.eqb x x0 then Some l0 else None end).
        { induction m' as [|[y k] m' IHm]; cbn; [reflexivity|]. destruct (Nat.eqb x y); [reflexivity|exact IHm]. }
        apply K. }
    destruct (IH _ Hn1) as [H1 H2]. split; [exact H1|]. intros x l. rewrite H2, Ha. destruct (alook x m) as [l'|] eqn:E.
    + split; [intros [H|[H _]]; [auto|discriminate]|]. intros [H|[H _]]; [auto|discriminate].
    + destruct (Nat.eqb_spec x x0) as [->|Hx].
      * split.
        -- intros [H|[H _]]; [|discriminate]. injection H as <-. right. split; [reflexivity|]. exists [], es. split; [reflexivity|intros []].
        -- intros [H|(_ & es1 & es2 & H & Hi)]; [discriminate|]. left. destruct es1 as [|[a b] es1]; cbn in H; [congruence|]. injection H as <- <- _. destruct Hi. left; reflexivity.
      * split.
        -- intros [H|(_ & es1 & es2 & H & Hi)]; [discriminate|]. right. split; [reflexivity|]. exists ((l0, x0) :: es1), es2. split; [rewrite H; reflexivity|]. cbn. intros [K|K]; [congruence|contradiction].
        -- intros [H|(_ & es1 & es2 & H & Hi)]; [discriminate|]. right. split; [reflexivity|]. destruct es1 as [|[a b] es1]; cbn in H; [congruence|]. injection H as <- <- H. exists es1, es2. split; [exact H|]. intros K. apply Hi. right. exact K.
Qed.
Lemma cont_fold id ls : forall o, obnd (fold_left (fun o l => add_cont o (lvar l) id) ls o) = obnd o /\ odom (fold_left (fun o l => add_cont o (lvar l) id) ls o) = odom o /\ oexp (fold_left (fun o l => add_cont o (lvar l) id) ls o) = oexp o.
Proof. induction ls as [|l ls IH]; intros o; cbn; [auto|]. destruct (IH (add_cont o (lvar l) id)) as (A & B & D). rewrite A, B, D. auto. Qed.
Theorem new_var_lits_ok (s : st) i o lits vals : good C s -> nth_error (theories s) i = Some (inl o) -> lits <> [] -> length lits = length vals -> in_scope s lits ->
  exists s' o' m, ov_new_var_lits s i lits vals = Ok (s', length (odom o)) /\ ostep s i o s' o' /\ odom o' = odom o ++ [m] /\ oexp o' = oexp o /\
    (forall x l, In (x, l) m <-> exists n, nth_error vals n = Some x /\ nth_error lits n = Some l /\ forall k, k < n -> nth_error vals k <> Some x) /\
    (forall M, smodels C s' M <-> smodels C s M).
Proof.
  intros G E Hne Hlen Hs. unfold ov_new_var_lits, ov_th. rewrite E. assert (Eg : negb (Nat.eqb (length lits) 0) && Nat.eqb (length lits) (length vals) = true).
  { rewrite Hlen, Nat.eqb_refl. destruct vals; [destruct lits; [contradiction|discriminate]|reflexivity]. }
  rewrite Eg. cbn [guard]. set (m := fold_left (fun m (e : lit * nat) => emplace (snd e) (fst e) m) (combine lits vals) []). 
  assert (Ho : exists o1', fold_left (fun o0 l => add_cont o0 (lvar l) (length (odom o))) lits o = o1' /\ obnd o1' = obnd o /\ odom o1' = odom o /\ oexp o1' = oexp o) by (eexists; split; [reflexivity|apply cont_fold]).
  destruct Ho as (o1 & -> & B1 & B2 & B3). destruct (emplace_fold (combine lits vals) [] ltac:(constructor)) as [Hn Ha]. fold m in Hn, Ha.
  assert (Hm : forall x l, In (x, l) m <-> exists n, nth_error vals n = Some x /\ nth_error lits n = Some l /\ forall k, k < n -> nth_error vals k <> Some x).
  { intros x l. transitivity (alook x m = Some l); [split; [apply alook_nodup, Hn|apply alook_in]|]. rewrite Ha. cbn [alook].
    assert (HC : forall (ls : list lit) (vs : list nat), length ls = length vs -> (exists es1 es2, combine ls vs = es1 ++ (l, x) :: es2 /\ ~ In x (map snd es1)) <-> exists n, nth_error vs n = Some x /\ nth_error ls n = Some l /\ forall k, k < n -> nth_error vs k <> Some x).
    { induction ls as [|a ls IH]; intros [|v vs] HL; cbn in HL; try lia.
      - split; [intros ([|? ?] & es2 & H & _); discriminate|intros ([|n] & H & _); discriminate].
      - cbn [combine]. split.
        + intros ([|e es1] & es2 & H & Hi); cbn in H.
          * injection H as -> -> _. exists 0. split; [reflexivity|]. split; [reflexivity|]. intros k Hk. lia.
          * injection H as <- H. destruct (proj1 (IH vs ltac:(lia))) as (n & A & B & D); [exists es1, es2; split; [exact H|intros K; apply Hi; right; exact K]|].
            exists (S n). split; [exact A|]. split; [exact B|]. intros [|k] Hk; cbn; [intros K; injection K as ->; apply Hi; left; reflexivity|apply D; lia].
        + intros ([|n] & A & B & D); cbn in A, B.
          * injection A as ->. injection B as ->. exists [], (combine ls vs). split; [reflexivity|intros []].
          * destruct (proj2 (IH vs ltac:(lia))) as (es1 & es2 & H & Hi); [exists n; split; [exact A|split; [exact B|intros k Hk; apply (D (S k)); lia]]|].
            exists ((a, v) :: es1), es2. split; [rewrite H; reflexivity|]. cbn. intros [K|K]; [subst v; apply (D 0); [lia|reflexivity]|contradiction]. }
    rewrite <- (HC lits vals Hlen). split; [intros [H|[_ H]]; [discriminate|exact H]|auto]. }
  destruct (put_ok s i o (add_dom o1 m) G E B1) as (G2 & E2 & T2 & M2).
  exists (ov_put s i (add_dom o1 m)), (add_dom o1 m), m. split; [reflexivity|]. split; [|split; [|split; [|split; [exact Hm|exact M2]]]].
  - constructor.
    + exact G2.
    + exact E2.
    + exact T2.
    + cbn. lia.
    + reflexivity.
    + intros H. apply (ok_mono s); [|cbn; lia|intros M HM; apply M2, HM]. apply ok_dom; [apply (ok_cont s o); assumption|exact Hn|].
      intros x l Hx. apply Hm in Hx as (n & _ & Hx & _). apply Hs. eapply nth_error_In, Hx.
    + intros v m' Hv. cbn. rewrite B2, nth_error_app1 by (apply nth_error_Some; congruence). exact Hv.
    + intros k p. cbn. rewrite B3. auto.
    + intros M HM. apply M2, HM.
  - cbn. rewrite B2. reflexivity.
  - exact B3.
Qed.
End OvInv.
End Srt.
