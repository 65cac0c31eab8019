(** The properties of the object variables, stated with the literals that [allows] returns. *)
From Verif Require Import Base Keys Sat SatSpec SatInv SatPop SatMain SatApi SatApi2 SatNext Reify Amo Run Exec SatFacts Listen ThGrow ThRel ThSum Ov OvInv OvEq OvRun OvLis OvExec.
Local Arguments Nat.ltb : simpl never.
Local Arguments Nat.eqb : simpl never.
Section Srt.
Context {sr : sorter}.

(** [v] is a variable of the network in state [s]. *)
Definition ovar (s : ost) (x : nat) : Prop := x < length (odom (oth s)).
(** In [M], the literal that allows(x, v) returns is true. *)
Definition allowed (s : ost) (M : nat -> bool) (x v : nat) : Prop := exists l, ov_allows (oth s) x v = Some l /\ mlit M l = true.

Section OP.
Context (om : list (nat * lit) -> list (nat * lit)) (oi : list nat -> list nat) (Hom : forall m, Permutation m (om m)) (Hoi : forall l, Permutation l (oi l)).
Notation OT := (OTrace om oi).

Lemma ot_good tr s : OT tr s -> ogood tr s (oth s).
Proof. intros H. destruct (otrace_good om oi Hom Hoi tr s H) as (o & HG). unfold oth. rewrite (og_th _ _ _ HG). exact HG. Qed.
Lemma ovar_dom tr s x : ogood tr s (oth s) -> ovar s x -> exists m, nth_error (odom (oth s)) x = Some m /\ dom_of tr x = Some m.
Proof. intros G H. destruct (dom_len tr s (oth s) x G H) as (m & E). exists m. split; [exact E|]. rewrite (og_dom _ _ _ G). exact E. Qed.
Lemma allowed_takes tr s M x m v : ogood tr s (oth s) -> nth_error (odom (oth s)) x = Some m -> M 0 = false -> (allowed s M x v <-> takes M m v).
Proof.
  intros G E H0. unfold allowed, ov_allows. rewrite E. pose proof (ok_nd _ _ _ (og_ok _ _ _ G) m (nth_error_In _ _ E)) as Hn. rewrite (takes_look M m v Hn). destruct (alook v m) as [l|].
  - split; intros (k & A & B); exists k; split; congruence.
  - split; intros (k & A & B); [|discriminate A]. injection A as <-. unfold mlit in B. cbn in B. rewrite H0 in B. discriminate B.
Qed.
Lemma oth_eq (s : ost) o : theories s = [inl o] -> oth s = o.
Proof. intros E. unfold oth. rewrite E. reflexivity. Qed.
(** new_var(items): exactly one value, whichever. *)
Theorem new_exact tr s items : OT tr s -> dlevel s = 0 -> items <> [] -> (exists M, smodels OC s M) ->
  exists s' x, ov_new_var s 0 items true = Ok (s', x) /\ ovar s' x /\ ~ ovar s x /\
    (forall M, smodels OC s' M -> smodels OC s M /\ exists v, In v items /\ forall w, allowed s' M x w <-> w = v) /\
    (forall M v, smodels OC s M -> In v items -> exists M', agree (nv s) M M' /\ smodels OC s' M' /\ forall w, allowed s' M' x w <-> w = v).
Proof.
  intros HT Hd Hne HS. pose proof (ot_good tr s HT) as HG. pose proof HG as [G Et HO Hv Hdm Hex]. assert (E0 : nth_error (theories s) 0 = Some (inl (oth s))) by (rewrite Et; reflexivity).
  assert (Ha : forall (s' : ost) o' m, ostep pureC s 0 (oth s) s' o' -> odom o' = odom (oth s) ++ [m] -> oexp o' = oexp (oth s) ->
    ovar s' (length (odom (oth s))) /\ ~ ovar s (length (odom (oth s))) /\ forall M, M 0 = false -> forall w, allowed s' M (length (odom (oth s))) w <-> takes M m w).
  { intros s' o' m S Ed Ee. destruct (ogood_new tr s (oth s) (ONew items true) [] s' o' m HG S Ed Ee) as [_ HG']. pose proof (oth_eq s' o' (og_th _ _ _ HG')) as Eo. rewrite <- Eo in HG'.
    split; [unfold ovar; rewrite Eo, Ed, app_length; cbn; lia|]. split; [unfold ovar; lia|]. intros M H0 w. apply (allowed_takes _ s' M _ m w HG'); [|exact H0]. rewrite Eo, Ed, nth_error_app2, Nat.sub_diag by lia. reflexivity. }
  destruct items as [|x1 [|x2 r]]; [case Hne; reflexivity| |].
  - destruct (new_var_single pureC s 0 (oth s) x1 true G E0) as (s1 & o1 & m & Eq & S & Ed & Ee & Em & HM & Ht). destruct (Ha s1 o1 m S Ed Ee) as (A1 & A2 & A3). exists s1, (length (odom (oth s))). split; [exact Eq|]. split; [exact A1|]. split; [exact A2|]. split.
    + intros M H. split; [apply HM, H|]. exists x1. split; [left; reflexivity|]. intros w. rewrite (A3 M (sm_false _ _ _ H)). apply Ht, H.
    + intros M v H [<-|[]]. exists M. split; [intros w _; reflexivity|]. split; [apply HM, H|]. intros w. rewrite (A3 M (sm_false _ _ _ H)). apply Ht, HM, H.
  - destruct (new_var_exact pureC s 0 (oth s) (x1 :: x2 :: r) G E0 ltac:(cbn; lia) Hd HS) as (s1 & o1 & m & Eq & S & Ed & Ee & Hk & H1 & H2). destruct (Ha s1 o1 m S Ed Ee) as (A1 & A2 & A3). exists s1, (length (odom (oth s))). split; [exact Eq|]. split; [exact A1|]. split; [exact A2|]. split.
    + intros M H. split; [apply (os_mono _ _ _ _ _ _ S), H|]. destruct (H1 M H) as (v & Hi & Hv'). exists v. split; [exact Hi|]. intros w. rewrite (A3 M (sm_false _ _ _ H)). apply Hv'.
    + intros M v H Hi. destruct (H2 M v H Hi) as (M' & Ag & H' & Ht). exists M'. split; [exact Ag|]. split; [exact H'|]. intros w. rewrite (A3 M' (sm_false _ _ _ H')). apply Ht.
Qed.
(** new_var(items, false): any set of values. *)
Theorem new_free tr s items : OT tr s -> 2 <= length items ->
  exists s' x, ov_new_var s 0 items false = Ok (s', x) /\ ovar s' x /\ ~ ovar s x /\
    (forall M, smodels OC s' M -> smodels OC s M /\ forall w, allowed s' M x w -> In w items) /\
    (forall M (f : nat -> bool), smodels OC s M -> exists M', agree (nv s) M M' /\ smodels OC s' M' /\ forall w, allowed s' M' x w <-> In w items /\ f w = true).
Proof.
  intros HT Hl. pose proof (ot_good tr s HT) as HG. pose proof HG as [G Et HO Hv Hdm Hex]. assert (E0 : nth_error (theories s) 0 = Some (inl (oth s))) by (rewrite Et; reflexivity).
  destruct (new_var_free pureC s 0 (oth s) items G E0 Hl) as (s1 & o1 & m & Eq & S & Ed & Ee & Hk & H2).
  destruct (ogood_new tr s (oth s) (ONew items false) [] s1 o1 m HG S Ed Ee) as [_ HG']. pose proof (oth_eq s1 o1 (og_th _ _ _ HG')) as Eo. rewrite <- Eo in HG'.
  assert (A : forall M, M 0 = false -> forall w, allowed s1 M (length (odom (oth s))) w <-> takes M m w).
  { intros M H0 w. apply (allowed_takes _ s1 M _ m w HG'); [|exact H0]. rewrite Eo, Ed, nth_error_app2, Nat.sub_diag by lia. reflexivity. }
  exists s1, (length (odom (oth s))). split; [exact Eq|]. split; [unfold ovar; rewrite Eo, Ed, app_length; cbn; lia|]. split; [unfold ovar; lia|]. split.
  - intros M H. split; [apply (os_mono _ _ _ _ _ _ S), H|]. intros w. rewrite (A M (sm_false _ _ _ H)). intros (l & Hi & _). apply Hk. apply (in_map fst) in Hi. exact Hi.
  - intros M f H. destruct (H2 M f H) as (M' & Ag & H' & Ht). exists M'. split; [exact Ag|]. split; [exact H'|]. intros w. rewrite (A M' (sm_false _ _ _ H')). apply Ht.
Qed.
(** new_var(lits, vals): the value is controlled by the (first) literal given for it. *)
Theorem new_lits tr s ls vals : OT tr s -> ls <> [] -> length ls = length vals -> in_scope s ls ->
  exists s' x, ov_new_var_lits s 0 ls vals = Ok (s', x) /\ ovar s' x /\ ~ ovar s x /\ (forall M, smodels OC s' M <-> smodels OC s M) /\
    (forall n v l, nth_error vals n = Some v -> nth_error ls n = Some l -> (forall k, k < n -> nth_error vals k <> Some v) -> ov_allows (oth s') x v = Some l) /\
    (forall v, ~ In v vals -> ov_allows (oth s') x v = Some FALSE_lit).
Proof.
  intros HT Hne Hlen Hs. pose proof (ot_good tr s HT) as HG. pose proof HG as [G Et HO Hv Hdm Hex]. assert (E0 : nth_error (theories s) 0 = Some (inl (oth s))) by (rewrite Et; reflexivity).
  destruct (new_var_lits_ok pureC s 0 (oth s) ls vals G E0 Hne Hlen Hs) as (s1 & o1 & m & Eq & S & Ed & Ee & Hm & HM).
  destruct (ogood_new tr s (oth s) (OLits ls vals) [] s1 o1 m HG S Ed Ee) as [_ HG']. pose proof (oth_eq s1 o1 (og_th _ _ _ HG')) as Eo. rewrite <- Eo in HG'.
  assert (En : nth_error (odom (oth s1)) (length (odom (oth s))) = Some m) by (rewrite Eo, Ed, nth_error_app2, Nat.sub_diag by lia; reflexivity).
  exists s1, (length (odom (oth s))). split; [exact Eq|]. split; [unfold ovar; rewrite Eo, Ed, app_length; cbn; lia|]. split; [unfold ovar; lia|]. split; [exact HM|].
  pose proof (ok_nd _ _ _ (og_ok _ _ _ HG') m (nth_error_In _ _ En)) as Hn. unfold ov_allows. rewrite En. split.
  - intros n v l H1 H2 H3. rewrite (alook_nodup v l m Hn); [reflexivity|]. apply Hm. exists n. auto.
  - intros v H. destruct (alook v m) as [l|] eqn:El; [|reflexivity]. exfalso. apply alook_in, Hm in El as (n & H1 & _). apply H, (nth_error_In _ n H1).
Qed.
(** The literals of [allows] never change. *)
Lemma trace_cont tr s : OT tr s -> cont_ok (oth s).
Proof.
  induction 1 as [|fl tr s c s' r HT IH HL HE HA]; [intros [|id] m x l E; discriminate E|]. pose proof (og_th _ _ _ (ot_good tr s HT)) as Et.
  destruct (ocstep_cont om oi fl s s' (oth s) c r Et IH HE) as (o' & E' & H & _). rewrite (oth_eq s' o' E'). exact H.
Qed.
Lemma dom_keep : forall tr2 tr s s', OT tr s -> OT (tr2 ++ tr) s' -> forall x m, nth_error (odom (oth s)) x = Some m -> nth_error (odom (oth s')) x = Some m.
Proof.
  induction tr2 as [|e tr2 IH]; intros tr s s' H H' x m E.
  - rewrite <- (og_dom _ _ _ (ot_good _ _ H') x). cbn [app]. rewrite (og_dom _ _ _ (ot_good _ _ H) x). exact E.
  - cbn [app] in H'. inversion H' as [|fl tr0 s1 c s2 r HT HL HE HA]; subst. specialize (IH tr s s1 H HT x m E).
    destruct (ocstep_cont om oi fl s1 s' (oth s1) c r (og_th _ _ _ (ot_good _ _ HT)) (trace_cont _ _ HT) HE) as (o' & E' & _ & [K _]). rewrite (oth_eq s' o' E'). apply K, IH.
Qed.
Theorem allows_keep tr2 tr s s' x v l : OT tr s -> OT (tr2 ++ tr) s' -> ov_allows (oth s) x v = Some l -> ov_allows (oth s') x v = Some l.
Proof.
  intros H H'. unfold ov_allows. destruct (nth_error (odom (oth s)) x) as [m|] eqn:E; [|discriminate]. rewrite (dom_keep tr2 tr s s' H H' x m E). auto.
Qed.
(** value(): the values whose literal is not false. *)
Theorem value_lists tr s x : OT tr s -> ovar s x -> exists vals, ov_value om s (oth s) x = Some vals /\ NoDup vals /\
  forall v, In v vals <-> exists l, ov_allows (oth s) x v = Some l /\ value s l <> LFalse.
Proof.
  intros HT Hx. pose proof (ot_good tr s HT) as HG. destruct (ovar_dom tr s x HG Hx) as (m & Em & _). destruct (value_in om Hom s (oth s) x m Em) as (vals & Ev & H). pose proof (ok_nd _ _ _ (og_ok _ _ _ HG) m (nth_error_In _ _ Em)) as Hn.
  exists vals. split; [exact Ev|]. split.
  - unfold ov_value in Ev. rewrite Em in Ev. injection Ev as <-. assert (Hp : NoDup (map fst (om m))) by (apply (Permutation_NoDup (l := map fst m)); [apply Permutation_map, Hom|exact Hn]).
    clear -Hp. induction (om m) as [|e r IH]; cbn; [constructor|]. inversion Hp; subst. destruct (negb _); cbn; [|auto]. constructor; [|auto]. intros K. apply H1. apply in_map_iff in K as (y & Ey & Hy). apply filter_In in Hy as [Hy _]. rewrite <- Ey. apply in_map, Hy.
  - intros v. rewrite H. unfold ov_allows. rewrite Em. split; intros (l & A & B).
    + exists l. rewrite (alook_nodup v l m Hn A). auto.
    + destruct (alook v m) as [k|] eqn:Ek; [exists l; split; [apply alook_in; congruence|exact B]|]. injection A as <-. exfalso. apply B. unfold value, vlit. cbn. rewrite (t_a0 s (i_t _ _ (g_inv _ _ (og_good _ _ _ HG)))). reflexivity.
Qed.
Theorem value_sound' tr s x vals M v : OT tr s -> omindful tr -> ov_value om s (oth s) x = Some vals -> otold tr M ->
  (forall d, In d (decisions s) -> In (lvar d) (vis tr) /\ mlit M d = true) -> allowed s M x v -> In v vals.
Proof.
  intros HT Hm Ev HM Hd Ha. pose proof (ot_good tr s HT) as HG. destruct (nth_error (odom (oth s)) x) as [m|] eqn:Em; [|unfold ov_value in Ev; rewrite Em in Ev; discriminate Ev].
  apply (value_sound om oi Hom Hoi tr s (oth s) x m M v vals HT Hm (og_th _ _ _ HG)); auto; [rewrite (og_dom _ _ _ HG); exact Em|]. apply (allowed_takes tr s M x m v HG Em); [apply (otold_false tr M HM)|exact Ha].
Qed.
(** After a propagation that leaves nothing open: the domain is what the solution allows. *)
Theorem value_total' tr s x vals : OT tr s -> total s -> ov_value om s (oth s) x = Some vals -> forall v, In v vals <-> allowed s (values s) x v.
Proof.
  intros HT Ht Ev v. pose proof (ot_good tr s HT) as HG. destruct (nth_error (odom (oth s)) x) as [m|] eqn:Em; [|unfold ov_value in Ev; rewrite Em in Ev; discriminate Ev].
  rewrite (value_total om oi Hom Hoi tr s (oth s) x m vals HT (og_th _ _ _ HG) ltac:(rewrite (og_dom _ _ _ HG); exact Em) Ht Ev). symmetry. apply (allowed_takes tr s _ x m v HG Em).
  unfold values. rewrite (t_a0 s (i_t _ _ (g_inv _ _ (og_good _ _ _ HG)))). reflexivity.
Qed.

(** ** new_eq *)
Theorem eq_meaning tr s x y s' p : OT tr s -> dlevel s = 0 -> ovar s x -> ovar s y -> ov_new_eq om oi s 0 x y = Ok (s', p) ->
  forall M, smodels OC s' M <-> smodels OC s M /\ (mlit M p = true -> forall v, allowed s M x v <-> allowed s M y v) /\ ((exists v, allowed s M x v /\ allowed s M y v) -> mlit M p = true).
Proof.
  intros HT Hd Hx Hy E M. pose proof (ot_good tr s HT) as HG. pose proof HG as [G Et HO Hv Hdm Hex]. assert (E0 : nth_error (theories s) 0 = Some (inl (oth s))) by (rewrite Et; reflexivity).
  destruct (ovar_dom tr s x HG Hx) as (mx & Ex & _). destruct (ovar_dom tr s y HG Hy) as (my & Ey & _). pose proof (OvEq.new_eq_ok pureC om oi Hom Hoi s 0 (oth s) x y mx my G E0 HO Hd Ex Ey) as H. rewrite E in H.
  destruct H as (o' & [S Q1 Q2 Q3 Q4 Q5] & _). rewrite Q5. unfold eq_means. split; intros [H [K1 K2]]; (split; [exact H|]); pose proof (fun v => allowed_takes tr s M x mx v HG Ex (sm_false _ _ _ H)) as Ax; pose proof (fun v => allowed_takes tr s M y my v HG Ey (sm_false _ _ _ H)) as Ay; split.
  - intros Hp v. rewrite Ax, Ay. apply K1, Hp.
  - intros (v & A & B). apply K2. exists v. rewrite <- Ax, <- Ay. auto.
  - intros Hp v. rewrite <- Ax, <- Ay. apply K1, Hp.
  - intros (v & A & B). apply K2. exists v. rewrite Ax, Ay. auto.
Qed.
Theorem eq_single tr s x y s' p : OT tr s -> dlevel s = 0 -> ovar s x -> ovar s y -> ov_new_eq om oi s 0 x y = Ok (s', p) ->
  forall M a b, smodels OC s' M -> (forall v, allowed s M x v <-> v = a) -> (forall v, allowed s M y v <-> v = b) -> (mlit M p = true <-> a = b).
Proof.
  intros HT Hd Hx Hy E M a b HM Ha Hb. apply (eq_meaning tr s x y s' p HT Hd Hx Hy E) in HM as (_ & K1 & K2). split.
  - intros Hp. apply Hb, (K1 Hp), Ha. reflexivity.
  - intros ->. apply K2. exists b. split; [apply Ha|apply Hb]; reflexivity.
Qed.
(** Two variables that share an allowed value allow the same values. *)
Definition agreeing (s : ost) (M : nat -> bool) (x y : nat) : Prop := (exists v, allowed s M x v /\ allowed s M y v) -> forall v, allowed s M x v <-> allowed s M y v.
Theorem eq_conservative tr s x y : OT tr s -> dlevel s = 0 -> ovar s x -> ovar s y -> (exists M, smodels OC s M /\ agreeing s M x y) ->
  exists s' p, ov_new_eq om oi s 0 x y = Ok (s', p) /\ forall M, smodels OC s M -> agreeing s M x y -> exists M', agree (nv s) M M' /\ smodels OC s' M'.
Proof.
  intros HT Hd Hx Hy (M0 & HM0 & HA0). pose proof (ot_good tr s HT) as HG. pose proof HG as [G Et HO Hv Hdm Hex]. assert (E0 : nth_error (theories s) 0 = Some (inl (oth s))) by (rewrite Et; reflexivity).
  destruct (ovar_dom tr s x HG Hx) as (mx & Ex & _). destruct (ovar_dom tr s y HG Hy) as (my & Ey & _). pose proof (OvEq.new_eq_ok pureC om oi Hom Hoi s 0 (oth s) x y mx my G E0 HO Hd Ex Ey) as H.
  assert (HC : forall M, smodels OC s M -> agreeing s M x y -> compat M mx my).
  { intros M H0 HA (v & A & B) w. rewrite <- (allowed_takes tr s M x mx w HG Ex (sm_false _ _ _ H0)), <- (allowed_takes tr s M y my w HG Ey (sm_false _ _ _ H0)). apply HA. exists v.
    split; [apply (allowed_takes tr s M x mx v HG Ex (sm_false _ _ _ H0)), A|apply (allowed_takes tr s M y my v HG Ey (sm_false _ _ _ H0)), B]. }
  destruct (ov_new_eq om oi s 0 x y) as [[s' p]| |]; [|destruct H as [_ H]; destruct (H M0 HM0 (HC M0 HM0 HA0))|destruct H]. destruct H as (o' & [S Q1 Q2 Q3 Q4 Q5] & _).
  exists s', p. split; [reflexivity|]. intros M HM HA. destruct Q3 as [(-> & _ & _)|Hp]; [exists M; split; [intros w _; reflexivity|exact HM]|].
  pose proof (ok_nd _ _ _ HO mx (nth_error_In _ _ Ex)) as Nx. pose proof (ok_nd _ _ _ HO my (nth_error_In _ _ Ey)) as Ny.
  set (bv := existsb (fun v => match alook v mx, alook v my with Some a, Some d => mlit M a && mlit M d | _, _ => false end) (map fst mx)).
  assert (Hbv : bv = true <-> exists v, takes M mx v /\ takes M my v).
  { unfold bv. rewrite existsb_exists. split.
    - intros (v & _ & K). destruct (alook v mx) as [a|] eqn:Ea; [|discriminate K]. destruct (alook v my) as [d|] eqn:Ed; [|discriminate K]. apply andb_prop in K as [K1 K2].
      exists v. split; [exists a; split; [apply alook_in, Ea|exact K1]|exists d; split; [apply alook_in, Ed|exact K2]].
    - intros (v & H1 & H2). apply (takes_look M mx v Nx) in H1 as (a & Ea & Ma). apply (takes_look M my v Ny) in H2 as (d & Ed & Md). exists v. split; [apply alook_in, (in_map fst) in Ea; exact Ea|]. rewrite Ea, Ed, Ma, Md. reflexivity. }
  set (M' := upd M (nv s) (if lsgn p then bv else negb bv)). assert (Ag : agree (nv s) M M') by (intros w Hw; unfold M'; rewrite upd_neq by lia; reflexivity).
  exists M'. split; [exact Ag|]. apply Q5. split; [apply (smodels_agree OC s M); [apply G|exact Ag|exact HM]|].
  assert (Ep : mlit M' p = bv) by (unfold mlit, M'; rewrite Hp, upd_eq; destruct (lsgn p), bv; reflexivity).
  assert (Tx : forall v, takes M mx v <-> takes M' mx v) by (intros v; apply (takes_agree (nv s) M M' mx v Ag); intros z l; apply (ok_rng _ _ _ HO), (nth_error_In _ _ Ex)).
  assert (Ty : forall v, takes M my v <-> takes M' my v) by (intros v; apply (takes_agree (nv s) M M' my v Ag); intros z l; apply (ok_rng _ _ _ HO), (nth_error_In _ _ Ey)).
  split; rewrite Ep.
  - intros K v. rewrite <- Tx, <- Ty. apply (HC M HM HA), Hbv, K.
  - intros (v & A & B). apply Hbv. exists v. rewrite Tx, Ty. auto.
Qed.
Theorem eq_same (s : ost) x : ov_new_eq om oi s 0 x x = Ok (s, TRUE_lit).
Proof. unfold ov_new_eq. rewrite Nat.eqb_refl. reflexivity. Qed.
(** Variables without a common value. *)
Definition shared (o : ovs) (a b : nat) : Prop := exists ma mb v, nth_error (odom o) a = Some ma /\ nth_error (odom o) b = Some mb /\ In v (map fst ma) /\ In v (map fst mb).
Definition exp_shared (o : ovs) : Prop := forall a b p, In ((a, b), p) (oexp o) -> shared o a b.
Lemma items_exp xs : forall (s : ost) i o id m s' o' m', ov_items s i o id xs m = (s', o', m') -> oexp o' = oexp o.
Proof. induction xs as [|x xs IH]; intros s i o id m s' o' m' E; cbn [ov_items] in E; [congruence|]. unfold ov_item in E. destruct (new_var s) as [s1 v]. apply IH in E. exact E. Qed.
Lemma exp_step fl (s s' : ost) o c r o' : theories s = [inl o] -> ocstep om oi fl s c = Ok (s', r) -> theories s' = [inl o'] ->
  oexp o' = oexp o \/ exists a b p, oexp o' = oexp o ++ [((a, b), p)] /\ shared o a b.
Proof.
  intros Et E Et'. destruct c as [c|items e|ls vals|a b]; cbn [ocstep] in E.
  - destruct (step fl s c) as [[s1 r1]| |] eqn:E1; cbn [rbind] in E; try discriminate E. injection E as <- _. apply theories_sat in E1. left. congruence.
  - destruct (ov_new_var s 0 items e) as [[s1 x]| |] eqn:E1; cbn [rbind] in E; try discriminate E. injection E as <- _. unfold ov_new_var, ov_th in E1. rewrite Et in E1. cbn [nth_error] in E1. left.
    assert (Hput : forall (s2 : ost) o2, length (theories s2) = 1 -> theories (ov_put s2 0 o2) = [inl o'] -> o' = o2) by (intros s2 o2 Hl H; cbn in H; destruct (theories s2) as [|? [|? ?]]; cbn in *; congruence).
    destruct items as [|x1 [|x2 xs]]; [discriminate E1| |].
    + injection E1 as <- _. apply Hput in Et'; [|rewrite Et; reflexivity]. subst o'. reflexivity.
    + destruct (ov_items s 0 o (length (odom o)) (x1 :: x2 :: xs) []) as [[s2 o1] m] eqn:Ei. pose proof (items_exp _ _ _ _ _ _ _ _ _ Ei) as Ee. destruct (items_cont _ _ _ _ _ _ _ _ _ Ei ltac:(intros y l [])) as (_ & _ & _ & F). destruct (F _ Et eq_refl) as (t' & T1 & _ & _).
      destruct e.
      * destruct (alooks m (x1 :: x2 :: xs)) as [lits|]; [|discriminate E1].
        destruct (new_exct_one s2 lits) as [[s3 p]| |] eqn:E2; cbn [rbind] in E1; try discriminate E1. destruct (new_clause s3 [p]) as [[s4 bb]| |] eqn:E3; cbn [rbind] in E1; try discriminate E1.
        apply guard_ok in E1 as [_ E1]. injection E1 as <- _. apply K_exct in E2. apply K_new_clause in E3. apply Hput in Et'; [|rewrite E3, E2, T1; reflexivity]. subst o'. exact Ee.
      * injection E1 as <- _. apply Hput in Et'; [|rewrite T1; reflexivity]. subst o'. exact Ee.
  - destruct (ov_new_var_lits s 0 ls vals) as [[s1 x]| |] eqn:E1; cbn [rbind] in E; try discriminate E. injection E as <- _. unfold ov_new_var_lits, ov_th in E1. rewrite Et in E1. cbn [nth_error] in E1.
    apply guard_ok in E1 as [_ E1]. injection E1 as <- _. cbn in Et'. rewrite Et in Et'. cbn in Et'. injection Et' as <-. left. apply cont_fold.
  - destruct (ov_new_eq om oi s 0 a b) as [[s1 p]| |] eqn:E1; cbn [rbind] in E; try discriminate E. injection E as <- _.
    assert (HL : forall l r, ov_new_eq_lt om oi s 0 l r = Ok (s1, p) -> oexp o' = oexp o \/ exists a b p, oexp o' = oexp o ++ [((a, b), p)] /\ shared o a b).
    { intros l r' E2. unfold ov_new_eq_lt, ov_th in E2. rewrite Et in E2. cbn [nth_error] in E2. destruct (elook (l, r') (oexp o)) as [q|]; [left; congruence|].
      destruct (nth_error (odom o) l) as [dl|] eqn:El; [|discriminate E2]. destruct (nth_error (odom o) r') as [dr|] eqn:Er; [|discriminate E2]. cbv zeta in E2. fold (commons om dl dr) in E2.
      destruct (commons om dl dr) as [|y ys] eqn:Ec; [left; congruence|]. destruct (new_var s) as [s2 v] eqn:En. apply K_nv in En.
      destruct (new_clauses s2 _) as [[s3 bb]| |] eqn:E3; cbn [rbind] in E2; try discriminate E2. apply K_new_clauses in E3. apply guard_ok in E2 as [_ E2]. injection E2 as <- _.
      cbn in Et'. rewrite E3, En, Et in Et'. cbn in Et'. injection Et' as <-. right. exists l, r', (mk_lit v true). split; [reflexivity|]. exists dl, dr, y. split; [exact El|]. split; [exact Er|]. apply (commons_in om Hom). rewrite Ec. left. reflexivity. }
    unfold ov_new_eq in E1. destruct (Nat.eqb a b); [left; congruence|]. destruct (Nat.ltb b a); apply (HL _ _ E1).
Qed.
Lemma trace_shared tr s : OT tr s -> exp_shared (oth s).
Proof.
  induction 1 as [|fl tr s c s' r HT IH HL HE HA]; [intros a b p []|]. pose proof (og_th _ _ _ (ot_good tr s HT)) as Et. pose proof (trace_cont tr s HT) as HC.
  destruct (ocstep_cont om oi fl s s' (oth s) c r Et HC HE) as (o' & E' & _ & [K _]). rewrite (oth_eq s' o' E').
  assert (Hk : forall a b, shared (oth s) a b -> shared o' a b) by (intros a b (ma & mb & v & A & B & D); exists ma, mb, v; auto).
  intros a b p Hp. apply Hk. destruct (exp_step fl s s' (oth s) c r o' Et HE E') as [Eq|(a' & b' & p' & Eq & Hs)]; rewrite Eq in Hp; [apply (IH a b p Hp)|].
  apply in_app_or in Hp as [Hp|[Hp|[]]]; [apply (IH a b p Hp)|]. injection Hp as <- <- _. exact Hs.
Qed.
(** The values of variable [x]. *)
Definition odomain (s : ost) (x : nat) : list nat := map fst (nth x (odom (oth s)) []).
Theorem eq_disjoint tr s x y : OT tr s -> ovar s x -> ovar s y -> x <> y -> (forall v, In v (odomain s x) -> ~ In v (odomain s y)) -> ov_new_eq om oi s 0 x y = Ok (s, FALSE_lit).
Proof.
  intros HT Hx Hy Hn Hdis. pose proof (ot_good tr s HT) as HG. pose proof HG as [G Et HO Hv Hdm Hex]. unfold odomain in Hdis.
  assert (HL : forall a b, ovar s a -> ovar s b -> (forall v, In v (map fst (nth a (odom (oth s)) [])) -> ~ In v (map fst (nth b (odom (oth s)) []))) -> ov_new_eq_lt om oi s 0 a b = Ok (s, FALSE_lit)).
  { intros a b Ha Hb Hab. unfold ov_new_eq_lt, ov_th. rewrite Et. cbn [nth_error]. destruct (ovar_dom tr s a HG Ha) as (ma & Ea & _). destruct (ovar_dom tr s b HG Hb) as (mb & Eb & _).
    rewrite (nth_error_nth _ _ [] Ea), (nth_error_nth _ _ [] Eb) in Hab. destruct (elook (a, b) (oexp (oth s))) as [q|] eqn:Ek.
    - exfalso. apply elook_in in Ek. destruct (trace_shared tr s HT a b q Ek) as (ma' & mb' & v & A & B & D & F). assert (ma' = ma) by congruence. assert (mb' = mb) by congruence. subst. apply (Hab v D F).
    - rewrite Ea, Eb. cbv zeta. fold (commons om ma mb). destruct (commons om ma mb) as [|v cm] eqn:Ec; [reflexivity|]. exfalso. assert (K : In v (commons om ma mb)) by (rewrite Ec; left; reflexivity). apply (commons_in om Hom) in K as [K1 K2]. apply (Hab v K1 K2). }
  unfold ov_new_eq. destruct (Nat.eqb_spec x y) as [?|_]; [contradiction|]. destruct (Nat.ltb y x); [|apply (HL x y Hx Hy Hdis)].
  apply (HL y x Hy Hx). intros v A B. apply (Hdis v B A).
Qed.
(** Asking again, in any order, gives the same literal and changes nothing. *)
Theorem eq_again tr s x y s' p : OT tr s -> dlevel s = 0 -> ovar s x -> ovar s y -> ov_new_eq om oi s 0 x y = Ok (s', p) ->
  ov_new_eq om oi s' 0 x y = Ok (s', p) /\ ov_new_eq om oi s' 0 y x = Ok (s', p).
Proof.
  intros HT Hd Hx Hy E. pose proof (ot_good tr s HT) as HG. pose proof HG as [G Et HO Hv Hdm Hex]. assert (E0 : nth_error (theories s) 0 = Some (inl (oth s))) by (rewrite Et; reflexivity).
  assert (HL : forall a b, ovar s a -> ovar s b -> a < b -> ov_new_eq_lt om oi s 0 a b = Ok (s', p) -> ov_new_eq_lt om oi s' 0 a b = Ok (s', p)).
  { intros a b Ha Hb Hab K. destruct (ovar_dom tr s a HG Ha) as (ma & Ea & _). destruct (ovar_dom tr s b HG Hb) as (mb & Eb & _). pose proof (eq_lt_ok pureC om oi Hom Hoi s 0 (oth s) a b ma mb G E0 HO Hd Hab Ea Eb) as H. rewrite K in H. destruct H as (o' & [S Q1 Q2 Q3 Q4 Q5] & [[_ ->]|H]).
    - rewrite K. reflexivity.
    - unfold ov_new_eq_lt, ov_th. rewrite (os_nth _ _ _ _ _ _ S), H. reflexivity. }
  unfold ov_new_eq in *. rewrite (Nat.eqb_sym y x). destruct (Nat.eqb_spec x y) as [->|Hn]; [injection E as <- <-; auto|]. destruct (Nat.ltb_spec y x) as [Hlt|Hge].
  - assert (Hl2 : Nat.ltb x y = false) by (apply Nat.ltb_ge; lia). rewrite Hl2. split; apply (HL y x Hy Hx Hlt E).
  - assert (Hl2 : Nat.ltb x y = true) by (apply Nat.ltb_lt; lia). rewrite Hl2. split; apply (HL x y Hx Hy ltac:(lia) E).
Qed.

(** ** Listeners *)
Theorem listen_hears l x rg0 s0 s0' rg1 s1 rg2 s2 v1 v2 : OHist om oi [] oinit rg0 s0 -> ovar s0 x ->
  2 <= length (nth x (odom (oth s0)) []) -> (forall v p, In (v, p) (nth x (odom (oth s0)) []) -> value s0 p = LUndef) ->
  ov_listen om s0 (oth s0) x l = Ok s0' -> OHist om oi (regs s0 (oth s0) x l ++ rg0) s0' rg1 s1 -> OHist om oi rg1 s1 rg2 s2 ->
  ov_value om s1 (oth s1) x = Some v1 -> ov_value om s2 (oth s2) x = Some v2 -> ~ (forall v, In v v1 <-> In v v2) ->
  exists new, log s2 = new ++ log s1 /\ In x (ov_told (oth s1) new l).
Proof.
  intros H0 Hx Hlen Hu EL H1 H2 V1 V2 Hne.
  assert (Et : forall rg s, OHist om oi [] oinit rg s -> theories s = [inl (oth s)] /\ cont_ok (oth s)).
  { intros rg s H. destruct (ohist_cont om oi _ _ _ _ H ov_empty eq_refl oinit_cont) as (o & E & C & _). rewrite (oth_eq s o E). auto. }
  destruct (Et _ _ H0) as [T0 C0]. assert (H0' : OHist om oi [] oinit (regs s0 (oth s0) x l ++ rg0) s0') by (eapply OH_listen; eassumption).
  pose proof (ohist_trans om oi _ _ _ _ _ _ H0' H1) as H01. destruct (Et _ _ H01) as [T1 C1]. destruct (Et _ _ (ohist_trans om oi _ _ _ _ _ _ H01 H2)) as [T2 _].
  destruct (nth_error (odom (oth s0)) x) as [m|] eqn:Em; [|apply nth_error_None in Em; unfold ovar in Hx; lia]. rewrite (nth_error_nth _ _ [] Em) in Hlen, Hu.
  assert (Em1 : nth_error (odom (oth s1)) x = Some m).
  { destruct (ohist_cont om oi _ _ _ _ H1 (oth s0)) as (o & E & _ & [K _]); [unfold ov_listen in EL; rewrite Em in EL; destruct (Nat.ltb 1 _) in EL; [rewrite (listen_ths l _ _ _ EL); exact T0|congruence]|exact C0|]. rewrite (oth_eq s1 o E). apply K, Em. }
  assert (Hin : forall y p, In (y, p) m -> In (l, lvar p) rg1).
  { intros y p Hi. apply (ohist_mono om oi _ _ _ _ H1). apply in_or_app; left. unfold regs. rewrite Em.
    assert (Ef : filter (fun e => negb (is_false s0 (snd e))) m = m) by (clear -Hu; induction m as [|[a b] m IH]; cbn; [reflexivity|]; unfold is_false; rewrite (Hu a b (or_introl eq_refl)); cbn; f_equal; apply IH; intros v p Hi; apply (Hu v p); right; exact Hi).
    rewrite Ef, (proj2 (Nat.ltb_lt 1 (length m))) by lia. apply in_map_iff. exists (y, p). split; [reflexivity|]. apply filter_In. split; [exact Hi|]. cbn. unfold is_undef. rewrite (Hu y p Hi). reflexivity. }
  destruct (ov_listen_hears om oi Hom Hoi rg1 s1 rg2 s2 (oth s1) (oth s2) l x m v1 v2 H01 H2 T1 T2 Em1 Hin V1 V2 Hne) as (new & w & b & El & Hl & Hc).
  exists new. split; [exact El|]. unfold ov_told. apply in_flat_map. exists (l, w, b). split; [exact Hl|]. cbn [fst snd]. rewrite Nat.eqb_refl. apply in_rev. rewrite rev_involutive. exact Hc.
Qed.
End OP.
End Srt.
