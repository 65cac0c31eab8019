(** Difference logic in a network with at most one constraint between two variables and at most one open decision: the
    clauses the theory records are explained by what has been told since the decision, given what is known at root level. *)
From Verif Require Import Base Keys Sat SatSpec SatInv SatMain SatApi Run Lin Qe Dw Dl DlClo DlTight DlEdge DlTh DlFacts DlVal DlRoot.
From Coq Require Import Lqa.
Open Scope nat_scope.
Local Arguments Nat.ltb : simpl never.
Local Arguments Nat.eqb : simpl never.
Section Srt.
Context {sr : sorter}.

(** A difference logic theory that listens at the first two levels only: above them nothing is forwarded, so that it has
    nothing to undo.  A network with at most one open decision never gets there. *)
Section Flat.
Context {D : Type} {W : wops D} (L : wlaws W).
Notation "a +' b" := (wadd W a b) (at level 50, left associativity).
Notation "-' a" := (wneg W a) (at level 35).
Notation dl := (dl D).
Notation dcon := (dcon D).

Definition flat_push (t : dl * nat) : dl * nat := match snd t, dlayers (fst t) with 0, [] => (dl_push (fst t), 0) | n, _ => (fst t, S n) end.
Definition flat_pop (t : dl * nat) : dl * nat := match snd t with 0 => (dl_pop (fst t), 0) | S n => (fst t, n) end.
Definition flat_ops {sr : sorter} : theory_ops (dl * nat) :=
  mk_ops
    (fun t val p => if snd t =? 0 then '(t', ls, cf) <- dl_prop W (fst t) val p ;; Ok ((t', 0), ls, cf) else Ok (t, [], None))
    (fun t val => if snd t =? 0 then '(t', cf) <- dl_check W (fst t) val ;; Ok ((t', 0), cf) else Ok (t, None))
    flat_push flat_pop sr.

(** ** The invariant above root level: paths are made of distances known at root level and of enforced constraints. *)
Definition uniq (t : dl) : Prop := forall c c', In c (dcons t) -> In c' (dcons t) -> same_pair c c' -> c = c'.
Definition edge1 (t : dl) (ps : list lit) (u v : nat) (x : D) : Prop := dle L (dists (dl_pop t) u v) x \/ enforced (W := W) t ps u v x.
Record UpInv (t : dl) (ps : list lit) : Prop := {
  up_mono : forall u v x, dle L (dists (dl_pop t) u v) x -> dle L (dists t u v) x;
  up_paths : paths L (edge1 t ps) (dists t) (preds t) }.
Lemma push_up t ps : DCore L t ps -> UpInv (dl_push t) ps.
Proof.
  intros HC. constructor; rewrite ?pop_push; [auto|]. intros r v Hv. apply (path_ext L (virt L (dists t)) _ (dists t) (preds t)); auto; [|apply (dc_paths L _ _ HC r v Hv)].
  intros i j x H. left. rewrite pop_push. exact H.
Qed.
Lemma edge1_le t ps u v x : DCore L t ps -> UpInv t ps -> edge1 t ps u v x -> dle L (dists t u v) x.
Proof. intros HC HU [H|H]; [apply (up_mono _ _ HU), H|apply (enforced_le L t ps); assumption]. Qed.
Lemma same_up t ps p : UpInv t ps -> UpInv t (p :: ps).
Proof.
  intros [A B]. constructor; [exact A|]. intros r x Hx. apply (path_ext L (edge1 t ps) _ (dists t) (preds t)); auto.
  intros i j w [K|(c0 & Ek & He)]; [left; exact K|right]. exists c0. split; [exact Ek|]. unfold edge_of in *. cbn [In] in *. tauto.
Qed.
(** A propagation keeps it. *)
Lemma prop_up t ps p c val t' : DCore L t ps -> UpInv t ps -> uniq t -> In c (dcons t) -> lvar (c_b c) = lvar p -> reads val (p :: ps) ->
  (forall x, dists t (e_to c p) (e_from c p) = Some x -> wle L (w0 W) (e_w (W := W) c p +' x)) ->
  sim L (dl_pop t) (dl_pop t') -> updated L (e_from c p) (e_to c p) (e_w (W := W) c p) (dists t) (preds t) (dists t') (preds t') -> reached L (e_from c p) (e_to c p) (e_w (W := W) c p) (dists t) (dists t') ->
  dist_constr t' = kemplace (e_from c p, e_to c p) c (dist_constr t) -> kfind (e_from c p, e_to c p) (dist_constr t') = Some c /\ UpInv t' (p :: ps).
Proof.
  intros HC HI H1 Hc Ev HR Hcon HS HU HRe Edc. pose proof (dc_cons L _ _ HC c Hc) as (Hw & Hc1 & Hc2 & Hne & Hs).
  set (f := e_from c p) in *. set (g := e_to c p) in *. set (w := e_w c p) in *.
  assert (Hfg : f <> g) by (subst f g; unfold e_from, e_to; destruct (lsgn p); auto).
  assert (Hk : kfind (f, g) (dist_constr t') = Some c).
  { rewrite Edc, kfind_emplace. destruct (kfind (f, g) (dist_constr t)) as [c0|] eqn:Ek; [|rewrite key_eqb_refl; reflexivity].
    f_equal. apply kfind_In in Ek. destruct (dc_enf L _ _ HC _ _ Ek) as [Hc0 Hk]. apply H1; auto. subst f g. unfold same_pair. unfold e_from, e_to in Hk. destruct (lsgn p); destruct Hk as [[_ K]|[_ K]]; injection K as K1 K2; rewrite K1, K2; auto. }
  split; [exact Hk|]. constructor.
  - intros u v x K. rewrite (sm_d _ _ _ HS) in K. apply (upd_le L f g w (dists t) (preds t) (dists t') (preds t') u v x HU), (up_mono _ _ HI), K.
  - apply (paths_edge L f g w (dists t) (preds t) (dc_closed L _ _ HC)) with (E := edge1 t ps); auto.
    + intros u v x. apply edge1_le; assumption.
    + intros u v x [K|(c0 & Ek & He)]; [left; rewrite (sm_d _ _ _ HS); exact K|right]. exists c0. rewrite Edc, kfind_emplace, Ek. split; [reflexivity|]. unfold edge_of in *. cbn [In] in *. tauto.
    + right. exists c. split; [exact Hk|]. apply (edge_told t ps c p); auto.
    + apply HI.
Qed.

(** ** Explanations. *)
Lemma walk_valid1 t ps val r y : DCore L t ps -> reads val ps -> vals_ok L y -> respects L (dists (dl_pop t)) y ->
  forall v, path L (edge1 t ps) (dists t) (preds t) r v -> forall fuel e, walk fuel t val r v = Ok e ->
  (exists q, In q e /\ lit_true L t y q) \/ (exists a, dists t r v = Some a /\ wsat L a (y v - y r)%Q).
Proof.
  intros HC [Hn Hr] Hy Hroot v HP. induction HP as [|u v Hv Eu HP IH (a & b & c & Ea & Eb & Ec & Hle)]; intros fuel e Ew.
  { right. exists (w0 W). split; [apply (cl_diag L _ (dc_closed L _ _ HC))|]. apply evt_all. intros d _. rewrite (ev_0 _ L). lra. }
  destruct fuel as [|f]; cbn in Ew; (destruct (Nat.eqb_spec v r); [contradiction|]); [discriminate|]. rewrite Eu in Ew. destruct (walk f t val r u) as [e'| |] eqn:Ew'; cbn in Ew; try discriminate. injection Ew as <-.
  destruct (IH f e' Ew') as [(q & Hq & Ht)|(a' & Ea' & Ha)]; [left; exists q; split; [apply in_or_app; auto|exact Ht]|]. rewrite Ea in Ea'. injection Ea' as <-.
  assert (Hb : wsat L b (y v - y u)%Q -> exists a0, dists t r v = Some a0 /\ wsat L a0 (y v - y r)%Q).
  { intros Hb. exists c. split; [exact Ec|]. apply (wsat_le L (a +' b)); [exact Hle|]. apply (wsat_eq L _ ((y u - y r) + (y v - y u))%Q); [ring|]. apply wsat_add; assumption. }
  destruct Eb as [(x & Ex & Hx)|(k & Ek & He)]; [right; apply Hb, (wsat_le L x); [exact Hx|apply Hroot, Ex]|].
  pose proof Ek as Ek'. apply kfind_In in Ek'. destruct (dc_enf L _ _ HC _ _ Ek') as [Hk _]. pose proof (dc_cons L _ _ HC k Hk) as Hg. pose proof Hg as (Hw & _ & _ & _ & Hs).
  destruct (sat_dec _ L (c_w k) (y (c_to k) - y (c_from k))%Q) as [Hd|Hd].
  - destruct He as [(Hp & -> & -> & ->)|(Hp & -> & -> & ->)]; [right; apply Hb, Hd|]. left. exists (c_b k). split; [|exists k; rewrite Hs; auto].
    apply in_or_app. left. unfold edge_lits. rewrite Ek. pose proof (Hr _ Hp) as K. rewrite Hn in K. destruct (val (c_b k)); try discriminate. left. reflexivity.
  - destruct He as [(Hp & -> & -> & ->)|(Hp & -> & -> & ->)].
    + left. exists (negl (c_b k)). split; [|exists k; cbn; rewrite Hs; auto]. apply in_or_app. left. unfold edge_lits. rewrite Ek, (Hr _ Hp). left. reflexivity.
    + right. apply Hb. pose proof (e_sat L _ k (negl (c_b k)) y Hg Hy) as HS. unfold e_w, e_to, e_from in HS. cbn in HS. rewrite Hs in HS. apply HS, Hd.
Qed.
Lemma explain_valid1 t ps val r v e y x : DCore L t ps -> UpInv t ps -> reads val ps -> vals_ok L y -> respects L (dists (dl_pop t)) y -> dists t r v = Some x -> explain t val r v = Ok e ->
  (exists q, In q e /\ lit_true L t y q) \/ wsat L x (y v - y r)%Q.
Proof.
  intros HC HU HR Hy Hroot Ex Ee. destruct (walk_valid1 t ps val r y HC HR Hy Hroot v (up_paths _ _ HU r v ltac:(congruence)) _ _ Ee) as [H|(a & Ea & H)]; [auto|]. rewrite Ex in Ea. injection Ea as <-. auto.
Qed.
(** An explanation without literals: the distance is known at root level. *)
Lemma walk_empty t ps val r : DCore L t ps -> closed L (dists (dl_pop t)) -> reads val ps ->
  forall v, path L (edge1 t ps) (dists t) (preds t) r v -> forall fuel, walk fuel t val r v = Ok [] -> exists x, dists t r v = Some x /\ dle L (dists (dl_pop t) r v) x.
Proof.
  intros HC0 HC [Hn Hr] v HP.
  induction HP as [|u v Hv Eu HP IH (a & b & c & Ea & Eb & Ec & Hle)]; intros fuel Ew.
  { exists (w0 W). split; [apply (cl_diag L _ (dc_closed L _ _ HC0))|]. exists (w0 W). split; [apply (cl_diag L _ HC)|apply wle_refl]. }
  exists c. split; [exact Ec|].
  destruct fuel as [|f]; cbn in Ew; (destruct (Nat.eqb_spec v r); [contradiction|]); [discriminate|]. rewrite Eu in Ew. destruct (walk f t val r u) as [e'| |] eqn:Ew'; cbn in Ew; try discriminate.
  injection Ew as Ew. apply app_eq_nil in Ew as [Ee ->].
  assert (Hb : dle L (dists (dl_pop t) u v) b).
  { destruct Eb as [K|(k & Ek & He)]; [exact K|]. exfalso. unfold edge_lits in Ee. rewrite Ek in Ee. destruct He as [(Hp & _)|(Hp & _)]; [rewrite (Hr _ Hp) in Ee; discriminate|].
    pose proof (Hr _ Hp) as K. rewrite Hn in K. destruct (val (c_b k)); discriminate. }
  destruct (IH f Ew') as (a' & Ea' & x & Ex & Hx).
  rewrite Ea in Ea'. injection Ea' as <-. destruct Hb as (y & Ey & Hy). destruct (cl_tri L _ HC r u v x y Ex Ey) as (z & Ez & Hz). exists z. split; [exact Ez|]. wlra L.
Qed.
(** A distance that has changed is explained by the new edge among others. *)
Lemma walk_new t ps t' val r f g w (c : dcon) p : DCore L t ps -> (forall x, dists t g f = Some x -> wle L (w0 W) (w +' x)) -> updated L f g w (dists t) (preds t) (dists t') (preds t') -> reached L f g w (dists t) (dists t') ->
  In (negl p) (edge_lits t' val f g) ->
  forall v, path L (virt L (dists t')) (dists t') (preds t') r v -> dists t' r v <> dists t r v -> forall fuel e, walk fuel t' val r v = Ok e -> In (negl p) e.
Proof.
  intros HC Hcon HU HRe Hlit v HP. pose proof (dc_closed L _ _ HC) as HCl.
  induction HP as [|u v Hv Eu HP IH _]; intros Hd fuel e Ew; [exfalso; apply Hd, (diag_same L f g w (dists t) (preds t) HCl Hcon _ _ r HU)|].
  destruct fuel as [|n]; cbn in Ew; (destruct (Nat.eqb_spec v r); [contradiction|]); [discriminate|]. rewrite Eu in Ew. destruct (walk n t' val r u) as [e'| |] eqn:Ew'; cbn in Ew; try discriminate. injection Ew as <-.
  apply in_or_app. destruct (HU r v) as [[K _]|(a1 & b1 & c1 & A1 & B1 & C1 & W1 & Hlt & _ & Hp)]; [contradiction|]. rewrite Eu in Hp.
  destruct (Nat.eqb_spec v g) as [->|Hvg]; [injection Hp as ->; left; exact Hlit|]. right. apply (IH) with (2 := Ew'). intros Ed.
  pose proof (dc_paths L _ _ HC g v ltac:(congruence)) as HP'. inversion HP' as [|u' v' _ Eu' _ (a2 & b' & b2 & Ea2 & (x & Ex & Hx) & Eb2 & Hle)]; [congruence|]. subst v'.
  rewrite Eu' in Hp. injection Hp as ->. assert (b2 = b1) as -> by congruence.
  destruct (HRe r u' a1 a2 A1 Ea2) as (z & Ez & Hz). rewrite Ed in Ez. destruct (cl_tri L _ HCl r u' v z x Ez Ex) as (q & Eq & Hq). rewrite Eq in Hlt. cbn in Hlt. unfold cand in *. refine (wlt_not_le L _ _ Hlt _). wlra L.
Qed.

(** ** The clauses that are recorded above root level. *)
Lemma lit_true_model t M y q : (forall c, In c (dcons t) -> lsgn (c_b c) = true) -> (forall c, In c (dcons t) -> (mlit M (c_b c) = true <-> con_sat L c y)) -> lit_true L t y q -> mlit M q = true.
Proof.
  intros Hs J (c & Hc & Ev & H). specialize (J c Hc). specialize (Hs c Hc). destruct (c_b c) as [cv cs], q as [qv s]. cbn in *. subst. unfold mlit in *. cbn in *. destruct s, (M qv); cbn in *; try reflexivity; exfalso; intuition congruence.
Qed.
Lemma tell_lemmas1 t ps (tm : (nat -> bool) -> Prop) (old : dl) (p : lit) : DCore L t ps -> UpInv t ps -> dcons old = dcons t ->
  (forall M, tm M -> exists y, vals_ok L y /\ (forall c, In c (dcons t) -> (mlit M (c_b c) = true <-> con_sat L c y)) /\ respects L (dists (dl_pop t)) y) ->
  (forall val r v e, reads val ps -> dists t r v <> dists old r v -> dists t r v <> None -> explain t val r v = Ok e -> In (negl p) e) ->
  forall l val ls val' ls', reads val ps -> (forall c, In c (dcons t) -> val (c_b c) = LUndef -> ~ decided (W := W) old c) -> (forall c, In c l -> In c (dcons t)) -> rfold (tell_step W t) l (val, ls) = Ok (val', ls') ->
  exists ex, ls' = ls ++ ex /\ lemmas_at True tm (atom t) p val ex val'.
Proof.
  intros HC HU Eold Htm Hp. induction l as [|c l IH]; intros val ls val' ls' HR Hund Hl; cbn [rfold].
  { intros E. injection E as <- <-. exists []. rewrite app_nil_r. split; [reflexivity|constructor]. }
  assert (Hn := proj1 HR). assert (Hl' : forall x, In x l -> In x (dcons t)) by (intros x Hx; apply Hl; right; exact Hx).
  pose proof (Hl c (or_introl eq_refl)) as Hc. pose proof (dc_cons L _ _ HC c Hc) as (Hw & Hf & Ht & _ & Hsg).
  assert (Hsgn : forall k, In k (dcons t) -> lsgn (c_b k) = true) by (intros k Hk; apply (dc_cons L _ _ HC k Hk)).
  assert (Hstep : forall h e, lvar h = lvar (c_b c) -> val h = LUndef -> (forall q, In q e -> val q = LFalse) -> In (negl p) e -> NoDup e ->
    (forall M y, tm M -> vals_ok L y -> (forall k, In k (dcons t) -> (mlit M (c_b k) = true <-> con_sat L k y)) -> respects L (dists (dl_pop t)) y -> (exists q, In q e /\ lit_true L t y q) \/ mlit M h = true) ->
    rfold (tell_step W t) l (assume_val h val, ls ++ [h :: e]) = Ok (val', ls') -> exists ex, ls' = ls ++ ex /\ lemmas_at True tm (atom t) p val ex val').
  { intros h e Ev Hu He Hpe Hnd Hv E. assert (Hund' : forall k, In k (dcons t) -> assume_val h val (c_b k) = LUndef -> ~ decided (W := W) old k) by (intros k Hk Uk; apply Hund; [exact Hk|]; apply (assume_undef val h _ Hn Uk)).
    destruct (IH _ _ _ _ (assume_reads val ps h HR Hu) Hund' Hl' E) as (ex & Ee & HL).
    exists ((h :: e) :: ex). split; [rewrite Ee, <- app_assoc; reflexivity|]. constructor.
    - exact Hu.
    - exists c. auto.
    - apply Forall_forall, He.
    - intros _. exact Hpe.
    - apply nodup_filter', Hnd.
    - intros M _ HM. destruct (Htm M HM) as (y & Hy & J & Hresp). destruct (Hv M y HM Hy J Hresp) as [(q & Hq & Ht')|Hh]; [|exists h; split; [left; reflexivity|exact Hh]].
      exists q. split; [right; exact Hq|]. apply (lit_true_model t M y q Hsgn J Ht').
    - exact HL. }
  unfold tell_step at 1. destruct (val (c_b c)) eqn:Ev; try (cbn [rbind]; apply IH; assumption).
  pose proof (Hund c Hc Ev) as Hnd. unfold decided in Hnd.
  destruct (dist_lt W (dists t (c_to c) (c_from c)) (Some (-' c_w c))) eqn:E1; [|destruct (dist_le W (dists t (c_from c) (c_to c)) (Some (c_w c))) eqn:E2].
  - destruct (explain t val (c_to c) (c_from c)) as [e| |] eqn:Ee; cbn [rbind]; try discriminate. pose proof (proj1 (dist_lt_some L _ _) E1) as (x & Ex & Hx). apply Hstep.
    + apply lvar_negl.
    + rewrite Hn, Ev. reflexivity.
    + intros q Hq. apply (explain_defd L t ps val val (c_to c) (c_from c) e HC HR HR Ee q Hq).
    + apply (Hp val (c_to c) (c_from c) e HR); [|congruence|exact Ee]. intros K. rewrite K in E1. tauto.
    + apply (explain_nodup L t ps val (c_to c) (c_from c) e HC HR); [congruence|exact Ee].
    + intros M y HM Hy J Hresp. destruct (explain_valid1 t ps val _ _ e y x HC HU HR Hy Hresp Ex Ee) as [K|K]; [auto|]. right. rewrite mlit_negl. destruct (mlit M (c_b c)) eqn:Em; [|reflexivity]. exfalso.
      apply J in Em; [|exact Hc]. unfold con_sat, wlt, wsat in *. destruct (evt_ex _ (evt_and _ _ Hx (evt_and _ _ K Em))) as (e0 & _ & A' & B' & C'). rewrite (ev_neg _ L) in A'. lra.
  - destruct (explain t val (c_from c) (c_to c)) as [e| |] eqn:Ee; cbn [rbind]; try discriminate. pose proof (proj1 (dist_le_some L _ _) E2) as (x & Ex & Hx). apply Hstep.
    + reflexivity.
    + exact Ev.
    + intros q Hq. apply (explain_defd L t ps val val (c_from c) (c_to c) e HC HR HR Ee q Hq).
    + apply (Hp val (c_from c) (c_to c) e HR); [|congruence|exact Ee]. intros K. rewrite K in E2. tauto.
    + apply (explain_nodup L t ps val (c_from c) (c_to c) e HC HR); [congruence|exact Ee].
    + intros M y HM Hy J Hresp. destruct (explain_valid1 t ps val _ _ e y x HC HU HR Hy Hresp Ex Ee) as [K|K]; [auto|]. right. apply J; [exact Hc|]. apply (wsat_le L x); assumption.
  - cbn [rbind]. apply IH; try assumption.
Qed.

(** ** The contract. *)
Definition finv (t : dl * nat) (vs : list (list lit)) : Prop :=
  uniq (fst t) /\
  ((snd t = 0 /\ exists v, vs = [v] /\ DReach L (fst t) [v]) \/
   (exists ups v1 v0, vs = ups ++ [v1; v0] /\ length ups = snd t /\ DReach L (fst t) [v1; v0] /\ UpInv (fst t) (v1 ++ v0))).
(** What the theory has decided [m] levels below. *)
Definition ffixed (t : dl * nat) (m v : nat) : Prop :=
  exists c, In c (dcons (fst t)) /\ lvar (c_b c) = v /\ m - snd t <= length (dlayers (fst t)) /\ decided (W := W) (popn (m - snd t) (fst t)) c.
Lemma root_layers t v : DReach L t [v] -> dlayers t = [].
Proof. intros H. apply reach_inv in H. inversion H as [? ? E|? ? ? ? ? _ _ _ HI]; subst; [exact E|]. inversion HI. Qed.
Lemma up_layers t v1 v0 : DReach L t [v1; v0] -> exists l, dlayers t = [l] /\ DInv L (dl_pop t) [v0].
Proof.
  intros H. apply reach_inv in H. inversion H as [|? ? ? l r E _ _ HI]; subst. exists l. split; [|exact HI]. inversion HI as [? ? E'|? ? ? ? ? _ _ _ HI']; subst; [|inversion HI'].
  unfold dl_pop in E'. rewrite E in E'. cbn in E'. subst r. exact E.
Qed.
Lemma decided_d (t t' : dl) c : (forall i j, dists t' i j = dists t i j) -> decided (W := W) t' c -> decided (W := W) t c.
Proof. intros E. unfold decided. rewrite !E. auto. Qed.
Lemma finv_up t n v vs : finv (t, n) (v :: vs) -> n <> 0 -> forall v', finv (t, n) (v' :: vs).
Proof.
  intros [Hu [[E _]|(ups & v1 & v0 & E & Hl & H)]] Hn v'; [cbn in E; contradiction|]. split; [exact Hu|]. right. destruct ups as [|u ups]; [cbn in Hl; congruence|]. cbn in E. injection E as _ ->. exists (v' :: ups), v1, v0. auto.
Qed.
Lemma finv_cases t v vs : finv (t, 0) (v :: vs) -> uniq t /\ ((vs = [] /\ DReach L t [v]) \/ (exists v0, vs = [v0] /\ DReach L t [v; v0] /\ UpInv t (v ++ v0))).
Proof.
  intros [Hu [[_ (v' & E & H)]|(ups & v1 & v0 & E & Hl & H)]]; (split; [exact Hu|]).
  - injection E as <- ->. auto.
  - destruct ups as [|u ups]; [|cbn in Hl; discriminate]. cbn in E. injection E as <- ->. right. exists v0. auto.
Qed.
Lemma flat_fixed : fixed_rules flat_ops (fun t => atom (fst t)) finv ffixed.
Proof.
  constructor.
  - intros [t k] n v (c & Hc & Ev & _). exists c. auto.
  - intros [t k] vs n v [Hu HI] (c & Hc & Ev & Hm & Hd). exists c. cbn [th_push flat_ops] in *. cbn [fst snd] in *.
    destruct HI as [[E0 (v' & Evs & HR)]|(ups & v1 & v0 & Evs & Hl & HR & _)]; cbn [fst snd] in *.
    + subst k. pose proof (root_layers t v' HR) as El. assert (Ep : flat_push (t, 0) = (dl_push t, 0)) by (unfold flat_push; cbn [fst snd]; rewrite El; reflexivity). rewrite Ep in *.
      cbn [fst snd length dlayers dl_push dcons set_dlayers] in *. rewrite El in *. cbn [length] in *. rewrite Nat.sub_0_r in *.
      destruct n as [|[|n]]; [| |lia]; cbn [popn Nat.pred Nat.sub] in *; (split; [exact Hc|]); (split; [exact Ev|]); (split; [lia|]); [|rewrite pop_push in Hd; exact Hd].
      apply (decided_d t (dl_push t)); [reflexivity|exact Hd].
    + destruct (up_layers t v1 v0 HR) as (l & El & _). assert (Ep : flat_push (t, k) = (t, S k)) by (unfold flat_push; cbn [fst snd]; rewrite El; destruct k; reflexivity). rewrite Ep in *. cbn [fst snd] in *.
      split; [exact Hc|]. split; [exact Ev|]. rewrite El in *. replace (Nat.pred n - k) with (n - S k) by lia. auto.
  - intros [t k] v w vs n x [Hu HI] (c & Hc & Ev & Hm & Hd). exists c. cbn [th_pop flat_ops] in *. unfold flat_pop in *. cbn [fst snd] in *. destruct k as [|k]; cbn [fst snd] in *.
    + assert (El : exists l, dlayers t = [l]).
      { destruct HI as [[_ (v' & E & _)]|(ups & v1 & v0 & E & Hl & HR & _)]; [discriminate|]. destruct (up_layers t v1 v0 HR) as (l & El & _). eauto. }
      destruct El as (l & El). unfold dl_pop in Hc, Hm. rewrite El in *. cbn in Hc, Hm. rewrite Nat.sub_0_r in *. cbn [length popn]. split; [exact Hc|]. split; [exact Ev|]. split; [lia|exact Hd].
    + replace (S n - S k) with (n - k) by lia. auto.
  - intros [t k] v vs val p t' ls cf n x HI Ha Hn HT HV HP Hdef Hp E Hx. cbn [th_prop flat_ops fst snd] in *. destruct k as [|k]; [|cbn [Nat.eqb] in E; injection E as <- <- <-; auto]. change (0 =? 0) with true in E. cbn iota in E.
    destruct (dl_prop W t val p) as [[[t1 ls1] cf1]| |] eqn:E1; cbn [rbind] in E; try discriminate. injection E as <- <- <-.
    destruct (finv_cases t v vs HI) as [Hu HI']. assert (HR : DReach L t (v :: vs)) by (destruct HI' as [[-> K]|(v0 & -> & K & _)]; exact K).
    pose proof (reach_core L _ _ HR) as HC. assert (Hrd : reads val (p :: concat (v :: vs))) by (split; [exact Hn|intros q [<-|Hq]; auto]).
    pose proof Ha as (c0 & Hc0 & Ev0). destruct Hx as (c & Hc & Ev & Hm & Hd). cbn [fst snd] in *. rewrite Nat.sub_0_r in *.
    destruct (prop_core L t _ p c0 val HC Hc0 Ev0 Hrd) as [(e & E & _)|[(E & _)|(t2 & us & val' & ls2 & E & HC' & HF & HS & _)]]; rewrite E in E1; injection E1 as <- <- <-.
    1, 2: left; exists c; cbn [fst snd]; rewrite Nat.sub_0_r; auto.
    pose proof (fo_cons _ _ HF) as Ecs. rewrite Ecs in Hc.
    destruct n as [|n].
    + cbn [popn] in Hd. destruct (val (c_b c)) eqn:Evc.
      1, 2: right; split; [reflexivity|]; left; subst x; destruct (dc_cons L _ _ HC c Hc) as (_ & _ & _ & _ & Hs); destruct (c_b c) as [cv cs]; cbn in *; subst cs; congruence.
      destruct (dist_lt W (dists t (c_to c) (c_from c)) (Some (-' c_w c))) eqn:D1; [|destruct (dist_le W (dists t (c_from c) (c_to c)) (Some (c_w c))) eqn:D2].
      1, 2: left; exists c; cbn [fst snd popn]; (split; [exact Hc|]); (split; [exact Ev|]); (split; [lia|]); unfold decided; cbn; auto.
      right. split; [reflexivity|]. right. destruct (prop_complete L t _ val p t2 ls2 HC Ha Hrd E c Hc Evc) as (h & e & Hin & Eh); [unfold decided; rewrite D1, D2; intuition congruence|exact Hd|].
      exists h, e. split; [exact Hin|congruence].
    + left. exists c. cbn [fst snd]. rewrite Nat.sub_0_r. split; [exact Hc|]. split; [exact Ev|].
      destruct HI' as [[-> K]|(v0 & -> & K & _)].
      * exfalso. pose proof (root_layers t v K) as El. destruct (fo_lay _ _ HF) as [[_ El']|(l & r & l' & El' & _)]; [|congruence]. rewrite El' in Hm. cbn in Hm. lia.
      * destruct (up_layers t v v0 K) as (l & El & _). destruct (fo_lay _ _ HF) as [[El' _]|(l1 & r & l' & El1 & El')]; [congruence|]. rewrite El in El1. injection El1 as <- <-. rewrite El' in Hm. rewrite El. cbn [length] in *. split; [exact Hm|].
        assert (n = 0) as -> by lia. cbn [popn] in *. apply (decided_d (dl_pop t) (dl_pop t2)); [|exact Hd]. apply HS; [|congruence]. apply (DInv_keys L _ _ (reach_inv L _ _ HR)).
  - intros [t k] vs val t' cf n x HI Hn HT HV E Hx. cbn [th_check flat_ops fst snd] in *. destruct k as [|k]; [|cbn [Nat.eqb] in E; injection E as <- <-; exact Hx]. change (0 =? 0) with true in E. cbn iota in E.
    unfold dl_check, guard in E. destruct (forallb _ _); cbn [rbind] in E; [|discriminate]. injection E as <- <-. exact Hx.
Qed.

Lemma flat_pushed t vs : finv t vs -> finv (flat_push t) ([] :: vs) /\ dcons (fst (flat_push t)) = dcons (fst t).
Proof.
  destruct t as [t k]. intros [Hu [[E0 (v & -> & HR)]|(ups & v1 & v0 & -> & Hl & HR & HU)]]; cbn [fst snd] in *.
  - subst k. unfold flat_push. cbn [fst snd]. rewrite (root_layers t v HR). split; [|reflexivity]. split; [exact Hu|]. right. exists [], [], v. split; [reflexivity|]. split; [reflexivity|].
    split; [apply (DR_step L t [v]); [exact HR|constructor]|]. cbn [app fst]. apply push_up. pose proof (reach_core L _ _ HR) as HC. cbn in HC. rewrite app_nil_r in HC. exact HC.
  - destruct (up_layers t v1 v0 HR) as (l & El & _). assert (Ep : flat_push (t, k) = (t, S k)) by (unfold flat_push; cbn [fst snd]; rewrite El; destruct k; reflexivity). rewrite Ep.
    split; [|reflexivity]. split; [exact Hu|]. right. exists ([] :: ups), v1, v0. cbn. auto.
Qed.
Lemma pop_cons (t : dl) : dcons (dl_pop t) = dcons t.
Proof. unfold dl_pop. destruct (dlayers t); reflexivity. Qed.
Lemma flat_popped t v w vs : finv t (v :: w :: vs) -> finv (flat_pop t) (w :: vs) /\ dcons (fst (flat_pop t)) = dcons (fst t).
Proof.
  destruct t as [t k]. intros [Hu [[E0 (v' & E & HR)]|(ups & v1 & v0 & E & Hl & HR & HU)]]; cbn [fst snd] in *; [discriminate|].
  destruct ups as [|u ups]; cbn in E, Hl; subst k; unfold flat_pop; cbn [fst snd].
  - injection E as <- <- ->. split; [|apply pop_cons]. split; [unfold uniq; cbn [fst]; rewrite pop_cons; exact Hu|]. left. split; [reflexivity|]. exists w. split; [reflexivity|]. apply (DR_step L t [v; w]); [exact HR|constructor].
  - injection E as <- E. split; [|reflexivity]. split; [exact Hu|]. right. exists ups, v1, v0. auto.
Qed.
Lemma rooted_respects (Y : (nat -> Q) -> Prop) t v0 M (vs : list (list lit)) : DCore L t v0 -> last vs [] = v0 -> rooted (dlmodel L Y t) vs M ->
  exists y, vals_ok L y /\ (forall c, In c (dcons t) -> (mlit M (c_b c) = true <-> con_sat L c y)) /\ respects L (dists t) y.
Proof.
  intros HC El [(y & A & B & J) Hroot]. exists y. split; [apply A|]. split; [exact J|]. apply (dc_sols L _ _ HC y (proj1 A)). rewrite El in Hroot. apply (model_hold L t v0 M y (dc_cons L _ _ HC)); assumption.
Qed.
Lemma conflict_known t v0 (c : dcon) p x : DCore L t v0 -> In c (dcons t) -> dle L (dists t (e_to c p) (e_from c p)) x -> wlt L x (-' e_w (W := W) c p) -> decided (W := W) t c.
Proof.
  intros HC Hc (z & Ez & Hz) Hx. pose proof (dc_cons L _ _ HC c Hc) as Hg. pose proof Hg as (Hw & Hf & Ht & _).
  assert (Hno : forall y, solves L t v0 y -> ~ (if lsgn p then con_sat L c y else ~ con_sat L c y)).
  { intros y HS K. apply (e_sat L _ c p y Hg (proj1 HS)) in K. pose proof (dist_sound L t v0 y _ _ z HC HS Ez) as Hs.
    unfold wlt, wle, wsat in *. destruct (evt_ex _ (evt_and _ _ (evt_and _ _ Hz Hx) (evt_and _ _ K Hs))) as (e0 & _ & (Z & A') & B' & C'). rewrite (ev_neg _ L) in A'. lra. }
  unfold decided. destruct (lsgn p).
  - left. apply (dist_refutes L t v0 _ _ _ HC Hf Ht Hw). exact Hno.
  - right. apply (dist_entails L t v0 _ _ _ HC Hf Ht Hw). intros y HS. destruct (sat_dec _ L (c_w c) (y (c_to c) - y (c_from c))%Q) as [K|K]; [exact K|]. exfalso. apply (Hno y HS K).
Qed.
Definition flatC (Y : (nat -> Q) -> Prop) : contract flat_ops.
Proof.
  refine (mk_contract _ flat_ops (fun t => dlmodel L Y (fst t)) (fun t => atom (fst t)) finv (fun _ => True) ffixed flat_fixed _ _ _ _ _).
  - intros [t n] M M' Ha (y & A & B & J). exists y. split; [exact A|]. split; [exact B|]. intros c Hc. rewrite <- (J c Hc). cbn [fst] in *.
    unfold mlit. rewrite (Ha (lvar (c_b c))); [reflexivity|exists c; auto].
  - intros t vs HI _. destruct (flat_pushed t vs HI) as [HI' Ec]. split; [exact HI'|]. cbn [th_push flat_ops]. split; [exact Logic.I|]. unfold dlmodel, atom. rewrite Ec. split; reflexivity.
  - intros t v w vs HI. destruct (flat_popped t v w vs HI) as [HI' Ec]. split; [exact HI'|]. cbn [th_pop flat_ops]. split; [exact Logic.I|]. unfold dlmodel, atom. rewrite Ec. split; reflexivity.
  - intros [t n] v vs val p HI Ha Hn HT HV HP Hdef Hfx. cbn [th_prop flat_ops fst snd] in *. destruct n as [|n].
    2: { cbn [Nat.eqb safe fst]. split; [exists (p :: v); split; [apply (finv_up t (S n) v vs HI); discriminate|reflexivity]|]. split; [reflexivity|]. split; [reflexivity|]. exists val. split; [constructor|discriminate]. }
    change (0 =? 0) with true. cbn iota. destruct (finv_cases t v vs HI) as [Hu HI'].
    assert (HR : DReach L t (v :: vs)) by (destruct HI' as [[-> K]|(v0 & -> & K & _)]; exact K).
    pose proof (reach_core L _ _ HR) as HC. assert (Hrd : reads val (p :: concat (v :: vs))) by (split; [exact Hn|intros q [<-|Hq]; auto]).
    assert (Hrd0 : reads val (concat (v :: vs))) by (split; auto).
    pose proof Ha as (c & Hc & Ev).
    pose proof (prop_core L t _ p c val HC Hc Ev Hrd) as Hcase.
    assert (Hroot : forall M, vs <> [] -> rooted (dlmodel L Y t) ((p :: v) :: vs) M -> exists y, vals_ok L y /\ (forall k, In k (dcons t) -> (mlit M (c_b k) = true <-> con_sat L k y)) /\ respects L (dists (dl_pop t)) y).
    { intros M Hv HM. destruct HI' as [[-> _]|(v0 & -> & K & _)]; [congruence|]. destruct (up_layers t v v0 K) as (l & _ & HI0). apply DInv_core in HI0. cbn in HI0. rewrite app_nil_r in HI0.
      destruct (rooted_respects Y (dl_pop t) v0 M ((p :: v) :: [v0]) HI0 eq_refl) as (y & A & B & E).
      - unfold rooted, dlmodel in *. rewrite pop_cons. exact HM.
      - rewrite pop_cons in B. exists y. auto. }
    assert (Hall : forall M, rooted (dlmodel L Y t) ((p :: v) :: vs) M -> vs = [] -> exists y, vals_ok L y /\ (forall k, In k (dcons t) -> (mlit M (c_b k) = true <-> con_sat L k y)) /\ lits_hold L t (p :: v) y).
    { intros M [(y & A & B & J) Hr] ->. exists y. split; [apply A|]. split; [exact J|]. apply (model_hold L t (p :: v) M y (dc_cons L _ _ HC)); assumption. }
    destruct Hcase as [(e & E & Ee & (x & Ex & Hx) & Hcf)|[(E & HC')|(t' & us & val' & ls & E & HC' & HF & HS & Etl & HU & HRe & Edc & Ecl)]]; rewrite E; cbn [rbind safe fst].
    + split; [exists v; split; [exact HI|discriminate]|]. split; [reflexivity|]. split; [reflexivity|].
      exists val. split; [constructor|]. intros k Ek. injection Ek as <-.
      assert (He : vs <> [] -> e <> []).
      { intros Hv ->. destruct HI' as [[-> _]|(v0 & -> & K & KU)]; [congruence|]. destruct (up_layers t v v0 K) as (l & El & HI0). apply DInv_core in HI0. cbn in HI0. rewrite app_nil_r in HI0.
        cbn [concat] in HC, Hrd0. rewrite app_nil_r in HC, Hrd0.
        assert (Hd0 : dists t (e_to c p) (e_from c p) <> None) by congruence.
        destruct (walk_empty t (v ++ v0) val (e_to c p) HC (dc_closed L _ _ HI0) Hrd0 (e_from c p) (up_paths _ _ KU _ _ Hd0) _ Ee) as (x' & Ex' & Hd).
        rewrite Ex in Ex'. injection Ex' as <-. assert (K1 : 1 = 0); [|discriminate]. apply (Hfx 1). exists c. cbn [fst snd]. split; [exact Hc|]. split; [exact Ev|]. rewrite El. split; [cbn; lia|].
        cbn [Nat.sub popn]. apply (conflict_known (dl_pop t) v0 c p x); auto. rewrite pop_cons. exact Hc. }
      split; [intros Hv; rewrite app_length; specialize (He Hv); destruct e; [congruence|cbn; lia]|]. split; [|split; [intros _; apply in_or_app; right; left; reflexivity|]].
      * apply Forall_forall. intros q Hq. apply in_app_or in Hq as [Hq|[<-|[]]].
        -- apply (explain_defd L t _ val val (e_to c p) (e_from c p) e HC Hrd0 Hrd0 Ee q Hq).
        -- rewrite Hn, HP. reflexivity.
      * intros M _ HM. destruct vs as [|w vs'].
        -- exfalso. destruct (Hall M HM eq_refl) as (y & Hy & J & Hh). apply (Hcf y Hy). cbn [concat]. rewrite app_nil_r. exact Hh.
        -- destruct (Hroot M ltac:(discriminate) HM) as (y & Hy & J & Hresp). destruct HI' as [[K _]|(v0 & K & K' & KU)]; [discriminate|]. injection K as -> ->.
           cbn [concat] in HC, Hrd0. rewrite app_nil_r in HC, Hrd0.
           assert (Hsgn : forall k, In k (dcons t) -> lsgn (c_b k) = true) by (intros k Hk; apply (dc_cons L _ _ HC k Hk)).
           destruct (explain_valid1 t (v ++ v0) val _ _ e y x HC KU Hrd0 Hy Hresp Ex Ee) as [(q & Hq & Ht)|Hs].
           ++ exists q. split; [apply in_or_app; auto|apply (lit_true_model t M y q Hsgn J Ht)].
           ++ exists (negl p). split; [apply in_or_app; right; left; reflexivity|]. apply (lit_true_model t M y _ Hsgn J). exists c. split; [exact Hc|]. split; [exact Ev|].
              pose proof (e_sat L _ c p y (dc_cons L _ _ HC c Hc) Hy) as HSat. assert (Hno : ~ wsat L (e_w (W := W) c p) (y (e_to c p) - y (e_from c p))%Q).
              { intros K2. unfold wlt, wsat in *. destruct (evt_ex _ (evt_and _ _ Hx (evt_and _ _ K2 Hs))) as (e0 & _ & A & B & C0). rewrite (ev_neg _ L) in A. lra. }
              cbn. destruct (lsgn p); cbn in *; [tauto|]. destruct (sat_dec _ L (c_w c) (y (c_to c) - y (c_from c))%Q) as [K2|K2]; [exact K2|]. exfalso. apply Hno, HSat, K2.
    + split; [exists (p :: v); split; [|reflexivity]|].
      { assert (HR' : DReach L t ((p :: v) :: vs)) by (apply (DR_step L t (v :: vs)); [exact HR|]; apply (ds_prop L t v vs p val t []); [exact Ha|exact Hrd|exact E]).
        split; [exact Hu|]. destruct HI' as [[-> _]|(v0 & -> & _ & KU)]; [left; split; [reflexivity|exists (p :: v); auto]|right; exists [], (p :: v), v0; cbn]. repeat split; auto; apply (same_up t (v ++ v0) p KU). }
      split; [reflexivity|]. split; [reflexivity|]. exists val. split; [constructor|discriminate].
    + pose proof (fo_cons _ _ HF) as Ecs.
      assert (HR' : DReach L t' ((p :: v) :: vs)) by (apply (DR_step L t (v :: vs)); [exact HR|]; apply (ds_prop L t v vs p val t' ls); [exact Ha|exact Hrd|exact E]).
      assert (Hcon : forall x, dists t (e_to c p) (e_from c p) = Some x -> wle L (w0 W) (e_w (W := W) c p +' x)).
      { intros x Ex. rewrite (prop_cases L t _ p c val HC Hc Ev Hrd) in E. destruct (dist_lt W (dists t (e_to c p) (e_from c p)) (Some (-' e_w c p))) eqn:E1; [destruct (explain t val (e_to c p) (e_from c p)); cbn in E; discriminate|].
        rewrite Ex in E1. cbn in E1. apply negb_false_iff in E1. wlra L. }
      assert (Hup : vs <> [] -> sim L (dl_pop t) (dl_pop t')).
      { intros Hv. destruct HI' as [[-> _]|(v0 & -> & K & KU)]; [congruence|]. destruct (up_layers t v v0 K) as (l & El & _). apply HS; [apply (DInv_keys L _ _ (reach_inv L _ _ HR))|congruence]. }
      assert (Hui : forall v0, vs = [v0] -> UpInv t (v ++ v0) -> kfind (e_from c p, e_to c p) (dist_constr t') = Some c /\ UpInv t' (p :: v ++ v0)).
      { intros v0 -> KU. cbn [concat] in HC, Hrd. rewrite app_nil_r in HC, Hrd. apply (prop_up t (v ++ v0) p c val t' HC KU Hu Hc Ev Hrd Hcon); auto. apply Hup. discriminate. }
      split; [exists (p :: v); split; [|reflexivity]|].
      { split; [unfold uniq; cbn [fst]; rewrite Ecs; exact Hu|]. destruct HI' as [[-> _]|(v0 & -> & _ & KU)]; [left; split; [reflexivity|exists (p :: v); auto]|right; exists [], (p :: v), v0; cbn]. repeat split; auto; apply (Hui v0 eq_refl KU). }
      split; [intros M; unfold dlmodel; rewrite Ecs; reflexivity|]. split; [intros z; unfold atom; rewrite Ecs; reflexivity|].
      assert (Ea : forall z, atom t' z <-> atom t z) by (intros z; unfold atom; rewrite Ecs; reflexivity).
      exists val'. split; [|discriminate].
      destruct HI' as [[-> _]|(v0 & -> & K & KU)].
      * cbn [concat] in HC', Hrd. rewrite app_nil_r in HC', Hrd.
        destruct (tell_lemmas L t' (p :: v) (rooted (dlmodel L Y t) [p :: v]) p HC') with (l := flat_map (cons_at t') us) (val := val) (ls := @nil (list lit)) (val' := val') (ls' := ls) as (ex & Eex & HL); auto.
        -- intros M HM. destruct (Hall M HM eq_refl) as (y & Hy & J & Hh). exists y. rewrite Ecs. split; [exact Hy|]. split; [exact J|]. unfold lits_hold in *. rewrite Ecs. exact Hh.
        -- intros k Hk. apply (cons_at_In t' us k Hk).
        -- cbn in Eex. subst ex. clear - HL Ea. induction HL as [val|val l0 tl r val' A B D' E F G _ IH]; [constructor|]. constructor; auto; [apply Ea, B|..]; intros K; case (K eq_refl).
      * destruct (Hui v0 eq_refl KU) as [Hk KU']. cbn [concat] in HC, HC', Hrd, Hrd0. rewrite app_nil_r in HC, HC', Hrd, Hrd0.
        destruct (tell_lemmas1 t' (p :: v ++ v0) (rooted (dlmodel L Y t) [p :: v; v0]) t p HC' KU') with (l := flat_map (cons_at t') us) (val := val) (ls := @nil (list lit)) (val' := val') (ls' := ls) as (ex & Eex & HL); auto.
        -- intros M HM. destruct (Hroot M ltac:(discriminate) HM) as (y & Hy & J & Hresp). exists y. rewrite Ecs. split; [exact Hy|]. split; [exact J|]. intros i j a Ea'. apply Hresp. rewrite <- (sm_d _ _ _ (Hup ltac:(discriminate))). exact Ea'.
        -- intros val1 r z e HR1 Hne Hd Ee. apply (walk_new t (v ++ v0) t' val1 r (e_from c p) (e_to c p) (e_w c p) c p HC Hcon HU HRe) with (v := z) (4 := Ee); auto.
           ++ unfold edge_lits. rewrite Hk. destruct HR1 as [R1 R2]. pose proof (R2 p (or_introl eq_refl)) as Rp. destruct (dc_cons L _ _ HC c Hc) as (_ & _ & _ & _ & Hs).
              rewrite (reads_sign val1 (v ++ v0) p c (conj R1 R2) Hs Ev). destruct (c_b c) as [cv cs], p as [pv s]. cbn in *. subst. destruct s; left; reflexivity.
           ++ apply (dc_paths L _ _ HC' r z Hd).
        -- intros k Hk' Uk. rewrite Ecs in Hk'. intros Kd. apply (Hdef 0 (lvar (c_b k))); [exists k; cbn [fst snd popn Nat.sub]; repeat split; auto; lia|].
           destruct (dc_cons L _ _ HC k Hk') as (_ & _ & _ & _ & Hs). destruct (c_b k) as [cv cs]; cbn in *; subst cs. exact Uk.
        -- intros k Hk'. apply (cons_at_In t' us k Hk').
        -- cbn in Eex. subst ex. clear - HL Ea. induction HL as [val|val l0 tl r val' A B D' E F G _ IH]; [constructor|]. constructor; auto; apply Ea, B.
  - intros [t n] v vs val HI Hn HT HV. cbn [th_check flat_ops fst snd] in *. destruct n as [|n].
    + destruct (finv_cases t v vs HI) as [Hu HI']. change (0 =? 0) with true. cbn iota.
      assert (HR : DReach L t (v :: vs)) by (destruct HI' as [[-> K]|(v0 & -> & K & _)]; exact K). pose proof (reach_core L _ _ HR) as HC.
      rewrite (check_ok L t _ val HC) by (split; auto). cbn [rbind safe fst].
      split; [exact HI|]. split; [auto|]. split; [reflexivity|]. split; [reflexivity|discriminate].
    + cbn [Nat.eqb safe fst]. split; [exact HI|]. split; [auto|]. split; [reflexivity|]. split; [reflexivity|discriminate].
Defined.
End Flat.
End Srt.
