(** Difference logic in a network at root level: the clauses the theory records there may be explained badly, but their
    heads follow from what has been told, so that nothing wrong is learned. *)
From Verif Require Import Base Keys Sat SatSpec SatInv SatMain SatApi Run Lin Qe Dw Dl DlClo DlTight DlEdge DlTh DlFacts.
From Coq Require Import Lqa.
Open Scope nat_scope.
Local Arguments Nat.ltb : simpl never.
Local Arguments Nat.eqb : simpl never.
Section Srt.
Context {sr : sorter}.

(** A theory that only listens at root level: above it nothing is forwarded, so that it has nothing to undo. *)
Definition mute_ops {T} (ops : theory_ops T) : theory_ops (T * nat) :=
  mk_ops
    (fun t val p => if snd t =? 0 then '(t', ls, cf) <- th_prop ops (fst t) val p ;; Ok ((t', 0), ls, cf) else Ok (t, [], None))
    (fun t val => if snd t =? 0 then '(t', cf) <- th_check ops (fst t) val ;; Ok ((t', 0), cf) else Ok (t, None))
    (fun t => (fst t, S (snd t)))
    (fun t => (fst t, Nat.pred (snd t))) (th_sort ops).

Section Root.
Context {D : Type} {W : wops D} (L : wlaws W).
Notation "a +' b" := (wadd W a b) (at level 50, left associativity).
Notation "-' a" := (wneg W a) (at level 35).
Notation dl := (dl D).
Notation dcon := (dcon D).

(** ** The literals of an explanation are distinct. *)
Lemma edge_var (t : dl) val u v q : In q (edge_lits t val u v) -> exists c, In ((u, v), c) (dist_constr t) /\ lvar q = lvar (c_b c).
Proof.
  unfold edge_lits. destruct (kfind (u, v) (dist_constr t)) as [c|] eqn:E; [|intros []]. apply kfind_In in E.
  destruct (val (c_b c)); [intros [<-|[]]|intros [<-|[]]|intros []]; exists c; auto.
Qed.
Lemma enf_key t ps val k k' c c' : DCore L t ps -> reads val ps -> In (k, c) (dist_constr t) -> In (k', c') (dist_constr t) -> lvar (c_b c) = lvar (c_b c') -> k = k'.
Proof.
  intros HC [Hn Hr] H H' Ev. destruct (dc_enf L _ _ HC _ _ H) as [Hc K], (dc_enf L _ _ HC _ _ H') as [Hc' K'].
  assert (c = c') as -> by (apply (nodup_con (dcons t)); auto; apply HC).
  destruct K as [[P ->]|[P ->]], K' as [[P' ->]|[P' ->]]; try reflexivity; exfalso; pose proof (Hr _ P) as X; pose proof (Hr _ P') as Y; rewrite Hn in *; destruct (val (c_b c')); discriminate.
Qed.
Lemma edge_nodup (t : dl) val u v : NoDup (edge_lits t val u v).
Proof. unfold edge_lits. destruct (kfind (u, v) (dist_constr t)) as [c|]; [destruct (val (c_b c))|]; repeat constructor; intros []. Qed.
Lemma nodup_app {A} (l m : list A) : NoDup l -> NoDup m -> (forall x, In x l -> In x m -> False) -> NoDup (l ++ m).
Proof.
  induction 1 as [|x l Hx _ IH]; intros Hm Hd; cbn; [exact Hm|]. constructor; [|apply IH; [exact Hm|intros y Hy; apply Hd; right; exact Hy]].
  rewrite in_app_iff. intros [H|H]; [contradiction|apply (Hd x); [left; reflexivity|exact H]].
Qed.
Lemma walk_nodup t ps val r l v : DCore L t ps -> reads val ps -> steps (preds t) r l v -> forall fuel e, walk fuel t val r v = Ok e ->
  NoDup e /\ forall q, In q e -> exists u x c, In x l /\ In ((u, x), c) (dist_constr t) /\ lvar q = lvar (c_b c).
Proof.
  intros HC HR HS. pose proof (steps_nodup _ _ _ _ HS) as HN. revert HN. induction HS as [|u v l Hv E HS IH]; intros HN fuel e Ew.
  - destruct fuel; cbn in Ew; rewrite Nat.eqb_refl in Ew; injection Ew as <-; (split; [constructor|intros q []]).
  - destruct fuel as [|f]; cbn in Ew; (destruct (Nat.eqb_spec v r); [contradiction|]); [discriminate|]. rewrite E in Ew. inversion HN as [|? ? Hvl HN']; subst.
    destruct (walk f t val r u) as [e'| |] eqn:Ew'; cbn in Ew; try discriminate. injection Ew as <-. destruct (IH HN' f e' Ew') as [A B]. split.
    + apply nodup_app; [apply edge_nodup|exact A|]. intros q H1 H2. destruct (edge_var t val u v q H1) as (c & Hc & Ec). destruct (B q H2) as (u' & x & c' & Hx & Hc' & Ec').
      pose proof (enf_key t ps val _ _ c c' HC HR Hc Hc' ltac:(congruence)) as K. injection K as <- <-. contradiction.
    + intros q Hq. apply in_app_or in Hq as [Hq|Hq].
      * destruct (edge_var t val u v q Hq) as (c & Hc & Ec). exists u, v, c. split; [left; reflexivity|]. auto.
      * destruct (B q Hq) as (u' & x & c & Hx & Hc). exists u', x, c. split; [right; exact Hx|exact Hc].
Qed.
Lemma explain_nodup t ps val r v e : DCore L t ps -> reads val ps -> dists t r v <> None -> explain t val r v = Ok e -> NoDup e.
Proof.
  intros HC HR Hd. destruct (path_steps L _ _ _ r v (dc_paths L _ _ HC r v Hd)) as (l & Hl & _). intros E. apply (walk_nodup t ps val r l v HC HR Hl _ e E).
Qed.
Lemma nodup_filter' {A} (f : A -> bool) l : NoDup l -> NoDup (filter f l).
Proof. induction 1 as [|x l Hx H IH]; cbn; [constructor|]. destruct (f x); [constructor; [|exact IH]|exact IH]. rewrite filter_In. tauto. Qed.

(** ** What the theory says about the Boolean variables: there are values for its variables that agree with them. *)
Definition dlmodel (Y : (nat -> Q) -> Prop) (t : dl) (M : nat -> bool) : Prop :=
  exists y, (vals_ok L y /\ Y y) /\ (y O == 0)%Q /\ forall c, In c (dcons t) -> (mlit M (c_b c) = true <-> con_sat L c y).
Lemma model_hold t ps M y : (forall c, In c (dcons t) -> good_con L (nvars t) c) -> (forall p, In p ps -> mlit M p = true) -> (forall c, In c (dcons t) -> (mlit M (c_b c) = true <-> con_sat L c y)) -> lits_hold L t ps y.
Proof.
  intros HC Hps J p c Hp Hc Ev. pose proof (Hps p Hp) as Hm. destruct (HC c Hc) as (_ & _ & _ & _ & Hs). specialize (J c Hc).
  destruct (c_b c) as [cv cs], p as [pv s]. cbn in *. subst. destruct s; [apply J; exact Hm|]. intros K. apply J in K. unfold mlit in *. cbn in *. destruct (M pv); discriminate.
Qed.

(** The clauses of the second part of the propagation, for a theory told [ps]. *)
Lemma tell_lemmas t ps (tm : (nat -> bool) -> Prop) (p : lit) : DCore L t ps ->
  (forall M, tm M -> exists y, vals_ok L y /\ (forall c, In c (dcons t) -> (mlit M (c_b c) = true <-> con_sat L c y)) /\ lits_hold L t ps y) ->
  forall l val ls val' ls', reads val ps -> (forall c, In c l -> In c (dcons t)) -> rfold (tell_step W t) l (val, ls) = Ok (val', ls') ->
  exists ex, ls' = ls ++ ex /\ lemmas_at False tm (atom t) p val ex val'.
Proof.
  intros HC Htm. induction l as [|c l IH]; intros val ls val' ls' HR Hl; cbn [rfold].
  { intros E. injection E as <- <-. exists []. rewrite app_nil_r. split; [reflexivity|constructor]. }
  assert (Hn := proj1 HR). assert (Hl' : forall x, In x l -> In x (dcons t)) by (intros x Hx; apply Hl; right; exact Hx).
  pose proof (Hl c (or_introl eq_refl)) as Hc. pose proof (dc_cons L _ _ HC c Hc) as (Hw & Hf & Ht & _).
  assert (Hstep : forall h e, lvar h = lvar (c_b c) -> val h = LUndef -> (forall q, In q e -> val q = LFalse) -> NoDup e -> (forall M, tm M -> mlit M h = true) ->
    rfold (tell_step W t) l (assume_val h val, ls ++ [h :: e]) = Ok (val', ls') -> exists ex, ls' = ls ++ ex /\ lemmas_at False tm (atom t) p val ex val').
  { intros h e Ev Hu He Hnd Hv E. destruct (IH _ _ _ _ (assume_reads val ps h HR Hu) Hl' E) as (ex & Ee & HL).
    exists ((h :: e) :: ex). split; [rewrite Ee, <- app_assoc; reflexivity|]. constructor.
    - exact Hu.
    - exists c. auto.
    - apply Forall_forall, He.
    - intros [].
    - apply nodup_filter', Hnd.
    - intros M _ HM. exists h. split; [left; reflexivity|apply Hv, HM].
    - exact HL. }
  unfold tell_step at 1. destruct (val (c_b c)) eqn:Ev; try (cbn [rbind]; apply IH; assumption).
  destruct (dist_lt W (dists t (c_to c) (c_from c)) (Some (-' c_w c))) eqn:E1; [|destruct (dist_le W (dists t (c_from c) (c_to c)) (Some (c_w c))) eqn:E2].
  - destruct (explain t val (c_to c) (c_from c)) as [e| |] eqn:Ee; cbn [rbind]; try discriminate. apply Hstep.
    + apply lvar_negl.
    + rewrite Hn, Ev. reflexivity.
    + intros q Hq. apply (explain_defd L t ps val val (c_to c) (c_from c) e HC HR HR Ee q Hq).
    + apply (explain_nodup t ps val (c_to c) (c_from c) e HC HR); [|exact Ee]. apply (dist_lt_some L) in E1 as (x & Ex & _). congruence.
    + intros M HM. destruct (Htm M HM) as (y & Hy & J & Hh). rewrite mlit_negl. destruct (mlit M (c_b c)) eqn:Em; [|reflexivity]. exfalso.
      apply J in Em; [|exact Hc]. apply (proj1 (dist_refutes L t ps (c_from c) (c_to c) (c_w c) HC Hf Ht Hw) E1 y (conj Hy Hh) Em).
  - destruct (explain t val (c_from c) (c_to c)) as [e| |] eqn:Ee; cbn [rbind]; try discriminate. apply Hstep.
    + reflexivity.
    + exact Ev.
    + intros q Hq. apply (explain_defd L t ps val val (c_from c) (c_to c) e HC HR HR Ee q Hq).
    + apply (explain_nodup t ps val (c_from c) (c_to c) e HC HR); [|exact Ee]. apply (dist_le_some L) in E2 as (x & Ex & _). congruence.
    + intros M HM. destruct (Htm M HM) as (y & Hy & J & Hh). apply J; [exact Hc|].
      apply (proj1 (dist_entails L t ps (c_from c) (c_to c) (c_w c) HC Hf Ht Hw) E2 y (conj Hy Hh)).
  - cbn [rbind]. apply IH; assumption.
Qed.

(** ** The contract. *)
Definition rinv (t : dl * nat) (vs : list (list lit)) : Prop := exists ups v, vs = ups ++ [v] /\ length ups = snd t /\ DReach L (fst t) [v].
Lemma rinv_root t v vs : rinv (t, 0) (v :: vs) -> vs = [] /\ DReach L t [v].
Proof. intros ([|u ups] & w & E & Hl & HR); [|discriminate Hl]. cbn in E, HR. injection E as -> ->. auto. Qed.
Lemma rinv_up t n v vs : rinv (t, S n) (v :: vs) -> forall v', rinv (t, S n) (v' :: vs).
Proof. intros ([|u ups] & w & E & Hl & HR); [discriminate Hl|]. cbn in E. injection E as <- ->. intros v'. exists (v' :: ups), w. auto. Qed.
Definition rootC (Y : (nat -> Q) -> Prop) : contract (mute_ops (dl_ops W)).
Proof.
  refine (mk_contract _ (mute_ops (dl_ops W)) (fun t => dlmodel Y (fst t)) (fun t => atom (fst t)) rinv (fun _ => True) no_fixed (no_fixed_rules _ _ _) _ _ _ _ _).
  - intros [t n] M M' Ha (y & A & B & J). exists y. split; [exact A|]. split; [exact B|]. intros c Hc. rewrite <- (J c Hc). cbn [fst] in *.
    unfold mlit. rewrite (Ha (lvar (c_b c))); [reflexivity|exists c; auto].
  - intros [t n] vs (ups & v & -> & Hl & HR) _. split; [exists ([] :: ups), v; cbn in *; auto|]. cbn. split; [exact I|]. split; reflexivity.
  - intros [t n] v w vs (ups & x & E & Hl & HR). cbn [fst snd] in *. destruct ups as [|u ups]; [discriminate|]. cbn in E. injection E as <- E.
    split; [exists ups, x; cbn in *; split; [exact E|]; split; [subst n; reflexivity|exact HR]|]. cbn. split; [exact I|]. split; reflexivity.
  - intros [t n] v vs val p HI Ha Hn HT HV HP _ _. cbn [th_prop mute_ops fst snd] in *. destruct n as [|n].
    + destruct (rinv_root t v vs HI) as [-> HR]. change (0 =? 0) with true. cbn iota. cbn [concat] in HV. rewrite app_nil_r in HV.
      pose proof (reach_core L _ _ HR) as HC. cbn [concat] in HC. rewrite app_nil_r in HC.
      assert (Hrd : reads val (p :: v)) by (split; [exact Hn|intros q [<-|Hq]; auto]).
      destruct Ha as (c & Hc & Ev).
      destruct (prop_core L t v p c val HC Hc Ev Hrd) as [(e & E & Ee & _ & Hcf)|[(E & HC')|(t' & us & val' & ls & E & HC' & HF & _ & Etl & _)]].
      * cbn [th_prop dl_ops]. rewrite E. cbn [rbind safe fst]. split; [exists v; split; [exists [], v; auto|discriminate]|]. split; [reflexivity|]. split; [reflexivity|].
        exists val. split; [constructor|]. intros k Ek. injection Ek as <-. split; [congruence|]. split; [|split; [congruence|]].
        -- apply Forall_forall. intros q Hq. apply in_app_or in Hq as [Hq|[<-|[]]].
           ++ apply (explain_defd L t v val val (e_to c p) (e_from c p) e HC); auto; split; auto.
           ++ rewrite Hn, HP. reflexivity.
        -- intros M _ [(y & A & B & J) Hroot]. exfalso. apply (Hcf y (proj1 A)). apply (model_hold t (p :: v) M y); [apply HC|exact Hroot|exact J].
      * cbn [th_prop dl_ops]. rewrite E. cbn [rbind safe fst].
        split; [exists (p :: v); split; [exists [], (p :: v); cbn; split; [reflexivity|]; split; [reflexivity|]|reflexivity]|].
        { apply (DR_step L t [v]); [exact HR|]. apply (ds_prop L t v [] p val t []); [exists c; auto|cbn [concat]; rewrite app_nil_r; exact Hrd|exact E]. }
        split; [reflexivity|]. split; [reflexivity|]. exists val. split; [constructor|discriminate].
      * cbn [th_prop dl_ops]. rewrite E. cbn [rbind safe fst].
        split; [exists (p :: v); split; [exists [], (p :: v); cbn; split; [reflexivity|]; split; [reflexivity|]|reflexivity]|].
        { apply (DR_step L t [v]); [exact HR|]. apply (ds_prop L t v [] p val t' ls); [exists c; auto|cbn [concat]; rewrite app_nil_r; exact Hrd|exact E]. }
        pose proof (fo_cons _ _ HF) as Ecs.
        split; [intros M; unfold dlmodel; rewrite Ecs; reflexivity|]. split; [intros x; unfold atom; rewrite Ecs; reflexivity|].
        destruct (tell_lemmas t' (p :: v) (rooted (dlmodel Y t) [p :: v]) p HC') with (l := flat_map (cons_at t') us) (val := val) (ls := @nil (list lit)) (val' := val') (ls' := ls) as (ex & Eex & HL); auto.
        -- intros M [(y & A & B & J) Hroot]. exists y. split; [apply A|]. rewrite Ecs. split; [exact J|]. apply (model_hold t' (p :: v) M y (dc_cons L _ _ HC')); [exact Hroot|rewrite Ecs; exact J].
        -- intros k Hk. apply (cons_at_In t' us k Hk).
        -- cbn in Eex. subst ex. exists val'. split; [|discriminate]. assert (Ea : forall x, atom t' x <-> atom t x) by (intros x; unfold atom; rewrite Ecs; reflexivity).
           clear - HL Ea. induction HL as [val|val l0 tl r val' A B D' E F G _ IH]; [constructor|]. constructor; auto; apply Ea, B.
    + cbn [Nat.eqb safe fst]. split; [exists (p :: v); split; [apply (rinv_up t n v vs HI)|reflexivity]|]. split; [reflexivity|]. split; [reflexivity|]. exists val. split; [constructor|discriminate].
  - intros [t n] v vs val HI Hn HT HV. cbn [th_check mute_ops fst snd] in *. destruct n as [|n].
    + destruct (rinv_root t v vs HI) as [-> HR]. change (0 =? 0) with true. cbn iota. cbn [concat] in HV. rewrite app_nil_r in HV.
      pose proof (reach_core L _ _ HR) as HC. cbn [concat] in HC. rewrite app_nil_r in HC.
      cbn [th_check dl_ops]. rewrite (check_ok L t v val HC) by (split; auto). cbn [rbind safe fst].
      split; [exact HI|]. split; [auto|]. split; [reflexivity|]. split; [reflexivity|discriminate].
    + cbn [Nat.eqb safe fst]. split; [exact HI|]. split; [auto|]. split; [reflexivity|]. split; [reflexivity|discriminate].
Defined.
End Root.
End Srt.
