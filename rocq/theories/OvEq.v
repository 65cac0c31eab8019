(** The equality of object variables: src/ov/ov_theory.cpp:63-115. *)
From Verif Require Import Base Keys Sat SatSpec SatInv SatPop SatImp SatRec SatAn SatProp SatLoop SatMain SatApi SatApi2 SatNext SatSimp Reify Amo Run ThGrow ThSum Ov OvInv.
Local Arguments Nat.ltb : simpl never.
Local Arguments Nat.eqb : simpl never.
Section Srt.
Context {sr : sorter}.

(** Two variables that share a value under [M] take the same values there. *)
Definition compat (M : nat -> bool) (dl dr : list (nat * lit)) : Prop := (exists x, takes M dl x /\ takes M dr x) -> forall x, takes M dl x <-> takes M dr x.
Lemma one_compat M dl dr : one_at_most M dl -> one_at_most M dr -> compat M dl dr.
Proof. intros H1 H2 (x & A & B) y. split; intros H; [rewrite (H1 y x H A); exact B|rewrite (H2 y x H B); exact A]. Qed.
Lemma means_compat M p dl dr : eq_means M p dl dr -> compat M dl dr.
Proof. intros [A B] H. apply A, B, H. Qed.
Lemma means_sym M p dl dr : eq_means M p dl dr -> eq_means M p dr dl.
Proof. intros [A B]. split; [intros H x; symmetry; apply A, H|intros (x & H1 & H2); apply B; eauto]. Qed.
(** For two variables that take one value each: the literal is true iff the values are the same. *)
Lemma means_single M p dl dr a b : eq_means M p dl dr -> takes1 M dl a -> takes1 M dr b -> (mlit M p = true <-> a = b).
Proof.
  intros [A B] Ha Hb. split.
  - intros H. apply Hb, (A H), Ha. reflexivity.
  - intros ->. apply B. exists b. split; [apply Ha|apply Hb]; reflexivity.
Qed.
Lemma takes_look M m x : NoDup (map fst m) -> takes M m x <-> exists l, alook x m = Some l /\ mlit M l = true.
Proof. intros Hn. split; intros (l & A & B); exists l; (split; [|exact B]); [apply alook_nodup; assumption|apply alook_in, A]. Qed.

Section OvEq.
Context {T : Type} {ops : theory_ops T} (C2 : contract ops).
Notation C := (sumC ov_ops ops ovC C2).
Notation st := (st (ovs + T)).
Context (om : list (nat * lit) -> list (nat * lit)) (oi : list nat -> list nat) (Hom : forall m, Permutation m (om m)) (Hoi : forall l, Permutation l (oi l)).
Lemma om_in m e : In e (om m) <-> In e m.
Proof. split; apply Permutation_in; [apply Permutation_sym|]; apply Hom. Qed.
Lemma oi_in l x : In x (oi l) <-> In x l.
Proof. split; apply Permutation_in; [apply Permutation_sym|]; apply Hoi. Qed.

Definition commons (dl dr : list (nat * lit)) : list nat := filter (fun x => has x dr) (map fst (om dl)).
Lemma commons_in dl dr x : In x (commons dl dr) <-> In x (map fst dl) /\ In x (map fst dr).
Proof.
  unfold commons. rewrite filter_In, has_iff. split; intros [A B]; (split; [|exact B]).
  - apply in_map_iff in A as (e & <- & He). apply in_map, om_in, He.
  - apply in_map_iff in A as (e & <- & He). apply in_map, om_in, He.
Qed.
Lemma mlit_negl M p : mlit M (negl p) = negb (mlit M p).
Proof. unfold mlit, negl. cbn. destruct (lsgn p), (M (lvar p)); reflexivity. Qed.
(** The clauses say exactly what the literal of the equality means. *)
Lemma clauses_mean M eq dl dr : NoDup (map fst dl) -> NoDup (map fst dr) ->
  ((forall c, In c (ov_eq_clauses om oi eq dl dr (commons dl dr)) -> mcl M c) <-> eq_means M eq dl dr).
Proof.
  intros Nl Nr. unfold ov_eq_clauses. set (cm := commons dl dr). split.
  - intros H. assert (Hcm : forall x l r, alook x dl = Some l -> alook x dr = Some r ->
      mcl M [negl eq; negl l; r] /\ mcl M [negl eq; l; negl r] /\ mcl M [eq; negl l; negl r]).
    { intros x l r El Er. assert (Hx : In x (oi cm)).
      { apply oi_in, commons_in. split; [apply alook_in, (in_map fst) in El; exact El|apply alook_in, (in_map fst) in Er; exact Er]. }
      assert (Hf : forall c, In c [[negl eq; negl l; r]; [negl eq; l; negl r]; [eq; negl l; negl r]] -> mcl M c).
      { intros c Hc. apply H. apply in_or_app; right. apply in_or_app; right. apply in_flat_map. exists x. split; [exact Hx|]. rewrite El, Er. exact Hc. }
      split; [apply Hf; left; reflexivity|split; [apply Hf; right; left; reflexivity|apply Hf; right; right; left; reflexivity]]. }
    split.
    + intros He x. rewrite (takes_look M dl x Nl), (takes_look M dr x Nr). split; intros (l & El & Hl).
      * destruct (alook x dr) as [r|] eqn:Er.
        -- exists r. split; [reflexivity|]. destruct (Hcm x l r El Er) as [(q & Hq & Eq) _]. destruct Hq as [<-|[<-|[<-|[]]]]; [rewrite mlit_negl, He in Eq; discriminate Eq|rewrite mlit_negl, Hl in Eq; discriminate Eq|exact Eq].
        -- exfalso. destruct (H [negl eq; negl l]) as (q & Hq & Eq).
           { apply in_or_app; left. apply in_map_iff. exists (x, l). split; [reflexivity|]. apply filter_In. split; [apply om_in, alook_in, El|]. cbn [fst]. apply negb_true_iff, memn_nIn. intros K. apply commons_in in K as [_ K]. apply alook_none in Er. exact (Er K). }
           destruct Hq as [<-|[<-|[]]]; rewrite mlit_negl in Eq; [rewrite He in Eq|rewrite Hl in Eq]; discriminate Eq.
      * destruct (alook x dl) as [r|] eqn:Er.
        -- exists r. split; [reflexivity|]. destruct (Hcm x r l Er El) as (_ & (q & Hq & Eq) & _). destruct Hq as [<-|[<-|[<-|[]]]]; [rewrite mlit_negl, He in Eq; discriminate Eq|exact Eq|rewrite mlit_negl, Hl in Eq; discriminate Eq].
        -- exfalso. destruct (H [negl eq; negl l]) as (q & Hq & Eq).
           { apply in_or_app; right. apply in_or_app; left. apply in_map_iff. exists (x, l). split; [reflexivity|]. apply filter_In. split; [apply om_in, alook_in, El|]. cbn [fst]. apply negb_true_iff, memn_nIn. intros K. apply commons_in in K as [K _]. apply alook_none in Er. exact (Er K). }
           destruct Hq as [<-|[<-|[]]]; rewrite mlit_negl in Eq; [rewrite He in Eq|rewrite Hl in Eq]; discriminate Eq.
    + intros (x & Hl & Hr). apply (takes_look M dl x Nl) in Hl as (l & El & Hl). apply (takes_look M dr x Nr) in Hr as (r & Er & Hr).
      destruct (Hcm x l r El Er) as (_ & _ & (q & Hq & Eq)). destruct Hq as [<-|[<-|[<-|[]]]]; [exact Eq|rewrite mlit_negl, Hl in Eq; discriminate Eq|rewrite mlit_negl, Hr in Eq; discriminate Eq].
  - intros [A B] c Hc. destruct (mlit M eq) eqn:He.
    + specialize (A eq_refl). apply in_app_or in Hc as [Hc|Hc]; [|apply in_app_or in Hc as [Hc|Hc]].
      * apply in_map_iff in Hc as ([x l] & <- & Hf). apply filter_In in Hf as [Hi Hn]. cbn [fst snd] in *. apply negb_true_iff, memn_nIn in Hn. apply (proj1 (om_in _ _)) in Hi.
        exists (negl l). split; [right; left; reflexivity|]. rewrite mlit_negl. apply negb_true_iff. destruct (mlit M l) eqn:El; [|reflexivity]. exfalso. apply Hn, commons_in.
        split; [apply (in_map fst) in Hi; exact Hi|]. destruct (proj1 (A x)) as (r & Hr & _); [exists l; auto|]. apply (in_map fst) in Hr; exact Hr.
      * apply in_map_iff in Hc as ([x l] & <- & Hf). apply filter_In in Hf as [Hi Hn]. cbn [fst snd] in *. apply negb_true_iff, memn_nIn in Hn. apply (proj1 (om_in _ _)) in Hi.
        exists (negl l). split; [right; left; reflexivity|]. rewrite mlit_negl. apply negb_true_iff. destruct (mlit M l) eqn:El; [|reflexivity]. exfalso. apply Hn, commons_in.
        split; [|apply (in_map fst) in Hi; exact Hi]. destruct (proj2 (A x)) as (r & Hr & _); [exists l; auto|]. apply (in_map fst) in Hr; exact Hr.
      * apply in_flat_map in Hc as (x & Hx & Hc). destruct (alook x dl) as [l|] eqn:El; [|destruct Hc]. destruct (alook x dr) as [r|] eqn:Er; [|destruct Hc].
        assert (Hlr : mlit M l = true <-> mlit M r = true).
        { specialize (A x). rewrite (takes_look M dl x Nl), (takes_look M dr x Nr) in A. split; intros H.
          - destruct (proj1 A) as (r' & Er' & H'); [eauto|]. congruence.
          - destruct (proj2 A) as (r' & Er' & H'); [eauto|]. congruence. }
        destruct (mlit M l) eqn:Ml; [assert (Mr : mlit M r = true) by (apply Hlr; reflexivity)|assert (Mr : mlit M r = false) by (destruct (mlit M r) eqn:Mr; [symmetry; apply Hlr; reflexivity|reflexivity])];
          (destruct Hc as [<-|[<-|[<-|[]]]]; [| |exists eq; split; [left; reflexivity|exact He]]).
        -- exists r. split; [right; right; left; reflexivity|exact Mr].
        -- exists l. split; [right; left; reflexivity|exact Ml].
        -- exists (negl l). split; [right; left; reflexivity|rewrite mlit_negl, Ml; reflexivity].
        -- exists (negl r). split; [right; right; left; reflexivity|rewrite mlit_negl, Mr; reflexivity].
    + assert (Hne : mlit M (negl eq) = true) by (rewrite mlit_negl, He; reflexivity). apply in_app_or in Hc as [Hc|Hc]; [|apply in_app_or in Hc as [Hc|Hc]].
      * apply in_map_iff in Hc as (e & <- & _). exists (negl eq). split; [left; reflexivity|exact Hne].
      * apply in_map_iff in Hc as (e & <- & _). exists (negl eq). split; [left; reflexivity|exact Hne].
      * apply in_flat_map in Hc as (x & Hx & Hc). destruct (alook x dl) as [l|] eqn:El; [|destruct Hc]. destruct (alook x dr) as [r|] eqn:Er; [|destruct Hc].
        destruct Hc as [<-|[<-|[<-|[]]]]; [exists (negl eq); split; [left; reflexivity|exact Hne]|exists (negl eq); split; [left; reflexivity|exact Hne]|].
        destruct (mlit M l) eqn:Ml; [|exists (negl l); split; [right; left; reflexivity|rewrite mlit_negl, Ml; reflexivity]].
        destruct (mlit M r) eqn:Mr; [|exists (negl r); split; [right; right; left; reflexivity|rewrite mlit_negl, Mr; reflexivity]].
        assert (K : false = true) by (apply B; exists x; split; [exists l; split; [apply alook_in, El|exact Ml]|exists r; split; [apply alook_in, Er|exact Mr]]). discriminate K.
Qed.

(** ** The call. *)
Record eq_post (s : st) (i : nat) (o : ovs) (dl dr : list (nat * lit)) (s' : st) (p : lit) (o' : ovs) : Prop := {
  q_step : ostep C2 s i o s' o';
  q_dom : odom o' = odom o;
  q_rng : lvar p < nv s';
  q_old : (s' = s /\ o' = o /\ (lvar p = 0 \/ exists k, In (k, p) (oexp o))) \/ lvar p = nv s;
  q_exp : forall k q, In (k, q) (oexp o') -> In (k, q) (oexp o) \/ q = p;
  q_models : forall M, smodels C s' M <-> smodels C s M /\ eq_means M p dl dr }.
Lemma eq_lt_ok (s : st) i o l r dl dr : good C s -> nth_error (theories s) i = Some (inl o) -> ov_ok C2 s o -> dlevel s = 0 -> l < r ->
  nth_error (odom o) l = Some dl -> nth_error (odom o) r = Some dr ->
  match ov_new_eq_lt om oi s i l r with
  | Ok (s', p) => exists o', eq_post s i o dl dr s' p o' /\ (p = FALSE_lit /\ s' = s \/ elook (l, r) (oexp o') = Some p)
  | UB => forall M, smodels C s M -> ~ compat M dl dr
  | OOF => False
  end.
Proof.
  intros G E HO Hd Hlr El Er. pose proof (g_inv _ _ G) as HI. unfold ov_new_eq_lt, ov_th. rewrite E.
  assert (Nl : NoDup (map fst dl)) by (apply HO, (nth_error_In _ l), El). assert (Nr : NoDup (map fst dr)) by (apply HO, (nth_error_In _ r), Er).
  destruct (elook (l, r) (oexp o)) as [p|] eqn:Ex.
  { exists o. split; [|right; exact Ex]. destruct (ok_exp _ _ _ HO l r p (elook_in _ _ _ Ex)) as (_ & Hp & dl' & dr' & E1 & E2 & HM). rewrite El in E1. rewrite Er in E2. injection E1 as <-. injection E2 as <-.
    constructor.
    - apply os_refl; assumption.
    - reflexivity.
    - exact Hp.
    - left. split; [reflexivity|]. split; [reflexivity|]. right. exists (l, r). apply elook_in, Ex.
    - auto.
    - intros M. split; [intros H; split; [exact H|apply HM, H]|tauto]. }
  rewrite El, Er. fold (commons dl dr). destruct (commons dl dr) as [|x0 cm0] eqn:Ecm.
  { exists o. split; [|left; auto]. constructor.
    - apply os_refl; assumption.
    - reflexivity.
    - apply (t_nv s (i_t _ _ HI)).
    - left. split; [reflexivity|]. split; [reflexivity|]. left; reflexivity.
    - auto.
    - intros M. split; [|tauto]. intros H. split; [exact H|]. split.
      + unfold mlit. cbn. rewrite (sm_false _ _ _ H). discriminate.
      + intros (x & (a & Ha & _) & (b & Hb & _)). exfalso. assert (K : In x (commons dl dr)) by (apply commons_in; split; [apply (in_map fst) in Ha; exact Ha|apply (in_map fst) in Hb; exact Hb]). rewrite Ecm in K. exact K. }
  rewrite <- Ecm. clear Ecm x0 cm0. destruct (new_var_ok C s HI) as [Ev V]. pose proof (step_ok C 1 s CVar G I) as HS. cbn [step] in HS.
  destruct (new_var_ext C s HI (g_cache _ _ G)) as (HE & Hext & _).
  destruct (new_var s) as [s1 v] eqn:En. cbn [fst snd] in *. subst v. destruct HS as ([G1|[HS _]] & _); [|discriminate HS]. set (eq := mk_lit (nv s) true).
  assert (Hd1 : dlevel s1 = 0) by (rewrite (e_dl _ _ _ HE); exact Hd).
  assert (Hrl : forall x p, In (x, p) dl -> lvar p < nv s) by (intros x p; apply (ok_rng _ _ _ HO), (nth_error_In _ l), El).
  assert (Hrr : forall x p, In (x, p) dr -> lvar p < nv s) by (intros x p; apply (ok_rng _ _ _ HO), (nth_error_In _ r), Er).
  destruct (new_clauses_ok C (ov_eq_clauses om oi eq dl dr (commons dl dr)) s1 (g_inv _ _ G1) Hd1) as (s2 & b & -> & I2 & Gr & T2 & B2 & HM2 & HB).
  { assert (Heq : lvar eq < nv s1) by (rewrite (vp_nv _ _ _ V); cbn; lia).
    assert (HN : forall q n, lvar q < n -> lvar (negl q) < n) by (intros q n; unfold negl; cbn; auto).
    assert (Hl' : forall x p, In (x, p) dl -> lvar p < nv s1) by (intros x p Hp; rewrite (vp_nv _ _ _ V); pose proof (Hrl x p Hp); lia).
    assert (Hr' : forall x p, In (x, p) dr -> lvar p < nv s1) by (intros x p Hp; rewrite (vp_nv _ _ _ V); pose proof (Hrr x p Hp); lia).
    intros c p Hc Hp. unfold ov_eq_clauses in Hc. apply in_app_or in Hc as [Hc|Hc]; [|apply in_app_or in Hc as [Hc|Hc]].
    - apply in_map_iff in Hc as ([x k] & <- & Hf). apply filter_In in Hf as [Hf _]. apply (proj1 (om_in _ _)) in Hf. destruct Hp as [<-|[<-|[]]]; apply HN; [exact Heq|apply (Hl' x), Hf].
    - apply in_map_iff in Hc as ([x k] & <- & Hf). apply filter_In in Hf as [Hf _]. apply (proj1 (om_in _ _)) in Hf. destruct Hp as [<-|[<-|[]]]; apply HN; [exact Heq|apply (Hr' x), Hf].
    - apply in_flat_map in Hc as (x & _ & Hc). destruct (alook x dl) as [a|] eqn:Ea; [|destruct Hc]. destruct (alook x dr) as [d|] eqn:Ed; [|destruct Hc].
      apply alook_in in Ea. apply alook_in in Ed. apply Hl' in Ea. apply Hr' in Ed.
      destruct Hc as [<-|[<-|[<-|[]]]]; destruct Hp as [<-|[<-|[<-|[]]]]; auto. }
  cbn [rbind]. destruct b; cbn [guard].
  - assert (HM : forall M, smodels C s2 M <-> smodels C s M /\ eq_means M eq dl dr).
    { intros M. rewrite HB, (vp_models _ _ _ V), (clauses_mean M eq dl dr Nl Nr). reflexivity. }
    assert (G2 : good C s2).
    { constructor; [exact I2| |intros Hn; rewrite (grow_dlevel _ _ Gr) in Hn; lia]. apply (cache_mono C s1); [apply G1|apply (gr_exprs _ _ Gr)|rewrite (gr_nv _ _ Gr); lia|exact HM2]. }
    assert (E2 : nth_error (theories s2) i = Some (inl o)) by (rewrite T2, (vp_ths _ _ _ V); exact E).
    destruct (put_ok C2 s2 i o (add_eq o (l, r) eq) G2 E2 eq_refl) as (G3 & E3 & T3 & M3).
    assert (N2 : nv s2 = S (nv s)) by (rewrite (gr_nv _ _ Gr); apply (vp_nv _ _ _ V)).
    exists (add_eq o (l, r) eq). split; [|right; apply elook_here, Ex]. constructor.
    + constructor.
      * exact G3.
      * exact E3.
      * intros j Hj. rewrite T3, T2, (vp_ths _ _ _ V) by exact Hj. reflexivity.
      * cbn. lia.
      * change (dlevel s2 = dlevel s). rewrite (grow_dlevel _ _ Gr). lia.
      * intros [A B D]. constructor; cbn [add_eq odom oexp nv ov_put set_theories].
        -- intros m x q Hm Hx. specialize (A m x q Hm Hx). lia.
        -- exact B.
        -- intros a b q Hq. apply in_app_or in Hq as [Hq|[Hq|[]]].
           ++ destruct (D a b q Hq) as (D1 & D2 & dl' & dr' & D3 & D4 & D5). split; [exact D1|]. split; [lia|]. exists dl', dr'. split; [exact D3|]. split; [exact D4|]. intros M H. apply D5, HM, M3, H.
           ++ injection Hq as <- <- <-. split; [exact Hlr|]. split; [cbn; lia|]. exists dl, dr. split; [exact El|]. split; [exact Er|]. intros M H. apply HM, M3, H.
      * auto.
      * intros k q Hk. apply elook_keep, Hk.
      * intros M H. apply HM, M3, H.
    + reflexivity.
    + cbn. lia.
    + right; reflexivity.
    + intros k q Hq. cbn in Hq. apply in_app_or in Hq as [Hq|[Hq|[]]]; [auto|]. right. congruence.
    + intros M. rewrite M3. apply HM.
  - intros M HMs Hcp. set (bv := existsb (fun x => match alook x dl, alook x dr with Some a, Some d => mlit M a && mlit M d | _, _ => false end) (map fst dl)).
    set (M' := upd M (nv s) bv). specialize (Hext M bv HMs). fold M' in Hext. apply (HB M' Hext), (clauses_mean M' eq dl dr Nl Nr).
    assert (Ag : agree (nv s) M' M) by (intros w Hw; unfold M'; rewrite upd_neq by lia; reflexivity).
    assert (Tl : forall x, takes M' dl x <-> takes M dl x) by (intros x; apply (takes_agree (nv s) M' M dl x Ag Hrl)).
    assert (Tr : forall x, takes M' dr x <-> takes M dr x) by (intros x; apply (takes_agree (nv s) M' M dr x Ag Hrr)).
    assert (Hbv : bv = true <-> exists x, takes M dl x /\ takes M dr x).
    { unfold bv. rewrite existsb_exists. split.
      - intros (x & _ & K). destruct (alook x dl) as [a|] eqn:Ea; [|discriminate K]. destruct (alook x dr) as [d|] eqn:Ed; [|discriminate K]. apply andb_prop in K as [K1 K2].
        exists x. split; [exists a; split; [apply alook_in, Ea|exact K1]|exists d; split; [apply alook_in, Ed|exact K2]].
      - intros (x & H1 & H2). apply (takes_look M dl x Nl) in H1 as (a & Ea & Ma). apply (takes_look M dr x Nr) in H2 as (d & Ed & Md). exists x. split; [apply alook_in, (in_map fst) in Ea; exact Ea|]. rewrite Ea, Ed, Ma, Md. reflexivity. }
    assert (Eeq : mlit M' eq = bv) by (unfold mlit, eq, M'; cbn; rewrite upd_eq; destruct bv; reflexivity).
    split; rewrite Eeq.
    + intros K x. rewrite Tl, Tr. apply Hcp, Hbv, K.
    + intros (x & H1 & H2). apply Hbv. exists x. split; [apply Tl, H1|apply Tr, H2].
Qed.

(** new_eq(left, right): [TRUE_lit] for a variable and itself; otherwise a literal with the meaning of the equality. *)
Theorem new_eq_ok (s : st) i o l r dl dr : good C s -> nth_error (theories s) i = Some (inl o) -> ov_ok C2 s o -> dlevel s = 0 ->
  nth_error (odom o) l = Some dl -> nth_error (odom o) r = Some dr ->
  match ov_new_eq om oi s i l r with
  | Ok (s', p) => exists o', eq_post s i o dl dr s' p o' /\ (l = r -> p = TRUE_lit /\ s' = s)
  | UB => l <> r /\ forall M, smodels C s M -> ~ compat M dl dr
  | OOF => False
  end.
Proof.
  intros G E HO Hd El Er. unfold ov_new_eq. destruct (Nat.eqb_spec l r) as [->|Hn].
  - rewrite El in Er. injection Er as <-. exists o. split; [|auto]. constructor.
    + apply os_refl; assumption.
    + reflexivity.
    + apply (t_nv s (i_t _ _ (g_inv _ _ G))).
    + left. split; [reflexivity|]. split; [reflexivity|]. left; reflexivity.
    + auto.
    + intros M. split; [|tauto]. intros H. split; [exact H|]. split; [reflexivity|]. intros _. unfold mlit. cbn. rewrite (sm_false _ _ _ H). reflexivity.
  - destruct (Nat.ltb_spec r l) as [Hlt|Hge].
    + pose proof (eq_lt_ok s i o r l dr dl G E HO Hd Hlt Er El) as H. destruct (ov_new_eq_lt om oi s i r l) as [[s' p]| |]; [|split; [exact Hn|]; intros M HM Hc; apply (H M HM); intros (x & A & B) y; symmetry; apply Hc; eauto|exact H].
      destruct H as (o' & [A B D F F' K] & _). exists o'. split; [|intros; contradiction]. constructor; auto. intros M. rewrite K. split; intros [K1 K2]; (split; [exact K1|apply means_sym, K2]).
    + pose proof (eq_lt_ok s i o l r dl dr G E HO Hd ltac:(lia) El Er) as H. destruct (ov_new_eq_lt om oi s i l r) as [[s' p]| |]; [|split; [exact Hn|exact H]|exact H].
      destruct H as (o' & H & _). exists o'. split; [exact H|intros; contradiction].
Qed.
End OvEq.
End Srt.
