(** The operations of the core at API level. *)
From Verif Require Import Base Sat SatSpec SatInv SatPop SatImp SatRec SatAn SatProp SatLoop SatMain.

(** ** The filtering loops. *)
Lemma clause_filter_spec (v : lit -> lbool) : forall ls p,
  StronglySorted (key_le lvar) ls -> (forall p0, p = Some p0 -> forall q, In q ls -> lvar p0 <= lvar q) ->
  match clause_filter v p ls with
  | None => (exists q, In q ls /\ v q = LTrue) \/ (exists q, In q ls /\ (In (negl q) ls \/ p = Some (negl q)))
  | Some k => (forall q, In q k -> In q ls /\ v q = LUndef) /\ NoDup (map lvar k) /\
      (forall p0, p = Some p0 -> forall q, In q k -> lvar p0 < lvar q) /\
      (forall q, In q ls -> In q k \/ v q = LFalse \/ p = Some q)
  end.
Proof.
  induction ls as [|q ls IH]; intros p Hs Hp; cbn [clause_filter].
  { split; [intros q []|]. split; [constructor|]. split; [intros p0 _ q []|intros q []]. }
  inversion Hs as [|? ? Hs' Hf]; subst. rewrite Forall_forall in Hf.
  assert (Hp' : forall p0, p = Some p0 -> forall x, In x ls -> lvar p0 <= lvar x) by (intros; eapply Hp; [eassumption|right; assumption]).
  assert (Hq' : forall p0, Some q = Some p0 -> forall x, In x ls -> lvar p0 <= lvar x).
  { intros p0 E x Hx. inversion E; subst. apply (Hf x Hx). }
  assert (Hskip : (v q = LFalse \/ p = Some q) ->
     match clause_filter v p ls with
     | None => (exists x, In x (q :: ls) /\ v x = LTrue) \/ (exists x, In x (q :: ls) /\ (In (negl x) (q :: ls) \/ p = Some (negl x)))
     | Some k => (forall x, In x k -> In x (q :: ls) /\ v x = LUndef) /\ NoDup (map lvar k) /\
      (forall p0, p = Some p0 -> forall x, In x k -> lvar p0 < lvar x) /\
      (forall x, In x (q :: ls) -> In x k \/ v x = LFalse \/ p = Some x)
     end).
  { intros Hq. specialize (IH p Hs' Hp'). destruct (clause_filter v p ls) as [k|].
    - destruct IH as (A & B & D & E). split; [intros x Hx; split; [right|]; apply (A x Hx)|]. split; [exact B|]. split; [exact D|].
      intros x [<-|Hx]; [right; tauto|auto].
    - destruct IH as [(x & A & B)|(x & A & [B|B])]; [left|right|right]; exists x; cbn; auto. }
  destruct (lbool_eqb_spec (v q) LTrue) as [Et|Et]; cbn [orb].
  { left. exists q. split; [left; reflexivity|exact Et]. }
  destruct (is_lit p (negl q)) eqn:En.
  { right. exists q. split; [left; reflexivity|right]. destruct p as [p0|]; [|discriminate]. cbn in En.
    destruct (lit_eqb_spec p0 (negl q)); [congruence|discriminate]. }
  destruct (lbool_eqb_spec (v q) LFalse) as [Ef|Ef]; cbn [negb andb].
  { apply Hskip; auto. }
  destruct (is_lit p q) eqn:Ei; cbn [negb].
  { apply Hskip. right. destruct p as [p0|]; [|discriminate]. cbn in Ei. destruct (lit_eqb_spec p0 q); [congruence|discriminate]. }
  assert (Eu : v q = LUndef) by (destruct (v q); congruence).
  specialize (IH (Some q) Hs' Hq'). destruct (clause_filter v (Some q) ls) as [k|].
  - destruct IH as (A & B & D & E). split; [|split; [|split]].
    + intros x [<-|Hx]; [split; [left; reflexivity|exact Eu]|]. split; [right|]; apply (A x Hx).
    + cbn. constructor; [|exact B]. intros Hi. apply in_map_iff in Hi as (x & Ex & Hx). specialize (D q eq_refl x Hx). lia.
    + intros p0 E0 x [<-|Hx].
      * subst p. specialize (Hp p0 eq_refl q (or_introl eq_refl)).
        destruct (Nat.eq_dec (lvar p0) (lvar q)) as [Ev|]; [|lia]. exfalso.
        cbn in Ei, En. destruct (same_var p0 q Ev) as [->| ->]; [rewrite lit_eqb_refl in Ei|rewrite lit_eqb_refl in En]; discriminate.
      * specialize (D q eq_refl x Hx). specialize (Hp p0 E0 q (or_introl eq_refl)). lia.
    + intros x [<-|Hx]; [left; left; reflexivity|]. destruct (E x Hx) as [H|[H|H]]; [left; right; exact H|auto|].
      inversion H. left; left; reflexivity.
  - destruct IH as [(x & A & B)|(x & A & [B|B])].
    + left. exists x. cbn; auto.
    + right. exists x. cbn; auto.
    + right. exists x. inversion B as [B']. split; [right; exact A|left]. left. reflexivity.
Qed.

Section Api.
Context {T : Type} {ops : theory_ops T} (C : contract ops).
Notation st := (st T).

Lemma in_range_iff (s : st) ls : in_range s ls = true <-> forall p, In p ls -> lvar p < nv s.
Proof.
  unfold in_range. rewrite forallb_forall. split; intros H p Hp; specialize (H p Hp); apply Nat.ltb_lt; assumption.
Qed.

(** ** [new_var] *)
Lemma watches_out (s : st) p : InvC s -> nv s <= lvar p -> watches s p = [].
Proof.
  intros H Hp. destruct (watches s p) as [|c w] eqn:E; [reflexivity|exfalso].
  assert (Hc : In c (watches s p)) by (rewrite E; left; reflexivity).
  pose proof (c_owned s H c p Hc) as Hin.
  destruct (c_shape s H c Hin) as (a & b & r & Ec & _).
  pose proof (c_watch s H c Hin p) as Hw. rewrite E, Ec in Hw. cbn [count_occ wcount] in Hw.
  destruct (Nat.eq_dec c c); [|congruence].
  pose proof (c_range s H c Hin a) as Ra. pose proof (c_range s H c Hin b) as Rb. rewrite Ec in Ra, Rb.
  specialize (Ra (or_introl eq_refl)). specialize (Rb (or_intror (or_introl eq_refl))).
  destruct (lit_eqb_spec (negl a) p) as [<-|_]; [rewrite lvar_negl in Hp; lia|].
  destruct (lit_eqb_spec (negl b) p) as [<-|_]; [rewrite lvar_negl in Hp; lia|]. cbn in Hw. lia.
Qed.

Record var_post (s s' : st) : Prop := {
  vp_inv : Inv C s';
  vp_nv : nv s' = S (nv s);
  vp_models : forall M, smodels C s' M <-> smodels C s M;
  vp_assigns : forall v, assigns s' v = assigns s v;
  vp_level : forall v, level s' v = level s v;
  vp_trail : trail s' = trail s /\ trail_lim s' = trail_lim s /\ decisions s' = decisions s;
  vp_q : prop_q s' = prop_q s;
  vp_exprs : exprs s' = exprs s ++ [(Keys.key_var (nv s), mk_lit (nv s) true)];
  vp_ths : theories s' = theories s;
  vp_bounds : bounds s' = bounds s }.

Lemma new_var_ok (s : st) : Inv C s -> snd (new_var s) = nv s /\ var_post s (fst (new_var s)).
Proof.
  intros [HT HC HR HW HQ HH]. split; [reflexivity|]. set (s' := fst (new_var s)). set (n := nv s).
  assert (Ea : forall v, assigns s' v = assigns s v).
  { intros v. cbn. unfold upd. destruct (Nat.eqb_spec v (nv s)) as [->|]; [|reflexivity]. symmetry. apply (t_out s HT). lia. }
  assert (El : forall v, level s' v = level s v).
  { intros v. cbn. unfold upd. destruct (Nat.eqb_spec v (nv s)) as [->|]; [|reflexivity]. symmetry.
    apply (t_undef s HT), (t_out s HT). lia. }
  assert (Er : forall v, reason s' v = reason s v).
  { intros v. cbn. unfold upd. destruct (Nat.eqb_spec v (nv s)) as [->|]; [|reflexivity]. symmetry.
    apply (t_undef s HT), (t_out s HT). lia. }
  assert (Ew : forall p, watches s' p = watches s p).
  { intros p. cbn. unfold updl. destruct (lit_eqb_spec p (mk_lit (nv s) true)) as [->|]; [|destruct (lit_eqb_spec p (mk_lit (nv s) false)) as [->|]; [|reflexivity]];
      symmetry; apply watches_out; cbn; auto. }
  assert (Ev : forall p, value s' p = value s p) by (intros p; unfold value, vlit; rewrite Ea; reflexivity).
  assert (Hnv : nv s' = S (nv s)) by reflexivity.
  assert (HT' : InvT s').
  { constructor; rewrite ?Hnv.
    - lia.
    - rewrite Ea; apply HT.
    - rewrite El; apply HT.
    - intros v Hv. rewrite Ea. apply (t_out s HT). lia.
    - intros v. rewrite Ea, El, Er. apply (t_undef s HT).
    - intros p Hp. rewrite Ev. apply (t_true s HT p Hp).
    - apply (t_no0 s HT).
    - apply (t_nodup s HT).
    - intros pre p post E. rewrite El. apply (t_level s HT _ _ _ E).
    - intros v. rewrite El. apply (t_on s HT).
    - apply (t_lim s HT).
    - apply (t_lim_le s HT).
    - apply (t_dec s HT).
    - intros p Hp. apply (t_drange s HT) in Hp. lia.
    - intros pre p post E. rewrite Er, El. apply (t_rnone s HT _ _ _ E). }
  constructor; try reflexivity; auto.
  2:{ intros M. split; intros [S1 S2 S3 S4]; constructor; try assumption.
      - intros p. rewrite <- Ev, <- El. apply S3.
      - intros p. rewrite Ev, El. apply S3. }
  constructor.
  - exact HT'.
  - constructor; try apply HC.
    + intros c Hc p Hp. apply (c_range s HC c Hc) in Hp. rewrite Hnv. lia.
    + intros c Hc. rewrite (filter_ext _ (fun p => negb (dead s p))).
      * apply (c_dup s HC c Hc).
      * intros p. unfold dead, is_false. rewrite Ev, El. reflexivity.
    + intros c Hc p. rewrite Ew. apply (c_watch s HC c Hc).
    + intros c p. rewrite Ew. apply (c_owned s HC).
  - constructor.
    + intros v c. rewrite Er. intros E. destruct (r_in s HR v c E) as (A & p & r & B & D & F & G). split; [exact A|].
      exists p, r. rewrite Ev. split; [exact B|]. split; [exact D|]. split; [exact F|]. intros q Hq. rewrite Ev. apply G, Hq.
    + intros pre p post c E. rewrite Er. apply (r_before s HR _ _ _ _ E).
    + intros v c Hv. rewrite Er. apply (r_off s HR v c Hv).
  - intros c Hc a b r E. destruct (HW c Hc a b r E) as [H1 H2]. unfold half in *. rewrite !Ev, !El. auto.
  - constructor; [|apply HQ]. intros p Hp. rewrite El. apply (q_on s HQ p Hp).
  - constructor.
    + intros i t Et. destruct (h_views _ _ _ _ HH i t Et) as (vs & H1 & H2 & H3 & H4). exists vs.
      split; [exact H1|]. split; [exact H2|]. split.
      * intros j v l Ej Hj Hl. rewrite Ev, El. apply (H3 j v l Ej Hj Hl).
      * intros l. rewrite Ev, El. apply H4.
    + intros i t v Et Ha. apply (h_range _ _ _ _ HH i t v Et) in Ha. rewrite Hnv. lia.
    + intros i t v Et Ha. rewrite Ea, El. apply (h_bound _ _ _ _ HH i t v Et Ha).
    + apply (h_owned _ _ _ _ HH).
    + apply (h_nodup _ _ _ _ HH).
    + intros i t m v. rewrite Ea, El. apply (h_fixed _ _ _ _ HH i t m v).
Qed.

(** ** [new_clause] *)
Record clause_post (s s' : st) (ls : list lit) (b : bool) : Prop := {
  cp_inv : Inv C s';
  cp_grow : grow s s';
  cp_ths : theories s' = theories s;
  cp_bounds : bounds s' = bounds s;
  cp_true : b = true -> forall M, smodels C s' M <-> smodels C s M /\ mcl M ls;
  cp_false : b = false -> s' = s /\ forall M, smodels C s M -> ~ mcl M ls }.

Lemma filter_clause (s : st) ls : Inv C s -> dlevel s = 0 ->
  match clause_filter (value s) None (sort_by lvar ls) with
  | None => forall M, smodels C s M -> mcl M ls
  | Some k => (forall q, In q k -> In q ls /\ value s q = LUndef) /\ NoDup (map lvar k) /\
      (forall q, In q ls -> In q k \/ value s q = LFalse) /\
      (forall M, smodels C s M -> (mcl M ls <-> mcl M k))
  end.
Proof.
  intros HI Hd. pose proof (clause_filter_spec (value s) (sort_by lvar ls) None (sort_by_sorted lvar ls) ltac:(discriminate)) as H.
  assert (Hl0 : forall v, level s v = 0) by (intros v; pose proof (level_le s (i_t _ _ HI) v); lia).
  assert (HIn : forall q, In q (sort_by lvar ls) <-> In q ls) by (intros q; apply sort_by_In).
  destruct (clause_filter (value s) None (sort_by lvar ls)) as [k|].
  - destruct H as (A & B & _ & D). split; [intros q Hq; rewrite <- HIn; apply A, Hq|]. split; [exact B|].
    assert (D' : forall q, In q ls -> In q k \/ value s q = LFalse).
    { intros q Hq. apply HIn in Hq. destruct (D q Hq) as [?|[?|?]]; [auto|auto|discriminate]. }
    split; [exact D'|]. intros M HM. split; intros (q & Hq & E).
    + destruct (D' q Hq) as [Hk|Hf]; [exists q; auto|exfalso].
      apply value_false_true in Hf. apply (sm_facts _ _ _ HM) in Hf; [|apply Hl0]. rewrite mlit_negl, E in Hf. discriminate.
    + exists q. split; [apply HIn, A, Hq|exact E].
  - intros M HM. destruct H as [(q & Hq & Ev)|(q & Hq & [Hn|Hn])]; [| |discriminate].
    + exists q. split; [apply HIn, Hq|]. apply (sm_facts _ _ _ HM q Ev). apply Hl0.
    + destruct (mlit M q) eqn:E; [exists q; split; [apply HIn, Hq|exact E]|].
      exists (negl q). split; [apply HIn, Hn|]. rewrite mlit_negl, E. reflexivity.
Qed.

Lemma NoDup_vars_compl (k : list lit) : NoDup (map lvar k) -> forall p q, In p k -> In q k -> lvar p = lvar q -> p = q.
Proof.
  induction k as [|x k IH]; intros Hn p q Hp Hq E; [destruct Hp|].
  inversion Hn as [|? ? Hx Hn']; subst.
  destruct Hp as [<-|Hp], Hq as [<-|Hq]; auto; exfalso; apply Hx.
  - rewrite E. apply in_map, Hq.
  - rewrite <- E. apply in_map, Hp.
Qed.

Theorem new_clause_ok (s : st) ls : Inv C s -> dlevel s = 0 -> (forall p, In p ls -> lvar p < nv s) ->
  exists s' b, new_clause s ls = Ok (s', b) /\ clause_post s s' ls b.
Proof.
  intros HI Hd Hr. unfold new_clause.
  assert (Er : root_level s = true) by (apply root_dlevel, Hd). rewrite Er. cbn [guard].
  assert (Ein : in_range s ls = true) by (apply in_range_iff, Hr). rewrite Ein. cbn [guard].
  pose proof (filter_clause s ls HI Hd) as HF.
  destruct (clause_filter (value s) None (sort_by lvar ls)) as [k|].
  2:{ exists s, true. split; [reflexivity|]. constructor; auto; [apply grow_refl| |discriminate].
      intros _ M. split; [intros HM; split; [exact HM|apply HF, HM]|tauto]. }
  destruct HF as (HF1 & HF2 & HF3 & HF4).
  destruct k as [|a [|b r]].
  - exists s, false. split; [reflexivity|]. constructor; auto; [apply grow_refl|discriminate|].
    intros _. split; [reflexivity|]. intros M HM H. apply (HF4 M HM) in H. destruct H as (q & [] & _).
  - destruct (HF1 a (or_introl eq_refl)) as [Ha Hu].
    rewrite enqueue_undef by exact Hu. exists (enq s a None), true. split; [reflexivity|]. constructor; auto.
    + apply Inv_enq; [exact HI|exact Hu|apply Hr, Ha|intros; lia|discriminate].
    + apply grow_enq, Hu.
    + intros _ M. split.
      * intros HM. assert (Hm : mlit M a = true).
        { apply (sm_facts _ _ _ HM a); [rewrite value_enq; unfold ov; rewrite lit_eqb_refl; reflexivity|]. cbn. rewrite upd_eq. exact Hd. }
        assert (HM0 : smodels C s M).
        { destruct HM as [S1 S2 S3 S4]. constructor; try assumption. intros p H1 H2. apply S3.
          - rewrite value_enq_mono; congruence.
          - rewrite level_enq_mono; congruence. }
        split; [exact HM0|]. exists a; auto.
      * intros [HM Hc]. apply HF4 in Hc; [|exact HM]. destruct Hc as (q & [<-|[]] & E). apply enq_smodels; auto.
    + discriminate.
  - set (k := a :: b :: r) in *. cbn [new_constr rbind].
    exists (addc s k), true. split; [reflexivity|].
    assert (Hu : forall q, In q k -> value s q = LUndef) by (intros q Hq; apply (HF1 q Hq)).
    assert (K : clause_ok s k).
    { constructor.
      - exists a, b, r. split; [reflexivity|]. intros ->. inversion HF2 as [|? ? Hx _]; subst. apply Hx. left; reflexivity.
      - intros p Hp. apply Hr, (HF1 p Hp).
      - apply NoDup_vars_compl, HF2.
      - apply NoDup_filter. apply (NoDup_map_inv lvar), HF2. }
    constructor; auto.
    + apply Inv_G. apply Inv_G in HI. apply (InvG_addc C _ _ s a b r HI K); intros Hv; exfalso.
      * rewrite (Hu a) in Hv; [discriminate|left; reflexivity].
      * rewrite (Hu b) in Hv; [discriminate|right; left; reflexivity].
    + constructor; try reflexivity. exists []. cbn. split; [reflexivity|]. split; [auto|tauto].
    + intros _ M. rewrite addc_smodels; [|apply HI|cbn; lia]. split; intros [HM Hc]; (split; [exact HM|]); apply (HF4 M HM), Hc.
    + discriminate.
Qed.

(** ** Opening a level. *)
Definition push_st (s : st) (p : lit) : st :=
  mk_st (nv s) (cls s) (ncid s) (constrs s) (watches s) (assigns s) (level s) (reason s)
    (prop_q s) (trail s) (length (trail s) :: trail_lim s) (p :: decisions s) (exprs s)
    (map (th_push ops) (theories s)) (bounds s) (listening s) (log s).

(** A state in which a decision can be taken. *)
Record quiet (s : st) : Prop := {
  qu_inv : Inv C s;
  qu_q : prop_q s = [];
  qu_set : settled C s }.

Lemma push_quiet (s : st) p : quiet s -> lvar p < nv s ->
  quiet (push_st s p) /\ forall M, smodels C (push_st s p) M <-> smodels C s M.
Proof.
  intros [HI Hq Hs] Hp. pose proof HI as [HT HC HR HW HQ HH].
  assert (HP : forall t, In t (theories s) -> forall M, th_model C (th_push ops t) M <-> th_model C t M).
  { intros t Ht. apply In_nth_error in Ht as (i & Ei). destruct (h_views _ _ _ _ HH i t Ei) as (vs & V1 & _).
    apply (c_push ops C t vs V1), Hs, (nth_error_In _ i), Ei. }
  split.
  - constructor; [|exact Hq|].
    + constructor.
      * constructor; try apply HT; cbn [push_st trail trail_lim decisions level reason nv].
        -- intros pre q post E. rewrite (t_level s HT _ _ _ E). unfold lvl_at. cbn [filter].
           destruct (Nat.leb_spec (length (trail s)) (length post)) as [H|_]; [|reflexivity].
           rewrite E, app_length in H. cbn in H. lia.
        -- constructor; [apply HT|]. apply Forall_forall. intros n Hn. apply (t_lim_le s HT n Hn).
        -- intros n [<-|Hn]; [lia|apply (t_lim_le s HT n Hn)].
        -- cbn. rewrite (t_dec s HT). reflexivity.
        -- intros q [<-|Hd]; [exact Hp|apply (t_drange s HT q Hd)].
        -- intros pre q post E Er El. destruct (t_rnone s HT _ _ _ E Er El) as (k & K1 & K2). exists (S k). auto.
      * destruct HC; constructor; assumption.
      * destruct HR; constructor; assumption.
      * exact HW.
      * constructor; cbn [push_st prop_q]; rewrite Hq; [intros q []|constructor].
      * constructor; cbn [push_st theories nv assigns level bounds prop_q].
        -- intros i t' Et'. rewrite nth_error_map in Et'. destruct (nth_error (theories s) i) as [t|] eqn:Et; [|discriminate].
           cbn in Et'. inversion Et'; subst t'. destruct (h_views _ _ _ _ HH i t Et) as (vs & V1 & V2 & V3 & V4).
           destruct (c_push ops C t vs V1) as (P1 & P2 & P3 & P4); [apply Hs, (nth_error_In _ i), Et|].
           exists ([] :: vs). split; [exact P1|]. split; [cbn in *; unfold dlevel in *; cbn; lia|]. split.
           ++ intros j v l Ej Hj Hl. destruct j as [|j]; [cbn in Ej; inversion Ej; subst v; destruct Hl|].
              cbn in Ej. destruct (V3 j v l Ej (or_introl I) Hl) as [A B]. split; [exact A|].
              unfold dlevel in *. cbn. exact B.
           ++ intros l Ha Hl. apply P4 in Ha. destruct (V4 l Ha Hl) as [H|(j & v & A & B & D)]; [left; exact H|].
              right. exists (S j), v. split; [exact A|]. split; [exact B|]. unfold dlevel in *. cbn. exact D.
        -- intros i t' v Et' Ha. rewrite nth_error_map in Et'. destruct (nth_error (theories s) i) as [t|] eqn:Et; [|discriminate].
           cbn in Et'. inversion Et'; subst t'. destruct (h_views _ _ _ _ HH i t Et) as (vs & V1 & _).
           destruct (c_push ops C t vs V1) as (_ & _ & _ & P4); [apply Hs, (nth_error_In _ i), Et|].
           apply (h_range _ _ _ _ HH i t v Et), P4, Ha.
        -- intros i t' v Et' Ha. rewrite nth_error_map in Et'. destruct (nth_error (theories s) i) as [t|] eqn:Et; [|discriminate].
           cbn in Et'. inversion Et'; subst t'. destruct (h_views _ _ _ _ HH i t Et) as (vs & V1 & _).
           destruct (c_push ops C t vs V1) as (_ & _ & _ & P4); [apply Hs, (nth_error_In _ i), Et|].
           apply (h_bound _ _ _ _ HH i t v Et), P4, Ha.
        -- intros i v Hi. destruct (h_owned _ _ _ _ HH i v Hi) as (t & Et & Ha). exists (th_push ops t).
           rewrite nth_error_map, Et. split; [reflexivity|]. destruct (h_views _ _ _ _ HH i t Et) as (vs & V1 & _).
           destruct (c_push ops C t vs V1) as (_ & _ & _ & P4); [apply Hs, (nth_error_In _ i), Et|]. apply P4, Ha.
        -- apply (h_nodup _ _ _ _ HH).
        -- intros i t' n v Et' Hf _. rewrite nth_error_map in Et'. destruct (nth_error (theories s) i) as [t|] eqn:Et; [|discriminate].
           cbn in Et'. inversion Et'; subst t'. destruct (h_views _ _ _ _ HH i t Et) as (vs & V1 & _).
           apply (fx_push _ _ _ _ (c_fixed ops C) t vs n v V1) in Hf. destruct (h_fixed _ _ _ _ HH i t _ v Et Hf (or_introl I)) as [K1 K2].
           split; [exact K1|]. change (dlevel (push_st s p)) with (S (dlevel s)). destruct n; cbn [Nat.pred] in K2; lia.
    + intros t' Ht'. cbn in Ht'. apply in_map_iff in Ht' as (t & <- & Ht). pose proof Ht as Ht2.
      apply In_nth_error in Ht2 as (i & Ei). destruct (h_views _ _ _ _ HH i t Ei) as (vs & V1 & _).
      apply (c_push ops C t vs V1), Hs, Ht.
  - intros M. split; intros [S1 S2 S3 S4]; constructor; try assumption.
    + intros t Ht. apply (HP t Ht). apply S4. cbn. apply in_map, Ht.
    + intros t' Ht'. cbn in Ht'. apply in_map_iff in Ht' as (t & <- & Ht). apply (HP t Ht), S4, Ht.
Qed.

(** The state in which [assume] starts propagating. *)
Definition assumed (s : st) (p : lit) : st :=
  match value s p with LUndef => enq (push_st s p) p None | _ => push_st s p end.
Lemma assumed_ok (s : st) p : quiet s -> lvar p < nv s ->
  Inv C (assumed s p) /\ (forall M, smodels C (assumed s p) M <-> smodels C s M) /\ grow (push_st s p) (assumed s p).
Proof.
  intros Hs Hp. destruct (push_quiet s p Hs Hp) as [[HI Hq Hset] HM]. unfold assumed.
  destruct (value s p) eqn:Ev; try (split; [exact HI|split; [exact HM|apply grow_refl]]).
  assert (Ev' : value (push_st s p) p = LUndef) by exact Ev.
  split; [|split].
  - apply Inv_enq; [exact HI|exact Ev'|exact Hp| |discriminate]. intros _ _. split; reflexivity.
  - intros M. rewrite enq_smodels; [apply HM|exact Ev'|]. intros Hd. unfold dlevel in Hd. cbn in Hd. lia.
  - apply grow_enq, Ev'.
Qed.
Lemma assume_eq fuel (s : st) p : quiet s -> lvar p < nv s ->
  assume ops fuel s p =
  match value s p with LFalse => Ok (push_st s p, false) | _ => propagate ops fuel (assumed s p) end.
Proof.
  intros [HI Hq _] Hp. unfold assume. rewrite Hq. cbn [guard].
  assert (E : in_range s [p] = true) by (apply in_range_iff; intros q [<-|[]]; exact Hp). rewrite E. cbn [guard].
  rewrite <- Hq. fold (push_st s p). unfold assumed.
  destruct (value s p) eqn:Ev; change (value s p) with (value (push_st s p) p) in Ev.
  - unfold enqueue. rewrite Ev. reflexivity.
  - unfold enqueue. rewrite Ev. reflexivity.
  - rewrite (enqueue_undef (push_st s p) p None Ev). reflexivity.
Qed.
End Api.
