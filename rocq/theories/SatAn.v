(** Conflict analysis. *)
From Verif Require Import Base Sat SatSpec SatInv SatPop SatRec.

Section An.
Context {T : Type} {ops : theory_ops T} (C : contract ops).
Notation st := (st T).
Notation record := (Sat.record ops).
Notation recorded := (SatRec.recorded (ops := ops)).
Notation rec_lits := (SatRec.rec_lits (ops := ops)).

(** Number of literals of the current level, on the trail, already seen. *)
Definition cnt (s : st) (seen : list nat) : nat :=
  length (filter (fun q => memn (lvar q) seen && (level s (lvar q) =? dlevel s)) (trail s)).

Record an_ok (s : st) (a : an) : Prop := {
  ao_learnt : forall l, In l (an_learnt a) -> value s l = LFalse /\ 0 < level s (lvar l) /\
     level s (lvar l) < dlevel s /\ level s (lvar l) <= an_bt a /\ In (lvar l) (an_seen a);
  ao_nodup : NoDup (map lvar (an_learnt a));
  ao_bt : an_bt a < dlevel s;
  ao_bt_in : an_bt a = 0 \/ exists l, In l (an_learnt a) /\ level s (lvar l) = an_bt a;
  ao_counter : an_counter a = Z.of_nat (cnt s (an_seen a));
  ao_seen : forall v, In v (an_seen a) -> level s v <> 0 -> level s v <> dlevel s ->
     exists l, In l (an_learnt a) /\ lvar l = v }.

(** Meaning of the intermediate resolvent. *)
Definition an_ent (s : st) (a : an) (pr : list lit) : Prop :=
  forall M, smodels C s M ->
    (forall q, In q (trail s) -> level s (lvar q) = dlevel s -> In (lvar q) (an_seen a) -> mlit M q = true) ->
    (forall l, In l (an_learnt a) -> mlit M l = false) ->
    (forall q, In q pr -> mlit M q = true) -> False.

Lemma on_trail (s : st) q : InvT s -> value s q = LTrue -> level s (lvar q) <> 0 -> In q (trail s).
Proof.
  intros HT Hv Hl. apply (t_on s HT) in Hl. apply in_map_iff in Hl as (y & Ey & Hy).
  replace q with y; [exact Hy|]. apply (value_same_var s); [exact Ey|apply (t_true s HT _ Hy)|exact Hv].
Qed.

Lemma cnt_add (s : st) seen q : InvT s -> ~ In (lvar q) seen -> In q (trail s) -> level s (lvar q) = dlevel s ->
  cnt s (lvar q :: seen) = S (cnt s seen).
Proof.
  intros HT Hns Hq Hl. unfold cnt. pose proof (t_nodup s HT) as Hn.
  apply in_split in Hq as (pre & post & E). rewrite E in *. rewrite map_app in Hn; cbn in Hn.
  assert (Hother : forall x, In x (pre ++ post) -> lvar x <> lvar q).
  { intros x Hx Ex. apply NoDup_remove_2 in Hn. apply Hn. rewrite <- Ex, <- map_app. apply in_map, Hx. }
  assert (Hf : forall l, (forall x, In x l -> lvar x <> lvar q) ->
    filter (fun x => memn (lvar x) (lvar q :: seen) && (level s (lvar x) =? dlevel s)) l =
    filter (fun x => memn (lvar x) seen && (level s (lvar x) =? dlevel s)) l).
  { intros l H. apply filter_ext_in. intros x Hx. unfold memn; cbn.
    destruct (Nat.eqb_spec (lvar x) (lvar q)); [exfalso; apply (H x Hx); assumption|reflexivity]. }
  rewrite !filter_app; cbn [filter]. rewrite !app_length.
  rewrite !Hf; [|intros x Hx; apply Hother, in_or_app; auto|intros x Hx; apply Hother, in_or_app; auto].
  apply memn_nIn in Hns. rewrite Hns. unfold memn at 2; cbn. rewrite Nat.eqb_refl, Hl, Nat.eqb_refl. cbn. lia.
Qed.
Lemma cnt_same (s : st) seen v : level s v <> dlevel s -> cnt s (v :: seen) = cnt s seen.
Proof.
  intros Hl. unfold cnt. f_equal. apply filter_ext. intros x. unfold memn; cbn.
  destruct (Nat.eqb_spec (lvar x) v) as [->|]; cbn; [|reflexivity].
  destruct (Nat.eqb_spec (level s v) (dlevel s)); [contradiction|]. rewrite !andb_false_r. reflexivity.
Qed.

Lemma an_visit_ok (s : st) a q pr : InvX C s -> dlevel s <> 0 -> an_ok s a -> value s q = LTrue ->
  an_ent s a (q :: pr) ->
  exists a', an_visit s a q = Ok a' /\ an_ok s a' /\ an_ent s a' pr /\
    In (lvar q) (an_seen a') /\ (forall v, In v (an_seen a) -> In v (an_seen a')).
Proof.
  intros HX Hd A Hq HE. pose proof (x_t _ _ HX) as HT. unfold an_visit.
  destruct (memn (lvar q) (an_seen a)) eqn:Em.
  - apply memn_In in Em. exists a. split; [reflexivity|]. split; [exact A|]. split; [|auto].
    intros M HM H1 H2 H3. apply (HE M HM H1 H2). intros x [<-|Hx]; [|auto].
    destruct (Nat.eq_dec (level s (lvar q)) 0) as [E0|E0]; [apply (sm_facts _ _ _ HM q Hq E0)|].
    destruct (Nat.eq_dec (level s (lvar q)) (dlevel s)) as [E1|E1].
    + apply H1; auto. apply on_trail; assumption.
    + destruct (ao_seen s a A _ Em E0 E1) as (l & Hl & El). specialize (H2 l Hl).
      destruct (ao_learnt s a A l Hl) as (Vl & _). destruct (same_var l q El) as [->| ->]; [congruence|].
      rewrite mlit_negl in H2. apply negb_false_iff in H2. exact H2.
  - apply memn_nIn in Em. assert (Ht : is_true s q = true) by (apply is_true_iff, Hq). rewrite Ht. cbn [guard].
    destruct (Nat.eqb_spec (level s (lvar q)) (dlevel s)) as [El|El].
    + assert (Htr : In q (trail s)) by (apply on_trail; [exact HT|exact Hq|lia]).
      eexists. split; [reflexivity|]. split; [|split; [|split; [left; reflexivity|intros v Hv; right; exact Hv]]].
      * constructor; cbn [an_seen an_counter an_learnt an_bt]; try apply A.
        -- intros l Hl. destruct (ao_learnt s a A l Hl) as (? & ? & ? & ? & ?). repeat split; auto. right; assumption.
        -- rewrite (ao_counter s a A), (cnt_add s (an_seen a) q HT Em Htr El). lia.
        -- intros v [<-|Hv]; [congruence|apply (ao_seen s a A v Hv)].
      * intros M HM H1 H2 H3. apply (HE M HM); cbn [an_seen an_learnt] in *.
        -- intros x Hx Hl Hs. apply H1; auto. right; exact Hs.
        -- exact H2.
        -- intros x [<-|Hx]; [|auto]. apply H1; auto. left; reflexivity.
    + destruct (Nat.ltb_spec 0 (level s (lvar q))) as [Hp|Hz].
      * eexists. split; [reflexivity|]. split; [|split; [|split; [left; reflexivity|intros v Hv; right; exact Hv]]].
        -- pose proof (level_le s HT (lvar q)) as Hle.
           constructor; cbn [an_seen an_counter an_learnt an_bt].
           ++ intros l Hl. apply in_app_or in Hl as [Hl|[<-|[]]].
              ** destruct (ao_learnt s a A l Hl) as (? & ? & ? & ? & ?). repeat split; auto; [lia|right; assumption].
              ** rewrite lvar_negl, value_negl, Hq. repeat split; [lia|lia|lia|left; reflexivity].
           ++ rewrite map_app. cbn. apply Permutation_NoDup with (l := lvar q :: map lvar (an_learnt a));
                [apply Permutation_cons_append|]. constructor; [|apply (ao_nodup s a A)].
              intros Hi. apply in_map_iff in Hi as (l & E1 & Hl). apply Em. rewrite <- E1. apply (ao_learnt s a A l Hl).
           ++ pose proof (ao_bt s a A). lia.
           ++ right. destruct (Nat.le_ge_cases (an_bt a) (level s (lvar q))) as [Hm|Hm].
              ** exists (negl q). split; [apply in_or_app; right; left; reflexivity|]. rewrite lvar_negl. lia.
              ** destruct (ao_bt_in s a A) as [E0|(l & Hl & E1)]; [lia|].
                 exists l. split; [apply in_or_app; auto|]. lia.
           ++ rewrite (ao_counter s a A), cnt_same by exact El. reflexivity.
           ++ intros v [<-|Hv] H0 H1.
              ** exists (negl q). split; [apply in_or_app; right; left; reflexivity|reflexivity].
              ** destruct (ao_seen s a A v Hv H0 H1) as (l & Hl & E1). exists l. split; [apply in_or_app; auto|exact E1].
        -- intros M HM H1 H2 H3. apply (HE M HM); cbn [an_seen an_learnt] in *.
           ++ intros x Hx Hl Hs. apply H1; auto. right; exact Hs.
           ++ intros l Hl. apply H2, in_or_app; auto.
           ++ intros x [<-|Hx]; [|auto]. specialize (H2 (negl q)). rewrite mlit_negl in H2.
              apply negb_false_iff. apply H2, in_or_app; right; left; reflexivity.
      * assert (E0 : level s (lvar q) = 0) by lia.
        eexists. split; [reflexivity|]. split; [|split; [|split; [left; reflexivity|intros v Hv; right; exact Hv]]].
        -- constructor; cbn [an_seen an_counter an_learnt an_bt]; try apply A.
           ++ intros l Hl. destruct (ao_learnt s a A l Hl) as (? & ? & ? & ? & ?). repeat split; auto. right; assumption.
           ++ rewrite (ao_counter s a A), cnt_same by exact El. reflexivity.
           ++ intros v [<-|Hv]; [congruence|apply (ao_seen s a A v Hv)].
        -- intros M HM H1 H2 H3. apply (HE M HM); cbn [an_seen an_learnt] in *.
           ++ intros x Hx Hl Hs. apply H1; auto. right; exact Hs.
           ++ exact H2.
           ++ intros x [<-|Hx]; [|auto]. apply (sm_facts _ _ _ HM q Hq E0).
Qed.

Lemma an_visits_ok (s : st) : InvX C s -> dlevel s <> 0 -> forall pr a, an_ok s a ->
  (forall q, In q pr -> value s q = LTrue) -> an_ent s a pr ->
  exists a', rfold (an_visit s) pr a = Ok a' /\ an_ok s a' /\ an_ent s a' [] /\
    (forall q, In q pr -> In (lvar q) (an_seen a')) /\ (forall v, In v (an_seen a) -> In v (an_seen a')).
Proof.
  intros HX Hd. induction pr as [|q pr IH]; intros a A Hpr HE; cbn [rfold].
  - exists a. split; [reflexivity|]. split; [exact A|]. split; [exact HE|]. split; [intros q []|auto].
  - destruct (an_visit_ok s a q pr HX Hd A (Hpr q (or_introl eq_refl)) HE) as (a1 & E1 & A1 & HE1 & S1 & S2).
    rewrite E1. cbn [rbind].
    destruct (IH a1 A1 (fun x Hx => Hpr x (or_intror Hx)) HE1) as (a2 & E2 & A2 & HE2 & S3 & S4).
    exists a2. split; [exact E2|]. split; [exact A2|]. split; [exact HE2|]. split; [|auto].
    intros x [<-|Hx]; auto.
Qed.

Lemma get_reason_ok (s : st) p tr c : InvX C s -> trail s = p :: tr -> reason s (lvar p) = Some c ->
  exists r, cls s c = p :: r /\ get_reason_of s (cls s c) p = Ok (map negl r) /\ In c (constrs s) /\
    forall q, In q r -> value s q = LFalse.
Proof.
  intros HX E Ec. destruct (r_in s (x_r _ _ HX) _ _ Ec) as (Hc & q & r & Eq & Hq & Er & Hr).
  assert (q = p).
  { apply (value_same_var s); auto. apply (t_true s (x_t _ _ HX)). rewrite E; left; reflexivity. }
  subst q. exists r. split; [exact Er|]. split; [|auto].
  rewrite Er. cbn [get_reason_of]. rewrite lit_eqb_refl. cbn [guard].
  replace (forallb (is_false s) r) with true; [reflexivity|]. symmetry. apply forallb_forall.
  intros x Hx. apply is_false_iff, Hr, Hx.
Qed.

(** The inner loop. *)
Lemma an_select_ok : forall f (s : st) seen pr, InvX C s -> dlevel s <> 0 -> 0 < cnt s seen ->
  length (trail s) <= f ->
  exists s1 p pr1 skipped, an_select f s seen pr = Ok (s1, p, pr1) /\ InvX C s1 /\
    undo s s1 (skipped ++ [p]) /\ trail_lim s1 = trail_lim s /\ decisions s1 = decisions s /\
    theories s1 = theories s /\
    In (lvar p) seen /\ (forall q, In q skipped -> ~ In (lvar q) seen) /\
    (forall q, In q (skipped ++ [p]) -> level s (lvar q) = dlevel s) /\
    match reason s (lvar p) with
    | Some c => In c (constrs s) /\ exists r, cls s c = p :: r /\ pr1 = map negl r /\
                  (forall q, In q r -> value s1 q = LFalse)
    | None => cnt s1 seen = 0
    end.
Proof.
  induction f as [|f IH]; intros s seen pr HX Hd Hc Hf.
  { destruct (trail s) as [|p tr] eqn:E; [unfold cnt in Hc; rewrite E in Hc; cbn in Hc; lia|cbn in Hf; lia]. }
  pose proof (x_t _ _ HX) as HT.
  destruct (trail s) as [|p tr] eqn:E; [unfold cnt in Hc; rewrite E in Hc; cbn in Hc; lia|].
  cbn [an_select]. rewrite E.
  assert (Hex : exists q, In q (trail s) /\ In (lvar q) seen /\ level s (lvar q) = dlevel s).
  { unfold cnt in Hc. destruct (filter (fun q => memn (lvar q) seen && (level s (lvar q) =? dlevel s)) (trail s)) as [|q l] eqn:Ef; [cbn in Hc; lia|].
    assert (Hq : In q (q :: l)) by (left; reflexivity). rewrite <- Ef in Hq. apply filter_In in Hq as [H1 H2].
    apply andb_true_iff in H2 as [H2 H3]. apply memn_In in H2. apply Nat.eqb_eq in H3. eauto. }
  assert (Hlp : level s (lvar p) = dlevel s).
  { destruct Hex as (q & Hq & _ & Hl). rewrite E in Hq. destruct Hq as [->|Hq]; [exact Hl|].
    apply in_split in Hq as (m & post & Em). rewrite Em in E.
    pose proof (level_above s HT [] p m q post E). pose proof (level_le s HT (lvar p)). lia. }
  rewrite Hlp, Nat.eqb_refl. cbn [guard].
  assert (Hab : above s) by (eapply level_above_iff; eauto).
  assert (HX1 : InvX C (pop1 s p tr)) by (apply InvX_pop1; assumption).
  assert (HU1 : undo s (pop1 s p tr) [p]) by (apply undo_pop1; [apply (t_nodup s HT)|exact E]).
  assert (Hpr : exists pr', match reason s (lvar p) with Some c => get_reason_of s (cls s c) p | None => Ok pr end = Ok pr' /\
     (forall c, reason s (lvar p) = Some c -> In c (constrs s) /\ exists r, cls s c = p :: r /\ pr' = map negl r /\
                  (forall q, In q r -> value (pop1 s p tr) q = LFalse))).
  { destruct (reason s (lvar p)) as [c|] eqn:Er.
    - destruct (get_reason_ok s p tr c HX E Er) as (r & Ecl & Eg & Hin & Hr). exists (map negl r). split; [exact Eg|].
      intros c' Ec'. inversion Ec'; subst c'. split; [exact Hin|]. exists r. split; [exact Ecl|]. split; [reflexivity|].
      intros q Hq. rewrite value_pop1_neq; [apply Hr, Hq|]. intros Eq.
      destruct (r_before s (x_r _ _ HX) [] p tr c E Er q) as [Hb|Hb].
      + rewrite Ecl; exact Hq.
      + pose proof (t_nodup s HT) as Hn. rewrite E in Hn; cbn in Hn. inversion Hn as [|? ? Hnp _]; subst.
        apply Hnp. rewrite <- Eq, <- (lvar_negl q). apply in_map, Hb.
      + apply Hb. rewrite E, Eq. left; reflexivity.
    - exists pr. split; [reflexivity|discriminate]. }
  destruct Hpr as (pr' & Epr & Hpr). rewrite Epr. cbn [rbind]. rewrite (pop_one_ok s p tr E). cbn [rbind].
  destruct (memn (lvar p) seen) eqn:Em.
  - apply memn_In in Em. exists (pop1 s p tr), p, pr', []. split; [reflexivity|]. split; [exact HX1|].
    split; [exact HU1|]. split; [reflexivity|]. split; [reflexivity|]. split; [reflexivity|]. split; [exact Em|].
    split; [intros q []|]. split; [intros q [<-|[]]; exact Hlp|].
    destruct (reason s (lvar p)) as [c|] eqn:Er; [apply Hpr; reflexivity|].
    (* p is the decision: nothing of this level is below it *)
    destruct (t_rnone s HT [] p tr E Er) as (k & Hk1 & Hk2); [lia|].
    assert (Hlim : forall m, In m (trail_lim s) -> m <= length tr).
    { unfold above in Hab. intros m Hm. apply Hab in Hm. rewrite E in Hm; cbn in Hm; lia. }
    assert (Hlow : forall q, In q tr -> level s (lvar q) <> dlevel s).
    { intros q Hq Hl. apply in_split in Hq as (pre & post & Epp). subst tr.
      rewrite (t_level s HT (p :: pre) q post E) in Hl. unfold lvl_at, dlevel in Hl. rewrite filter_len_all in Hl.
      apply nth_error_In in Hk2. specialize (Hl _ Hk2). apply Nat.leb_le in Hl. rewrite app_length in Hl; cbn in Hl. lia. }
    unfold cnt. cbn [pop1 trail level]. apply (count_by_none _ tr). intros q Hq.
    assert (Hne : lvar q <> lvar p).
    { pose proof (t_nodup s HT) as Hn. rewrite E in Hn; cbn in Hn. inversion Hn as [|? ? Hnp _]; subst.
      intros Eq. apply Hnp. rewrite <- Eq. apply in_map, Hq. }
    rewrite upd_neq by exact Hne. change (dlevel (pop1 s p tr)) with (dlevel s).
    destruct (Nat.eqb_spec (level s (lvar q)) (dlevel s)) as [E1|E1]; [exfalso; apply (Hlow q Hq E1)|].
    apply andb_false_r.
  - apply memn_nIn in Em.
    assert (Hcnt : cnt (pop1 s p tr) seen = cnt s seen).
    { unfold cnt. rewrite E. cbn [filter pop1 trail level]. 
      pose proof Em as Em'. apply memn_nIn in Em'. rewrite Em'. cbn [andb].
      f_equal. apply filter_ext_in. intros q Hq. change (dlevel (pop1 s p tr)) with (dlevel s).
      rewrite upd_neq; [reflexivity|].
      pose proof (t_nodup s HT) as Hn. rewrite E in Hn; cbn in Hn. inversion Hn as [|? ? Hnp _]; subst.
      intros Eq. apply Hnp. rewrite <- Eq. apply in_map, Hq. }
    destruct (IH (pop1 s p tr) seen pr' HX1) as (s1 & p1 & pr1 & sk & E1 & H1 & H2 & H3 & H4 & H5 & H6 & H7 & H8 & H9).
    + exact Hd.
    + lia.
    + cbn in Hf |- *. lia.
    + assert (Hnin : forall q, In q (sk ++ [p1]) -> lvar q <> lvar p).
      { intros q Hq Eq. pose proof (u_trail _ _ _ H2) as Et. cbn in Et.
        pose proof (t_nodup s HT) as Hn. rewrite E in Hn; cbn in Hn. inversion Hn as [|? ? Hnp _]; subst.
        apply Hnp. rewrite <- Eq. apply in_map. apply in_or_app; auto. }
      exists s1, p1, pr1, (p :: sk). split; [exact E1|]. split; [exact H1|].
      split; [change ((p :: sk) ++ [p1]) with ([p] ++ (sk ++ [p1])); eapply undo_trans; eassumption|].
      split; [exact H3|]. split; [exact H4|]. split; [exact H5|]. split; [exact H6|].
      split; [intros q [<-|Hq]; [exact Em|apply H7, Hq]|].
      split.
      { intros q [<-|Hq]; [exact Hlp|]. specialize (H8 q Hq). change (dlevel (pop1 s p tr)) with (dlevel s) in H8.
        rewrite level_pop1_neq in H8 by (apply Hnin, Hq). exact H8. }
      replace (reason s (lvar p1)) with (reason (pop1 s p tr) (lvar p1)).
      { exact H9. }
      cbn. apply upd_neq. apply Hnin. apply in_or_app; right; left; reflexivity.
Qed.

Lemma undo_cnt (s s1 : st) seen sk p : InvT s -> undo s s1 (sk ++ [p]) -> trail_lim s1 = trail_lim s ->
  In (lvar p) seen -> level s (lvar p) = dlevel s -> (forall q, In q sk -> ~ In (lvar q) seen) ->
  cnt s seen = S (cnt s1 seen).
Proof.
  intros HT HU EL Hp Hl Hsk. unfold cnt. pose proof (u_trail _ _ _ HU) as Et. pose proof (t_nodup s HT) as Hn.
  rewrite Et, map_app in Hn. 
  assert (Hkeep : forall q, In q (trail s1) -> ~ In (lvar q) (map lvar (sk ++ [p]))).
  { intros q Hq Hi. revert Hn Hi. generalize (map lvar (sk ++ [p])) as l. induction l as [|x l IH]; cbn; [tauto|].
    intros Hn [->|Hi]; inversion Hn; subst; [|auto]. apply H1. apply in_or_app; right. apply in_map, Hq. }
  rewrite Et, <- app_assoc, filter_app. cbn [app filter].
  assert (E0 : filter (fun q => memn (lvar q) seen && (level s (lvar q) =? dlevel s)) sk = []).
  { induction sk as [|x sk IH]; [reflexivity|]. cbn. 
    assert (Hx : ~ In (lvar x) seen) by (apply Hsk; left; reflexivity). apply memn_nIn in Hx. rewrite Hx. cbn.
    clear - Hsk. induction sk as [|y sk IH]; [reflexivity|]. cbn.
    assert (Hy : ~ In (lvar y) seen) by (apply Hsk; right; left; reflexivity). apply memn_nIn in Hy. rewrite Hy. cbn.
    apply IH. intros q [<-|Hq]; apply Hsk; [left|right; right]; auto. }
  rewrite E0. cbn [app]. apply memn_In in Hp. rewrite Hp, Hl, Nat.eqb_refl. cbn. f_equal.
  assert (Hd : dlevel s1 = dlevel s) by (unfold dlevel; rewrite EL; reflexivity).
  f_equal. apply filter_ext_in. intros q Hq.
  destruct (u_keep _ _ _ HU _ (Hkeep q Hq)) as (_ & -> & _). rewrite Hd. reflexivity.
Qed.

(** The outer loop. *)
Lemma an_loop_ok : forall f (s : st) a pr, InvX C s -> dlevel s <> 0 -> an_ok s a ->
  (forall q, In q pr -> value s q = LTrue) -> an_ent s a pr ->
  ((exists q, In q pr /\ level s (lvar q) = dlevel s) \/ 0 < cnt s (an_seen a)) ->
  length (trail s) < f ->
  exists s1 a1 p rem, an_loop f s a pr = Ok (s1, a1, p) /\ InvX C s1 /\ undo s s1 rem /\
    trail_lim s1 = trail_lim s /\ decisions s1 = decisions s /\ theories s1 = theories s /\
    In p rem /\ (forall q, In q rem -> level s (lvar q) = dlevel s) /\
    an_ok s1 a1 /\
    (forall M, smodels C s M -> mcl M (negl p :: an_learnt a1)).
Proof.
  induction f as [|f IH]; intros s a pr HX Hd A Hpr HE Hex Hf; [lia|].
  pose proof (x_t _ _ HX) as HT. cbn [an_loop].
  destruct (an_visits_ok s HX Hd pr a A Hpr HE) as (a1 & E1 & A1 & HE1 & S1 & S2).
  rewrite E1. cbn [rbind].
  assert (Hc : 0 < cnt s (an_seen a1)).
  { assert (Hq : exists q, In q (trail s) /\ level s (lvar q) = dlevel s /\ In (lvar q) (an_seen a1)).
    { destruct Hex as [(q & Hq & Hl)|Hc].
      - exists q. split; [apply on_trail; [exact HT|apply Hpr, Hq|lia]|]. split; [exact Hl|apply S1, Hq].
      - unfold cnt in Hc. destruct (filter (fun q => memn (lvar q) (an_seen a) && (level s (lvar q) =? dlevel s)) (trail s)) as [|q l] eqn:Ef; [cbn in Hc; lia|].
        assert (Hq : In q (q :: l)) by (left; reflexivity). rewrite <- Ef in Hq. apply filter_In in Hq as [H1 H2].
        apply andb_true_iff in H2 as [H2 H3]. apply memn_In in H2. apply Nat.eqb_eq in H3. eauto. }
    destruct Hq as (q & H1 & H2 & H3). unfold cnt.
    assert (Hi : In q (filter (fun q => memn (lvar q) (an_seen a1) && (level s (lvar q) =? dlevel s)) (trail s))).
    { apply filter_In. split; [exact H1|]. apply memn_In in H3. rewrite H3, H2, Nat.eqb_refl. reflexivity. }
    destruct (filter _ (trail s)); [destruct Hi|cbn; lia]. }
  destruct (an_select_ok (length (trail s)) s (an_seen a1) pr HX Hd Hc (le_n _))
    as (s1 & p & pr1 & sk & E2 & HX1 & HU & EL & ED & ET & Hps & Hsk & Hlv & Hre).
  rewrite E2. cbn [rbind].
  assert (Hlp : level s (lvar p) = dlevel s) by (apply Hlv, in_or_app; right; left; reflexivity).
  pose proof (undo_cnt s s1 (an_seen a1) sk p HT HU EL Hps Hlp Hsk) as Hcnt.
  assert (Hd1 : dlevel s1 = dlevel s) by (unfold dlevel; rewrite EL; reflexivity).
  set (a2 := mk_an (an_seen a1) (an_counter a1 - 1) (an_learnt a1) (an_bt a1)).
  assert (Hlow : forall l, In l (an_learnt a1) -> ~ In (lvar l) (map lvar (sk ++ [p]))).
  { intros l Hl Hi. apply in_map_iff in Hi as (q & Eq & Hq). specialize (Hlv q Hq).
    destruct (ao_learnt s a1 A1 l Hl) as (_ & _ & H & _). rewrite Eq in Hlv. lia. }
  assert (A2 : an_ok s1 a2).
  { constructor; cbn [a2 an_seen an_counter an_learnt an_bt].
    - intros l Hl. destruct (ao_learnt s a1 A1 l Hl) as (V & L1 & L2 & L3 & Sn).
      destruct (u_keep _ _ _ HU _ (Hlow l Hl)) as (_ & E0 & _). rewrite (undo_value _ _ _ _ HU (Hlow l Hl)), E0, Hd1.
      auto.
    - apply A1.
    - rewrite Hd1. apply A1.
    - destruct (ao_bt_in s a1 A1) as [E0|(l & Hl & E0)]; [left; exact E0|right]. exists l. split; [exact Hl|].
      destruct (u_keep _ _ _ HU _ (Hlow l Hl)) as (_ & -> & _). exact E0.
    - rewrite (ao_counter s a1 A1), Hcnt. lia.
    - intros v Hv H0 H1. destruct (in_dec Nat.eq_dec v (map lvar (sk ++ [p]))) as [Hi|Hi].
      + destruct (u_gone _ _ _ HU v Hi) as (_ & E0 & _). congruence.
      + destruct (u_keep _ _ _ HU v Hi) as (_ & E0 & _). rewrite E0 in *. rewrite Hd1 in H1.
        apply (ao_seen s a1 A1 v Hv H0 H1). }
  assert (HM : forall M, smodels C s M <-> smodels C s1 M).
  { apply (undo_smodels C s s1 (sk ++ [p]) HU); [|exact ET]. intros q Hq. rewrite (Hlv q Hq). exact Hd. }
  assert (Hlen : length (trail s) = length (sk ++ [p]) + length (trail s1)) by (rewrite (u_trail _ _ _ HU), app_length; reflexivity).
  rewrite app_length in Hlen; cbn in Hlen.
  assert (Hent1 : forall M, smodels C s M -> mlit M p = true ->
     (forall q, In q (trail s1) -> level s1 (lvar q) = dlevel s1 -> In (lvar q) (an_seen a1) -> mlit M q = true) ->
     (forall l, In l (an_learnt a1) -> mlit M l = false) -> False).
  { intros M HMs Hp H1 H2. apply (HE1 M HMs); [|exact H2|intros q []].
    intros q Hq Hl Hs. rewrite (u_trail _ _ _ HU) in Hq. apply in_app_or in Hq as [Hq|Hq].
    - apply in_app_or in Hq as [Hq|[<-|[]]]; [exfalso; apply (Hsk q Hq Hs)|exact Hp].
    - apply H1; [exact Hq| |exact Hs].
      assert (Hni : ~ In (lvar q) (map lvar (sk ++ [p]))).
      { pose proof (t_nodup s HT) as Hn. rewrite (u_trail _ _ _ HU), map_app in Hn. 
        intros Hi. revert Hn Hi. generalize (map lvar (sk ++ [p])) as l. induction l as [|x l IHl]; cbn; [tauto|].
        intros Hn [->|Hi]; inversion Hn as [|? ? Hx Hn']; subst; [|auto]. apply Hx. apply in_or_app; right. apply in_map, Hq. }
      destruct (u_keep _ _ _ HU _ Hni) as (_ & -> & _). rewrite Hd1. exact Hl. }
  fold a2. destruct (Z.ltb_spec 0 (an_counter a2)) as [Hpos|Hneg].
  - assert (Hc1 : 0 < cnt s1 (an_seen a1)).
    { rewrite (ao_counter s1 a2 A2) in Hpos. cbn in Hpos. lia. }
    destruct (reason s (lvar p)) as [c|] eqn:Er; [|lia].
    destruct Hre as (Hc' & r & Ecl & Epr1 & Hrv).
    destruct (IH s1 a2 pr1) as (s2 & a3 & p2 & rem & E3 & HX2 & HU2 & EL2 & ED2 & ET2 & Hin2 & Hlv2 & A3 & HM2).
    + exact HX1.
    + congruence.
    + exact A2.
    + intros q Hq. rewrite Epr1 in Hq. apply in_map_iff in Hq as (x & <- & Hx). rewrite value_negl, (Hrv x Hx). reflexivity.
    + intros M HMs H1 H2 H3. apply HM in HMs. apply (Hent1 M HMs); [|exact H1|exact H2].
      destruct (sm_cls _ _ _ HMs c Hc') as (x & Hx & Ex). rewrite Ecl in Hx. destruct Hx as [<-|Hx]; [exact Ex|].
      exfalso. specialize (H3 (negl x)). rewrite mlit_negl, Ex in H3. discriminate H3. rewrite Epr1. apply in_map, Hx.
    + right. exact Hc1.
    + lia.
    + exists s2, a3, p2, ((sk ++ [p]) ++ rem). split; [exact E3|]. split; [exact HX2|].
      split; [eapply undo_trans; eassumption|]. split; [congruence|]. split; [congruence|]. split; [congruence|].
      split; [apply in_or_app; auto|]. split.
      { intros q Hq. apply in_app_or in Hq as [Hq|Hq]; [apply Hlv, Hq|]. specialize (Hlv2 q Hq).
        destruct (in_dec Nat.eq_dec (lvar q) (map lvar (sk ++ [p]))) as [Hi|Hi].
        - destruct (u_gone _ _ _ HU _ Hi) as (_ & E0 & _). rewrite E0 in Hlv2. congruence.
        - destruct (u_keep _ _ _ HU _ Hi) as (_ & E0 & _). congruence. }
      split; [exact A3|]. intros M HMs. apply HM2, HM, HMs.
  - exists s1, a2, p, (sk ++ [p]). split; [reflexivity|]. split; [exact HX1|]. split; [exact HU|].
    split; [exact EL|]. split; [exact ED|]. split; [exact ET|]. split; [apply in_or_app; right; left; reflexivity|].
    split; [exact Hlv|]. split; [exact A2|].
    intros M HMs. destruct (existsb (mlit M) (negl p :: an_learnt a2)) eqn:Ex.
    + apply existsb_exists in Ex as (q & Hq & Eq). exists q; auto.
    + exfalso. assert (Hall : forall q, In q (negl p :: an_learnt a2) -> mlit M q = false).
      { intros q Hq. destruct (mlit M q) eqn:Eq; [|reflexivity]. 
        assert (existsb (mlit M) (negl p :: an_learnt a2) = true) by (apply existsb_exists; eauto). congruence. }
      apply (Hent1 M HMs).
      * specialize (Hall _ (or_introl eq_refl)). rewrite mlit_negl in Hall. apply negb_false_iff, Hall.
      * intros q Hq Hl Hs. exfalso. rewrite (ao_counter s1 a2 A2) in Hneg. cbn [a2 an_seen] in Hneg.
        assert (Hi : In q (filter (fun q => memn (lvar q) (an_seen a1) && (level s1 (lvar q) =? dlevel s1)) (trail s1))).
        { apply filter_In. split; [exact Hq|]. apply memn_In in Hs. rewrite Hs, Hl, Nat.eqb_refl. reflexivity. }
        unfold cnt in Hneg. destruct (filter _ (trail s1)); [destruct Hi|cbn in Hneg; lia].
      * intros l Hl. apply Hall. right; exact Hl.
Qed.

Lemma analyze_ok (s : st) lits : InvX C s -> dlevel s <> 0 ->
  (forall q, In q lits -> value s q = LFalse) ->
  (exists q, In q lits /\ level s (lvar q) = dlevel s) ->
  (forall M, smodels C s M -> mcl M lits) ->
  exists s1 p learnt bt rem, analyze s lits = Ok (s1, negl p :: learnt, bt) /\ InvX C s1 /\ undo s s1 rem /\
    trail_lim s1 = trail_lim s /\ decisions s1 = decisions s /\ theories s1 = theories s /\
    In p rem /\ (forall q, In q rem -> level s (lvar q) = dlevel s) /\
    (forall l, In l learnt -> value s1 l = LFalse /\ 0 < level s1 (lvar l) <= bt) /\
    NoDup (map lvar learnt) /\ bt < dlevel s /\
    (bt = 0 \/ exists l, In l learnt /\ level s1 (lvar l) = bt) /\
    (forall M, smodels C s M -> mcl M (negl p :: learnt)).
Proof.
  intros HX Hd Hfal Hex Hent. unfold analyze, get_reason_all.
  replace (forallb (is_false s) lits) with true.
  2: { symmetry; apply forallb_forall. intros q Hq. apply is_false_iff, Hfal, Hq. }
  cbn [guard rbind].
  destruct (an_loop_ok (S (length (trail s))) s (mk_an [] 0 [] 0) (map negl lits))
    as (s1 & a1 & p & rem & E1 & HX1 & HU & EL & ED & ET & Hin & Hlv & A1 & HM).
  - exact HX.
  - exact Hd.
  - constructor; cbn.
    + intros l [].
    + constructor.
    + lia.
    + left; reflexivity.
    + unfold cnt. replace (filter _ (trail s)) with (@nil lit); [reflexivity|]. cbn.
      induction (trail s); [reflexivity|assumption].
    + intros v [].
  - intros q Hq. apply in_map_iff in Hq as (x & <- & Hx). rewrite value_negl, (Hfal x Hx). reflexivity.
  - intros M HMs _ _ H3. destruct (Hent M HMs) as (x & Hx & Ex). specialize (H3 (negl x)).
    rewrite mlit_negl, Ex in H3. discriminate H3. apply in_map, Hx.
  - left. destruct Hex as (q & Hq & Hl). exists (negl q). split; [apply in_map, Hq|exact Hl].
  - lia.
  - rewrite E1. cbn [rbind].
    assert (Hdl : dlevel s1 = dlevel s) by (unfold dlevel; rewrite EL; reflexivity).
    assert (Hu : is_undef s1 p = true).
    { apply is_undef_iff. apply (undo_value_gone s s1 rem p HU). apply in_map, Hin. }
    rewrite Hu. cbn [guard].
    replace (forallb (is_false s1) (an_learnt a1)) with true.
    2: { symmetry; apply forallb_forall. intros l Hl. apply is_false_iff. apply (ao_learnt s1 a1 A1 l Hl). }
    cbn [guard]. exists s1, p, (an_learnt a1), (an_bt a1), rem.
    split; [reflexivity|]. split; [exact HX1|]. split; [exact HU|]. split; [exact EL|]. split; [exact ED|].
    split; [exact ET|]. split; [exact Hin|]. split; [exact Hlv|].
    split. { intros l Hl. destruct (ao_learnt s1 a1 A1 l Hl) as (V & L1 & L2 & L3 & _). auto. }
    split; [apply A1|]. split; [rewrite <- Hdl; apply A1|]. split; [apply A1|exact HM].
Qed.

(** Analysis, back-jump and record. *)
Lemma resolve_ok (s : st) lits : InvX C s -> dlevel s <> 0 ->
  (forall q, In q lits -> value s q = LFalse) ->
  (exists q, In q lits /\ level s (lvar q) = dlevel s) ->
  (forall M, smodels C s M -> mcl M lits) ->
  exists s' s2 p learnt rem, resolve ops s lits = Ok s' /\ Inv C s' /\
    s' = recorded s2 (negl p) learnt /\ rec_pre s2 (negl p) learnt /\
    Inv C s2 /\ prop_q s2 = [] /\ undo s s2 rem /\ dlevel s2 < dlevel s /\
    In p rem /\ level s (lvar p) = dlevel s /\
    (forall q, In q rem -> dlevel s2 < level s (lvar q)) /\
    (forall v, level s2 v <= dlevel s2) /\
    trail_lim s2 = skipn (dlevel s - dlevel s2) (trail_lim s) /\
    decisions s2 = skipn (dlevel s - dlevel s2) (decisions s) /\
    length (theories s2) = length (theories s) /\
    (forall l, In l learnt -> value s l = LFalse /\ 0 < level s (lvar l) <= dlevel s2) /\
    (forall M, smodels C s M -> mcl M (negl p :: learnt)) /\
    (forall M, smodels C s' M <-> smodels C s M).
Proof.
  intros HX Hd Hfal Hex Hent. unfold resolve.
  destruct (analyze_ok s lits HX Hd Hfal Hex Hent)
    as (s1 & p & learnt & bt & rem1 & E1 & HX1 & HU1 & EL1 & ED1 & ET1 & Hin & Hlv1 & Hlearnt & Hnd & Hbt & Hbtin & HM1).
  rewrite E1. cbn [rbind].
  assert (Hdl : dlevel s1 = dlevel s) by (unfold dlevel; rewrite EL1; reflexivity).
  destruct (backjump_ok C s1 bt HX1) as (s2 & rem2 & E2 & HI2 & Hq2 & Hs2 & HU2 & Hr2 & Hv2 & Hd2 & EL2 & ED2 & HT2 & HM2).
  { lia. }
  rewrite E2. cbn [rbind].
  assert (HU : undo s s2 (rem1 ++ rem2)) by (eapply undo_trans; eassumption).
  assert (Hsm : forall M, smodels C s M <-> smodels C s2 M).
  { intros M. rewrite (undo_smodels C s s1 rem1 HU1); [apply HM2| |exact ET1].
    intros q Hq. rewrite (Hlv1 q Hq). exact Hd. }
  assert (Hkeep : forall l, In l learnt -> ~ In (lvar l) (map lvar rem2)).
  { intros l Hl Hi. apply in_map_iff in Hi as (q & Eq & Hq). apply Hr2 in Hq. destruct (Hlearnt l Hl) as (_ & _ & H). rewrite Eq in Hq. lia. }
  assert (Hl2 : forall l, In l learnt -> value s2 l = LFalse /\ level s2 (lvar l) = level s1 (lvar l)).
  { intros l Hl. rewrite (undo_value _ _ _ _ HU2 (Hkeep l Hl)). destruct (u_keep _ _ _ HU2 _ (Hkeep l Hl)) as (_ & -> & _).
    split; [apply (Hlearnt l Hl)|reflexivity]. }
  assert (Hun : value s2 (negl p) = LUndef).
  { apply (undo_value_gone s s2 (rem1 ++ rem2)); [exact HU|]. rewrite lvar_negl. apply in_map, in_or_app; auto. }
  assert (Hp : value s p = LTrue).
  { apply (t_true s (x_t _ _ HX)). rewrite (u_trail _ _ _ HU1). apply in_or_app; auto. }
  assert (RP : rec_pre s2 (negl p) learnt).
  { constructor.
    - rewrite (u_nv _ _ _ HU), lvar_negl. apply (trail_range s (x_t _ _ HX)). congruence.
    - exact Hun.
    - intros q Hq. apply (Hl2 q Hq).
    - apply NoDup_filter. apply (NoDup_map_inv lvar), Hnd.
    - intros ->. destruct Hbtin as [E0|(l & [] & _)]. lia.
    - intros Hne. destruct Hbtin as [E0|(l & Hl & E0)].
      + destruct learnt as [|l learnt]; [congruence|]. destruct (Hlearnt l (or_introl eq_refl)) as (_ & H). lia.
      + exists l. split; [exact Hl|]. destruct (Hl2 l Hl) as (_ & ->). lia. }
  rewrite (record_eq s2 (negl p) learnt (i_t _ _ HI2) RP).
  destruct (recorded_ok C (fun _ l => In l (prop_q s2)) (fun _ l => In l (prop_q s2))
     (fun _ l => In l (prop_q (recorded s2 (negl p) learnt))) (fun _ l => In l (prop_q (recorded s2 (negl p) learnt)))
     s2 (negl p) learnt) as (G & Gr & Gm).
  - apply Inv_G, HI2.
  - exact RP.
  - intros k l. rewrite Hq2. intros [].
  - intros k. assert (E0 : prop_q (recorded s2 (negl p) learnt) = prop_q s2 ++ [negl p]).
    { destruct learnt as [|x tl]; [reflexivity|]. unfold SatRec.recorded, SatRec.rec_lits. 
      destruct (srt (sorter := th_sort ops) _ _); reflexivity. }
    rewrite E0. apply in_or_app; right; left; reflexivity.
  - intros k l. rewrite Hq2. intros [].
  - intros k. assert (E0 : prop_q (recorded s2 (negl p) learnt) = prop_q s2 ++ [negl p]).
    { destruct learnt as [|x tl]; [reflexivity|]. unfold SatRec.recorded, SatRec.rec_lits. 
      destruct (srt (sorter := th_sort ops) _ _); reflexivity. }
    rewrite E0. apply in_or_app; right; left; reflexivity.
  - intros M HM. apply HM1, Hsm, HM.
  - exists (recorded s2 (negl p) learnt), s2, p, learnt, (rem1 ++ rem2).
    split; [reflexivity|]. split; [apply Inv_G, G|]. split; [reflexivity|]. split; [exact RP|]. split; [exact HI2|].
    split; [exact Hq2|]. split; [exact HU|]. split; [lia|]. split; [apply in_or_app; auto|].
    split; [apply Hlv1, Hin|]. split.
    { intros q Hq. apply in_app_or in Hq as [Hq|Hq]; [rewrite (Hlv1 q Hq); lia|]. specialize (Hr2 q Hq).
      destruct (in_dec Nat.eq_dec (lvar q) (map lvar rem1)) as [Hi|Hi].
      - destruct (u_gone _ _ _ HU1 _ Hi) as (_ & E0 & _). lia.
      - destruct (u_keep _ _ _ HU1 _ Hi) as (_ & E0 & _). lia. }
    split; [intros v; rewrite Hd2; apply Hv2|]. rewrite EL2, ED2, EL1, ED1, Hdl, Hd2.
    split; [reflexivity|]. split; [reflexivity|]. split; [congruence|].
    split.
    { intros l Hl. destruct (Hlearnt l Hl) as (V & L). destruct (undo_value_true s s1 rem1 l HU1) as (H1 & H2 & H3); [congruence|].
      rewrite <- H3. split; [congruence|exact L]. }
    split; [exact HM1|]. intros M. rewrite Gm. symmetry; apply Hsm.
Qed.
End An.
