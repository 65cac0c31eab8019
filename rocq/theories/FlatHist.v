(** Which constraints a network with a difference logic theory holds, in terms of its history: every constraint was created by a call about its two variables. *)
From Verif Require Import Base Keys Sat SatSpec SatInv SatMain SatApi SatApi2 SatNext Run SatFacts Lin Qe Dw Dl DlClo DlTight DlTh DlFacts DlApi DlNet DlTrace DlFlat FlatNet FlatTrace.
Open Scope nat_scope.
Section Srt.
Context {sr : sorter}.
Section Hist.
Context {D : Type} {W : wops D} (L : wlaws W) (WR : wreads L).
Context (last : Sat.st (dl D) -> nat -> nat -> nat -> D -> res (Sat.st (dl D) * lit)).
Notation dl := (dl D).
Notation st := (st dl).

(** The constraints of [s'] are those of [s] and some between [u] and [v]. *)
Definition adds (s s' : st) (o : option (nat * nat)) : Prop :=
  forall t, theories s = [t] -> exists t', theories s' = [t'] /\
    forall c, In c (dcons t') -> In c (dcons t) \/ o = Some (c_from c, c_to c) \/ o = Some (c_to c, c_from c).
Lemma adds_refl s o : adds s s o.
Proof. intros t Et. exists t. auto. Qed.
Lemma adds_dist s from to w s' p : new_distance W s 0 from to w = Ok (s', p) -> adds s s' (Some (from, to)).
Proof.
  intros E t Et. unfold new_distance, dl_th in E. rewrite Et in E. cbn [nth_error] in E. unfold guard in E.
  destruct (_ && _); [|discriminate]. destruct (dist_lt W _ _); [injection E as <- _; exists t; auto|]. destruct (dist_le W _ _); [injection E as <- _; exists t; auto|].
  cbn [new_var] in E. cbv beta iota zeta in E. injection E as <- _.
  exists (add_con t (mk_dcon (mk_lit (nv s) true) from to w)). split.
  - unfold dl_put, bind. destruct (memn 0 _); cbn; rewrite Et; reflexivity.
  - cbn [dcons add_con]. intros c Hc. apply in_app_or in Hc as [Hc|[<-|[]]]; auto.
Qed.
Lemma adds_swap s s' u v : adds s s' (Some (u, v)) -> adds s s' (Some (v, u)).
Proof.
  intros H t Et. destruct (H t Et) as (t' & E & K). exists t'. split; [exact E|]. intros c Hc. destruct (K c Hc) as [A|[A|A]]; [auto| |]; injection A as <- <-; auto.
Qed.
Lemma adds_may s (r : res (st * lit)) s' p u v : (forall s1 p1, r = Ok (s1, p1) -> adds s s1 (Some (u, v))) -> may r = Ok (Some (s', p)) -> adds s s' (Some (u, v)).
Proof. intros H. unfold may. destruct r as [[s1 p1]| |]; cbn [rbind]; try discriminate. intros E. injection E as <- _. exact (H s1 p1 eq_refl). Qed.
Lemma adds_step size tr s fl c s' r : 0 < size -> FTrace L last size tr s -> flegal L last s c -> dcstep (W := W) last fl s c = Ok (s', r) -> adds s s' (pair_of (W := W) c).
Proof.
  intros Hs HT HL E. pose proof (fdlegal L last s c HL) as K. destruct c as [c| |from to w|from to mn mx|r0 e1 e2]; cbn [dcstep flegal] in *.
  - destruct (step fl s c) as [[s1 r1]| |] eqn:E1; cbn [rbind] in E; try discriminate. injection E as <- _. intros t Et.
    pose proof (sh_step W fl s s1 c r1 E1) as Es. rewrite Et in Es. destruct (theories s1) as [|t' [|? ?]]; try discriminate Es. injection Es as _ E3. exists t'. split; [reflexivity|]. intros k Hk. left. rewrite <- E3. exact Hk.
  - destruct (dl_new_var W s 0) as [[s1 x]| |] eqn:E1; cbn [rbind] in E; try discriminate. injection E as <- _. intros t Et. unfold dl_new_var, dl_th in E1. rewrite Et in E1. cbn [nth_error] in E1.
    destruct (t_dl_var W t) as [t1 x1] eqn:Ev. injection E1 as <- _. exists t1. split; [unfold dl_put; cbn; rewrite Et; reflexivity|].
    assert (Ec : dcons t1 = dcons t) by (unfold t_dl_var in Ev; destruct (Nat.eqb _ _); injection Ev as <- _; reflexivity). intros k Hk. left. rewrite <- Ec. exact Hk.
  - destruct (new_distance W s 0 from to w) as [[s1 p]| |] eqn:E1; cbn [rbind] in E; try discriminate. injection E as <- _. exact (adds_dist _ _ _ _ _ _ E1).
  - case HL.
  - destruct (new_rel last r0 s e1 e2) as [[[s1 p]|]| |] eqn:E1; cbn [rbind] in E; try discriminate; injection E as <- _; [|apply adds_refl].
    destruct K as (_ & Hl & _). destruct Hl as (_ & _ & _ & Hg). cbn [pair_of].
    assert (Hd : forall u v u' v' w, (u = u' /\ v = v') \/ (u = v' /\ v = u') -> may (new_distance W s 0 u v w) = Ok (Some (s1, p)) -> adds s s1 (Some (u', v'))).
    { intros u v u' v' w H. apply adds_may. intros s2 p2 E2. destruct H as [[<- <-]|[<- <-]]; [|apply adds_swap]; exact (adds_dist _ _ _ _ _ _ E2). }
    destruct r0; try (exfalso; exact HL); cbn [new_rel] in E1; unfold dl_new_lt, dl_new_leq, dl_new_geq, new_gt_with in E1;
      (destruct (dl_form W (lin_sub e1 e2)) as [[k|[] x k|[] x x1 k]|] eqn:Ef; [injection E1 as <- _; apply adds_refl|..|discriminate E1]);
      try (eapply Hd; [|exact E1]; auto).
    destruct (Hg eq_refl) as [Hg'|Hg']; [rewrite Hg' in E1|case (Hg' _ _ _ Ef)]. eapply Hd; [|exact E1]; auto.
Qed.
(** The two variables of a call, in either order. *)
Definition concerns (c : @dcall D) (u v : nat) : Prop := pair_of (W := W) c = Some (u, v) \/ pair_of (W := W) c = Some (v, u).
Theorem con_from_call size tr s t c : 0 < size -> FTrace L last size tr s -> theories s = [t] -> In c (dcons t) -> exists e, In e tr /\ concerns (fe_call e) (c_from c) (c_to c).
Proof.
  intros Hs HT. revert t c. induction HT as [|fl tr s k s' r HT IH HL HE HA]; intros t c Et Hc.
  - injection Et as <-. case Hc.
  - destruct (fg_one L s (ftrace_good L WR last size Hs tr s HT)) as [t0 Et0]. destruct (adds_step size tr s fl k s' r Hs HT HL HE t0 Et0) as (t' & Et' & K).
    rewrite Et in Et'. injection Et' as <-. destruct (K c Hc) as [A|A].
    + destruct (IH t0 c Et0 A) as (e & He & Hp). exists e. split; [right; exact He|exact Hp].
    + exists (mk_fev k (decisions s) r). split; [left; reflexivity|]. exact A.
Qed.
(** A call about two variables no earlier call was about meets the condition of [flegal]. *)
Theorem fresh_pair size tr s c : 0 < size -> FTrace L last size tr s -> dlevel s = 0 -> dlegal L last s c -> match c with DSat _ | DDist2 _ _ _ _ | DCmp DEq _ _ => False | _ => True end ->
  (forall u v e, pair_of (W := W) c = Some (u, v) -> In e tr -> ~ concerns (fe_call e) u v) -> flegal L last s c.
Proof.
  intros Hs HT Hd Hl Hk Hf.
  assert (H : dlevel s = 0 /\ dlegal L last s c /\ forall t u v, theories s = [t] -> pair_of (W := W) c = Some (u, v) -> pair_free t u v).
  { split; [exact Hd|]. split; [exact Hl|]. intros t u v Et Hp k Hc. destruct (con_from_call size tr s t k Hs HT Et Hc) as (e & He & Hce). specialize (Hf u v e Hp He).
    split; intros [<- <-]; apply Hf; [exact Hce|destruct Hce; [right|left]; assumption]. }
  destruct c as [c| |from to w|from to mn mx|[] e1 e2]; try (exfalso; exact Hk); exact H.
Qed.
End Hist.
End Srt.
