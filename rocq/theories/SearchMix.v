(** Searching with object variables and linear real arithmetic on one core. *)
From Verif Require Import Base Keys Sat SatSpec SatInv SatPop SatImp SatRec SatAn SatProp SatLoop SatMain SatApi SatApi2 SatNext Reify Amo Run SatFacts SatProps ThSum MapTh Search.
From Verif Require Import Lin Qe Lra LraTab LraVal LraInv LraChk LraPro LraCon LraNew LraCmp LraApi LraRun LraEnd LraFacts SearchLra Ov OvInv OvEq OvRun OvStep Mix MixApi MixRun MixEnd.
From Coq Require Import Lqa.
Open Scope Q_scope.
Section Srt.
Context {sr : sorter}.

Lemma sum_decides {A B} (oa : theory_ops A) (ob : theory_ops B) (CA : contract oa) (CB : contract ob) : th_decides CA -> th_decides CB -> th_decides (sumC oa ob CA CB).
Proof. intros HA HB [a|b] vs M H1 H2 H3 H4; [exact (HA a vs M H1 H2 H3 H4)|exact (HB b vs M H1 H2 H3 H4)]. Qed.
Lemma sum_total {A B} (oa : theory_ops A) (ob : theory_ops B) (CA : contract oa) (CB : contract ob) : th_total CA -> th_total CB -> th_total (sumC oa ob CA CB).
Proof.
  intros [A1 A2] [B1 B2]. split.
  - intros [a|b] vs val p H1 H2 H3 H4 H5 H6 H7 H8; cbn [th_prop sum_ops].
    + pose proof (A1 a vs val p H1 H2 H3 H4 H5 H6 H7 H8) as H. destruct (th_prop oa a val p) as [[[? ?] ?]| |]; cbn [rbind]; congruence.
    + pose proof (B1 b vs val p H1 H2 H3 H4 H5 H6 H7 H8) as H. destruct (th_prop ob b val p) as [[[? ?] ?]| |]; cbn [rbind]; congruence.
  - intros [a|b] vs val H1 H3 H4 H5; cbn [th_check sum_ops].
    + pose proof (A2 a vs val H1 H3 H4 H5) as H. destruct (th_check oa a val) as [[? ?]| |]; cbn [rbind]; congruence.
    + pose proof (B2 b vs val H1 H3 H4 H5) as H. destruct (th_check ob b val) as [[? ?]| |]; cbn [rbind]; congruence.
Qed.
Lemma ov_decides : th_decides ovC.
Proof. intros t vs M _ _ _ _. exact I. Qed.
Lemma ov_total : th_total ovC.
Proof. split; intros; cbn; discriminate. Qed.

Lemma mtold_app tr' tr M y : mtold (tr' ++ tr) M y -> mtold tr M y.
Proof. induction tr' as [|e r IH]; [exact (fun H => H)|intros [H _]; apply IH, H]. Qed.

Section Mix.
Context (om : list (nat * lit) -> list (nat * lit)) (oi : list nat -> list nat) (Hom : forall m, Permutation m (om m)) (Hoi : forall l, Permutation l (oi l)).
Context (ord : nat -> list nat -> list nat) (Hord : forall k l, Permutation l (ord k l)) (fuel : lra -> nat).
Notation lops := (lra_ops ord fuel).
Notation CL := (lraT ord Hord fuel).
Notation C := (sumC ov_ops lops ovC CL).
Notation ops := (sum_ops ov_ops lops).
Notation st := (st (ovs + lra)).
Notation MTrace := (MTrace om oi ord Hord fuel).

Lemma mquiet_joint (s : st) o t : quiet C s -> theories s = [inl o; inr t] -> (forall vs, TInv t vs -> within (cb t) (vals t)) -> total s ->
  exists d0, 0 < d0 /\ forall d, 0 < d -> d <= d0 -> msol ovC ord Hord fuel s 1 (values s) (fun x => at_eps d (vals t x)).
Proof.
  intros HQ Et HW Htot. pose proof (total_model C s HQ Htot (sum_decides _ _ _ _ ov_decides (lra_decides ord Hord fuel))) as HM. destruct HQ as [HI Hq _].
  assert (Ei : nth_error (theories s) 1 = Some (inr t)) by (rewrite Et; reflexivity).
  destruct (h_views _ _ _ _ (i_h _ _ HI) 1%nat _ Ei) as (vs & [HTI _] & _ & Hv1 & Hv2).
  destruct (within_real t vs (vals t) HTI ltac:(apply HTI) (HW vs HTI)) as (d0 & P & H). exists d0. split; [exact P|]. intros d Hd Hle. destruct (H d Hd Hle) as [A B].
  split; [exact HM|]. exists t. split; [exact Ei|]. apply (view_joint t vs); try assumption.
  - intros q Hin. apply in_concat in Hin as (v & Hv & Hqv). apply In_nth_error in Hv as (j & Ej). destruct (Hv1 j v q Ej (or_introl I) Hqv) as [V _]. apply values_lit; congruence.
  - intros v Ha. pose proof (h_range _ _ _ _ (i_h _ _ HI) 1%nat (inr t) v Ei Ha) as Hr. specialize (Htot v (proj2 Hr)).
    set (l := mk_lit v (values s v)). assert (Hl : value s l = LTrue) by (unfold l, value, vlit, values; cbn; destruct (assigns s v); congruence).
    destruct (Hv2 l Ha Hl) as [Hp|(j & w & Ej & Hi & _)]; [rewrite Hq in Hp; destruct Hp|]. exists l. split; [|reflexivity]. apply in_concat. exists w. split; [apply (nth_error_In _ _ Ej)|exact Hi].
Qed.

Definition mreached (tr : list mev) (s : st) : Prop :=
  (exists tr', MTrace (tr' ++ tr) s) /\ quiet C s /\ forall t vs, In (inr t) (theories s) -> TInv t vs -> within (cb t) (vals t).
Lemma mreached_assume tr fl (s : st) p s' : mreached tr s -> quiet C s -> (lvar p < nv s)%nat -> value s p = LUndef -> assume ops fl s p = Ok (s', true) -> mreached tr s'.
Proof.
  intros [(tr' & HT) _] HQ Hp Hu E. split; [|split].
  - exists (mk_mev (MO (OSat (CAssume p))) (decisions s) (MR (OR (RBool true))) :: tr').
    apply (MT_step om oi ord Hord fuel fl (tr' ++ tr) s (MO (OSat (CAssume p))) s' (MR (OR (RBool true))) HT).
    + cbn. split; [apply (qu_q _ _ HQ)|]. split; [apply (qu_set _ _ HQ)|]. intros q [<-|[]]. exact Hp.
    + cbn [mstep gstep step]. rewrite E. reflexivity.
    + intros D; discriminate D.
  - rewrite (assume_eq C fl s p HQ Hp), Hu in E. destruct (assumed_ok C s p HQ Hp) as (HIa & _ & _).
    pose proof (propagate_ok C _ fl _ HIa (le_n _)) as H. rewrite E in H. destruct (pp_true _ _ _ _ H eq_refl) as (A & B & D). constructor; assumption.
  - intros t vs. rewrite (assume_eq C fl s p HQ Hp), Hu in E. apply (mpropagate_within ord fuel fl _ s' E).
Qed.
Lemma mreached_propagate tr fl (s : st) s' : MTrace tr s -> propagate ops fl s = Ok (s', true) -> mreached tr s'.
Proof.
  intros HT E. destruct (mprop_step om oi Hom Hoi ord Hord fuel tr s fl s' HT E) as [HT' Hq]. split; [|split].
  - eexists [_]. exact HT'.
  - destruct (mtrace_good om oi Hom Hoi ord Hord fuel tr s HT) as (o & t & G).
    pose proof (propagate_ok C (dlevel s) fl s (g_inv _ _ (gk_good _ _ _ (mg_ok _ _ _ _ _ _ _ G))) (le_n _)) as H. rewrite E in H. destruct (pp_true _ _ _ _ H eq_refl) as (A & B & D). constructor; assumption.
  - apply (mpropagate_within ord fuel fl s s' E).
Qed.

Context (Hfuel : forall t, (6 ^ nx t <= fuel t)%nat) (pick : @chooser (ovs + lra)) (HP : chooses pick).
Theorem mix_search tr (s : st) : MTrace tr s -> mmindful tr -> decs_ok s ->
  exists s' b, (forall fl n, (search_fuel (nv s) <= fl)%nat -> (search_len (nv s) <= n)%nat -> search (ops := ops) pick fl n s = Ok (s', b)) /\
  (b = true -> total s' /\ exists o t, theories s' = [inl o; inr t] /\ exists d0, 0 < d0 /\ forall d, 0 < d -> d <= d0 -> mtold tr (values s') (fun x => at_eps d (vals t x))) /\
  (b = false -> forall M y, ~ mtold tr M y).
Proof.
  intros HT Hm HD. destruct (mtrace_good om oi Hom Hoi ord Hord fuel tr s HT) as (o0 & t0 & MG). pose proof (gk_good _ _ _ (mg_ok _ _ _ _ _ _ _ MG)) as G.
  destruct (search_decides C pick HP s s G (R_init _ s) HD (sum_total _ _ _ _ ov_total (lra_total ord Hord fuel Hfuel)) (sum_decides _ _ _ _ ov_decides (lra_decides ord Hord fuel))) as (s' & b & E & Hnv & Ht & Hf).
  exists s', b. split; [exact E|]. split.
  - intros ->. destruct (Ht eq_refl) as [Htot _]. split; [exact Htot|]. specialize (E _ _ (le_n _) (le_n _)).
    assert (HR : mreached tr s').
    { apply (search_inv C pick HP (mreached tr) (search_fuel (nv s)) (search_len (nv s)) s s'); [| |apply G|exact E].
      - intros s1 p s2. apply mreached_assume.
      - intros s1. apply mreached_propagate, HT. }
    destruct HR as [(tr' & HT') [HQ HW]]. destruct (mtrace_good om oi Hom Hoi ord Hord fuel _ s' HT') as (o & t & MG'). pose proof (mg_th _ _ _ _ _ _ _ MG') as Et. exists o, t. split; [exact Et|].
    destruct (mquiet_joint s' o t HQ Et) as (d0 & P & H); [intros vs Hvs; apply (HW t vs); [rewrite Et; right; left; reflexivity|exact Hvs]|exact Htot|]. exists d0. split; [exact P|]. intros d Hd Hle.
    pose proof (mtold_all om oi Hom Hoi ord Hord fuel _ s' HT' _ _ (H d Hd Hle)) as K.
    apply (mtold_app tr' tr), K.
  - intros -> M y HM. destruct (mtold_enough om oi Hom Hoi ord Hord fuel tr s HT Hm M y HM) as (M' & y' & _ & _ & HN & _). exact (Hf eq_refl M' HN).
Qed.
End Mix.
End Srt.
