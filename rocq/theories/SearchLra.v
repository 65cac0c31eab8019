(** Searching with the theory of linear real arithmetic, alone or next to object variables. *)
From Verif Require Import Base Keys Sat SatSpec SatInv SatPop SatImp SatMain SatApi SatApi2 SatNext Reify Amo Run SatFacts SatProps Exec Full FullEnd Search.
From Verif Require Import Lin Qe Lra LraTab LraVal LraInv LraChk LraPro LraCon LraNew LraCmp LraApi LraRun LraEnd LraFacts LraExec LraFull.
From Coq Require Import Lqa.
Open Scope Q_scope.
Section Srt.
Context {sr : sorter}.

(** Values within the bounds, the infinitesimal replaced by a small enough number. *)
Lemma within_real t vs w : TInv t vs -> vsol (tab t) w -> within (cb t) w -> exists d0, 0 < d0 /\ forall d, 0 < d -> d <= d0 ->
  tsol (tab t) (fun x => at_eps d (w x)) /\ forall s x, bhold s (bound t s x) (at_eps d (w x)).
Proof.
  intros HI Hv HW. destruct (small_eps (flat_map (fun x => [(Lo, bound t Lo x, w x); (Up, bound t Up x, w x)]) (seq 0 (nx t)))) as (d0 & P & H).
  - intros s b q Hi. apply in_flat_map in Hi as (x & _ & Hi). destruct Hi as [E|[E|[]]]; inversion E; subst; (split; [apply HW|apply (b_sgn _ _ _ (ti_b _ _ HI))]).
  - exists d0. split; [exact P|]. intros d Hd Hle. split; [apply tsol_eps; exact Hv|].
    intros s x. destruct (le_lt_dec (nx t) x) as [Hx|Hx].
    + unfold bound. rewrite (b_out _ _ _ (ti_b _ _ HI) s x Hx). exact I.
    + apply (H d Hd Hle). apply in_flat_map. exists x. split; [apply in_seq; lia|]. destruct s; [left; reflexivity|right; left; reflexivity].
Qed.
(** Real values that satisfy all the bounds make true what the theory was told. *)
Lemma view_joint t vs M y : TInv t vs -> tsol (tab t) y -> (forall s x, bhold s (bound t s x) (y x)) ->
  (forall q, In q (concat vs) -> mlit M q = true) -> (forall v, atoms t v -> exists q, In q (concat vs) /\ lvar q = v) -> joint t M y.
Proof.
  intros HI HS HB HM HA. split; [exact HS|]. split.
  - intros v a Ha. destruct (HA v) as (q & Hq & Ev); [unfold atoms; change v with (fst (v, a)); apply in_map, Ha|].
    assert (Hf : gfind v (v_asrts t) = Some a) by (apply gfind_nodup; [apply HI|exact Ha]).
    destruct (ti_atom _ _ HI _ _ Ha) as (E1 & E2 & E3 & E4).
    destruct (b_lit _ _ _ (ti_b _ _ HI) q Hq) as (sd & x & b & A1 & A2).
    assert (K : bhold sd (Some b) (y x)) by (eapply bhold_weak; [exact A2|apply HB]).
    pose proof (HM q Hq) as Hm. unfold mlit in Hm. rewrite Ev in Hm. apply Bool.eqb_prop in Hm.
    unfold lmean in A1. rewrite Ev, Hf in A1. unfold amean in A1. unfold ahold. rewrite Hm. destruct (lsgn q); injection A1 as <- <- <-.
    + split; [intros _; exact K|reflexivity].
    + split; [discriminate|]. intros Hx. exfalso. apply (neg_hold a (y (a_x a)) E4); assumption.
  - intros l Hl _. apply HM. apply (ti_facts _ _ HI) in Hl. apply in_concat. exists (last vs []). split; [|exact Hl].
    destruct vs as [|w vs]; [destruct Hl|]. clear. revert w. induction vs as [|u vs IH]; intros w; [left; reflexivity|]. right. apply IH.
Qed.
Lemma lra_decides ord Hord fuel : th_decides (lraT ord Hord fuel).
Proof.
  intros t vs M [HI _] (w & Hw & HW) HM HA. destruct (within_real t vs w HI Hw HW) as (d0 & P & H). destruct (H d0 P (Qle_refl _)) as [A B].
  exists (fun x => at_eps d0 (w x)). split; [exact I|]. apply (view_joint t vs); assumption.
Qed.

Section Lra.
Context (ord : nat -> list nat -> list nat) (Hord : forall k l, Permutation l (ord k l)) (fuel : lra -> nat).
Notation C := (lraT ord Hord fuel).
Notation st := (st lra).
Notation ops := (lra_ops ord fuel).

(** A legal state where everything has a value, nothing is pending and the values are within the bounds. *)
Lemma quiet_joint (s : st) t : quiet C s -> theories s = [t] -> (forall vs, TInv t vs -> within (cb t) (vals t)) -> total s ->
  exists d0, 0 < d0 /\ forall d, 0 < d -> d <= d0 -> nsol ord Hord fuel s 0 (values s) (fun x => at_eps d (vals t x)).
Proof.
  intros HQ Et HW Htot. pose proof (total_model C s HQ Htot (lra_decides ord Hord fuel)) as HM. destruct HQ as [HI Hq _].
  assert (Ei : nth_error (theories s) 0 = Some t) by (rewrite Et; reflexivity).
  destruct (h_views _ _ _ _ (i_h _ _ HI) 0%nat t Ei) as (vs & [HTI _] & _ & Hv1 & Hv2).
  destruct (within_real t vs (vals t) HTI ltac:(apply HTI) (HW vs HTI)) as (d0 & P & H). exists d0. split; [exact P|]. intros d Hd Hle. destruct (H d Hd Hle) as [A B].
  split; [exact HM|]. exists t. split; [exact Ei|]. apply (view_joint t vs); try assumption.
  - intros q Hin. apply in_concat in Hin as (v & Hv & Hqv). apply In_nth_error in Hv as (j & Ej). destruct (Hv1 j v q Ej (or_introl I) Hqv) as [V _]. apply values_lit; congruence.
  - intros v Ha. pose proof (h_range _ _ _ _ (i_h _ _ HI) 0%nat t v Ei Ha) as Hr. specialize (Htot v (proj2 Hr)).
    set (l := mk_lit v (values s v)). assert (Hl : value s l = LTrue) by (unfold l, value, vlit, values; cbn; destruct (assigns s v); congruence).
    destruct (Hv2 l Ha Hl) as [Hp|(j & w & Ej & Hi & _)]; [rewrite Hq in Hp; destruct Hp|]. exists l. split; [|reflexivity]. apply in_concat. exists w. split; [apply (nth_error_In _ _ Ej)|exact Hi].
Qed.

(** The states of a search are those of longer histories. *)
Definition reached (tr : list levent) (s : st) : Prop :=
  (exists tr', FTrace ord Hord fuel (tr' ++ tr) s) /\ forall t vs, In t (theories s) -> TInv t vs -> within (cb t) (vals t).
Lemma reached_assume tr fl (s : st) p s' : reached tr s -> quiet C s -> (lvar p < nv s)%nat -> value s p = LUndef -> assume ops fl s p = Ok (s', true) -> reached tr s'.
Proof.
  intros [(tr' & HT) _] HQ Hp Hu E. split.
  - exists (mk_lev (LSat (CAssume p)) (decisions s) (LR (RBool true)) :: tr'). eapply FT_step with (fl := fl); [exact HT| |exact I| |intros D; discriminate].
    + cbn. split; [apply (qu_q _ _ HQ)|]. split; [apply (qu_set _ _ HQ)|]. intros q [<-|[]]. exact Hp.
    + cbn [lstep step]. rewrite E. reflexivity.
  - intros t vs. rewrite (assume_eq C fl s p HQ Hp), Hu in E. apply (propagate_within ord fuel fl _ s' E).
Qed.
Lemma reached_propagate tr fl (s : st) s' : FTrace ord Hord fuel tr s -> propagate ops fl s = Ok (s', true) -> reached tr s'.
Proof.
  intros HT E. split.
  - exists [mk_lev (LSat CPropagate) (decisions s) (LR (RBool true))]. eapply FT_step with (fl := fl); [exact HT|exact I|exact I| |intros D; discriminate]. cbn [lstep step]. rewrite E. reflexivity.
  - apply (propagate_within ord fuel fl s s' E).
Qed.

Context (Hfuel : forall t, (6 ^ nx t <= fuel t)%nat) (pick : @chooser lra) (HP : chooses pick).

Theorem lra_search tr (s : st) : FTrace ord Hord fuel tr s -> decs_ok s ->
  exists s' b, (forall fl n, (search_fuel (nv s) <= fl)%nat -> (search_len (nv s) <= n)%nat -> search (ops := ops) pick fl n s = Ok (s', b)) /\
  (b = true -> total s' /\ exists t, theories s' = [t] /\ exists d0, 0 < d0 /\ forall d, 0 < d -> d <= d0 -> lrespects tr (values s') (fun x => at_eps d (vals t x))) /\
  (b = false -> forall M y, ~ lrespects tr M y).
Proof.
  intros HT HD. destruct (ftrace_good _ _ _ _ _ HT) as [G (t0 & Et0)].
  destruct (search_decides C pick HP s s G (R_init _ s) HD (lra_total ord Hord fuel Hfuel) (lra_decides ord Hord fuel)) as (s' & b & E & Hnv & Ht & Hf).
  exists s', b. split; [exact E|]. split.
  - intros ->. destruct (Ht eq_refl) as [Htot _]. split; [exact Htot|]. specialize (E _ _ (le_n _) (le_n _)).
    assert (HR : reached tr s' /\ quiet C s').
    { apply (search_inv C pick HP (fun s => reached tr s /\ quiet C s) (search_fuel (nv s)) (search_len (nv s)) s s'); [| |apply G|exact E].
      - intros s1 p s2 [H1 _] HQ Hp Hu Ea. split; [eapply reached_assume; eassumption|].
        rewrite (assume_eq C _ s1 p HQ Hp), Hu in Ea. destruct (assumed_ok C s1 p HQ Hp) as (HIa & _ & _).
        pose proof (propagate_ok C _ (search_fuel (nv s)) _ HIa (le_n _)) as H. rewrite Ea in H. destruct (pp_true _ _ _ _ H eq_refl) as (A & B & D). constructor; assumption.
      - intros s1 Ep. split; [eapply reached_propagate; eassumption|]. pose proof (propagate_ok C _ (search_fuel (nv s)) s (g_inv _ _ G) (le_n _)) as H. rewrite Ep in H. destruct (pp_true _ _ _ _ H eq_refl) as (A & B & D). constructor; assumption. }
    destruct HR as [[(tr' & HT') HW] HQ]. destruct (ftrace_good _ _ _ _ _ HT') as [_ (t & Et)]. exists t. split; [exact Et|].
    destruct (quiet_joint s' t HQ Et) as (d0 & P & H); [intros vs Hvs; apply (HW t vs); [rewrite Et; left; reflexivity|exact Hvs]|exact Htot|]. exists d0. split; [exact P|]. intros d Hd Hle.
    destruct (ffull_sound ord Hord fuel _ s' HT' _ _ (H d Hd Hle)) as [A B]. split; [exact A|]. intros e He. apply B, in_or_app. right. exact He.
  - intros -> M y HM. destruct (proj2 (proj2 (ffull_complete ord Hord fuel tr s HT)) M y HM) as (M' & y' & _ & _ & HN & _). exact (Hf eq_refl M' HN).
Qed.

(** All the Boolean solutions. *)
Theorem lra_all tr (s : st) : LTrace ord Hord fuel tr s -> mindful tr -> decs_ok s -> forall fl n m,
  (forall l, all_solutions (ops := ops) pick fl n m s = Ok l -> solutions (nv s) (fun M => M 0%nat = false /\ exists y, told tr M y) l) /\
  ((search_fuel (nv s) <= fl)%nat -> (search_len (nv s) <= n)%nat -> (2 ^ (nv s - 1) < m)%nat -> exists l, all_solutions (ops := ops) pick fl n m s = Ok l).
Proof.
  intros HT Hm HD fl n m. destruct (ltrace_good _ _ _ _ _ HT) as [G (t0 & Et0)].
  destruct (all_solutions_ok C pick HP s s G (R_init _ s) HD (lra_decides ord Hord fuel) fl n m) as (_ & H1 & H2). split; [|apply H2, lra_total, Hfuel].
  assert (HE : forall M, smodels C s M <-> (M 0%nat = false /\ exists y, told tr M y)).
  { intros M. split.
    - intros HM. destruct (sm_th _ _ _ HM t0 ltac:(rewrite Et0; left; reflexivity)) as (y & _ & HJ).
      destruct (told_all ord Hord fuel tr s HT M y) as [A B]; [split; [exact HM|exists t0; split; [rewrite Et0; reflexivity|exact HJ]]|]. split; [exact A|exists y; exact B].
    - intros [H0 (y & Hy)]. destruct (told_enough ord Hord fuel tr s HT Hm M y H0 Hy) as (y' & _ & HN & _). exact HN. }
  intros l E. destruct (H1 l E) as [A B D]. constructor; [intros M HM; apply A, HE, HM|intros M Hi; apply HE, B, Hi|exact D].
Qed.
End Lra.
End Srt.
