(** Comparisons lose no solution; equalities (lra_theory.h:58). *)
From Verif Require Import Base Keys Sat SatSpec SatInv SatPop SatImp SatRec SatAn SatProp SatLoop SatMain SatApi SatApi2 SatNext SatSimp Reify Amo Run.
From Verif Require Import Lin Qe Lra LraTab LraVal LraInv LraChk LraPro LraCon ThGrow LraNew LraCmp ThRel LraApi LraRun.
From Coq Require Import Lqa.
Open Scope Q_scope.
Local Arguments Nat.ltb : simpl never.
Local Arguments Nat.eqb : simpl never.
Section Srt.
Context {sr : sorter}.

Section Eq.
Context (ord : nat -> list nat -> list nat) (Hord : forall k l, Permutation l (ord k l)) (fuel : lra -> nat).
Notation C := (lraT ord Hord fuel).
Notation ops := (lra_ops ord fuel).
Notation st := (st lra).
Notation nsol := (nsol ord Hord fuel).
Notation side_ok := (side_ok ord Hord fuel).

Lemma cmpP_dec sd strict a b : {cmpP sd strict a b} + {~ cmpP sd strict a b}.
Proof. unfold cmpP. destruct sd, strict; destruct (Qlt_le_dec a b), (Qlt_le_dec b a); try (left; lra); right; intros ?; lra. Qed.

Lemma nsol_agree (s : st) i M M' y : good C s -> agree (nv s) M M' -> nsol s i M y -> nsol s i M' y.
Proof.
  intros G Ha (HM & t & Et & J1 & J2 & J3). split; [apply (smodels_agree C s M M' (g_inv _ _ G) Ha HM)|]. exists t. split; [exact Et|].
  assert (R : forall v, atoms t v -> (v < nv s)%nat) by (intros v Hv; apply (h_range _ _ _ _ (i_h _ _ (g_inv _ _ G)) i t v Et Hv)).
  split; [exact J1|]. split.
  - intros v a Hv. rewrite <- (J2 v a Hv), (Ha v); [reflexivity|]. apply R. unfold atoms. change v with (fst (v, a)). apply in_map, Hv.
  - intros l Hl Hat. rewrite <- (mlit_agree M M' l (nv s) Ha (R _ Hat)). apply J3; assumption.
Qed.
Lemma lval_below (y y' : nat -> Q) n l : (forall z, (z < n)%nat -> y' z = y z) -> (forall v, dom (lvars l) v -> (v < n)%nat) -> lval y' l == lval y l.
Proof. intros H K. unfold lval. rewrite (msum_ext y' y (lvars l)); [reflexivity|]. intros u Hu. rewrite (H u (K u Hu)). reflexivity. Qed.

(** new_lt, new_leq, new_geq, new_gt lose no solution. *)
Theorem cmp_cons (s : st) i t sd strict left right : good C s -> dlevel s = 0%nat -> nth_error (theories s) i = Some t ->
  lin_clean left -> lin_clean right -> (forall v, dom (lvars left) v \/ dom (lvars right) v -> (v < nx t)%nat) ->
  exists s' t' p, lra_cmp s i sd strict left right = Ok (s', p) /\ side_ok s s' i t' /\ grows t t' /\ (lvar p < nv s')%nat /\
    (forall M y, nsol s' i M y -> nsol s i M y /\ (mlit M p = true <-> cmpP sd strict (lval y left) (lval y right))) /\
    (forall M y, nsol s i M y -> exists M' y', agree (nv s) M M' /\ (forall z, (z < nx t)%nat -> y' z = y z) /\ nsol s' i M' y').
Proof.
  intros G Hd Et Hl Hr Hv. destruct (cmp_call ord Hord fuel s i t sd strict left right G Hd Et Hl Hr Hv) as (s' & t' & p & E & SO & Gw & Hp & _ & H1 & H2 & H3 & H4).
  exists s', t', p. split; [exact E|]. split; [exact SO|]. split; [exact Gw|]. split; [exact Hp|]. split; [exact H1|]. intros M y HN. destruct H3 as [H3|[H3 H3s]].
  - destruct (H2 M y HN (H4 H3 M y HN)) as (y' & A & B). exists M, y'. split; [intros v _; reflexivity|]. auto.
  - set (b := if cmpP_dec sd strict (lval y left) (lval y right) then true else false). set (M' := upd M (nv s) b).
    assert (Ag : agree (nv s) M M') by (intros v Hlt; unfold M'; rewrite upd_neq by lia; reflexivity).
    destruct (H2 M' y (nsol_agree s i M M' y G Ag HN)) as (y' & A & B).
    + unfold mlit. rewrite H3, H3s. unfold M'. rewrite upd_eq. unfold b. destruct (cmpP_dec sd strict (lval y left) (lval y right)) as [K|K]; cbn; split; auto; try discriminate; intros K'; contradiction.
    + exists M', y'. auto.
Qed.

(** new_conj seen with the numeric values. *)
Lemma conj_call (s : st) i t ls : good C s -> dlevel s = 0%nat -> nth_error (theories s) i = Some t -> in_scope s ls ->
  exists s' p, new_conj s ls = Ok (s', p) /\ good C s' /\ dlevel s' = 0%nat /\ (nv s <= nv s')%nat /\ theories s' = theories s /\ (lvar p < nv s')%nat /\
    (forall M y, nsol s' i M y -> nsol s i M y /\ mlit M p = forallb (mlit M) ls) /\
    (forall M y, nsol s i M y -> exists M', agree (nv s) M M' /\ nsol s' i M' y).
Proof.
  intros G Hd Et Hs. destruct (new_conj_ok C s ls (g_inv _ _ G) (g_cache _ _ G) Hd Hs) as (s' & p & E & HE & HC & Hp & HM & _).
  exists s', p. split; [exact E|]. split; [apply (ext_good C s); assumption|]. split; [rewrite (e_dl _ _ _ HE); exact Hd|]. split; [apply HE|]. split; [apply HE|]. split; [exact Hp|]. split.
  - intros M y (A & u & Eu & Hu). apply HM in A as [A B]. split; [split; [exact A|]|exact B]. exists u. rewrite <- (e_ths _ _ _ HE). auto.
  - intros M y HN. destruct (HC M (proj1 HN)) as (M' & Ag & HM'). exists M'. split; [exact Ag|]. split; [exact HM'|].
    destruct (nsol_agree s i M M' y G Ag HN) as (_ & u & Eu & Hu). exists u. rewrite (e_ths _ _ _ HE). auto.
Qed.

Theorem eq_call (s : st) i t left right : good C s -> dlevel s = 0%nat -> nth_error (theories s) i = Some t ->
  lin_clean left -> lin_clean right -> (forall v, dom (lvars left) v \/ dom (lvars right) v -> (v < nx t)%nat) ->
  exists s' t' p, lra_new_eq s i left right = Ok (s', p) /\ good C s' /\ dlevel s' = 0%nat /\ nth_error (theories s') i = Some t' /\ (nv s <= nv s')%nat /\ (nx t <= nx t')%nat /\ (lvar p < nv s')%nat /\
    (forall M y, nsol s' i M y -> nsol s i M y /\ (mlit M p = true <-> lval y left == lval y right)) /\
    (forall M y, nsol s i M y -> exists M' y', agree (nv s) M M' /\ (forall z, (z < nx t)%nat -> y' z = y z) /\ nsol s' i M' y').
Proof.
  intros G Hd Et Hl Hr Hv. unfold lra_new_eq, lra_new_geq, lra_new_leq.
  destruct (cmp_cons s i t Lo false left right G Hd Et Hl Hr Hv) as (s1 & t1 & p & -> & SO1 & Gw1 & Hp & A1 & B1). cbn [rbind].
  assert (Hi : (i < length (theories s))%nat) by (apply nth_error_Some; congruence).
  assert (Et1 : nth_error (theories s1) i = Some t1) by (rewrite (so_th _ _ _ _ _ _ _ SO1), nth_set_nth by exact Hi; rewrite Nat.eqb_refl; reflexivity).
  assert (Hd1 : dlevel s1 = 0%nat) by (rewrite (so_dl _ _ _ _ _ _ _ SO1); exact Hd). pose proof (gw_nx _ _ Gw1) as N1.
  destruct (cmp_cons s1 i t1 Up false left right (so_good _ _ _ _ _ _ _ SO1) Hd1 Et1 Hl Hr) as (s2 & t2 & q & -> & SO2 & Gw2 & Hq & A2 & B2); [intros v Hx; specialize (Hv v Hx); lia|]. cbn [rbind].
  assert (Hi2 : (i < length (theories s1))%nat) by (apply nth_error_Some; congruence).
  assert (Et2 : nth_error (theories s2) i = Some t2) by (rewrite (so_th _ _ _ _ _ _ _ SO2), nth_set_nth by exact Hi2; rewrite Nat.eqb_refl; reflexivity).
  assert (Hd2 : dlevel s2 = 0%nat) by (rewrite (so_dl _ _ _ _ _ _ _ SO2); exact Hd1). pose proof (gw_nx _ _ Gw2) as N2. pose proof (so_nv _ _ _ _ _ _ _ SO1) as V1. pose proof (so_nv _ _ _ _ _ _ _ SO2) as V2.
  destruct (conj_call s2 i t2 [p; q] (so_good _ _ _ _ _ _ _ SO2) Hd2 Et2) as (s3 & r & E3 & G3 & Hd3 & Hn3 & Et3 & Hr3 & A3 & B3).
  { intros z [<-|[<-|[]]]; lia. }
  exists s3, t2, r. split; [exact E3|]. split; [exact G3|]. split; [exact Hd3|]. split; [rewrite Et3; exact Et2|]. split; [lia|]. split; [lia|]. split; [exact Hr3|]. split.
  - intros M y HN. destruct (A3 M y HN) as [HN2 Er]. destruct (A2 M y HN2) as [HN1 Eq]. destruct (A1 M y HN1) as [HN0 Ep]. split; [exact HN0|].
    rewrite Er. cbn [forallb]. rewrite andb_true_r, andb_true_iff, Ep, Eq. unfold cmpP. split; [intros []; lra|intros; split; lra].
  - intros M y HN. destruct (B1 M y HN) as (M1 & y1 & Q1 & Y1 & HN1). destruct (B2 M1 y1 HN1) as (M2 & y2 & Q2 & Y2 & HN2). destruct (B3 M2 y2 HN2) as (M3 & Q3 & HN3).
    exists M3, y2. split; [intros v Hlt; rewrite (Q1 v Hlt), (Q2 v), (Q3 v) by lia; reflexivity|]. split; [|exact HN3]. intros z Hz. rewrite (Y2 z) by lia. apply Y1, Hz.
Qed.
(** As a part of a history, it is two comparisons and a conjunction. *)
Theorem eq_trace (fl : nat) tr s s' l r p : LTrace ord Hord fuel tr s -> llegal ord Hord fuel s (LCmp Lo false l r) -> lra_new_eq s 0 l r = Ok (s', p) ->
  exists g q, LTrace ord Hord fuel (mk_lev (LSat (CConj [g; q])) (decisions s') (LR (RLit p)) :: mk_lev (LCmp Up false l r) (decisions s') (LP q) :: mk_lev (LCmp Lo false l r) (decisions s') (LP g) :: tr) s'.
Proof.
  intros HT HL E. unfold lra_new_eq, lra_new_geq, lra_new_leq in E. destruct (ltrace_good _ _ _ _ _ HT) as [G (t & Et)]. assert (Ei : nth_error (theories s) 0 = Some t) by (rewrite Et; reflexivity).
  pose proof HL as (Hd & Hl & Hr & u & Eu & Hv). rewrite Et in Eu. inversion Eu; subst u.
  destruct (cmp_cons s 0 t Lo false l r G Hd Ei Hl Hr) as (s1 & t1 & g & E1 & SO1 & Gw1 & Hg & _ & _).
  { intros v Hx. apply Hv. cbn [lvars_of]. apply in_or_app. destruct Hx as [Hx|Hx]; [left|right]; apply dom_fst, Hx. }
  rewrite E1 in E. cbn [rbind] in E. assert (Et1 : theories s1 = [t1]) by (rewrite (so_th _ _ _ _ _ _ _ SO1), Et; reflexivity).
  assert (D1 : decisions s1 = decisions s) by apply SO1. assert (Hd1 : dlevel s1 = 0%nat) by (rewrite (so_dl _ _ _ _ _ _ _ SO1); exact Hd).
  assert (T1 : LTrace ord Hord fuel (mk_lev (LCmp Lo false l r) (decisions s) (LP g) :: tr) s1).
  { apply (LT_step ord Hord fuel fl) with (s := s); auto; [cbn [lstep]; rewrite E1; reflexivity|intros D; discriminate]. }
  assert (L1 : llegal ord Hord fuel s1 (LCmp Up false l r)).
  { split; [exact Hd1|]. split; [exact Hl|]. split; [exact Hr|]. exists t1. split; [exact Et1|]. intros x Hx. specialize (Hv x Hx). pose proof (gw_nx _ _ Gw1). lia. }
  destruct (cmp_cons s1 0 t1 Up false l r (so_good _ _ _ _ _ _ _ SO1) Hd1) as (s2 & t2 & q & E2 & SO2 & Gw2 & Hq & _ & _); auto.
  { rewrite Et1; reflexivity. }
  { intros v Hx. destruct L1 as (_ & _ & _ & u & Eu1 & Hv1). rewrite Et1 in Eu1. inversion Eu1; subst u. apply Hv1. cbn [lvars_of]. apply in_or_app. destruct Hx as [Hx|Hx]; [left|right]; apply dom_fst, Hx. }
  rewrite E2 in E. cbn [rbind] in E. assert (D2 : decisions s2 = decisions s1) by apply SO2. assert (Hd2 : dlevel s2 = 0%nat) by (rewrite (so_dl _ _ _ _ _ _ _ SO2); exact Hd1).
  assert (T2 := LT_step ord Hord fuel fl _ s1 (LCmp Up false l r) s2 (LP q) T1 L1 ltac:(cbn [lstep]; rewrite E2; reflexivity) ltac:(intros D; discriminate)).
  assert (L2 : llegal ord Hord fuel s2 (LSat (CConj [g; q]))).
  { cbn [llegal legal]. split; [exact Hd2|]. intros z [<-|[<-|[]]]; [|exact Hq]. pose proof (so_nv _ _ _ _ _ _ _ SO2). lia. }
  assert (T3 := LT_step ord Hord fuel fl _ s2 (LSat (CConj [g; q])) s' (LR (RLit p)) T2 L2 ltac:(cbn [lstep step]; rewrite E; reflexivity) ltac:(intros D; discriminate)).
  assert (D3 : decisions s = [] /\ decisions s' = []).
  { assert (K : forall s0 : st, good C s0 -> dlevel s0 = 0%nat -> decisions s0 = []) by (intros s0 G0 H0; apply length_zero_iff_nil; rewrite (t_dec s0 (i_t _ _ (g_inv _ _ G0))); exact H0).
    split; [apply K; assumption|]. destruct (conj_call s2 0 t2 [g; q] (so_good _ _ _ _ _ _ _ SO2) Hd2) as (s3 & r3 & E3 & G3 & Hd3 & _).
    - rewrite (so_th _ _ _ _ _ _ _ SO2), Et1. reflexivity.
    - intros z [<-|[<-|[]]]; [|exact Hq]. pose proof (so_nv _ _ _ _ _ _ _ SO2). lia.
    - rewrite E in E3. inversion E3; subst. apply K; assumption. }
  destruct D3 as [D3 D4]. exists g, q. rewrite D2, D1 in T3. rewrite D3 in T3. rewrite D4. exact T3.
Qed.
End Eq.
End Srt.
