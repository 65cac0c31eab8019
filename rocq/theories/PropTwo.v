(** C79: difference logic and linear real arithmetic on one core, used at root level.  Nothing but statements, closed by lemmas, and concrete cases.
    [ZATrace ord Hord fuel size tr s] ([QATrace]): [s] is the state of a network made of a core, an idl_theory (rdl_theory) of the given initial size, theory 0, and an lra_theory,
    theory 1, after the calls of [tr], whose results are recorded in it: the functions of sat_core that neither assume nor pop and the calls of the
    difference logic theory ([AD]), and new_var ([AVar]), new_var of an expression ([ASlack]) and the comparisons ([ACmp]) of the arithmetic one;
    [ord] is the order, arbitrary, in which sets are iterated.
    [za_stated tr M y z] ([qa_stated]): the assignments [M] to the propositional variables, [y] to the variables of the difference logic theory (the first, the
    origin, being 0) and [z] to those of the arithmetic theory agree with everything stated.  [aknown tr]: the arithmetic variables the client has been
    given.  [amindful tr]: no call that creates hidden propositional variables, and expressions over known variables only. *)
From Verif Require Import Base Keys Sat SatSpec SatInv SatMain SatApi SatApi2 Reify Run SatFacts Lin Qe Lra LraTab LraInv LraNew LraCmp LraApi LraRun LraEnd LraExec ThSum Mix MapTh.
From Verif Require Import Dw Dl DlClo DlTight DlTh DlFacts DlApi DlSpec DlQ DlRoot DlNet DlTrace DlRSpec Two TwoApi TwoSame TwoNet TwoTrace TwoSpec.
From Coq Require Import Lqa.
Open Scope nat_scope.
#[local] Existing Instance stable_sort | 100.

(** What the network entails is what has been stated, no less... *)
Theorem C79_idl_models_respect_partial (sr : sorter) : forall ord Hord fuel size tr s, 0 < size -> ZATrace ord Hord fuel size tr s -> forall M y z, asol ZL ord Hord fuel s M (zq y) z -> za_stated tr M y z.
Proof. intros ord Hord fuel size tr s H HT M y z HM. apply (stated_za tr M (zq y) y z); [intros v; reflexivity|]. exact (asol_stated ZL ZR zlast2 ord Hord fuel size H tr s HT M (zq y) z HM). Qed.
Print Assumptions C79_idl_models_respect_partial.
Theorem C79_rdl_models_respect_partial (sr : sorter) : forall ord Hord fuel size tr s, 0 < size -> QATrace ord Hord fuel size tr s -> forall M y z, asol QL ord Hord fuel s M y z -> qa_stated tr M y z.
Proof. intros ord Hord fuel size tr s H HT M y z HM. apply qa_stated_iff. exact (asol_stated QL QR qlast2 ord Hord fuel size H tr s HT M y z HM). Qed.
Print Assumptions C79_rdl_models_respect_partial.
(** ... and no more. *)
Theorem C79_idl_nothing_more_partial (sr : sorter) : forall ord Hord fuel size tr s, 0 < size -> ZATrace ord Hord fuel size tr s -> amindful tr -> forall M y z, za_stated tr M y z ->
  exists z', (forall x, In x (aknown tr) -> (z' x == z x)%Q) /\ asol ZL ord Hord fuel s M (zq y) z'.
Proof. intros ord Hord fuel size tr s H HT Hm M y z HM. exact (stated_asol ZL ZR zlast2 ord Hord fuel size H tr s HT Hm M (zq y) z (za_stated_of tr M y z HM)). Qed.
Print Assumptions C79_idl_nothing_more_partial.
Theorem C79_rdl_nothing_more_partial (sr : sorter) : forall ord Hord fuel size tr s, 0 < size -> QATrace ord Hord fuel size tr s -> amindful tr -> forall M y z, qa_stated tr M y z ->
  exists z', (forall x, In x (aknown tr) -> (z' x == z x)%Q) /\ asol QL ord Hord fuel s M y z'.
Proof. intros ord Hord fuel size tr s H HT Hm M y z HM. exact (stated_asol QL QR qlast2 ord Hord fuel size H tr s HT Hm M y z (proj2 (qa_stated_iff tr M y z) HM)). Qed.
Print Assumptions C79_rdl_nothing_more_partial.
(** A failed propagation: nothing satisfies all that has been stated, through either theory. *)
Theorem C79_idl_false_partial (sr : sorter) : forall ord Hord fuel size tr s fl s', 0 < size -> ZATrace ord Hord fuel size tr s -> amindful tr -> zastep ord fuel fl s (AD (DSat CPropagate)) = Ok (s', AR (DR (RBool false))) -> forall M y z, ~ za_stated tr M y z.
Proof. intros ord Hord fuel size tr s fl s' H HT Hm E M y z HM. exact (afalse ZL ZR zlast2 ord Hord fuel size H tr s fl s' HT Hm E M (zq y) z (za_stated_of tr M y z HM)). Qed.
Print Assumptions C79_idl_false_partial.
Theorem C79_rdl_false_partial (sr : sorter) : forall ord Hord fuel size tr s fl s', 0 < size -> QATrace ord Hord fuel size tr s -> amindful tr -> qastep ord fuel fl s (AD (DSat CPropagate)) = Ok (s', AR (DR (RBool false))) -> forall M y z, ~ qa_stated tr M y z.
Proof. intros ord Hord fuel size tr s fl s' H HT Hm E M y z HM. exact (afalse QL QR qlast2 ord Hord fuel size H tr s fl s' HT Hm E M y z (proj2 (qa_stated_iff tr M y z) HM)). Qed.
Print Assumptions C79_rdl_false_partial.
(** A rejected clause. *)
Theorem C79_idl_clause_false_partial (sr : sorter) : forall ord Hord fuel size tr s fl ls s', 0 < size -> ZATrace ord Hord fuel size tr s -> amindful tr -> in_scope s ls -> zastep ord fuel fl s (AD (DSat (CClause ls))) = Ok (s', AR (DR (RBool false))) -> forall M y z, za_stated tr M y z -> ~ mcl M ls.
Proof. intros ord Hord fuel size tr s fl ls s' H HT Hm Hs E M y z HM. exact (aclause_false ZL ZR zlast2 ord Hord fuel size H tr s fl ls s' HT Hm Hs E M (zq y) z (za_stated_of tr M y z HM)). Qed.
Print Assumptions C79_idl_clause_false_partial.
Theorem C79_rdl_clause_false_partial (sr : sorter) : forall ord Hord fuel size tr s fl ls s', 0 < size -> QATrace ord Hord fuel size tr s -> amindful tr -> in_scope s ls -> qastep ord fuel fl s (AD (DSat (CClause ls))) = Ok (s', AR (DR (RBool false))) -> forall M y z, qa_stated tr M y z -> ~ mcl M ls.
Proof. intros ord Hord fuel size tr s fl ls s' H HT Hm Hs E M y z HM. exact (aclause_false QL QR qlast2 ord Hord fuel size H tr s fl ls s' HT Hm Hs E M y z (proj2 (qa_stated_iff tr M y z) HM)). Qed.
Print Assumptions C79_rdl_clause_false_partial.
(** A literal that has a value has it whenever what has been stated holds. *)
Theorem C79_idl_implied_partial (sr : sorter) : forall ord Hord fuel size tr s q, 0 < size -> ZATrace ord Hord fuel size tr s -> amindful tr -> value s q = LTrue -> forall M y z, za_stated tr M y z -> mlit M q = true.
Proof. intros ord Hord fuel size tr s q H HT Hm Hq M y z HM. exact (aimplied ZL ZR zlast2 ord Hord fuel size H tr s q HT Hm Hq M (zq y) z (za_stated_of tr M y z HM)). Qed.
Print Assumptions C79_idl_implied_partial.
Theorem C79_rdl_implied_partial (sr : sorter) : forall ord Hord fuel size tr s q, 0 < size -> QATrace ord Hord fuel size tr s -> amindful tr -> value s q = LTrue -> forall M y z, qa_stated tr M y z -> mlit M q = true.
Proof. intros ord Hord fuel size tr s q H HT Hm Hq M y z HM. exact (aimplied QL QR qlast2 ord Hord fuel size H tr s q HT Hm Hq M y z (proj2 (qa_stated_iff tr M y z) HM)). Qed.
Print Assumptions C79_rdl_implied_partial.
(** distance(i, j) and the bounds of the arithmetic variables enclose what has been stated. *)
Theorem C79_idl_encloses_partial (sr : sorter) : forall ord Hord fuel size tr s t u, 0 < size -> ZATrace ord Hord fuel size tr s -> amindful tr -> theories s = [inl t; inr u] -> forall M y z, za_stated tr M y z ->
  (forall i j, (forall d, snd (distance Zw t i j) = Some d -> y j - y i <= d)%Z /\ (forall d, fst (distance Zw t i j) = Some d -> d <= y j - y i)%Z) /\
  (forall sd x, In x (aknown tr) -> bhold sd (bound u sd x) (z x)).
Proof.
  intros ord Hord fuel size tr s t u H HT Hm Et M y z HM. apply za_stated_of in HM. split; [intros i j; split; intros d Ed; cbn in Ed|].
  - apply z_wsat. exact (adistance ZL ZR zlast2 ord Hord fuel size H tr s t u i j d HT Hm Et Ed M (zq y) z HM).
  - destruct (dists t j i) as [e|] eqn:Ee; [|discriminate]. cbn in Ed. injection Ed as <-. pose proof (adistance ZL ZR zlast2 ord Hord fuel size H tr s t u j i e HT Hm Et Ee M (zq y) z HM) as K. apply z_wsat in K. lia.
  - intros sd x Hx. exact (abounds ZL ZR zlast2 ord Hord fuel size H tr s t u sd x HT Hm Et Hx M (zq y) z HM).
Qed.
Print Assumptions C79_idl_encloses_partial.
Theorem C79_rdl_encloses_partial (sr : sorter) : forall ord Hord fuel size tr s t u, 0 < size -> QATrace ord Hord fuel size tr s -> amindful tr -> theories s = [inl t; inr u] -> forall M y z, qa_stated tr M y z ->
  (forall i j, (forall d, snd (distance Qw t i j) = Some d -> q_under (y j - y i)%Q d) /\ (forall d, fst (distance Qw t i j) = Some d -> q_over (y j - y i)%Q d)) /\
  (forall sd x, In x (aknown tr) -> bhold sd (bound u sd x) (z x)).
Proof.
  intros ord Hord fuel size tr s t u H HT Hm Et M y z HM. apply qa_stated_iff in HM. split; [intros i j; split; intros d Ed; cbn in Ed|].
  - apply q_wsat. exact (adistance QL QR qlast2 ord Hord fuel size H tr s t u i j d HT Hm Et Ed M y z HM).
  - destruct (dists t j i) as [e|] eqn:Ee; [|discriminate]. cbn in Ed. injection Ed as <-. pose proof (adistance QL QR qlast2 ord Hord fuel size H tr s t u j i e HT Hm Et Ee M y z HM) as K. apply q_wsat in K. unfold q_under, q_over in *. cbn. split; [lra|]. intros Hs. assert ((snd e < 0)%Q) by lra. destruct K as [_ K]. specialize (K H0). lra.
  - intros sd x Hx. exact (abounds QL QR qlast2 ord Hord fuel size H tr s t u sd x HT Hm Et Hx M y z HM).
Qed.
Print Assumptions C79_rdl_encloses_partial.
(** A successful propagation: values for the variables of both theories, those of the arithmetic one being the reported ones, that respect every constraint whose literal has a value and the
    definitions of the expressions; if every propositional variable has a value, all that has been stated holds. *)
Theorem C79_idl_true_partial (sr : sorter) : forall ord Hord fuel size tr s fl s', 0 < size -> ZATrace ord Hord fuel size tr s -> zastep ord fuel fl s (AD (DSat CPropagate)) = Ok (s', AR (DR (RBool true))) ->
  exists t u (y : nat -> Z), theories s' = [inl t; inr u] /\ y 0 = 0%Z /\ exists d0, (0 < d0)%Q /\ forall d, (0 < d)%Q -> (d <= d0)%Q -> let z x := at_eps d (vals u x) in
  (forall e p P, In e tr -> za_cond e = Some (p, P) -> (value s' p = LTrue -> P y z) /\ (value s' p = LFalse -> ~ P y z)) /\
  (forall e l x, In e tr -> ae_call e = ASlack l -> ae_ret e = AX x -> (z x == lval z l)%Q) /\
  (total s' -> za_stated tr (values s') y z).
Proof.
  intros ord Hord fuel size tr s fl s' H HT E. destruct (atrue ZL ZR zlast2 ord Hord fuel size H tr s fl s' HT E) as (t & u & y & Et & Hy & Hy0 & d0 & Hd0 & K). destruct (z_of y Hy) as (yz & Hz). exists t, u, yz. split; [exact Et|]. split.
  - rewrite Hz in Hy0. unfold Qeq, inject_Z in Hy0. cbn in Hy0. lia.
  - exists d0. split; [exact Hd0|]. intros d Hd Hle z. destruct (K d Hd Hle) as (K1 & K2 & K3). fold z in K1, K2, K3. split; [|split; [exact K2|]].
    + intros e p P He Hc. destruct (za_cond_acon e p P Hc) as (P' & Hc' & Hi). rewrite <- (Hi y yz z Hz). exact (K1 e p P' He Hc').
    + intros Ht. exact (stated_za tr _ y yz z Hz (proj2 (K3 Ht))).
Qed.
Print Assumptions C79_idl_true_partial.
Theorem C79_rdl_true_partial (sr : sorter) : forall ord Hord fuel size tr s fl s', 0 < size -> QATrace ord Hord fuel size tr s -> qastep ord fuel fl s (AD (DSat CPropagate)) = Ok (s', AR (DR (RBool true))) ->
  exists t u (y : nat -> Q), theories s' = [inl t; inr u] /\ (y O == 0)%Q /\ exists d0, (0 < d0)%Q /\ forall d, (0 < d)%Q -> (d <= d0)%Q -> let z x := at_eps d (vals u x) in
  (forall e p P, In e tr -> qa_cond e = Some (p, P) -> (value s' p = LTrue -> P y z) /\ (value s' p = LFalse -> ~ P y z)) /\
  (forall e l x, In e tr -> ae_call e = ASlack l -> ae_ret e = AX x -> (z x == lval z l)%Q) /\
  (total s' -> qa_stated tr (values s') y z).
Proof.
  intros ord Hord fuel size tr s fl s' H HT E. destruct (atrue QL QR qlast2 ord Hord fuel size H tr s fl s' HT E) as (t & u & y & Et & Hy & Hy0 & d0 & Hd0 & K). exists t, u, y. split; [exact Et|]. split; [exact Hy0|].
  exists d0. split; [exact Hd0|]. intros d Hd Hle z. destruct (K d Hd Hle) as (K1 & K2 & K3). fold z in K1, K2, K3. split; [|split; [exact K2|]].
  - intros e p P He Hc. destruct (qa_cond_acon e p P Hc) as (P' & Hc' & Hi). rewrite <- (Hi y z). exact (K1 e p P' He Hc').
  - intros Ht. apply qa_stated_iff. exact (proj2 (K3 Ht)).
Qed.
Print Assumptions C79_rdl_true_partial.
(** Then distance(i, j) is the least and the greatest difference over the values that respect the constraints whose literal has a value. *)
Theorem C79_idl_hull_partial (sr : sorter) : forall ord Hord fuel size tr s fl s', 0 < size -> ZATrace ord Hord fuel size tr s -> zastep ord fuel fl s (AD (DSat CPropagate)) = Ok (s', AR (DR (RBool true))) ->
  exists t u v, theories s' = [inl t; inr u] /\ (forall l, atom t (lvar l) -> (In l v <-> value s' l = LTrue)) /\ forall i j, i < nvars t -> j < nvars t -> z_spans t v (fun y => inject_Z (y j - y i)) (distance Zw t i j).
Proof.
  intros ord Hord fuel size tr s fl s' H HT E. destruct (atold ZL ZR zlast2 ord Hord fuel size H tr s fl s' HT E) as (t & u & v & Et & HR & Hv). exists t, u, v. split; [exact Et|]. split; [exact Hv|]. intros i j Hi Hj. pose proof (z_distance t [v] i j HR Hi Hj) as K. cbn [concat] in K. rewrite app_nil_r in K. exact K.
Qed.
Print Assumptions C79_idl_hull_partial.
Theorem C79_rdl_hull_partial (sr : sorter) : forall ord Hord fuel size tr s fl s', 0 < size -> QATrace ord Hord fuel size tr s -> qastep ord fuel fl s (AD (DSat CPropagate)) = Ok (s', AR (DR (RBool true))) ->
  exists t u v, theories s' = [inl t; inr u] /\ (forall l, atom t (lvar l) -> (In l v <-> value s' l = LTrue)) /\ forall i j, i < nvars t -> j < nvars t -> q_spans t v (fun y => (y j - y i)%Q) (distance Qw t i j).
Proof.
  intros ord Hord fuel size tr s fl s' H HT E. destruct (atold QL QR qlast2 ord Hord fuel size H tr s fl s' HT E) as (t & u & v & Et & HR & Hv). exists t, u, v. split; [exact Et|]. split; [exact Hv|]. intros i j Hi Hj. pose proof (q_distance t [v] i j HR Hi Hj) as K. cbn [concat] in K. rewrite app_nil_r in K. exact K.
Qed.
Print Assumptions C79_rdl_hull_partial.
(** Every call returns, and none makes an invalid access. *)
Theorem C79_idl_returns_partial (sr : sorter) : forall ord Hord fuel size tr s c fl, 0 < size -> ZATrace ord Hord fuel size tr s -> alegal ZL zlast2 s c ->
  zastep ord fuel fl s c <> UB /\ ((forall u, 6 ^ nx u <= fuel u) -> tbound s < fl -> exists s' r, zastep ord fuel fl s c = Ok (s', r)).
Proof. intros ord Hord fuel size tr s c fl H HT HL. split; [exact (anever_ub ZL ZR zlast2 ord Hord fuel size H tr s c fl HT HL)|intros Hf Hb; exact (atotal ZL ZR zlast2 ord Hord fuel size H tr s c fl HT HL Hf Hb)]. Qed.
Print Assumptions C79_idl_returns_partial.
Theorem C79_rdl_returns_partial (sr : sorter) : forall ord Hord fuel size tr s c fl, 0 < size -> QATrace ord Hord fuel size tr s -> alegal QL qlast2 s c ->
  qastep ord fuel fl s c <> UB /\ ((forall u, 6 ^ nx u <= fuel u) -> tbound s < fl -> exists s' r, qastep ord fuel fl s c = Ok (s', r)).
Proof. intros ord Hord fuel size tr s c fl H HT HL. split; [exact (anever_ub QL QR qlast2 ord Hord fuel size H tr s c fl HT HL)|intros Hf Hb; exact (atotal QL QR qlast2 ord Hord fuel size H tr s c fl HT HL Hf Hb)]. Qed.
Print Assumptions C79_rdl_returns_partial.
(** The calls of one theory leave the other one as it is; those of sat_core leave the variables and the constraints of the difference logic theory as they are. *)
Theorem C79_idl_kept_apart_partial (sr : sorter) : forall ord Hord fuel size tr s c fl s' r t u, 0 < size -> ZATrace ord Hord fuel size tr s -> alegal ZL zlast2 s c -> zastep ord fuel fl s c = Ok (s', r) -> r <> AR (DR (RBool false)) -> theories s = [inl t; inr u] ->
  exists t' u', theories s' = [inl t'; inr u'] /\ match c with AD (DSat _) => nvars t' = nvars t /\ dcons t' = dcons t | AD _ => u' = u | _ => t' = t end.
Proof. intros ord Hord fuel size tr s c fl s' r t u H HT HL E Hr Et. apply (akept ZL ZR zlast2 ord Hord fuel size H tr s c fl s' r t u HT HL E); [intros K; case (Hr K)|exact Et]. Qed.
Print Assumptions C79_idl_kept_apart_partial.
Theorem C79_rdl_kept_apart_partial (sr : sorter) : forall ord Hord fuel size tr s c fl s' r t u, 0 < size -> QATrace ord Hord fuel size tr s -> alegal QL qlast2 s c -> qastep ord fuel fl s c = Ok (s', r) -> r <> AR (DR (RBool false)) -> theories s = [inl t; inr u] ->
  exists t' u', theories s' = [inl t'; inr u'] /\ match c with AD (DSat _) => nvars t' = nvars t /\ dcons t' = dcons t | AD _ => u' = u | _ => t' = t end.
Proof. intros ord Hord fuel size tr s c fl s' r t u H HT HL E Hr Et. apply (akept QL QR qlast2 ord Hord fuel size H tr s c fl s' r t u HT HL E); [intros K; case (Hr K)|exact Et]. Qed.
Print Assumptions C79_rdl_kept_apart_partial.
(** The calls of this model are those of the model of the difference logic theories alone. *)
Theorem C79_same_calls : forall D (W : wops D) BT (s : st (dl D)) i, let up := mp (@inl (dl D) BT) in
  (tw_new_var W (up s) i = rmp (m1 inl) (dl_new_var W s i)) /\
  (forall from to w, tw_distance W (up s) i from to w = rmp (m1 inl) (new_distance W s i from to w)) /\
  (forall from to mn mx, tw_distance2 W (up s) i from to mn mx = rmp (m1 inl) (new_distance2 W s i from to mn mx)) /\
  (forall l r, tw_lt W (up s) i l r = rmp (option_map (m1 inl)) (dl_new_lt W s i l r)) /\
  (forall l r, tw_leq W (up s) i l r = rmp (option_map (m1 inl)) (dl_new_leq W s i l r)) /\
  (forall l r, tw_eq W (up s) i l r = rmp (option_map (m1 inl)) (dl_new_eq W s i l r)) /\
  (forall l r, tw_geq W (up s) i l r = rmp (option_map (m1 inl)) (dl_new_geq W s i l r)) /\
  (forall last last' l r, (forall s i v v1 k, last' (up s) i v v1 k = rmp (m1 inl) (last s i v v1 k)) -> tw_gt W last' (up s) i l r = rmp (option_map (m1 inl)) (new_gt_with W last s i l r)).
Proof.
  intros D W BT s i up. split; [apply two_new_var|]. split; [intros; apply two_distance|]. split; [intros; apply two_distance2|]. split; [intros; apply two_lt|]. split; [intros; apply two_leq|]. split; [intros; apply two_eq|]. split; [intros; apply two_geq|].
  intros last last' l r Hl. apply two_gt. exact Hl.
Qed.
Print Assumptions C79_same_calls.

Definition b (v : nat) : lit := mk_lit v true.
Definition nb (v : nat) : lit := mk_lit v false.
(** x1, x2 and z0, z1; b1: x2 - x1 <= 5, b2: x2 >= x1 + 7, b3: z0 <= 1, b4: z0 + z1 >= 9, b5: z0 >= 2; b1, (b2 or b5), (b3 or b4) stated.  b1 refutes b2, so b5 follows, which refutes b3, so b4
    follows: each theory acts on the other through the core.  With b6: z1 <= 3, b7: z0 <= 4 stated nothing is left. *)
Definition cs {D} (d1 d2 : @dcall D) : list (@acall D) := [AD DVar; AD DVar; AVar; AVar; AD d1; AD d2; ACmp Up false (LraExec.X 0) (K 1); ACmp Lo false (lin_add (LraExec.X 0) (LraExec.X 1)) (K 9); ACmp Lo false (LraExec.X 0) (K 2);
  AD (DSat (CClause [b 1])); AD (DSat (CClause [b 2; b 5])); AD (DSat (CClause [b 3; b 4]))].
Definition cf {D} (d1 d2 : @dcall D) : list (@acall D) := cs d1 d2 ++ [ACmp Up false (LraExec.X 1) (K 3); ACmp Up false (LraExec.X 0) (K 4); AD (DSat (CClause [b 6])); AD (DSat (CClause [b 7]))].
Definition zc79 := cs (DDist 1 2 5%Z) (DCmp DGeq (LraExec.X 2) (mk_lin [(1, 1%Q)] 7)).
Definition zf79 := cf (DDist 1 2 5%Z) (DCmp DGeq (LraExec.X 2) (mk_lin [(1, 1%Q)] 7)).
Definition qc79 := cs (DDist 1 2 (5, 0)%Q) (DCmp DGeq (LraExec.X 2) (mk_lin [(1, 1%Q)] 7)).
Definition qf79 := cf (DDist 1 2 (5, 0)%Q) (DCmp DGeq (LraExec.X 2) (mk_lin [(1, 1%Q)] 7)).
Notation zaft c := (aafter (W := Zw) zlast2 (fun _ => true) false 2 c).
Notation zevs c := (aevs (W := Zw) zlast2 (fun _ => true) false 2 c).
Notation qaft c := (aafter (W := Qw) qlast2 qwb true 2 c).
Notation qevs c := (aevs (W := Qw) qlast2 qwb true 2 c).
Definition outcome {D} (W : wops D) (r : res (st (dl D + lra) * aret)) :=
  match r with Ok (s', x) => match theories s' with [inl t; inr u] => Some (x, map (assigns s') [1; 2; 3; 4; 5], distance W t 1 2, map (vals u) [0; 1]) | _ => None end | _ => None end.
Definition verdict {D} (r : res (st (dl D + lra) * aret)) := match r with Ok (_, x) => Some x | _ => None end.
Lemma zrun79 : aruns (W := Zw) zlast2 (fun _ => true) false 2 zc79 = true. Proof. vm_compute. reflexivity. Qed.
Lemma zrunf79 : aruns (W := Zw) zlast2 (fun _ => true) false 2 zf79 = true. Proof. vm_compute. reflexivity. Qed.
Lemma qrun79 : aruns (W := Qw) qlast2 qwb true 2 qc79 = true. Proof. vm_compute. reflexivity. Qed.
Lemma qrunf79 : aruns (W := Qw) qlast2 qwb true 2 qf79 = true. Proof. vm_compute. reflexivity. Qed.
Example C79_case :
  (ZATrace ord0 Hord0 fuel0 2 (zevs zc79) (zaft zc79) /\ amindful (zevs zc79)) /\
  outcome Zw (zastep ord0 fuel0 1000 (zaft zc79) (AD (DSat CPropagate))) = Some (AR (DR (RBool true)), [LTrue; LFalse; LFalse; LTrue; LTrue], (None, Some 5%Z), [(9, 0); (0, 0)]%Q) /\
  (ZATrace ord0 Hord0 fuel0 2 (zevs zf79) (zaft zf79) /\ amindful (zevs zf79)) /\
  verdict (zastep ord0 fuel0 1000 (zaft zf79) (AD (DSat CPropagate))) = Some (AR (DR (RBool false))).
Proof.
  split; [split; [apply (aafter_ok ZL zlast2 (fun _ => true)); [intros w _; exact Logic.I|discriminate|exact zrun79]|apply amindfulb_ok; vm_compute; reflexivity]|]. split; [vm_compute; reflexivity|].
  split; [split; [apply (aafter_ok ZL zlast2 (fun _ => true)); [intros w _; exact Logic.I|discriminate|exact zrunf79]|apply amindfulb_ok; vm_compute; reflexivity]|]. vm_compute; reflexivity.
Qed.
Example C79_case_rdl :
  (QATrace ord0 Hord0 fuel0 2 (qevs qc79) (qaft qc79) /\ amindful (qevs qc79)) /\
  outcome Qw (qastep ord0 fuel0 1000 (qaft qc79) (AD (DSat CPropagate))) = Some (AR (DR (RBool true)), [LTrue; LFalse; LFalse; LTrue; LTrue], (None, Some (5, 0)%Q), [(9, 0); (0, 0)]%Q) /\
  (QATrace ord0 Hord0 fuel0 2 (qevs qf79) (qaft qf79) /\ amindful (qevs qf79)) /\
  verdict (qastep ord0 fuel0 1000 (qaft qf79) (AD (DSat CPropagate))) = Some (AR (DR (RBool false))).
Proof.
  split; [split; [apply (aafter_ok QL qlast2 qwb qwb_ok); [reflexivity|exact qrun79]|apply amindfulb_ok; vm_compute; reflexivity]|]. split; [vm_compute; reflexivity|].
  split; [split; [apply (aafter_ok QL qlast2 qwb qwb_ok); [reflexivity|exact qrunf79]|apply amindfulb_ok; vm_compute; reflexivity]|]. vm_compute; reflexivity.
Qed.

(** Refutation once decisions are made, as in C63: b1: x2 - x1 <= 10, b2: x2 - x1 <= 5, b3: x1 - x2 <= -7, b4: z0 >= 1 for the arithmetic variable z0; b1 and b2 are assumed and retracted; then b1, b3 and b4
    are stated and propagation fails, although x2 - x1 = 8, z0 = 1 satisfies all. *)
Definition flegalb2 {D} (s : st (dl D + lra)) (c : @acall D) : bool :=
  match c with
  | AD (DSat (CAssume p)) => match prop_q s with [] => in_range s [p] | _ => false end
  | AD (DSat CPop) => negb (Nat.eqb (dlevel s) 0)
  | AD (DSat c) => Nat.eqb (dlevel s) 0 && rlegalb2 s c
  | _ => Nat.eqb (dlevel s) 0
  end.
Fixpoint frun2 {D} (W : wops D) last (s : st (dl D + lra)) (cs : list (@acall D)) (tr : list (@aev D)) : option (st (dl D + lra) * list (@aev D)) :=
  match cs with
  | [] => Some (s, tr)
  | c :: r => if flegalb2 s c then match astep (W := W) last ord0 fuel0 1000 s c with Ok (s', x) => frun2 W last s' r (mk_aev c x :: tr) | _ => None end else None
  end.
Definition zr79 : list (@acall Z) := [AD DVar; AD DVar; AVar; AD (DDist 1 2 10%Z); AD (DDist 1 2 5%Z); AD (DDist 2 1 (-7)%Z); ACmp Lo false (LraExec.X 0) (K 1); AD (DSat (CAssume (b 1))); AD (DSat (CAssume (b 2))); AD (DSat CPop); AD (DSat CPop); AD (DSat (CClause [b 1])); AD (DSat (CClause [b 3])); AD (DSat (CClause [b 4]))].
Definition zt79 : list (@aev Z) := [mk_aev (AD (DSat (CClause [b 4]))) (AR (DR (RBool true))); mk_aev (AD (DSat (CClause [b 3]))) (AR (DR (RBool true))); mk_aev (AD (DSat (CClause [b 1]))) (AR (DR (RBool true))); mk_aev (AD (DSat CPop)) (AR (DR RUnit)); mk_aev (AD (DSat CPop)) (AR (DR RUnit));
  mk_aev (AD (DSat (CAssume (b 2)))) (AR (DR (RBool true))); mk_aev (AD (DSat (CAssume (b 1)))) (AR (DR (RBool true))); mk_aev (ACmp Lo false (LraExec.X 0) (K 1)) (AP (b 4)); mk_aev (AD (DDist 2 1 (-7)%Z)) (AR (DP (b 3))); mk_aev (AD (DDist 1 2 5%Z)) (AR (DP (b 2))); mk_aev (AD (DDist 1 2 10%Z)) (AR (DP (b 1))); mk_aev AVar (AX 0); mk_aev (AD DVar) (AR (DX 2)); mk_aev (AD DVar) (AR (DX 1))].
Lemma zr79_run : match frun2 Zw zlast2 (ainit (W := Zw) 2) (zr79 ++ [AD (DSat CPropagate)]) [] with Some (_, x) => x | None => [] end = mk_aev (AD (DSat CPropagate)) (AR (DR (RBool false))) :: zt79.
Proof. vm_compute. reflexivity. Qed.
Lemma frun_some2 {A B} (f : option (A * list B)) e tr : match f with Some (_, x) => x | None => [] end = e :: tr -> exists s, f = Some (s, e :: tr).
Proof. destruct f as [[s x]|]; [|discriminate]. intros ->. eauto. Qed.
Theorem C79_idl_decisions_refuted : exists cs s tr M y z, frun2 Zw zlast2 (ainit (W := Zw) 2) (cs ++ [AD (DSat CPropagate)]) [] = Some (s, mk_aev (AD (DSat CPropagate)) (AR (DR (RBool false))) :: tr) /\ za_stated tr M y z.
Proof.
  destruct (frun_some2 (frun2 (D := Z) Zw zlast2 (ainit (W := Zw) 2) (zr79 ++ [AD (DSat CPropagate)]) []) (mk_aev (AD (DSat CPropagate)) (AR (DR (RBool false)))) zt79 zr79_run) as [s E].
  exists zr79, s, zt79, (fun v => match v with 1 | 3 | 4 => true | _ => false end), (fun v => match v with 2%nat => 8 | _ => 0 end)%Z, (fun _ => 1%Q).
  split; [exact E|]. split; [reflexivity|]. split; [reflexivity|].
  intros e He. destruct He as [<-|[<-|[<-|[<-|[<-|[<-|[<-|[<-|[<-|[<-|[<-|[<-|[<-|[<-|[]]]]]]]]]]]]]]]; cbn [ae_call ae_ret za_said z_said said]; try exact Logic.I.
  + exists (b 4). split; [left; reflexivity|reflexivity].
  + exists (b 3). split; [left; reflexivity|reflexivity].
  + exists (b 1). split; [left; reflexivity|reflexivity].
  + unfold mlit. cbn. split; [intros _; vm_compute; intros K; discriminate K|reflexivity].
  + unfold mlit. cbn. split; [intros _; lia|reflexivity].
  + unfold mlit. cbn. split; [discriminate|lia].
  + unfold mlit. cbn. split; [intros _; lia|reflexivity].
Qed.
Print Assumptions C79_idl_decisions_refuted.
