(** [sat_stack] (src/sat_stack.cpp) and the copy constructor of [sat_core] (src/sat_core.cpp:18-39). *)
From Verif Require Import Base Sat SatSpec SatInv SatPop SatImp SatRec SatAn SatProp SatLoop SatMain SatApi SatApi2 SatNext SatSimp.

Section StackModel.
Context {T : Type} (ops : theory_ops T).

(** sat_stack.h:34: the vector of cores, its [back()] at the head.  The theories and the listeners are
    objects shared by all the cores: they are kept in the [theories] field of the top core, and the
    field of the cores below is meaningless until they become the top again. *)
Definition stack := list (st T).

(** sat_stack.cpp:8 *)
Definition stack_init (ths : list T) : stack := [init ths].

(** sat_stack.cpp:10-20; [stack.back()] of an empty vector is UB. *)
Definition stack_push (fuel : nat) (k : stack) : res stack :=
  match k with
  | [] => UB
  | s :: _ => s1 <- copy_ctor ops fuel s ;; Ok (set_theories (map (th_push ops) (theories s1)) s1 :: k)
  end.

Definition set_log (lg : list (nat * nat * lbool)) (s : st T) : st T :=
  mk_st (nv s) (cls s) (ncid s) (constrs s) (watches s) (assigns s) (level s) (reason s) (prop_q s) (trail s)
    (trail_lim s) (decisions s) (exprs s) (theories s) (bounds s) (listening s) lg.

(** sat_stack.cpp:22-39: the listeners of the variables assigned by the core which is dropped are told
    (in trail order) of the value the variable has in the core below. *)
Definition stack_pop (k : stack) : res stack :=
  match k with
  | s :: s0 :: r =>
    let lg := fold_left (fun lg p => notify (listening s0 (lvar p)) (lvar p) (assigns s0 (lvar p)) lg)
                (rev (trail s)) (log s) in
    Ok (set_log lg (set_theories (map (th_pop ops) (theories s)) s0) :: r)
  | _ => UB
  end.
End StackModel.

Section StackProof.
Context {T : Type} {ops : theory_ops T} (C : contract ops).
Notation st := (st T).

Lemma copy_watch_count (s : st) (p : lit) : forall cs w c,
  (forall k, In k cs -> exists a b r, cls s k = a :: b :: r) ->
  count_occ Nat.eq_dec (fold_left (copy_watch s) cs w p) c =
  count_occ Nat.eq_dec (w p) c + count_occ Nat.eq_dec cs c * wcount (cls s c) p.
Proof.
  induction cs as [|k cs IH]; intros w c H; [cbn; lia|].
  cbn [fold_left]. rewrite IH by (intros; apply H; right; assumption). clear IH.
  destruct (H k (or_introl eq_refl)) as (a & b & r & E). unfold copy_watch. rewrite E, !count_push. cbn [count_occ].
  destruct (Nat.eq_dec k c) as [->|Hne].
  - rewrite E, Nat.eqb_refl, !andb_true_r. cbn [wcount]. set (x := b2n _). set (y := b2n _). nia.
  - destruct (Nat.eqb_spec k c); [contradiction|]. rewrite !andb_false_r. cbn; lia.
Qed.

(** The copy, before its simplification. *)
Lemma copy_core_gen (C' : contract ops) (s : st) : quiet C s ->
  (forall i t, nth_error (theories s) i = Some t -> (forall v, th_atom C' t v <-> th_atom C t v) /\ (forall M, th_model C' t M <-> th_model C t M) /\ th_feas C' t /\
     exists w, th_inv C' t [w] /\ (forall l, In l w -> value s l = LTrue) /\ (forall l, th_atom C t (lvar l) -> value s l = LTrue -> In l w)) ->
  (forall i t n v, nth_error (theories s) i = Some t -> ~ th_fixed C' t n v) ->
  exists s', copy_core s = Ok s' /\ quiet C' s' /\ dlevel s' = 0 /\
    nv s' = nv s /\ assigns s' = assigns s /\ exprs s' = exprs s /\ theories s' = theories s /\ trail s' = [] /\ decisions s' = [] /\
    (forall M, smodels C' s' M <-> smodels C s M /\ forall p, value s p = LTrue -> mlit M p = true).
Proof.
  intros [HI Hq Hs] Hth Hnf. pose proof HI as [HT HC HR HW HQ HH]. unfold copy_core. rewrite Hq. cbn [guard].
  assert (G1 : forallb (fun c => 2 <=? length (cls s c)) (constrs s) = true).
  { apply forallb_forall. intros c Hc. destruct (c_shape s HC c Hc) as (a & b & r & -> & _). reflexivity. }
  assert (G2 : forallb (fun v => match reason s v with None => true | Some c => memn c (constrs s) end) (seq 0 (nv s)) = true).
  { apply forallb_forall. intros v _. destruct (reason s v) as [c|] eqn:E; [|reflexivity]. apply memn_In, (r_in s HR v c E). }
  rewrite G1, G2. cbn [guard]. eexists. split; [reflexivity|]. set (s' := mk_st _ _ _ _ _ _ _ _ _ _ _ _ _ _ _ _ _).
  assert (Ev : forall q, value s' q = value s q) by reflexivity.
  assert (HM : forall M, smodels C' s' M <-> smodels C s M /\ forall p, value s p = LTrue -> mlit M p = true).
  { intros M. split.
    - intros [S1 S2 S3 S4]. split; [|intros p Hp; apply S3; [exact Hp|reflexivity]].
      constructor; try assumption; [intros p Hp _; apply S3; [exact Hp|reflexivity]|]. intros t Ht. destruct (In_nth_error _ _ Ht) as (i & Ei). destruct (Hth i t Ei) as (_ & Km & _). apply Km, S4, Ht.
    - intros [[S1 S2 S3 S4] H]. constructor; try assumption; [intros p Hp _; apply H, Hp|]. intros t Ht. destruct (In_nth_error _ _ Ht) as (i & Ei). destruct (Hth i t Ei) as (_ & Km & _). apply Km, S4, Ht. }
  assert (HT' : InvT s').
  { assert (Hnil : forall (pre post : list lit) p, [] <> pre ++ p :: post).
    { intros pre post p E. apply (f_equal (@length lit)) in E. rewrite app_length in E. cbn in E. lia. }
    constructor; cbn.
    - apply HT.
    - apply HT.
    - reflexivity.
    - apply HT.
    - intros v Hv. split; [reflexivity|apply (t_undef s HT v Hv)].
    - intros p [].
    - intros p [].
    - constructor.
    - intros pre p post E. destruct (Hnil _ _ _ E).
    - intros v Hv. congruence.
    - constructor.
    - intros n [].
    - reflexivity.
    - intros p [].
    - intros pre p post E. destruct (Hnil _ _ _ E). }
  split; [|repeat (split; [reflexivity|]); exact HM].
  constructor; [|reflexivity|intros t Ht; destruct (In_nth_error _ _ Ht) as (i & Ei); apply (Hth i t Ei)]. constructor.
  - exact HT'.
  - constructor; try apply HC.
    + intros c Hc. apply NoDup_filter_weaken with (f := fun p => negb (dead s p)); [|apply (c_dup s HC c Hc)].
      intros p _ Hp. destruct (dead s p) eqn:E; [|reflexivity]. apply dead_iff in E as [E _].
      assert (D' : dead s' p = true) by (apply dead_iff; split; [exact E|reflexivity]). rewrite D' in Hp. discriminate.
    + intros c Hc p. cbn [s' watches cls]. rewrite copy_watch_count.
      * rewrite (proj1 (NoDup_count_occ' Nat.eq_dec (constrs s)) (c_nodup s HC) c Hc). cbn; lia.
      * intros k Hk. destruct (c_shape s HC k Hk) as (a & b & r & E & _). eauto.
    + intros c p Hc. cbn [s' watches constrs] in *. apply (count_occ_In Nat.eq_dec) in Hc. rewrite copy_watch_count in Hc.
      * cbn in Hc. apply (count_occ_In Nat.eq_dec). destruct (count_occ Nat.eq_dec (constrs s) c); cbn in Hc; lia.
      * intros k Hk. destruct (c_shape s HC k Hk) as (a & b & r & E & _). eauto.
  - constructor.
    + intros v c E. apply (r_in s HR v c E).
    + intros pre p post c E. cbn in E. apply (f_equal (@length lit)) in E. rewrite app_length in E. cbn in E. lia.
    + intros v c _ _ q _ [].
  - intros c Hc a b r E. destruct (HW c Hc a b r E) as [H1 H2]. unfold half in *. rewrite Hq in H1, H2. cbn [In] in H1, H2. cbn [s' prop_q In level].
    split; intros Hf; right; [destruct (H1 Hf) as [[]|[H _]]|destruct (H2 Hf) as [[]|[H _]]]; (split; [exact H|lia]).
  - constructor; [intros p []|constructor].
  - constructor.
    + intros i t Et. destruct (Hth i t Et) as (Ka & _ & _ & w & W1 & W2 & W3). exists [w]. split; [exact W1|]. split; [reflexivity|]. split.
      * intros [|[|j]] v l Ej _ Hl; [|discriminate..]. inversion Ej; subst v. split; [apply W2, Hl|reflexivity].
      * intros l Hl Hv. right. exists 0, w. split; [reflexivity|]. split; [apply W3; [apply Ka, Hl|exact Hv]|reflexivity].
    + intros i t v Et Ha. apply (h_range _ _ _ _ HH i t v Et). apply (Hth i t Et), Ha.
    + intros i t v Et Ha [H|[H|(l & _ & H)]]; [|exfalso; apply H; reflexivity|destruct H].
      apply (h_bound _ _ _ _ HH i t v Et); [apply (Hth i t Et), Ha|]. left; exact H.
    + intros i v Hi. destruct (h_owned _ _ _ _ HH i v Hi) as (t & Et & Ha). exists t. split; [exact Et|apply (Hth i t Et), Ha].
    + apply (h_nodup _ _ _ _ HH).
    + intros i t n v Et Hf. destruct (Hnf i t n v Et Hf).
Qed.

Lemma copy_core_ok (s : st) : quiet C s -> theories s = [] ->
  exists s', copy_core s = Ok s' /\ quiet C s' /\ dlevel s' = 0 /\
    nv s' = nv s /\ assigns s' = assigns s /\ exprs s' = exprs s /\ theories s' = theories s /\ trail s' = [] /\ decisions s' = [] /\
    (forall M, smodels C s' M <-> smodels C s M /\ forall p, value s p = LTrue -> mlit M p = true).
Proof. intros Q E. apply (copy_core_gen C s Q); intros i t *; rewrite E; intros Et; destruct i; discriminate Et. Qed.

Theorem copy_ctor_ok fuel (s : st) : quiet C s -> theories s = [] ->
  match copy_ctor ops fuel s with
  | UB => False
  | OOF => th_total C -> fuel <= S (3 * nv s)
  | Ok s' => dlevel s' = 0 /\ nv s' = nv s /\ exprs s' = exprs s /\ length (theories s') = length (theories s) /\ decisions s' = [] /\
     (forall p, value s p = LTrue -> value s' p = LTrue) /\
     (forall M, smodels C s' M <-> smodels C s M /\ forall p, value s p = LTrue -> mlit M p = true) /\
     (quiet C s' /\ clean s' \/ doomed C s')
  end.
Proof.
  intros Hs Hth. unfold copy_ctor. destruct (copy_core_ok s Hs Hth) as (s1 & -> & Q1 & D1 & N1 & A1 & X1 & T1 & Tr1 & De1 & M1). cbn [rbind].
  pose proof (simplify_db_ok C fuel s1 (qu_inv _ _ Q1) D1) as H.
  destruct (simplify_db ops fuel s1) as [[s2 b]| |]; cbn [rbind]; [|exact H|].
  - destruct H as (HM & HD & HN & HX & Hde & HV & HL & HB).
    split; [exact HD|]. split; [congruence|]. split; [congruence|]. split; [congruence|]. split; [congruence|].
    split; [intros p Hp; apply HV; unfold value; rewrite A1; exact Hp|]. split; [intros M; rewrite HM; apply M1|].
    destruct b; [left|right]; exact HB.
  - intros Ht. specialize (H Ht). unfold enough in H. rewrite D1, N1 in H. rewrite Nat.pow_0_r in H. lia.
Qed.

(** Without theories the copy is always complete and assigns nothing more. *)
Theorem copy_ctor_plain fuel (s : st) : quiet C s -> theories s = [] -> 0 < fuel ->
  exists s', copy_ctor ops fuel s = Ok s' /\ quiet C s' /\ clean s' /\ dlevel s' = 0 /\ nv s' = nv s /\ theories s' = [] /\ decisions s' = [] /\ trail s' = [] /\
     (forall p, value s' p = value s p) /\
     (forall M, smodels C s' M <-> smodels C s M /\ forall p, value s p = LTrue -> mlit M p = true).
Proof.
  intros Hs Hth Hf. unfold copy_ctor. destruct (copy_core_ok s Hs Hth) as (s1 & -> & Q1 & D1 & N1 & A1 & X1 & T1 & Tr1 & De1 & M1). cbn [rbind].
  unfold simplify_db. assert (Er : root_level s1 = true) by (apply root_dlevel, D1). rewrite Er. cbn [guard].
  destruct fuel as [|fuel]; [lia|]. cbn [propagate]. rewrite (qu_q _ _ Q1). rewrite T1, Hth. cbn [length th_check_all rbind].
  pose proof (simplify_tail C s1 Q1 D1) as HT.
  destruct (simp_loop (length (constrs s1)) s1 [] (constrs s1) []) as [[s2 kept] out].
  destruct HT as (s3 & E3 & Q3 & M3 & Cl & _ & _ & E1 & E2 & E4 & E5 & E6 & E7 & E8 & E9 & _). rewrite E3. cbn [rbind].
  exists s3. split; [reflexivity|]. split; [exact Q3|]. split; [exact Cl|]. split; [unfold dlevel; rewrite E5; exact D1|].
  split; [congruence|]. split; [congruence|]. split; [congruence|]. split; [congruence|].
  split; [intros p; unfold value; rewrite E1, A1; reflexivity|]. intros M. rewrite M3. apply M1.
Qed.
End StackProof.
