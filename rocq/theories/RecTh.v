(** A theory that only records what the core tells it (src/sat_core.cpp:432-440, include/theory.h): which assignments are told. *)
From Verif Require Import Base Keys Sat SatSpec SatInv SatPop SatImp SatRec SatAn SatProp SatLoop SatMain SatApi SatApi2 SatNext SatSimp Reify Amo Run ThGrow ThRel ThSum.
Section Srt.
Context {sr : sorter}.

(** The variables it was bound to, and the literals [propagate(p)] was called with, grouped by the calls of [push()] (latest first). *)
Record rec := mk_rec { ratoms : list nat; rlev : list (list lit) }.
Definition rec0 : rec := mk_rec [] [[]].
Definition rec_ops {sr : sorter} : theory_ops rec := mk_ops
  (fun t _ p => Ok (mk_rec (ratoms t) (match rlev t with [] => [[p]] | l :: r => (p :: l) :: r end), [], None))
  (fun t _ => Ok (t, None))
  (fun t => mk_rec (ratoms t) ([] :: rlev t))
  (fun t => mk_rec (ratoms t) (tl (rlev t))) sr.
Definition recC : contract rec_ops.
Proof.
  refine (mk_strict rec_ops (fun _ _ => True) (fun t v => In v (ratoms t))
    (fun t vs => rlev t = vs /\ forall p, In p (concat vs) -> In (lvar p) (ratoms t)) (fun _ => True) _ _ _ _ _).
  - auto.
  - intros t vs [E H] _. cbn. rewrite E. split; [split; [reflexivity|exact H]|tauto].
  - intros t v w vs [E H]. cbn. rewrite E. split; [split; [reflexivity|]|tauto]. intros p Hp. apply H. cbn [concat]. apply in_or_app. right. exact Hp.
  - intros t v vs val p [E H] Ha _ _ _ _. cbn. rewrite E. split; [|split; [tauto|split; [tauto|]]].
    + exists (p :: v). split; [split; [reflexivity|]|reflexivity]. cbn. intros q [<-|Hq]; [exact Ha|apply H, Hq].
    + exists val. split; [constructor|discriminate].
  - intros t v vs val HI _ _ _. cbn. split; [exact HI|]. split; [auto|]. split; [tauto|]. split; [tauto|]. discriminate.
Defined.

Section Told.
(** Next to any theories that meet the contract. *)
Context {T : Type} {ops : theory_ops T} (C : contract ops).
Notation rops := (sum_ops rec_ops ops).
Notation RC := (sumC rec_ops ops recC C).
Notation rst := (st (rec + T)).

(** [bind(v)] called by recorder [i]. *)
Definition rec_bind (s : rst) (i v : nat) : rst :=
  match nth_error (theories s) i with
  | Some (inl t) => set_theories (set_nth (theories s) i (inl (mk_rec (v :: ratoms t) (rlev t)))) (bind s v i)
  | _ => s
  end.
(** [bs]: the pairs (recorder, variable) bound, the variable being unassigned at that time. *)
Inductive RHist (s0 : rst) : list (nat * nat) -> rst -> Prop :=
| RH_init : RHist s0 [] s0
| RH_call fuel bs s c s' r : RHist s0 bs s -> legal RC s c -> step (ops := rops) fuel s c = Ok (s', r) -> alive RC s' r -> RHist s0 bs s'
| RH_bind bs s i v t : RHist s0 bs s -> nth_error (theories s) i = Some (inl t) -> 0 < v < nv s -> assigns s v = LUndef -> ~ In (i, v) bs -> RHist s0 ((i, v) :: bs) (rec_bind s i v).

Definition atoms_of (t : rec + T) : option (list nat) := match t with inl t => Some (ratoms t) | inr _ => None end.
Lemma recs_step fuel (s s' : rst) c r : step (ops := rops) fuel s c = Ok (s', r) -> map atoms_of (theories s') = map atoms_of (theories s).
Proof.
  intros E. refine (K_step rops atoms_of _ _ _ _ fuel s s' c r E).
  - intros [t|t] val p t' ls cf; cbn; [intros X; injection X as <- _ _; reflexivity|]. destruct (th_prop ops t val p) as [[[a b] d]| |]; cbn; try discriminate. intros X; injection X as <- _ _. reflexivity.
  - intros [t|t] val t' cf; cbn; [intros X; injection X as <- _; reflexivity|]. destruct (th_check ops t val) as [[a b]| |]; cbn; try discriminate. intros X; injection X as <- _. reflexivity.
  - intros [t|t]; reflexivity.
  - intros [t|t]; reflexivity.
Qed.

Record RG (s0 : rst) (bs : list (nat * nat)) (s : rst) : Prop := {
  rg_good : good RC s;
  rg_len : length (theories s) = length (theories s0);
  rg_at : forall i t v, nth_error (theories s) i = Some (inl t) -> (In v (ratoms t) <-> In (i, v) bs);
  rg_rec : forall i v, In (i, v) bs -> exists t, nth_error (theories s) i = Some (inl t) }.

Lemma nth_map_at (s s' : rst) : map atoms_of (theories s') = map atoms_of (theories s) ->
  forall i t, nth_error (theories s') i = Some (inl t) -> exists t1, nth_error (theories s) i = Some (inl t1) /\ ratoms t1 = ratoms t.
Proof.
  intros E i t Ei. assert (X : nth_error (map atoms_of (theories s)) i = Some (Some (ratoms t))) by (rewrite <- E, nth_error_map, Ei; reflexivity).
  rewrite nth_error_map in X. destruct (nth_error (theories s) i) as [[t1|t1]|]; cbn in X; try discriminate. injection X as X. exists t1. auto.
Qed.
Theorem rhist_good s0 bs s : good RC s0 -> (forall i t, nth_error (theories s0) i = Some (inl t) -> ratoms t = []) -> RHist s0 bs s -> RG s0 bs s.
Proof.
  intros G0 H0. induction 1 as [|fuel bs s c s' r H IH HL E HA|bs s i v t H IH Ei Hv Hu Hn].
  - constructor; [exact G0|reflexivity| |intros i v []]. intros i t v Ei. rewrite (H0 i t Ei). cbn. tauto.
  - destruct IH as [G L A R]. pose proof (recs_step _ _ _ _ _ E) as Em. constructor.
    + pose proof (step_ok RC fuel s c G HL) as HS. rewrite E in HS. destruct HS as ([G'|[-> Hd]] & _); [exact G'|]. exfalso. destruct (HA eq_refl) as (M & HM). exact (de_unsat _ _ Hd M HM).
    + apply (f_equal (@length _)) in Em. rewrite !map_length in Em. congruence.
    + intros i t v Ei. destruct (nth_map_at s s' Em i t Ei) as (t1 & E1 & <-). apply A, E1.
    + intros i v Hi. destruct (R i v Hi) as (t & Et). symmetry in Em. destruct (nth_map_at s' s Em i t Et) as (t1 & E1 & _). eauto.
  - destruct IH as [G L A R]. unfold rec_bind. rewrite Ei. set (t1 := inl (mk_rec (v :: ratoms t) (rlev t)) : rec + T).
    assert (Hi : i < length (theories s)) by (apply nth_error_Some; congruence).
    destruct (grow_ok RC s i (inl t) t1 (Some v) G Ei) as (G1 & _ & _).
    + intros w. cbn. split; [intros [->|X]; auto|intros [X|X]; [auto|injection X; auto]].
    + intros w X. injection X as <-. split; [exact Hv|]. split; [exact Hu|]. cbn. intros X. apply Hn, (A i t v Ei), X.
    + intros vs _ [X1 X2] _. split; [exact X1|]. intros p Hp. right. apply X2, Hp.
    + intros _. exact Logic.I.
    + intros M _ _. exact Logic.I.
    + intros n w Hf. exact Hf.
    + unfold grow_st in G1. constructor.
      * exact G1.
      * cbn. rewrite <- L. clear -Hi. unfold set_nth. rewrite app_length. assert (X : length (skipn i (theories s)) = length (theories s) - i) by apply skipn_length.
        rewrite firstn_length. destruct (skipn i (theories s)); cbn in *; lia.
      * intros j u w Ej. cbn [theories set_theories] in Ej. rewrite nth_set_nth in Ej by exact Hi. revert Ej. destruct (Nat.eqb_spec j i) as [->|Hj]; intros Ej.
        -- injection Ej as <-. cbn. rewrite (A i t w Ei). split; [intros [->|X]; auto|intros [X|X]; [injection X; auto|auto]].
        -- rewrite (A j u w Ej). cbn. split; [auto|]. intros [X|X]; [injection X; congruence|exact X].
      * intros j w [X|X].
        -- injection X as <- <-. cbn [theories set_theories]. exists (mk_rec (v :: ratoms t) (rlev t)). rewrite nth_set_nth, Nat.eqb_refl by exact Hi. reflexivity.
        -- destruct (R j w X) as (u & Eu). cbn [theories set_theories]. rewrite nth_set_nth by exact Hi. destruct (Nat.eqb_spec j i) as [->|Hj]; [eexists; reflexivity|eauto].
Qed.

(** What is told. *)
Theorem rec_told s0 bs s i t : good RC s0 -> (forall i t, nth_error (theories s0) i = Some (inl t) -> ratoms t = []) -> RHist s0 bs s ->
  nth_error (theories s) i = Some (inl t) ->
  length (rlev t) = S (dlevel s) /\
  (forall v l, In (i, v) bs -> lvar l = v -> value s l = LTrue -> ~ In l (prop_q s) ->
     exists j ps, nth_error (rlev t) j = Some ps /\ In l ps /\ level s v + j = dlevel s) /\
  (forall j ps l, nth_error (rlev t) j = Some ps -> In l ps -> In (i, lvar l) bs /\ value s l = LTrue /\ level s (lvar l) + j = dlevel s).
Proof.
  intros G0 H0 H Ei. destruct (rhist_good s0 bs s G0 H0 H) as [G L A R]. pose proof (g_inv _ _ G) as HI.
  destruct (h_views _ _ _ _ (i_h _ _ HI) i (inl t) Ei) as (vs & [V0 Va] & V1 & V2 & V3). subst vs.
  split; [exact V1|]. split.
  - intros v l Hv Hl Ht Hq. destruct (V3 l) as [X|(j & ps & X1 & X2 & X3)].
    + rewrite Hl. apply (A i t v Ei), Hv.
    + exact Ht.
    + contradiction.
    + exists j, ps. split; [exact X1|]. split; [exact X2|]. rewrite <- Hl, X3. assert (j < length (rlev t)) by (apply nth_error_Some; congruence). lia.
  - intros j ps l Ej Hl. destruct (V2 j ps l Ej (or_introl Logic.I) Hl) as [X1 X2]. split; [|split; [exact X1|]].
    + apply (A i t _ Ei), Va, in_concat. exists ps. split; [apply (nth_error_In _ j), Ej|exact Hl].
    + rewrite X2. assert (j < length (rlev t)) by (apply nth_error_Some; congruence). lia.
Qed.
End Told.

(** ** Executable histories (no theory but the recorders). *)
End Srt.
#[local] Existing Instance stable_sort | 100.
Notation est := (st (rec + Empty_set)).
Notation erops := (sum_ops rec_ops pure_ops).
Notation eRC := (sumC rec_ops pure_ops recC pureC).
Definition rec_init (k : nat) : est := init (repeat (inl rec0) k).
Lemma rec_init_good k : good eRC (rec_init k) /\ forall i t, nth_error (theories (rec_init k)) i = Some (inl t) -> ratoms t = [].
Proof.
  split.
  - apply (init_good eRC). intros t Ht. apply repeat_spec in Ht. subst t. cbn. repeat split; auto.
  - intros i t E. apply nth_error_In, repeat_spec in E. injection E as ->. reflexivity.
Qed.
Lemma rec_settled (s : est) : settled eRC s.
Proof. intros [t|t] _; [exact Logic.I|destruct t]. Qed.
Definition rlegalb (s : est) (c : call) : bool :=
  match c with
  | CVar | CPropagate => true
  | CClause ls => (dlevel s =? 0) && in_range s ls
  | CAssume p => (match prop_q s with [] => true | _ => false end) && in_range s [p]
  | CPop => negb (dlevel s =? 0)
  | _ => false
  end.
Lemma rlegalb_ok (s : est) c : rlegalb s c = true -> legal eRC s c.
Proof.
  assert (Hs : forall ls, in_range s ls = true -> in_scope s ls) by (intros ls H p Hp; unfold in_range in H; rewrite forallb_forall in H; apply Nat.ltb_lt, H, Hp).
  destruct c; cbn [rlegalb legal]; intros H; try discriminate H; auto.
  - apply andb_prop in H as [H1 H2]. split; [apply Nat.eqb_eq, H1|apply Hs, H2].
  - apply andb_prop in H as [H1 H2]. destruct (prop_q s); [|discriminate H1]. split; [reflexivity|]. split; [apply rec_settled|apply Hs, H2].
  - apply negb_true_iff, Nat.eqb_neq in H. exact H.
Qed.
(** [inr (i, v)]: recorder [i] binds [v]. *)
Fixpoint rexec (s : est) bs (es : list (call + nat * nat)) : option (list (nat * nat) * est) :=
  match es with
  | [] => Some (bs, s)
  | inl c :: es =>
    if rlegalb s c then match step (ops := erops) 100 s c with Ok (s', RBool false) => None | Ok (s', _) => rexec s' bs es | _ => None end else None
  | inr (i, v) :: es =>
    match nth_error (theories s) i with
    | Some (inl t) => if (0 <? v) && (v <? nv s) && lbool_eqb (assigns s v) LUndef && negb (existsb (fun e => (fst e =? i) && (snd e =? v)) bs) then rexec (rec_bind s i v) ((i, v) :: bs) es else None
    | _ => None
    end
  end.
Lemma rexec_ok s0 : forall es bs s, RHist pureC s0 bs s -> forall bs' s', rexec s bs es = Some (bs', s') -> RHist pureC s0 bs' s'.
Proof.
  induction es as [|[c|[i v]] es IH]; intros bs s H bs' s' E; cbn [rexec] in E; [congruence| |].
  - destruct (rlegalb s c) eqn:El; [|discriminate E]. destruct (step (ops := erops) 100 s c) as [[s1 x]| |] eqn:Es; [|discriminate E|discriminate E].
    assert (HE : x <> RBool false /\ rexec s1 bs es = Some (bs', s')) by (destruct x as [v|[|]|p|]; first [discriminate E|split; [intros Hd; discriminate Hd|exact E]]). destruct HE as [Hx E'].
    refine (IH _ _ _ _ _ E'). eapply RH_call; [exact H|apply rlegalb_ok, El|exact Es|]. intros X. congruence.
  - destruct (nth_error (theories s) i) as [[t|[]]|] eqn:Ei; [|discriminate E]. destruct (_ && _ && _ && _) eqn:Eb; [|discriminate E].
    apply andb_prop in Eb as [Eb Hn]. apply andb_prop in Eb as [Eb Hu]. apply andb_prop in Eb as [H1 H2]. apply Nat.ltb_lt in H1, H2.
    refine (IH _ _ _ _ _ E). eapply RH_bind; [exact H|exact Ei|lia| |].
    + destruct (lbool_eqb_spec (assigns s v) LUndef); [assumption|discriminate Hu].
    + intros X. apply negb_true_iff in Hn. assert (Y : existsb (fun e => (fst e =? i) && (snd e =? v)) bs = true); [|congruence]. apply existsb_exists. exists (i, v). split; [exact X|]. cbn. rewrite !Nat.eqb_refl. reflexivity.
Qed.
