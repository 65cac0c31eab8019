(** Difference logic theories: the vocabulary of the properties, for integer and for rational variables, and its
    relation to the generic one.  Also a small interpreter of scripts, used for the concrete cases. *)
From Verif Require Import Base Keys Sat SatSpec SatInv SatMain SatApi Reify Run Erase Lin Qe Dw Dl DlClo DlTight DlEdge DlTh DlFacts DlVal DlApi.
From Coq Require Import Lqa Qround.
Open Scope nat_scope.
Local Arguments Nat.ltb : simpl never.
Local Arguments Nat.eqb : simpl never.
Section Srt.
Context {sr : sorter}.

(** ** Integer difference logic. *)
(** The constraint [to - from <= dist] holds under [y]. *)
Definition z_con (c : dcon Z) (y : nat -> Z) : Prop := (y (c_to c) - y (c_from c) <= c_w c)%Z.
(** Every literal of [ps] that controls a constraint tells the truth about it. *)
Definition z_sol (t : dl Z) (ps : list lit) (y : nat -> Z) : Prop :=
  forall p c, In p ps -> In c (dcons t) -> lvar (c_b c) = lvar p -> if lsgn p then z_con c y else ~ z_con c y.
(** The clause [k] holds for all values of the variables. *)
Definition z_valid (t : dl Z) (k : list lit) : Prop :=
  forall y, exists q c, In q k /\ In c (dcons t) /\ lvar (c_b c) = lvar q /\ if lsgn q then z_con c y else ~ z_con c y.

(** ** Rational difference logic; the weight [(a, e)] with a negative [e] is a strict bound. *)
Definition q_under (v : Q) (w : qe) : Prop := (v <= fst w /\ (snd w < 0 -> v < fst w))%Q.
Definition q_con (c : dcon qe) (y : nat -> Q) : Prop := q_under (y (c_to c) - y (c_from c))%Q (c_w c).
Definition q_sol (t : dl qe) (ps : list lit) (y : nat -> Q) : Prop :=
  forall p c, In p ps -> In c (dcons t) -> lvar (c_b c) = lvar p -> if lsgn p then q_con c y else ~ q_con c y.
Definition q_valid (t : dl qe) (k : list lit) : Prop :=
  forall y, exists q c, In q k /\ In c (dcons t) /\ lvar (c_b c) = lvar q /\ if lsgn q then q_con c y else ~ q_con c y.
(** The weights of constraints: bounds with or without strictness. *)
Definition q_weight (w : qe) : Prop := (snd w == 0 \/ snd w == - (1))%Q.

(** ** Bridges. *)
Definition zq (y : nat -> Z) : nat -> Q := fun v => inject_Z (y v).
Lemma inject_sub a b : (inject_Z a - inject_Z b == inject_Z (a - b))%Q.
Proof. unfold Z.sub, Qminus. rewrite inject_Z_plus, inject_Z_opp. reflexivity. Qed.
Lemma z_wsat w a b : wsat ZL w (inject_Z a - inject_Z b)%Q <-> (a - b <= w)%Z.
Proof. unfold wsat. cbn. rewrite evt_const, inject_sub, <- Zle_Qle. reflexivity. Qed.
Lemma z_con_sat c y : con_sat ZL c (zq y) <-> z_con c y.
Proof. unfold con_sat, z_con, zq. apply z_wsat. Qed.
Lemma zq_ok y : vals_ok ZL (zq y).
Proof. intros v. exists (y v). reflexivity. Qed.
Lemma z_solves t ps y : solves ZL t ps (zq y) <-> z_sol t ps y.
Proof.
  unfold solves, lits_hold, z_sol. split.
  - intros [_ H] p c Hp Hc E. specialize (H p c Hp Hc E). destruct (lsgn p); rewrite <- z_con_sat; exact H.
  - intros H. split; [apply zq_ok|]. intros p c Hp Hc E. specialize (H p c Hp Hc E). destruct (lsgn p); rewrite z_con_sat; exact H.
Qed.
(** Every assignment of integral values comes from the integers. *)
Lemma z_of (y : nat -> Q) : vals_ok ZL y -> exists z, forall v, (y v == inject_Z (z v))%Q.
Proof. intros H. exists (fun v => Qfloor (y v)). intros v. destruct (H v) as [a Ha]. rewrite Ha, Qfloor_Z. reflexivity. Qed.
Lemma wsat_eq {D} {W : wops D} (L : wlaws W) w a b : (a == b)%Q -> wsat L w a -> wsat L w b.
Proof. intros E H. apply (evt_mp _ _ H), evt_all. intros d _ K. rewrite <- E. exact K. Qed.
Lemma con_eq {D} {W : wops D} (L : wlaws W) c y y' : (forall v, y v == y' v)%Q -> (con_sat L c y <-> con_sat L c y').
Proof. intros E. unfold con_sat. split; apply wsat_eq; rewrite !E; reflexivity. Qed.
Lemma solves_eq {D} {W : wops D} (L : wlaws W) t ps y y' : (forall v, y v == y' v)%Q -> solves L t ps y -> solves L t ps y'.
Proof.
  intros E [Hy H]. split; [intros v; apply (isv_eq W L (y v)); auto|]. intros p c Hp Hc Ev. specialize (H p c Hp Hc Ev). destruct (lsgn p); rewrite <- (con_eq L c y y' E); exact H.
Qed.
Lemma z_solved t ps y : solves ZL t ps y -> exists z, z_sol t ps z /\ forall v, (y v == inject_Z (z v))%Q.
Proof. intros H. destruct (z_of y (proj1 H)) as (z & Hz). exists z. split; [|exact Hz]. apply z_solves, (solves_eq ZL t ps y); [exact Hz|exact H]. Qed.
Lemma z_dl_valid t k : dl_valid ZL t k <-> z_valid t k.
Proof.
  split.
  - intros H y. destruct (H (zq y) (zq_ok y)) as (q & Hq & c & Hc & Ev & K). exists q, c. repeat (split; [assumption|]). destruct (lsgn q); rewrite <- z_con_sat; exact K.
  - intros H y Hy. destruct (z_of y Hy) as (z & Hz). destruct (H z) as (q & c & Hq & Hc & Ev & K). exists q. split; [exact Hq|]. exists c. split; [exact Hc|]. split; [exact Ev|].
    destruct (lsgn q); rewrite (con_eq ZL c y (zq z) Hz), z_con_sat; exact K.
Qed.
Lemma q_wsat w v : wsat QL w v <-> q_under v w.
Proof. unfold wsat. cbn. apply wsat_qe. Qed.
Lemma q_con_sat c y : con_sat QL c y <-> q_con c y.
Proof. apply q_wsat. Qed.
Lemma q_solves t ps y : solves QL t ps y <-> q_sol t ps y.
Proof.
  unfold solves, lits_hold, q_sol. split.
  - intros [_ H] p c Hp Hc E. specialize (H p c Hp Hc E). destruct (lsgn p); rewrite <- q_con_sat; exact H.
  - intros H. split; [intros v; exact I|]. intros p c Hp Hc E. specialize (H p c Hp Hc E). destruct (lsgn p); rewrite q_con_sat; exact H.
Qed.
Lemma q_dl_valid t k : dl_valid QL t k <-> q_valid t k.
Proof.
  split.
  - intros H y. destruct (H y (fun _ => I)) as (q & Hq & c & Hc & Ev & K). exists q, c. repeat (split; [assumption|]). destruct (lsgn q); rewrite <- q_con_sat; exact K.
  - intros H y _. destruct (H y) as (q & c & Hq & Hc & Ev & K). exists q. split; [exact Hq|]. exists c. split; [exact Hc|]. split; [exact Ev|]. destruct (lsgn q); rewrite q_con_sat; exact K.
Qed.

(** ** Scripts. *)
Section Script.
Context {D : Type} {W : wops D} (L : wlaws W) (wc : D -> bool).
Hypothesis wc_ok : forall w, wc w = true -> wcon L w.
Notation dl := (dl D).
(** The constraint created by the n-th [KCon] has the variable n + 1. *)
Inductive kop := KVar | KCon (from to : nat) (w : D) | KTell (p : lit) | KPush | KPop.
(** The values after exactly [ps] has become true. *)
Definition val_of (ps : list lit) : lv := fun q => if existsb (lit_eqb q) ps then LTrue else if existsb (lit_eqb (negl q)) ps then LFalse else LUndef.
Definition consistent (ps : list lit) : bool := forallb (fun p => negb (existsb (lit_eqb (negl p)) ps)) ps.
Lemma mem_lit q ps : existsb (lit_eqb q) ps = true <-> In q ps.
Proof. rewrite existsb_exists. split; [intros (x & Hx & E); destruct (lit_eqb_spec q x); [subst; exact Hx|discriminate]|]. intros H. exists q. split; [exact H|]. destruct (lit_eqb_spec q q); congruence. Qed.
Lemma val_of_reads ps : consistent ps = true -> reads (val_of ps) ps.
Proof.
  intros H. unfold consistent in H. rewrite forallb_forall in H. split.
  - intros q. unfold val_of. rewrite negl_invol. destruct (existsb (lit_eqb q) ps) eqn:E1; destruct (existsb (lit_eqb (negl q)) ps) eqn:E2; try reflexivity.
    exfalso. apply mem_lit in E1. specialize (H q E1). rewrite E2 in H. discriminate.
  - intros q Hq. unfold val_of. apply mem_lit in Hq. rewrite Hq. reflexivity.
Qed.
Definition atomb (t : dl) (v : nat) : bool := existsb (fun c => Nat.eqb (lvar (c_b c)) v) (dcons t).
Lemma atomb_ok (t : dl) v : atomb t v = true <-> atom t v.
Proof. unfold atomb. rewrite existsb_exists. split; intros (c & Hc & E); exists c; (split; [exact Hc|]); [apply Nat.eqb_eq, E|apply Nat.eqb_eq; exact E]. Qed.
Definition state : Type := (dl * list (list lit))%type.
Definition kcon (t : dl) (from to : nat) (w : D) : dcon D := mk_dcon (mk_lit (S (length (dcons t))) true) from to w.
Definition kstep (st : state) (o : kop) : option state :=
  let (t, vs) := st in
  match o with
  | KVar => Some (fst (t_dl_var W t), vs)
  | KCon f g w =>
    if Nat.ltb f (nvars t) && Nat.ltb g (nvars t) && negb (Nat.eqb f g) && wc w && negb (atomb t (S (length (dcons t)))) then Some (add_con t (kcon t f g w), vs) else None
  | KTell p =>
    match vs with
    | [] => None
    | v :: r =>
      if atomb t (lvar p) && consistent (p :: concat vs) then match dl_prop W t (val_of (p :: concat vs)) p with Ok (t', _, None) => Some (t', (p :: v) :: r) | _ => None end else None
    end
  | KPush => Some (dl_push t, [] :: vs)
  | KPop => match vs with _ :: v' :: r => Some (dl_pop t, v' :: r) | _ => None end
  end.
(** Never less than [n + 1] levels. *)
Fixpoint krun (n : nat) (st : state) (os : list kop) : option state :=
  match os with
  | [] => Some st
  | o :: os => match kstep st o with Some st1 => if Nat.ltb n (length (snd st1)) then krun n st1 os else None | None => None end
  end.
Lemma kstep_dstep t vs o t' vs' : kstep (t, vs) o = Some (t', vs') -> dstep L t vs t' vs'.
Proof.
  destruct o as [|f g w|p| |]; cbn [kstep].
  - intros E. injection E as <- <-. constructor.
  - destruct (_ && _ && _ && _ && _) eqn:E; [|discriminate]. intros H. injection H as <- <-. repeat (apply andb_prop in E as [E ?H]). apply Nat.ltb_lt in E. apply Nat.ltb_lt in H2. apply negb_true_iff, Nat.eqb_neq in H1. apply wc_ok in H0.
    constructor; [split; [exact H0|]; cbn; auto|]. rewrite <- atomb_ok. cbn. apply negb_true_iff in H. congruence.
  - destruct vs as [|v r]; [discriminate|]. destruct (atomb t (lvar p) && consistent (p :: concat (v :: r))) eqn:E; [|discriminate]. apply andb_prop in E as [E1 E2].
    destruct (dl_prop W t _ p) as [[[t1 ls] [k|]]| |] eqn:Ep; try discriminate. intros H. injection H as <- <-. apply (ds_prop L t v r p (val_of (p :: concat (v :: r))) t1 ls); [apply atomb_ok, E1|apply val_of_reads, E2|exact Ep].
  - intros E. injection E as <- <-. constructor.
  - destruct vs as [|v [|v' r]]; try discriminate. intros E. injection E as <- <-. constructor.
Qed.
Lemma krun_inside n os : forall t vs t' vs', krun n (t, vs) os = Some (t', vs') -> forall t0 vs0, Inside L n t0 vs0 t vs -> Inside L n t0 vs0 t' vs'.
Proof.
  induction os as [|o os IH]; intros t vs t' vs'; cbn [krun]; [intros E; injection E as <- <-; auto|]. destruct (kstep (t, vs) o) as [[t1 vs1]|] eqn:E1; [|discriminate]. cbn [snd].
  destruct (Nat.ltb_spec n (length vs1)) as [Hn|]; [|discriminate]. intros E t0 vs0 H0. apply (IH _ _ _ _ E). apply (In_step L n t0 vs0 t vs t1 vs1); [exact H0|apply (kstep_dstep _ _ o), E1|exact Hn].
Qed.
Lemma krun_reach n os : forall t vs t' vs', DReach L t vs -> krun n (t, vs) os = Some (t', vs') -> DReach L t' vs'.
Proof.
  induction os as [|o os IH]; intros t vs t' vs' HR; cbn [krun]; [intros E; injection E as <- <-; auto|]. destruct (kstep (t, vs) o) as [[t1 vs1]|] eqn:E1; [|discriminate]. cbn [snd].
  destruct (Nat.ltb n (length vs1)); [|discriminate]. apply IH, (DR_step L t vs); [exact HR|apply (kstep_dstep _ _ o), E1].
Qed.
Definition some {A} (o : option A) : bool := match o with Some _ => true | None => false end.
Definition kst (size : nat) (os : list kop) : state := match krun 0 (dl_init W size, [[]]) os with Some st => st | None => (dl_init W size, [[]]) end.
Theorem kst_reach size os : 0 < size -> DReach L (fst (kst size os)) (snd (kst size os)).
Proof.
  intros Hs. unfold kst. destruct (krun 0 (dl_init W size, [[]]) os) as [[t vs]|] eqn:E; [|constructor; exact Hs]. apply (krun_reach 0 os (dl_init W size) [[]]); [constructor; exact Hs|exact E].
Qed.
Theorem kst_inside size os os' t vs t' vs' : kst size os = (t, vs) -> krun (length vs) (dl_push t, [] :: vs) os' = Some (t', vs') -> Inside L (length vs) (dl_push t) ([] :: vs) t' vs'.
Proof. intros _ E. apply (krun_inside _ _ _ _ _ _ E). constructor. Qed.
(** Without pop, one constraint for each pair. *)
Definition same_pairb (f g : nat) (c : dcon D) : bool := (Nat.eqb f (c_from c) && Nat.eqb g (c_to c)) || (Nat.eqb f (c_to c) && Nat.eqb g (c_from c)).
Definition fineb (st : state) (o : kop) : bool := match o with KPop => false | KCon f g _ => negb (existsb (same_pairb f g) (dcons (fst st))) | _ => true end.
Fixpoint frun (st : state) (os : list kop) : option state :=
  match os with [] => Some st | o :: os => if fineb st o then match kstep st o with Some st1 => frun st1 os | None => None end else None end.
Lemma kstep_fstep t vs o t' vs' : fineb (t, vs) o = true -> kstep (t, vs) o = Some (t', vs') -> fstep L t vs t' vs'.
Proof.
  intros Hf. destruct o as [|f g w|p| |]; cbn [kstep].
  - intros E. injection E as <- <-. constructor.
  - destruct (_ && _ && _ && _ && _) eqn:E; [|discriminate]. intros H. injection H as <- <-. repeat (apply andb_prop in E as [E ?H]). apply Nat.ltb_lt in E. apply Nat.ltb_lt in H2. apply negb_true_iff, Nat.eqb_neq in H1. apply wc_ok in H0.
    constructor; [split; [exact H0|]; cbn; auto|rewrite <- atomb_ok; cbn; apply negb_true_iff in H; congruence|]. intros c' Hc' Hs. cbn in Hf. apply negb_true_iff in Hf.
    assert (K : existsb (same_pairb f g) (dcons t) = true) by (apply existsb_exists; exists c'; split; [exact Hc'|]; unfold same_pairb; destruct Hs as [[A B]|[A B]]; cbn in A, B; subst; rewrite !Nat.eqb_refl; cbn; rewrite ?orb_true_r; reflexivity).
    congruence.
  - destruct vs as [|v r]; [discriminate|]. destruct (atomb t (lvar p) && consistent (p :: concat (v :: r))) eqn:E; [|discriminate]. apply andb_prop in E as [E1 E2].
    destruct (dl_prop W t _ p) as [[[t1 ls] [k|]]| |] eqn:Ep; try discriminate. intros H. injection H as <- <-. apply (fs_prop L t v r p (val_of (p :: concat (v :: r))) t1 ls); [apply atomb_ok, E1|apply val_of_reads, E2|exact Ep].
  - intros E. injection E as <- <-. constructor.
  - discriminate.
Qed.
Lemma frun_reach os : forall t vs t' vs', FReach L t vs -> frun (t, vs) os = Some (t', vs') -> FReach L t' vs'.
Proof.
  induction os as [|o os IH]; intros t vs t' vs' HR; cbn [frun]; [intros E; injection E as <- <-; auto|]. destruct (fineb (t, vs) o) eqn:Ef; [|discriminate]. destruct (kstep (t, vs) o) as [[t1 vs1]|] eqn:E1; [|discriminate].
  apply IH, (FR_step L t vs); [exact HR|apply (kstep_fstep _ _ o); assumption].
Qed.
Definition fst_ (size : nat) (os : list kop) : state := match frun (dl_init W size, [[]]) os with Some st => st | None => (dl_init W size, [[]]) end.
Theorem fst_reach size os : 0 < size -> FReach L (fst (fst_ size os)) (snd (fst_ size os)).
Proof.
  intros Hs. unfold fst_. destruct (frun (dl_init W size, [[]]) os) as [[t vs]|] eqn:E; [|constructor; exact Hs]. apply (frun_reach os (dl_init W size) [[]]); [constructor; exact Hs|exact E].
Qed.

(** A network that hosts a theory state. *)
Lemma host_init (t : dl) : DReach L t [[]] -> dcons t = [] -> host L (init [t]) 0 t [[]].
Proof.
  intros HR Hc. constructor; [reflexivity|exact HR|intros v (c & H & _); rewrite Hc in H; destruct H|]. apply (init_good pureC []). intros x [].
Qed.
Lemma host_put (s : st dl) i t vs t' vs' : host L s i t vs -> DReach L t' vs' -> (forall v, atom t' v -> v < nv s) -> host L (dl_put s i t') i t' vs'.
Proof.
  intros [A B C E] HR Hv. constructor; [cbn; apply (set_nth_at _ _ _ _ A)|exact HR|exact Hv|exact E].
Qed.
End Script.
Definition zc (_ : Z) : bool := true.
Lemma zc_ok w : zc w = true -> wcon ZL w.
Proof. intros _. exact I. Qed.
Definition qc (w : qe) : bool := Qeq_bool (snd w) 0 || Qeq_bool (snd w) (-1 # 1).
Lemma qc_ok w : qc w = true -> wcon QL w.
Proof. unfold qc. intros H. apply orb_prop in H as [H|H]; apply Qeq_bool_iff in H; [left|right]; exact H. Qed.
End Srt.
Arguments kop D : clear implicits.
