(** Specification vocabulary: total assignments, models of a network, the contract of a theory. *)
From Verif Require Import Base Sat.

(** A total assignment gives a boolean to every variable. *)
Definition mlit (M : nat -> bool) (p : lit) : bool := Bool.eqb (M (lvar p)) (lsgn p).
(** [M] satisfies the clause [c]. *)
Definition mcl (M : nat -> bool) (c : list lit) : Prop := exists p, In p c /\ mlit M p = true.
(** Agreement on the first [n] variables. *)
Definition agree (n : nat) (M M' : nat -> bool) : Prop := forall v, v < n -> M v = M' v.

Lemma mlit_negl M p : mlit M (negl p) = negb (mlit M p).
Proof. unfold mlit, negl; cbn. destruct (M (lvar p)), (lsgn p); reflexivity. Qed.
Lemma mlit_var M p q : lvar p = lvar q -> mlit M p = true -> mlit M q = true -> p = q.
Proof.
  destruct p as [v a], q as [w b]; unfold mlit; cbn; intros ->.
  destruct (M w), a, b; cbn; congruence.
Qed.
Lemma mlit_agree M M' p n : agree n M M' -> lvar p < n -> mlit M p = mlit M' p.
Proof. intros H Hp; unfold mlit; rewrite (H _ Hp); reflexivity. Qed.
Lemma mcl_agree M M' c n : agree n M M' -> (forall p, In p c -> lvar p < n) -> mcl M c -> mcl M' c.
Proof.
  intros H Hc (p & Hp & E); exists p; split; [exact Hp|].
  rewrite <- (mlit_agree M M' p n); auto.
Qed.
Lemma agree_sym n M M' : agree n M M' -> agree n M' M.
Proof. intros H v Hv; symmetry; apply H, Hv. Qed.

(** [th_valid tm c]: the clause holds in all the models of the theory. *)
Definition valid_in (tm : (nat -> bool) -> Prop) (c : list lit) : Prop :=
  forall M, M 0 = false -> tm M -> mcl M c.

(** Values after the literal [p] has been made true. *)
Definition ov (val : lit -> lbool) (p : lit) : lit -> lbool :=
  fun q => if lit_eqb q p then LTrue else if lit_eqb q (negl p) then LFalse else val q.

(** The clauses recorded by a theory while propagating [p] under the values [val]: each one is valid,
    its head is undefined, its other literals are false, among them [!p]; only the constant may be
    repeated.  [val'] are the values at the end. *)
Inductive lemmas_ok (tm : (nat -> bool) -> Prop) (atom : nat -> Prop) (p : lit) :
  (lit -> lbool) -> list (list lit) -> (lit -> lbool) -> Prop :=
| lemmas_nil val : lemmas_ok tm atom p val [] val
| lemmas_cons val l0 tl r val' :
    val l0 = LUndef -> atom (lvar l0) -> Forall (fun q => val q = LFalse) tl -> In (negl p) tl ->
    NoDup (filter (fun q => negb (lvar q =? 0)) tl) ->
    valid_in tm (l0 :: tl) ->
    lemmas_ok tm atom p (ov val l0) r val' ->
    lemmas_ok tm atom p val ((l0 :: tl) :: r) val'.

(** What the core needs of the clauses recorded by a theory: as above, but at root level ([~ up]) a clause need not
    mention [!p]. *)
Inductive lemmas_at (up : Prop) (tm : (nat -> bool) -> Prop) (atom : nat -> Prop) (p : lit) :
  (lit -> lbool) -> list (list lit) -> (lit -> lbool) -> Prop :=
| lat_nil val : lemmas_at up tm atom p val [] val
| lat_cons val l0 tl r val' :
    val l0 = LUndef -> atom (lvar l0) -> Forall (fun q => val q = LFalse) tl -> (up -> In (negl p) tl) ->
    NoDup (filter (fun q => negb (lvar q =? 0)) tl) ->
    valid_in tm (l0 :: tl) ->
    lemmas_at up tm atom p (ov val l0) r val' ->
    lemmas_at up tm atom p val ((l0 :: tl) :: r) val'.
(** The models of a theory in which the literals told at root level are true. *)
Definition rooted (tm : (nat -> bool) -> Prop) (vs : list (list lit)) (M : nat -> bool) : Prop :=
  tm M /\ forall q, In q (last vs []) -> mlit M q = true.
Lemma lat_mono (up up' : Prop) (tm tm' : (nat -> bool) -> Prop) atom p val ls val' : (up' -> up) -> (forall M, tm' M -> tm M) ->
  lemmas_at up tm atom p val ls val' -> lemmas_at up' tm' atom p val ls val'.
Proof.
  intros Hu Ht. induction 1 as [val|val l0 tl r val' A B D E F G _ IH]; [constructor|].
  constructor; auto. intros M H0 HM. apply G; auto.
Qed.
Lemma lemmas_weaken (up : Prop) (tm tm' : (nat -> bool) -> Prop) atom p val ls val' : (forall M, tm' M -> tm M) ->
  lemmas_ok tm atom p val ls val' -> lemmas_at up tm' atom p val ls val'.
Proof.
  intros Ht. induction 1 as [val|val l0 tl r val' A B D E F G _ IH]; [constructor|].
  constructor; auto. intros M H0 HM. apply G; auto.
Qed.

(** ** What a theory has already decided by itself.
    [fixed t n v]: the theory state that was current [n] levels below already decides its atom [v], so that the core must have given [v] a
    value no later than at that level.  A theory which needs no such promise has none ([no_fixed]). *)
Record fixed_rules {T : Type} (ops : theory_ops T) (atom : T -> nat -> Prop) (inv : T -> list (list lit) -> Prop) (fixed : T -> nat -> nat -> Prop) : Prop := mk_fixed_rules {
  fx_atom : forall t n v, fixed t n v -> atom t v;
  fx_push : forall t vs n v, inv t vs -> fixed (th_push ops t) n v -> fixed t (Nat.pred n) v;
  fx_pop : forall t v w vs n x, inv t (v :: w :: vs) -> fixed (th_pop ops t) n x -> fixed t (S n) x;
  fx_prop : forall t v vs val p t' ls cf n x, inv t (v :: vs) -> atom t (lvar p) ->
    (forall q, val (negl q) = lneg (val q)) -> val TRUE_lit = LTrue ->
    (forall q, In q (concat (v :: vs)) -> val q = LTrue) -> val p = LTrue ->
    (forall m y, fixed t m y -> val (mk_lit y true) <> LUndef) -> (forall m, fixed t m (lvar p) -> m = 0) ->
    th_prop ops t val p = Ok (t', ls, cf) -> fixed t' n x ->
    fixed t n x \/ (n = 0 /\ (val (mk_lit x true) <> LUndef \/ exists l0 tl, In (l0 :: tl) ls /\ lvar l0 = x));
  fx_check : forall t vs val t' cf n x, inv t vs ->
    (forall q, val (negl q) = lneg (val q)) -> val TRUE_lit = LTrue ->
    (forall q, In q (concat vs) -> val q = LTrue) -> th_check ops t val = Ok (t', cf) -> fixed t' n x -> fixed t n x }.
Definition no_fixed {T : Type} : T -> nat -> nat -> Prop := fun _ _ _ => False.
Lemma no_fixed_rules {T : Type} (ops : theory_ops T) atom inv : fixed_rules ops atom inv no_fixed.
Proof. constructor; unfold no_fixed; intros; contradiction. Qed.

(** ** The contract between the core and a theory.
    [th_inv t vs]: [t] is a legal theory state which has processed the literals of [vs], grouped by
    level, the current level first ([vs] is never empty).  [th_model t M]: the assignment [M] is
    compatible with the theory.  [th_atom t v]: the theory is interested in [v].  [th_feas t]: the
    last consistency check has succeeded.  The clauses recorded while propagating need only hold in the models in which
    the literals told at root level, which are facts, are true. *)
Record contract {T : Type} (ops : theory_ops T) := mk_contract {
  th_model : T -> (nat -> bool) -> Prop;
  th_atom : T -> nat -> Prop;
  th_inv : T -> list (list lit) -> Prop;
  th_feas : T -> Prop;
  th_fixed : T -> nat -> nat -> Prop;
  c_fixed : fixed_rules ops th_atom th_inv th_fixed;
  c_model_ext : forall t M M', (forall v, th_atom t v -> M v = M' v) -> th_model t M -> th_model t M';
  c_push : forall t vs, th_inv t vs -> th_feas t ->
    th_inv (th_push ops t) ([] :: vs) /\ th_feas (th_push ops t) /\
    (forall M, th_model (th_push ops t) M <-> th_model t M) /\
    (forall v, th_atom (th_push ops t) v <-> th_atom t v);
  c_pop : forall t v w vs, th_inv t (v :: w :: vs) ->
    th_inv (th_pop ops t) (w :: vs) /\ th_feas (th_pop ops t) /\
    (forall M, th_model (th_pop ops t) M <-> th_model t M) /\
    (forall x, th_atom (th_pop ops t) x <-> th_atom t x);
  c_prop : forall t v vs val p, th_inv t (v :: vs) -> th_atom t (lvar p) ->
    (forall q, val (negl q) = lneg (val q)) -> val TRUE_lit = LTrue ->
    (forall q, In q (concat (v :: vs)) -> val q = LTrue) -> val p = LTrue ->
    (forall m y, th_fixed t m y -> val (mk_lit y true) <> LUndef) -> (forall m, th_fixed t m (lvar p) -> m = 0) ->
    safe (th_prop ops t val p) (fun r => let '(t', lemmas, cf) := r in
      (exists v', th_inv t' (v' :: vs) /\ (cf = None -> v' = p :: v)) /\
      (forall M, th_model t' M <-> th_model t M) /\ (forall x, th_atom t' x <-> th_atom t x) /\
      exists val', lemmas_at (vs <> []) (rooted (th_model t) ((p :: v) :: vs)) (th_atom t) p val lemmas val' /\
        forall c, cf = Some c ->
          (vs <> [] -> 2 <= length c) /\ Forall (fun q => val' q = LFalse) c /\ (vs <> [] -> In (negl p) c) /\
          valid_in (rooted (th_model t) ((p :: v) :: vs)) c);
  c_check : forall t v vs val, th_inv t (v :: vs) ->
    (forall q, val (negl q) = lneg (val q)) -> val TRUE_lit = LTrue ->
    (forall q, In q (concat (v :: vs)) -> val q = LTrue) ->
    safe (th_check ops t val) (fun r => let '(t', cf) := r in
      th_inv t' (v :: vs) /\ (cf = None -> th_feas t') /\
      (forall M, th_model t' M <-> th_model t M) /\ (forall x, th_atom t' x <-> th_atom t x) /\
      forall c, cf = Some c ->
        2 <= length c /\ Forall (fun q => val q = LFalse) c /\ valid_in (th_model t) c /\
        (vs <> [] -> exists q, In q v /\ In (negl q) c)) }.
Arguments th_model {T ops} c t M.
Arguments th_atom {T ops} c t v.
Arguments th_inv {T ops} c t vs.
Arguments th_feas {T ops} c t.
Arguments th_fixed {T ops} c t n v.

(** A theory that needs no promise about what it has already decided. *)
Definition plain {T : Type} {ops : theory_ops T} (C : contract ops) : Prop := forall t n v, ~ th_fixed C t n v.

(** A theory whose clauses hold in all its models and always mention [!p]. *)
Definition mk_strict {T : Type} (ops : theory_ops T) (model : T -> (nat -> bool) -> Prop) (atom : T -> nat -> Prop)
  (inv : T -> list (list lit) -> Prop) (feas : T -> Prop)
  (hext : forall t M M', (forall v, atom t v -> M v = M' v) -> model t M -> model t M')
  (hpush : forall t vs, inv t vs -> feas t -> inv (th_push ops t) ([] :: vs) /\ feas (th_push ops t) /\
    (forall M, model (th_push ops t) M <-> model t M) /\ (forall v, atom (th_push ops t) v <-> atom t v))
  (hpop : forall t v w vs, inv t (v :: w :: vs) -> inv (th_pop ops t) (w :: vs) /\ feas (th_pop ops t) /\
    (forall M, model (th_pop ops t) M <-> model t M) /\ (forall x, atom (th_pop ops t) x <-> atom t x))
  (hprop : forall t v vs val p, inv t (v :: vs) -> atom t (lvar p) ->
    (forall q, val (negl q) = lneg (val q)) -> val TRUE_lit = LTrue ->
    (forall q, In q (concat (v :: vs)) -> val q = LTrue) -> val p = LTrue ->
    safe (th_prop ops t val p) (fun r => let '(t', lemmas, cf) := r in
      (exists v', inv t' (v' :: vs) /\ (cf = None -> v' = p :: v)) /\
      (forall M, model t' M <-> model t M) /\ (forall x, atom t' x <-> atom t x) /\
      exists val', lemmas_ok (model t) (atom t) p val lemmas val' /\
        forall c, cf = Some c ->
          2 <= length c /\ Forall (fun q => val' q = LFalse) c /\ In (negl p) c /\ valid_in (model t) c))
  (hcheck : forall t v vs val, inv t (v :: vs) ->
    (forall q, val (negl q) = lneg (val q)) -> val TRUE_lit = LTrue ->
    (forall q, In q (concat (v :: vs)) -> val q = LTrue) ->
    safe (th_check ops t val) (fun r => let '(t', cf) := r in
      inv t' (v :: vs) /\ (cf = None -> feas t') /\
      (forall M, model t' M <-> model t M) /\ (forall x, atom t' x <-> atom t x) /\
      forall c, cf = Some c ->
        2 <= length c /\ Forall (fun q => val q = LFalse) c /\ valid_in (model t) c /\
        (vs <> [] -> exists q, In q v /\ In (negl q) c))) : contract ops.
Proof.
  refine (mk_contract T ops model atom inv feas no_fixed (no_fixed_rules ops atom inv) hext hpush hpop _ hcheck).
  intros t v vs val p H1 H2 H3 H4 H5 H6 _ _. pose proof (hprop t v vs val p H1 H2 H3 H4 H5 H6) as H.
  destruct (th_prop ops t val p) as [[[t' ls] cf]| |]; cbn [safe] in *; auto.
  destruct H as (A & B & D & val' & E & F). split; [exact A|]. split; [exact B|]. split; [exact D|]. exists val'.
  split; [apply (lemmas_weaken _ (model t)); [intros M [K _]; exact K|exact E]|].
  intros c Hc. destruct (F c Hc) as (F1 & F2 & F3 & F4). repeat split; auto. intros M H0 [K _]. apply F4; assumption.
Defined.

Section Spec.
Context {T : Type} {ops : theory_ops T} (C : contract ops).

(** The models of a network: assignments that give false to the constant, satisfy every clause,
    agree with every value fixed at root level, and are compatible with every theory. *)
Record smodels (s : st T) (M : nat -> bool) : Prop := {
  sm_false : M 0 = false;
  sm_cls : forall c, In c (constrs s) -> mcl M (cls s c);
  sm_facts : forall p, value s p = LTrue -> level s (lvar p) = 0 -> mlit M p = true;
  sm_th : forall t, In t (theories s) -> th_model C t M }.

Definition unsat (s : st T) : Prop := forall M, ~ smodels s M.

End Spec.
