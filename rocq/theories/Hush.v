(** A network with listeners and the same network without them: Para.v, with the theories equal, or equal up to the listeners of
    numeric variables (LraLis.v). *)
From Verif Require Import Base Keys Sat SatSpec SatInv Run Lin Qe Lra LraLis Para.
Open Scope nat_scope.
Local Arguments Nat.ltb : simpl never.
Local Arguments Nat.eqb : simpl never.
Section Srt.
Context {sr : sorter}.

(** The same network but for who listens and who has been told what; [g]: the theories without their listeners. *)
Definition alike {T U} (g : T -> U) (s : st T) (u : st U) : Prop :=
  (nv s = nv u /\ (forall p, value s p = value u p) /\ level s = level u /\ reason s = reason u /\ decisions s = decisions u) /\
  (trail s = trail u /\ trail_lim s = trail_lim u /\ prop_q s = prop_q u /\ exprs s = exprs u) /\
  (cls s = cls u /\ ncid s = ncid u /\ constrs s = constrs u /\ watches s = watches u /\ assigns s = assigns u) /\
  bounds s = bounds u /\ map g (theories s) = theories u.
Lemma F2_map {T U} (g : T -> U) l m : Forall2 (fun a b => g a = b) l m <-> map g l = m.
Proof.
  split; [induction 1 as [|a b l m H F IH]; cbn; congruence|]. intros <-. induction l; cbn; constructor; auto.
Qed.
Lemma alike_rel {T U} (g : T -> U) s u : alike g s u <-> rel (fun a b => g a = b) s u.
Proof.
  split.
  - intros ((A1 & A2 & A3 & A4 & A5) & (B1 & B2 & B3 & B4) & (D1 & D2 & D3 & D4 & D5) & E1 & E2). exists (theories u), (listening u), (log u). split; [|apply F2_map, E2].
    clear A2. destruct s, u; unfold mpw; cbn in *. subst. reflexivity.
  - intros (ths & L & G & -> & F). apply F2_map in F. repeat split; auto.
Qed.

(** ** The core.  Any sequence of calls that return, with their answers. *)
Inductive CHist {T} (ops : theory_ops T) (s0 : st T) : list (call * ret) -> st T -> Prop :=
| CH0 : CHist ops s0 [] s0
| CH1 h s c fl s' r : CHist ops s0 h s -> step (ops := ops) fl s c = Ok (s', r) -> CHist ops s0 (h ++ [(c, r)]) s'.
Definition registers (c : call) : bool := match c with CListen _ _ => true | _ => false end.
Definition unheard (h : list (call * ret)) : list (call * ret) := filter (fun e => negb (registers (fst e))) h.

Section Core.
Context {T : Type} (ops : theory_ops T).
Notation same := (alike (fun t : T => t)).
Notation rele := (rel (fun a b : T => a = b)).
Lemma same_step fl (s u : st T) c : same s u -> rr (relp (fun a b : T => a = b)) (step (ops := ops) fl s c) (step (ops := ops) fl u c).
Proof.
  intros H. apply alike_rel in H. apply (pa_step (fun a b : T => a = b) ops ops eq_refl); [| | | |exact H].
  - intros t ? val p <-. eapply rr_mono; [|apply rr_refl]. intros a ? <-. repeat split.
  - intros t ? val <-. eapply rr_mono; [|apply rr_refl]. intros a ? <-. repeat split.
  - intros t ? <-. reflexivity.
  - intros t ? <-. reflexivity.
Qed.
Lemma same_sym (s u : st T) : same s u -> same u s.
Proof. intros ((A1 & A2 & A3 & A4 & A5) & (B1 & B2 & B3 & B4) & (D1 & D2 & D3 & D4 & D5) & E1 & E2). rewrite map_id in E2. unfold alike. rewrite map_id. repeat split; auto. Qed.
Lemma same_refl (s : st T) : same s s.
Proof. unfold alike. rewrite map_id. repeat split. Qed.
(** One call: the same answer, whoever listens. *)
Theorem same_answer fl (s u : st T) c : same s u ->
  match step (ops := ops) fl s c, step (ops := ops) fl u c with
  | Ok (s', r), Ok (u', q) => r = q /\ same s' u'
  | OOF, OOF | UB, UB => True
  | _, _ => False
  end.
Proof.
  intros H. pose proof (same_step fl s u c H) as H1. pose proof (same_step fl u s c (same_sym _ _ H)) as H2.
  destruct (step fl s c) as [[s' r]| |], (step fl u c) as [[u' q]| |]; cbn in H1, H2; try exact Logic.I; try discriminate; try tauto.
  destruct H1 as [A B]. cbn in *. split; [exact B|]. apply alike_rel, A.
Qed.
Theorem listeners_do_nothing (s0 : st T) h s : CHist ops s0 h s -> exists s', CHist ops s0 (unheard h) s' /\ same s s'.
Proof.
  induction 1 as [|h s c fl s' r H IH E]; [exists s0; split; [constructor|apply same_refl]|]. destruct IH as (u & Hu & Hs). unfold unheard. rewrite filter_app. cbn [filter fst]. destruct (registers c) eqn:Ec; cbn [negb].
  - rewrite app_nil_r. exists u. split; [exact Hu|]. destruct c; try discriminate Ec. cbn [step] in E. destruct (listen s v l) as [s1| |] eqn:El; cbn [rbind] in E; try discriminate. injection E as <- _.
    apply alike_rel. apply alike_rel in Hs. apply (pa_listen1 _ _ _ _ _ _ Hs El).
  - destruct (rr_ok _ _ _ _ (same_step fl s u c Hs) E) as ([u' q] & Eu & A & B). cbn in A, B. subst q. exists u'. split; [apply (CH1 _ _ _ u c fl); assumption|]. apply alike_rel, A.
Qed.
(** Registering on an existing variable always returns. *)
Theorem listen_returns fl (s : st T) v l : v < nv s -> exists s', step (ops := ops) fl s (CListen v l) = Ok (s', RUnit) /\ same s s'.
Proof.
  intros H. cbn [step]. unfold listen, guard. apply Nat.ltb_lt in H. rewrite H. destruct (is_undef s _); [destruct (memn l _)|]; cbn [rbind]; eexists; (split; [reflexivity|]); try apply same_refl. unfold alike. rewrite map_id. repeat split.
Qed.
End Core.

(** ** Linear real arithmetic: [vstep] without [listen] is [pstep], on the theories without listeners. *)
Definition pstep ord fuel fl (s : st lra) (c : vcall) : res (st lra * ret) :=
  match c with
  | VSat c => step (ops := lra_ops ord fuel) fl s c
  | VVar i => '(s1, x) <- lra_new_var s i ;; Ok (s1, RVar x)
  | VSlack i l => '(s1, x) <- lra_new_slack s i l ;; Ok (s1, RVar x)
  | VCmp i sd strict l r => '(s1, p) <- lra_cmp s i sd strict l r ;; Ok (s1, RLit p)
  | VEq i l r => '(s1, p) <- lra_new_eq s i l r ;; Ok (s1, RLit p)
  | VListen _ _ _ => UB
  end.
Inductive PHist ord fuel (k : nat) : list (vcall * ret) -> st lra -> Prop :=
| PH0 : PHist ord fuel k [] (init (repeat lra_init k))
| PH1 h s c fl s' r : PHist ord fuel k h s -> pstep ord fuel fl s c = Ok (s', r) -> PHist ord fuel k (h ++ [(c, r)]) s'.
Inductive NHist ord fuel (k : nat) : list (vcall * ret) -> st lraL -> Prop :=
| NH0 : NHist ord fuel k [] (init (repeat (lra_init, lis0) k))
| NH1 h s c fl s' r : NHist ord fuel k h s -> vstep ord fuel fl s c = Ok (s', r) -> NHist ord fuel k (h ++ [(c, r)]) s'.
Definition vregisters (c : vcall) : bool := match c with VListen _ _ _ | VSat (CListen _ _) => true | _ => false end.
Definition vunheard (h : list (vcall * ret)) : list (vcall * ret) := filter (fun e => negb (vregisters (fst e))) h.

Notation reln := (rel (fun (a : lraL) (b : lra) => fst a = b)).
Notation relb := (rel (fun a b : lra => a = b)).
Lemma F2_eq {T} (l m : list T) : Forall2 (fun a b => a = b) l m -> l = m.
Proof. induction 1; congruence. Qed.
Lemma relb_put s u i t : relb s u -> relb (put_th s i t) (put_th u i t).
Proof. intros (ths & L & G & -> & F). apply F2_eq in F. subst ths. eexists _, L, G. split; [reflexivity|]. apply F2_map, map_id. Qed.
Lemma relb_th {A} s u i (k : lra -> res A) : relb s u -> with_th u i k = with_th s i k.
Proof. intros (ths & L & G & -> & F). apply F2_eq in F. subst ths. reflexivity. Qed.
Lemma relb_root s u : relb s u -> root_level u = root_level s.
Proof. intros (ths & L & G & -> & F). reflexivity. Qed.
Lemma relb_bind s u v i : relb s u -> relb (bind s v i) (bind u v i).
Proof. intros H. pose proof H as (ths & L & G & -> & F). unfold bind. cbn [bounds mpw]. destruct (memn i (bounds s v)); [exact H|]. exists ths, L, G. split; [reflexivity|exact F]. Qed.
Notation relbp := (relp (fun a b : lra => a = b)).
Lemma rr_th {A B} (Q : A -> B -> Prop) (s : st lra) i (k : lra -> res A) (h : lra -> res B) : (forall t, rr Q (k t) (h t)) -> rr Q (with_th s i k) (with_th s i h).
Proof. intros H. unfold with_th. destruct (nth_error (theories s) i); [apply H|exact Logic.I]. Qed.
Lemma pb_var s u i : relb s u -> rr relbp (lra_new_var s i) (lra_new_var u i).
Proof. intros H. unfold lra_new_var. rewrite (relb_th s u) by exact H. apply rr_th. intros t. destruct (t_new_var t) as [t1 x]. split; [apply relb_put, H|reflexivity]. Qed.
Lemma pb_slack s u i l : relb s u -> rr relbp (lra_new_slack s i l) (lra_new_slack u i l).
Proof.
  intros H. unfold lra_new_slack. rewrite (relb_th s u) by exact H. rewrite (relb_root s u H). apply rr_th. intros t. destruct (t_new_slack _ t l) as [[t1 x]| |]; cbn [rbind]; [|exact Logic.I|reflexivity]. split; [apply relb_put, H|reflexivity].
Qed.
Lemma pb_cmp s u i sd strict l r : relb s u -> rr relbp (lra_cmp s i sd strict l r) (lra_cmp u i sd strict l r).
Proof.
  intros H. unfold lra_cmp. rewrite (relb_th s u) by exact H. rewrite (relb_root s u H). apply rr_th. intros t. cbv zeta. destruct (cmp_sat _ _ _ _); [split; auto|]. destruct (cmp_unsat _ _ _ _); [split; auto|].
  destruct (t_new_slack _ t _) as [[t1 x]| |]; cbn [rbind]; [|exact Logic.I|reflexivity]. pose proof (relb_put s u i t1 H) as H1. destruct (cmp_sat _ _ _ _); [split; auto|]. destruct (cmp_unsat _ _ _ _); [split; auto|].
  destruct (find_asrt _ _ _ _); [split; auto|]. destruct (pa_new_var _ _ _ H1) as [H2 E]. destruct (new_var (put_th s i t1)) as [s2 v], (new_var (put_th u i t1)) as [u2 v']. cbn [fst snd] in *. subst v'.
  split; [|reflexivity]. apply relb_put, relb_bind, H2.
Qed.
Lemma pb_eq s u i l r : relb s u -> rr relbp (lra_new_eq s i l r) (lra_new_eq u i l r).
Proof.
  intros H. unfold lra_new_eq. apply (rr_bind relbp); [apply pb_cmp, H|]. intros [s1 p] [u1 p'] [H1 E1]. cbn [fst snd] in *. subst p'. apply (rr_bind relbp); [apply pb_cmp, H1|]. intros [s2 q] [u2 q'] [H2 E2]. cbn [fst snd] in *. subst q'. apply pa_new_conj, H2.
Qed.
Lemma reln_bare s u : reln s u -> relb (bare s) u.
Proof. intros (ths & L & G & -> & F). apply F2_map in F. exists ths, L, G. split; [reflexivity|]. apply F2_map. rewrite map_id. exact F. Qed.
Lemma reln_lift {A} (f : st lra -> res (st lra * A)) (Hk : forall s s' a, f s = Ok (s', a) -> Forall2 kept (theories s) (theories s')) (Hf : forall s u, relb s u -> rr relbp (f s) (f u)) s u :
  reln s u -> rr (relp (fun (a : lraL) (b : lra) => fst a = b)) (lift f s) (f u).
Proof.
  intros H. unfold lift. pose proof (Hf _ _ (reln_bare _ _ H)) as K. destruct (f (bare s)) as [[s1 a]| |] eqn:E; cbn [rbind]; [|exact Logic.I|exact K]. destruct (f u) as [[u1 b]| |]; [|destruct K|destruct K]. destruct K as [K1 K2]. cbn [fst snd] in *. split; [|exact K2]. cbn [fst].
  destruct K1 as (ths & L & G & -> & F). apply F2_eq in F. subst ths. exists (theories s1), L, G. split; [reflexivity|]. apply F2_map. cbn. apply Hk in E. cbn in E. clear -E. revert E. generalize (theories s1), (theories s). intros us ts. revert us.
  induction ts as [|a ts IH]; intros us F; cbn in F; inversion F; subst; cbn; [reflexivity|]. f_equal. apply IH. assumption.
Qed.
Lemma rmap_rr {A B} (f : A -> B) r q : rmap f r = q -> rr (fun a b => f a = b) r q.
Proof. intros <-. destruct r; cbn; auto. Qed.
Lemma reln_step ord fuel fl s u c : vregisters c = false -> reln s u -> rr (relp (fun (a : lraL) (b : lra) => fst a = b)) (vstep ord fuel fl s c) (pstep ord fuel fl u c).
Proof.
  intros Hc H. destruct c as [c|i|i l|i sd strict l r|i l r|i x k]; cbn [vstep pstep]; try discriminate Hc.
  - apply pa_step; [reflexivity| | | | |exact H].
    + intros [t w] ? val p <-. eapply rr_mono; [|apply rmap_rr, (proj1 (er_ops ord fuel t w))]. intros a ? <-. repeat split.
    + intros [t w] ? val <-. eapply rr_mono; [|apply rmap_rr, (proj1 (proj2 (er_ops ord fuel t w)))]. intros a ? <-. repeat split.
    + intros [t w] ? <-. reflexivity.
    + intros [t w] ? <-. reflexivity.
  - apply (pa_wrap _ RVar). apply (reln_lift (fun s => lra_new_var s i)); [intros ? ? ?; apply kept_new_var|intros; apply pb_var; assumption|exact H].
  - apply (pa_wrap _ RVar). apply (reln_lift (fun s => lra_new_slack s i l)); [intros ? ? ?; apply kept_new_slack|intros; apply pb_slack; assumption|exact H].
  - apply (pa_wrap _ RLit). apply (reln_lift (fun s => lra_cmp s i sd strict l r)); [intros ? ? ?; apply kept_cmp|intros; apply pb_cmp; assumption|exact H].
  - apply (pa_wrap _ RLit). apply (reln_lift (fun s => lra_new_eq s i l r)); [intros ? ? ?; apply kept_eq|intros; apply pb_eq; assumption|exact H].
Qed.
Lemma fst_listen a x k : fst (lra_listen a x k) = fst a.
Proof. destruct a as [t w]. unfold lra_listen. destruct (_ && _); reflexivity. Qed.
Lemma map_fst_set : forall (l : list lraL) i a b, nth_error l i = Some a -> fst b = fst a -> map fst (set_nth l i b) = map fst l.
Proof. induction l as [|c l IH]; intros [|i] a b E H; cbn in *; try discriminate; [injection E as ->; unfold set_nth; cbn; congruence|]. f_equal. apply (IH i a b E H). Qed.
Theorem lra_listeners_do_nothing ord fuel k h s : NHist ord fuel k h s -> exists s', PHist ord fuel k (vunheard h) s' /\ alike fst s s'.
Proof.
  induction 1 as [|h s c fl s' r H IH E].
  - exists (init (repeat lra_init k)). split; [constructor|]. apply alike_rel. exists (repeat lra_init k), (fun _ => []), []. split; [reflexivity|]. apply F2_map. cbn. clear. induction k; cbn; congruence.
  - destruct IH as (u & Hu & Hs). unfold vunheard. rewrite filter_app. cbn [filter fst]. destruct (vregisters c) eqn:Ec; cbn [negb].
    + rewrite app_nil_r. exists u. split; [exact Hu|]. apply alike_rel. apply alike_rel in Hs. destruct c as [c|i|i l|i sd strict l r0|i l r0|i x y]; try discriminate Ec; cbn [vstep] in E.
      * destruct c; try discriminate Ec. cbn [step] in E. destruct (listen s v l) as [s1| |] eqn:El; cbn [rbind] in E; try discriminate. injection E as <- _. apply (pa_listen1 _ _ _ _ _ _ Hs El).
      * destruct (nth_error (theories s) i) as [a|] eqn:Ei; [|discriminate]. unfold guard in E. destruct (x <? nx (fst a)); [|discriminate]. injection E as <- _. destruct Hs as (ths & L & G & -> & F). apply F2_map in F. exists ths, L, G. split; [reflexivity|].
        apply F2_map. cbn. rewrite (map_fst_set _ _ a); [exact F|exact Ei|apply fst_listen].
    + apply alike_rel in Hs. destruct (rr_ok _ _ _ _ (reln_step ord fuel fl s u c Ec Hs) E) as ([u' q] & Eu & A & B). cbn in A, B. subst q. exists u'. split; [apply (PH1 _ _ _ _ u c fl); assumption|]. apply alike_rel, A.
Qed.

(** Executable histories. *)
Fixpoint cexec {T} (ops : theory_ops T) (fl : nat) (s : st T) (h : list (call * ret)) (cs : list call) : option (st T * list (call * ret)) :=
  match cs with [] => Some (s, h) | c :: r => match step (ops := ops) fl s c with Ok (s', a) => cexec ops fl s' (h ++ [(c, a)]) r | _ => None end end.
Lemma cexec_hist {T} (ops : theory_ops T) fl s0 : forall cs h s h' s', CHist ops s0 h s -> cexec ops fl s h cs = Some (s', h') -> CHist ops s0 h' s'.
Proof. induction cs as [|c cs IH]; intros h s h' s' H; cbn; [intros E; injection E as <- <-; exact H|]. destruct (step fl s c) as [[s1 a]| |] eqn:E1; try discriminate. intros E. eapply IH; [|exact E]. eapply CH1; eassumption. Qed.
Fixpoint nexec ord fuel (fl : nat) (s : st lraL) (h : list (vcall * ret)) (cs : list vcall) : option (st lraL * list (vcall * ret)) :=
  match cs with [] => Some (s, h) | c :: r => match vstep ord fuel fl s c with Ok (s', a) => nexec ord fuel fl s' (h ++ [(c, a)]) r | _ => None end end.
Lemma nexec_hist ord fuel fl k : forall cs h s h' s', NHist ord fuel k h s -> nexec ord fuel fl s h cs = Some (s', h') -> NHist ord fuel k h' s'.
Proof. induction cs as [|c cs IH]; intros h s h' s' H; cbn; [intros E; injection E as <- <-; exact H|]. destruct (vstep ord fuel fl s c) as [[s1 a]| |] eqn:E1; try discriminate. intros E. eapply IH; [|exact E]. eapply NH1; eassumption. Qed.
End Srt.
