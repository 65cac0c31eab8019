(** Model of the constructors that copy a theory: lra_theory.cpp:10-19, idl_theory.cpp:18-27, rdl_theory.cpp:18-27, and of what
    theory.cpp:8 does with the copy.  Each constructor takes the core the copy belongs to; a copy is appended to its theories and none of
    the constructors calls [bind]. *)
From Verif Require Import Base Sat Lin Qe Lra LraInv LraTab Dw Dl DlTh.
Open Scope nat_scope.

(** lra_theory.cpp:12-18: rows and assertions are created anew.  The constructor of a row does not register it in [t_watches], which
    is only resized; that of an assertion appends it to [a_watches] (lra_constraint.cpp:8), here in the order in which they were
    created (the code iterates over an unordered map).  [facts] and [tick] have no C++ counterpart. *)
Definition lra_copy (t : lra) : lra :=
  mk_lra (nx t) (cb t) (vals t) (tab t) (fun _ => []) (xexprs t) (s_asrts t) (v_asrts t)
    (fold_left (fun w a => upd w (a_x a) (w (a_x a) ++ [a])) (map snd (v_asrts t)) (fun _ => [])) (layers t) (facts t) (tick t).

(** idl_theory.cpp:18-27, rdl_theory.cpp:18-27: the enforced constraints are looked up by their variable among the copied ones;
    [UB]: [std::unordered_map::at] would throw. *)
Fixpoint recon {D} (t : dl D) (m : list (key * dcon D)) : res (list (key * dcon D)) :=
  match m with
  | [] => Ok []
  | (k, c) :: r => match find_con t (lvar (c_b c)) with None => UB | Some d => r' <- recon t r ;; Ok ((k, d) :: r') end
  end.
Definition dl_copy {D} (t : dl D) : res (dl D) := m <- recon t (dist_constr t) ;; Ok (set_constr m t).

(** theory.cpp:8: the copy joins the theories of its core; nothing is bound. *)
Definition join {T} (s : st T) (t : T) : st T := set_theories (theories s ++ [t]) s.

Lemma fold_aw (l : list asrt) : forall w x, fold_left (fun w a => upd w (a_x a) (w (a_x a) ++ [a])) l w x = w x ++ filter (fun a => Nat.eqb (a_x a) x) l.
Proof.
  induction l as [|a l IH]; intros w x; cbn [fold_left filter]; [rewrite app_nil_r; reflexivity|]. rewrite IH. unfold upd. rewrite (Nat.eqb_sym x (a_x a)).
  destruct (Nat.eqb_spec (a_x a) x) as [->|]; [rewrite <- app_assoc; reflexivity|reflexivity].
Qed.
Lemma copy_watches t vs : TInv t vs -> forall x a, In a (aw (lra_copy t) x) <-> In a (aw t x).
Proof.
  intros H x a. cbn [aw lra_copy]. rewrite fold_aw, (ti_aw _ _ H). cbn [app]. rewrite filter_In. rewrite in_map_iff. rewrite Nat.eqb_eq. split.
  - intros [([v a'] & <- & Hi) Hx]. split; [exists v; exact Hi|exact Hx].
  - intros [[v Hi] Hx]. split; [exists (v, a); auto|exact Hx].
Qed.
(** Popping the copy restores what popping the original restores. *)
Lemma copy_pops t n : let c' := Nat.iter n lra_pop (lra_copy t) in let t' := Nat.iter n lra_pop t in cb c' = cb t' /\ layers c' = layers t' /\ vals c' = vals t' /\ tab c' = tab t'.
Proof.
  cbn zeta. induction n as [|n IH]; [repeat split|]. cbn [Nat.iter nat_rect].
  set (c := nat_rect _ (lra_copy t) _ n) in *. set (u := nat_rect _ t _ n) in *. change (Nat.iter n lra_pop (lra_copy t)) with c in IH. change (Nat.iter n lra_pop t) with u in IH.
  destruct IH as (A & B & D & E). unfold lra_pop. rewrite B. destruct (layers u) as [|L r] eqn:El; [rewrite El; auto|]. cbn. rewrite A. auto.
Qed.
Lemma recon_same {D} (t : dl D) : NoDup (map (fun c => lvar (c_b c)) (dcons t)) -> forall m, (forall k c, In (k, c) m -> In c (dcons t)) -> recon t m = Ok m.
Proof.
  intros Hn. induction m as [|[k c] m IH]; intros H; cbn [recon]; [reflexivity|].
  assert (E : find_con t (lvar (c_b c)) = Some c).
  { specialize (H k c (or_introl eq_refl)). unfold find_con. clear IH. induction (dcons t) as [|d l IHl]; [destruct H|]. cbn [map] in Hn. apply NoDup_cons_iff in Hn as [Hn1 Hn2]. cbn [find].
    destruct H as [->|H]; [rewrite Nat.eqb_refl; reflexivity|]. destruct (Nat.eqb_spec (lvar (c_b d)) (lvar (c_b c))) as [E|_]; [|apply IHl; assumption].
    exfalso. apply Hn1. rewrite E. apply in_map_iff. exists c. auto. }
  rewrite E. rewrite IH by (intros k' c' Hc; apply (H k' c'); right; exact Hc). reflexivity.
Qed.
Lemma dl_copy_same {D} {W : wops D} (L : wlaws W) (t : dl D) ps : DCore L t ps -> dl_copy t = Ok t.
Proof. intros H. unfold dl_copy. rewrite (recon_same t (dc_nodup _ _ _ H)) by (intros k c Hi; apply (dc_enf _ _ _ H k c Hi)). destruct t. reflexivity. Qed.
