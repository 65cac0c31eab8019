(** Networks whose theories are of two kinds: every theory answers for itself, so that two contracts give a contract for the sum. *)
From Verif Require Import Base Sat SatSpec SatNext.

Section Sum.
Context {A B : Type} (oa : theory_ops A) (ob : theory_ops B).
Definition sum_ops : theory_ops (A + B) :=
  mk_ops
    (fun t val p => match t with
       | inl a => '(a', ls, cf) <- th_prop oa a val p ;; Ok (inl a', ls, cf)
       | inr b => '(b', ls, cf) <- th_prop ob b val p ;; Ok (inr b', ls, cf)
       end)
    (fun t val => match t with
       | inl a => '(a', cf) <- th_check oa a val ;; Ok (inl a', cf)
       | inr b => '(b', cf) <- th_check ob b val ;; Ok (inr b', cf)
       end)
    (fun t => match t with inl a => inl (th_push oa a) | inr b => inr (th_push ob b) end)
    (fun t => match t with inl a => inl (th_pop oa a) | inr b => inr (th_pop ob b) end)
    (th_sort ob).
Context (CA : contract oa) (CB : contract ob).
Definition sum_model (t : A + B) M : Prop := match t with inl a => th_model CA a M | inr b => th_model CB b M end.
Definition sum_atom (t : A + B) v : Prop := match t with inl a => th_atom CA a v | inr b => th_atom CB b v end.
Definition sum_inv (t : A + B) vs : Prop := match t with inl a => th_inv CA a vs | inr b => th_inv CB b vs end.
Definition sum_feas (t : A + B) : Prop := match t with inl a => th_feas CA a | inr b => th_feas CB b end.
Definition sum_fixed (t : A + B) n v : Prop := match t with inl a => th_fixed CA a n v | inr b => th_fixed CB b n v end.
Lemma sum_rules : fixed_rules sum_ops sum_atom sum_inv sum_fixed.
Proof.
  constructor.
  - intros [a|b]; [exact (fx_atom _ _ _ _ (c_fixed _ CA) a)|exact (fx_atom _ _ _ _ (c_fixed _ CB) b)].
  - intros [a|b]; [exact (fx_push _ _ _ _ (c_fixed _ CA) a)|exact (fx_push _ _ _ _ (c_fixed _ CB) b)].
  - intros [a|b]; [exact (fx_pop _ _ _ _ (c_fixed _ CA) a)|exact (fx_pop _ _ _ _ (c_fixed _ CB) b)].
  - intros [a|b] v vs val p t' ls cf n x H1 H2 H3 H4 H5 H6 H7 H8 E; cbn [th_prop sum_ops] in E.
    + destruct (th_prop oa a val p) as [[[a' ls'] cf']| |] eqn:Ea; try discriminate E. cbn [rbind] in E. injection E as <- <- <-.
      exact (fx_prop _ _ _ _ (c_fixed _ CA) a v vs val p a' ls' cf' n x H1 H2 H3 H4 H5 H6 H7 H8 Ea).
    + destruct (th_prop ob b val p) as [[[a' ls'] cf']| |] eqn:Ea; try discriminate E. cbn [rbind] in E. injection E as <- <- <-.
      exact (fx_prop _ _ _ _ (c_fixed _ CB) b v vs val p a' ls' cf' n x H1 H2 H3 H4 H5 H6 H7 H8 Ea).
  - intros [a|b] vs val t' cf n x H1 H2 H3 H4 E; cbn [th_check sum_ops] in E.
    + destruct (th_check oa a val) as [[a' cf']| |] eqn:Ea; try discriminate E. cbn [rbind] in E. injection E as <- <-.
      exact (fx_check _ _ _ _ (c_fixed _ CA) a vs val a' cf' n x H1 H2 H3 H4 Ea).
    + destruct (th_check ob b val) as [[a' cf']| |] eqn:Ea; try discriminate E. cbn [rbind] in E. injection E as <- <-.
      exact (fx_check _ _ _ _ (c_fixed _ CB) b vs val a' cf' n x H1 H2 H3 H4 Ea).
Qed.
Definition sumC : contract sum_ops.
Proof.
  refine (mk_contract (A + B) sum_ops sum_model sum_atom sum_inv sum_feas sum_fixed sum_rules _ _ _ _ _).
  - intros [a|b]; [exact (c_model_ext _ CA a)|exact (c_model_ext _ CB b)].
  - intros [a|b]; [exact (c_push _ CA a)|exact (c_push _ CB b)].
  - intros [a|b]; [exact (c_pop _ CA a)|exact (c_pop _ CB b)].
  - intros [a|b] v vs val p H1 H2 H3 H4 H5 H6 H7 H8.
    + pose proof (c_prop _ CA a v vs val p H1 H2 H3 H4 H5 H6 H7 H8) as H. cbn [th_prop sum_ops]. destruct (th_prop oa a val p) as [[[a' ls] cf]| |]; exact H.
    + pose proof (c_prop _ CB b v vs val p H1 H2 H3 H4 H5 H6 H7 H8) as H. cbn [th_prop sum_ops]. destruct (th_prop ob b val p) as [[[b' ls] cf]| |]; exact H.
  - intros [a|b] v vs val H1 H2 H3 H4.
    + pose proof (c_check _ CA a v vs val H1 H2 H3 H4) as H. cbn [th_check sum_ops]. destruct (th_check oa a val) as [[a' cf]| |]; exact H.
    + pose proof (c_check _ CB b v vs val H1 H2 H3 H4) as H. cbn [th_check sum_ops]. destruct (th_check ob b val) as [[b' cf]| |]; exact H.
Defined.
End Sum.
