(** The calls of the core that sort their argument, with [std::sort] left open: any function that returns a permutation of its argument
    ordered by variable (the comparison of sat_core.cpp:58, 147, 192, 237, 311 ties a literal with its negation). *)
From Coq Require Import String.
From Verif Require Import Base Keys Sat SatSpec.

Definition var_sorted (l : list lit) : Prop := StronglySorted (fun a b => lvar a <= lvar b) l.
Definition sorts (srt : list lit -> list lit) : Prop := forall l, Permutation l (srt l) /\ var_sorted (srt l).

Section By.
Context {T : Type} (srt : list lit -> list lit).
Notation st := (st T).

(** sat_core.cpp:54-82 *)
Definition new_clause_by (s : st) (ls : list lit) : res (st * bool) :=
  guard (root_level s) (guard (in_range s ls)
  (match clause_filter (value s) None (srt ls) with
   | None => Ok (s, true)
   | Some [] => Ok (s, false)
   | Some [p] => Ok (enqueue s p None)
   | Some ls' => '(s1, c) <- new_constr s ls' ;; Ok (set_constrs (constrs s1 ++ [c]) s1, true)
   end)).
Fixpoint new_clauses_by (s : st) (cs : list (list lit)) : res (st * bool) :=
  match cs with
  | [] => Ok (s, true)
  | c :: r => '(s1, b) <- new_clause_by s c ;; if b then new_clauses_by s1 r else Ok (s1, false)
  end.
Definition reify_by (s : st) (cs : list (list lit)) (k : string) (ctr : lit) : res (st * lit) :=
  '(s1, b) <- new_clauses_by s cs ;;
  if b then Ok (add_expr s1 k ctr, ctr) else Ok (s1, FALSE_lit).
(** sat_core.cpp:143-186 *)
Definition new_conj_by (s : st) (ls : list lit) : res (st * lit) :=
  guard (root_level s) (guard (in_range s ls)
  (match conj_filter (value s) None (srt ls) with
   | None => Ok (s, FALSE_lit)
   | Some [] => Ok (s, TRUE_lit)
   | Some [p] => Ok (s, p)
   | Some ls' =>
     match find_expr s (key_conj ls') with
     | Some e => Ok (s, e)
     | None =>
       let (s1, v) := new_var s in
       let ctr := mk_lit v true in
       reify_by s1 (map (fun l => [negl ctr; l]) ls' ++ [ctr :: map negl ls']) (key_conj ls') ctr
     end
   end)).
(** sat_core.cpp:188-231 *)
Definition new_disj_by (s : st) (ls : list lit) : res (st * lit) :=
  guard (root_level s) (guard (in_range s ls)
  (match clause_filter (value s) None (srt ls) with
   | None => Ok (s, TRUE_lit)
   | Some [] => Ok (s, FALSE_lit)
   | Some [p] => Ok (s, p)
   | Some ls' =>
     match find_expr s (key_disj ls') with
     | Some e => Ok (s, e)
     | None =>
       let (s1, v) := new_var s in
       let ctr := mk_lit v true in
       reify_by s1 (map (fun l => [negl l; ctr]) ls' ++ [negl ctr :: ls']) (key_disj ls') ctr
     end
   end)).
(** sat_core.cpp:233-305 *)
Fixpoint new_amo_f_by (fuel : nat) (s : st) (ls : list lit) : res (st * lit) :=
  match fuel with
  | 0 => OOF
  | S fuel' =>
    guard (root_level s) (guard (in_range s ls)
    (match amo_filter (value s) None (srt ls) with
     | None => Ok (s, FALSE_lit)
     | Some [] => Ok (s, TRUE_lit)
     | Some [p] => Ok (s, TRUE_lit)
     | Some ls' =>
       match find_expr s (key_amo ls') with
       | Some e => Ok (s, e)
       | None =>
         if length ls' <? 4 then
           let (s1, v) := new_var s in
           let ctr := mk_lit v true in
           reify_by s1 (pair_clauses ctr ls') (key_amo ls') ctr
         else
           let ps := ceil_sqrt (length ls') in
           let qs := ceil_div (length ls') ps in
           let (s1, u) := new_vars s ps in
           let (s2, v) := new_vars s1 qs in
           '(s3, cu) <- new_amo_f_by fuel' s2 u ;;
           '(s4, cv) <- new_amo_f_by fuel' s3 v ;;
           '(s5, ctr) <- new_conj_by s4 [cu; cv] ;;
           reify_by s5 (prod_clauses ctr ls' u v) (key_amo ls') ctr
       end
     end))
  end.
Definition new_at_most_one_by (s : st) (ls : list lit) : res (st * lit) :=
  new_amo_f_by (S (length ls)) s ls.
(** sat_core.cpp:307-355 *)
Definition new_exct_one_by (s : st) (ls : list lit) : res (st * lit) :=
  guard (root_level s) (guard (in_range s ls)
  (match amo_filter (value s) None (srt ls) with
   | None => Ok (s, FALSE_lit)
   | Some ls' =>
     match ls' with
     | [] => Ok (s, FALSE_lit)
     | p :: r =>
       if (match r with [] => lsgn p | _ => false end) then Ok (s, p) else
       match find_expr s (key_exct ls') with
       | Some e => Ok (s, e)
       | None =>
         '(s1, ctr) <- new_at_most_one_by s ls' ;;
         '(s2, b) <- new_clause_by s1 (ls' ++ [negl ctr]) ;;
         if b then Ok (add_expr s2 (key_exct ls') ctr, ctr) else Ok (s2, FALSE_lit)
       end
     end
   end)).
End By.

(** ** What the filters keep *)
Lemma sort_by_sorts : sorts (sort_by lvar).
Proof. intros l. split; [apply sort_by_perm|apply sort_by_sorted]. Qed.

Lemma is_lit_iff p q : is_lit p q = true <-> p = Some q.
Proof. destruct p as [a|]; cbn; [|split; discriminate]. destruct (lit_eqb_spec a q); split; congruence. Qed.
Lemma is_lit_niff p q : is_lit p q = false <-> p <> Some q.
Proof. rewrite <- is_lit_iff. destruct (is_lit p q); split; congruence. Qed.

Definition strict (l : list lit) : Prop := StronglySorted (fun a b => lvar a < lvar b) l.
Lemma strict_ext : forall l1 l2, strict l1 -> strict l2 -> (forall q, In q l1 <-> In q l2) -> l1 = l2.
Proof.
  induction l1 as [|a l1 IH]; intros [|b l2] S1 S2 H.
  - reflexivity.
  - exfalso. apply (proj2 (H b)). left; reflexivity.
  - exfalso. apply (proj1 (H a)). left; reflexivity.
  - inversion S1 as [|? ? S1' F1]; inversion S2 as [|? ? S2' F2]; subst. rewrite Forall_forall in F1, F2.
    assert (E : a = b).
    { destruct (proj1 (H a) (or_introl eq_refl)) as [E|Ha]; [congruence|]. destruct (proj2 (H b) (or_introl eq_refl)) as [E|Hb]; [congruence|].
      pose proof (F1 _ Hb). pose proof (F2 _ Ha). lia. }
    subst b. f_equal. apply IH; [exact S1'|exact S2'|]. intros q. split; intros Hq.
    + destruct (proj1 (H q) (or_intror Hq)) as [E|?]; [|assumption]. subst q. pose proof (F1 _ Hq). lia.
    + destruct (proj2 (H q) (or_intror Hq)) as [E|?]; [|assumption]. subst q. pose proof (F2 _ Hq). lia.
Qed.

Section Filter.
Context (v : lit -> lbool) (Hneg : forall q, v q = LUndef -> v (negl q) = LUndef).

(** [p]: the last literal kept, undefined and of a variable not above the ones that follow. *)
Definition lastk (p : option lit) (l : list lit) : Prop := forall a, p = Some a -> v a = LUndef /\ forall q, In q l -> lvar a <= lvar q.

Definition blocked (p : option lit) (l : list lit) : Prop :=
  (exists q, In q l /\ v q = LTrue) \/ (exists q, In q l /\ v q = LUndef /\ (In (negl q) l \/ p = Some (negl q))).

Lemma lvar_cases (a b : lit) : lvar a = lvar b -> b = a \/ b = negl a.
Proof. destruct a as [x []], b as [y []]; cbn; intros ->; auto. Qed.
Lemma negl_neq (a : lit) : negl a <> a.
Proof. destruct a as [x []]; discriminate. Qed.
Lemma negl_negl (a : lit) : negl (negl a) = a.
Proof. destruct a as [x []]; reflexivity. Qed.
Lemma lvar_negl (a : lit) : lvar (negl a) = lvar a.
Proof. destruct a; reflexivity. Qed.

Lemma clause_filter_char : forall l p, var_sorted l -> lastk p l ->
  match clause_filter v p l with
  | None => blocked p l
  | Some k => ~ blocked p l /\ strict k /\ (forall a, p = Some a -> Forall (fun q => lvar a < lvar q) k) /\
      forall q, In q k <-> (In q l /\ v q = LUndef /\ p <> Some q)
  end.
Proof.
  induction l as [|q r IH]; intros p S HP; cbn [clause_filter].
  { split; [intros [(q & [] & _)|(q & [] & _)]|]. split; [constructor|]. split; [intros a _; constructor|]. intros q; split; [intros []|intros ([] & _)]. }
  inversion S as [|? ? S' F]; subst. rewrite Forall_forall in F.
  assert (HP' : lastk p r) by (intros a Ea; destruct (HP a Ea) as [V1 V2]; split; [exact V1|intros x Hx; apply V2; right; exact Hx]).
  destruct (v q) eqn:Vq; cbn [lbool_eqb orb negb andb].
  - (* false *)
    destruct (is_lit p (negl q)) eqn:E.
    { exfalso. apply is_lit_iff in E. destruct (HP _ E) as [V1 _]. apply Hneg in V1. rewrite negl_negl in V1. congruence. }
    specialize (IH p S' HP'). destruct (clause_filter v p r) as [k|].
    + destruct IH as (NB & Sk & Fk & Ik). split; [|split; [exact Sk|split; [exact Fk|]]].
      * intros [(x & [<-|Hx] & Vx)|(x & [<-|Hx] & Vx & W)]; [congruence| |congruence|].
        { apply NB. left. exists x. auto. }
        { apply NB. right. exists x. split; [exact Hx|split; [exact Vx|]]. destruct W as [[W|W]|W]; [|auto|auto].
          subst q. apply Hneg in Vx. congruence. }
      * intros x. rewrite Ik. split; [intros (A & B & D); split; [right; exact A|auto]|].
        intros ([<-|A] & B & D); [congruence|auto].
    + destruct IH as [(x & Hx & Vx)|(x & Hx & Vx & W)]; [left; exists x; split; [right; exact Hx|exact Vx]|].
      right. exists x. split; [right; exact Hx|split; [exact Vx|]]. destruct W as [W|W]; [left; right; exact W|right; exact W].
  - (* true *) left. exists q. split; [left; reflexivity|exact Vq].
  - (* undefined *)
    destruct (is_lit p (negl q)) eqn:E.
    { apply is_lit_iff in E. right. exists q. split; [left; reflexivity|split; [exact Vq|right; exact E]]. }
    apply is_lit_niff in E.
    destruct (is_lit p q) eqn:E2; cbn [negb].
    + apply is_lit_iff in E2. specialize (IH p S' HP'). destruct (clause_filter v p r) as [k|].
      * destruct IH as (NB & Sk & Fk & Ik). split; [|split; [exact Sk|split; [exact Fk|]]].
        { intros [(x & [<-|Hx] & Vx)|(x & [<-|Hx] & Vx & W)]; [congruence| | |].
          - apply NB. left. exists x. auto.
          - destruct W as [[W|W]|W]; [exact (negl_neq _ (eq_sym W))| |congruence]. apply NB. right. exists (negl q).
            split; [exact W|]. split; [apply Hneg, Vx|right; rewrite negl_negl; exact E2].
          - apply NB. right. exists x. split; [exact Hx|split; [exact Vx|]]. destruct W as [[W|W]|W]; [right; congruence|auto|auto]. }
        { intros x. rewrite Ik. split; [intros (A & B & D); split; [right; exact A|auto]|].
          intros ([<-|A] & B & D); [congruence|auto]. }
      * destruct IH as [(x & Hx & Vx)|(x & Hx & Vx & W)]; [left; exists x; split; [right; exact Hx|exact Vx]|].
        right. exists x. split; [right; exact Hx|split; [exact Vx|]]. destruct W as [W|W]; [left; right; exact W|right; exact W].
    + apply is_lit_niff in E2.
      assert (HL : lastk (Some q) r) by (intros a Ea; injection Ea as <-; split; [exact Vq|exact F]).
      assert (Hpq : forall a, p = Some a -> lvar a < lvar q).
      { intros a Ea. destruct (HP a Ea) as [_ V2]. pose proof (V2 q (or_introl eq_refl)) as L.
        destruct (Nat.eq_dec (lvar a) (lvar q)) as [Ev|]; [|lia]. exfalso. destruct (lvar_cases a q Ev) as [->| ->]; [congruence|].
        rewrite negl_negl in E. congruence. }
      specialize (IH (Some q) S' HL). destruct (clause_filter v (Some q) r) as [k|].
      * destruct IH as (NB & Sk & Fk & Ik). split; [|split; [|split]].
        { intros [(x & [<-|Hx] & Vx)|(x & [<-|Hx] & Vx & W)]; [congruence| | |].
          - apply NB. left. exists x. auto.
          - destruct W as [[W|W]|W]; [exact (negl_neq _ (eq_sym W))| |congruence]. apply NB. right. exists (negl q).
            split; [exact W|]. split; [apply Hneg, Vx|right; rewrite negl_negl; reflexivity].
          - destruct W as [[W|W]|W].
            + apply NB. right. exists x. split; [exact Hx|split; [exact Vx|right; congruence]].
            + apply NB. right. exists x. auto.
            + exfalso. pose proof (Hpq _ W) as L. rewrite lvar_negl in L. pose proof (F _ Hx). lia. }
        { constructor; [exact Sk|apply Fk; reflexivity]. }
        { intros a Ea. constructor; [apply Hpq, Ea|]. eapply Forall_impl; [|apply Fk; reflexivity]. intros x Hx. pose proof (Hpq _ Ea). cbn in *. lia. }
        { intros x. split.
          - intros [<-|Hx]; [split; [left; reflexivity|auto]|]. apply Ik in Hx as (A & B & D). split; [right; exact A|split; [exact B|]].
            intros Ea. pose proof (Hpq _ Ea). pose proof (F _ A). lia.
          - intros ([<-|A] & B & D); [left; reflexivity|]. destruct (lit_eqb_spec q x) as [->|N]; [left; reflexivity|]. right. apply Ik. split; [exact A|split; [exact B|congruence]]. }
      * destruct IH as [(x & Hx & Vx)|(x & Hx & Vx & W)]; [left; exists x; split; [right; exact Hx|exact Vx]|].
        right. exists x. split; [right; exact Hx|split; [exact Vx|]]. destruct W as [W|W]; [left; right; exact W|].
        injection W as ->. left. left. reflexivity.
Qed.

Lemma clause_filter_set l1 l2 : var_sorted l1 -> var_sorted l2 -> (forall q, In q l1 <-> In q l2) -> clause_filter v None l1 = clause_filter v None l2.
Proof.
  intros S1 S2 H. pose proof (clause_filter_char l1 None S1) as C1. pose proof (clause_filter_char l2 None S2) as C2.
  assert (HN : forall l, lastk None l) by (intros l a E; discriminate). specialize (C1 (HN _)). specialize (C2 (HN _)).
  assert (B : blocked None l1 <-> blocked None l2).
  { unfold blocked. split; (intros [(q & Hq & Vq)|(q & Hq & Vq & [W|W])]; [left; exists q; split; [apply H; exact Hq|exact Vq]|right; exists q; split; [apply H; exact Hq|split; [exact Vq|left; apply H; exact W]]|discriminate]). }
  destruct (clause_filter v None l1) as [k1|], (clause_filter v None l2) as [k2|]; try reflexivity; try tauto.
  f_equal. destruct C1 as (_ & K1 & _ & I1), C2 as (_ & K2 & _ & I2). apply strict_ext; [exact K1|exact K2|].
  intros q. rewrite I1, I2, H. tauto.
Qed.

(** At most one: no literal is unassigned and present together with its negation. *)
Definition nocompl (p : option lit) (l : list lit) : Prop := forall q, In q l -> v q = LUndef -> ~ In (negl q) l /\ p <> Some (negl q).
Definition ntrue (l : list lit) : nat := length (filter (fun q => lbool_eqb (v q) LTrue) l).

Lemma amo2_char l p : amo_filter2 v p l = clause_filter v p l.
Proof. revert p. induction l; reflexivity. Qed.

Lemma amo_filter_char : forall l p, var_sorted l -> lastk p l -> nocompl p l ->
  match amo_filter v p l with
  | None => 2 <= ntrue l
  | Some k => ntrue l <= 1 /\ strict k /\ (forall a, p = Some a -> Forall (fun q => lvar a < lvar q) k) /\
      forall q, In q k <-> (In q l /\ v q = LUndef /\ p <> Some q)
  end.
Proof.
  induction l as [|q r IH]; intros p S HP HN; cbn [amo_filter].
  { split; [cbn; lia|]. split; [constructor|]. split; [intros a _; constructor|]. intros q; split; [intros []|intros ([] & _)]. }
  inversion S as [|? ? S' F]; subst. rewrite Forall_forall in F.
  assert (HP' : lastk p r) by (intros a Ea; destruct (HP a Ea) as [V1 V2]; split; [exact V1|intros x Hx; apply V2; right; exact Hx]).
  assert (HN' : nocompl p r) by (intros x Hx Vx; destruct (HN x (or_intror Hx) Vx) as [A B]; split; [intros Hy; apply A; right; exact Hy|exact B]).
  unfold ntrue. cbn [filter]. destruct (v q) eqn:Vq; cbn [lbool_eqb orb negb andb].
  - specialize (IH p S' HP' HN'). destruct (amo_filter v p r) as [k|]; [|exact IH]. destruct IH as (N & Sk & Fk & Ik).
    split; [exact N|split; [exact Sk|split; [exact Fk|]]]. intros x. rewrite Ik. split; [intros (A & B & D); split; [right; exact A|auto]|].
    intros ([<-|A] & B & D); [congruence|auto].
  - rewrite (amo2_char r p). pose proof (clause_filter_char r p S' HP') as C. cbn [length]. fold (ntrue r).
    destruct (clause_filter v p r) as [k|].
    + destruct C as (NB & Sk & Fk & Ik). split; [|split; [exact Sk|split; [exact Fk|]]].
      * unfold ntrue. destruct (filter _ r) as [|x xs] eqn:Ef; [cbn; lia|]. exfalso. apply NB. left. exists x.
        assert (Hx : In x (filter (fun q => lbool_eqb (v q) LTrue) r)) by (rewrite Ef; left; reflexivity).
        apply filter_In in Hx as [Hx Ex]. split; [exact Hx|]. destruct (v x); try discriminate; reflexivity.
      * intros x. rewrite Ik. split; [intros (A & B & D); split; [right; exact A|auto]|].
        intros ([<-|A] & B & D); [congruence|auto].
    + destruct C as [(x & Hx & Vx)|(x & Hx & Vx & W)].
      * unfold ntrue. assert (Hi : In x (filter (fun q => lbool_eqb (v q) LTrue) r)) by (apply filter_In; split; [exact Hx|rewrite Vx; reflexivity]).
        destruct (filter _ r); [destruct Hi|cbn; lia].
      * exfalso. destruct (HN' x Hx Vx) as [A B]. tauto.
  - destruct (is_lit p q) eqn:E2; cbn [negb].
    + apply is_lit_iff in E2. specialize (IH p S' HP' HN'). destruct (amo_filter v p r) as [k|]; [|exact IH]. destruct IH as (N & Sk & Fk & Ik).
      split; [exact N|split; [exact Sk|split; [exact Fk|]]]. intros x. rewrite Ik. split; [intros (A & B & D); split; [right; exact A|auto]|].
      intros ([<-|A] & B & D); [congruence|auto].
    + apply is_lit_niff in E2.
      assert (HL : lastk (Some q) r) by (intros a Ea; injection Ea as <-; split; [exact Vq|exact F]).
      assert (HN2 : nocompl (Some q) r).
      { intros x Hx Vx. destruct (HN x (or_intror Hx) Vx) as [A B]. split; [intros Hy; apply A; right; exact Hy|]. intros Ex. injection Ex as ->. apply A. left; reflexivity. }
      assert (Hpq : forall a, p = Some a -> lvar a < lvar q).
      { intros a Ea. destruct (HP a Ea) as [_ V2]. pose proof (V2 q (or_introl eq_refl)) as L.
        destruct (Nat.eq_dec (lvar a) (lvar q)) as [Ev|]; [|lia]. exfalso. destruct (lvar_cases a q Ev) as [->| ->]; [congruence|].
        destruct (HN _ (or_introl eq_refl) Vq) as [_ B]. rewrite negl_negl in B. congruence. }
      specialize (IH (Some q) S' HL HN2). destruct (amo_filter v (Some q) r) as [k|]; [|exact IH].
      destruct IH as (N & Sk & Fk & Ik). split; [exact N|split; [|split]].
      * constructor; [exact Sk|apply Fk; reflexivity].
      * intros a Ea. constructor; [apply Hpq, Ea|]. eapply Forall_impl; [|apply Fk; reflexivity]. intros x Hx. pose proof (Hpq _ Ea). cbn in *. lia.
      * intros x. split.
        { intros [<-|Hx]; [split; [left; reflexivity|auto]|]. apply Ik in Hx as (A & B & D). split; [right; exact A|split; [exact B|]].
          intros Ea. pose proof (Hpq _ Ea). pose proof (F _ A). lia. }
        { intros ([<-|A] & B & D); [left; reflexivity|]. destruct (lit_eqb_spec q x) as [->|Nq]; [left; reflexivity|]. right. apply Ik. split; [exact A|split; [exact B|congruence]]. }
Qed.

Lemma ntrue_perm l1 l2 : Permutation l1 l2 -> ntrue l1 = ntrue l2.
Proof.
  unfold ntrue. induction 1; cbn; try congruence.
  - destruct (lbool_eqb (v x) LTrue); cbn; congruence.
  - destruct (lbool_eqb (v x) LTrue), (lbool_eqb (v y) LTrue); reflexivity.
Qed.
Lemma amo_filter_perm l1 l2 : var_sorted l1 -> var_sorted l2 -> Permutation l1 l2 -> nocompl None l1 -> amo_filter v None l1 = amo_filter v None l2.
Proof.
  intros S1 S2 P N1.
  assert (HI : forall q, In q l1 <-> In q l2) by (intros q; split; apply Permutation_in; [exact P|symmetry; exact P]).
  assert (N2 : nocompl None l2) by (intros q Hq Vq; destruct (N1 q) as [A _]; [apply HI, Hq|exact Vq|]; split; [intros Hn; apply A, HI, Hn|discriminate]).
  assert (HN : forall l, lastk None l) by (intros l a E; discriminate).
  pose proof (amo_filter_char l1 None S1 (HN _) N1) as C1. pose proof (amo_filter_char l2 None S2 (HN _) N2) as C2. rewrite <- (ntrue_perm _ _ P) in C2.
  destruct (amo_filter v None l1) as [k1|], (amo_filter v None l2) as [k2|]; try reflexivity.
  - f_equal. destruct C1 as (_ & K1 & _ & I1), C2 as (_ & K2 & _ & I2). apply strict_ext; [exact K1|exact K2|]. intros q. rewrite I1, I2, HI. tauto.
  - destruct C1. lia.
  - destruct C2. lia.
Qed.
End Filter.

(** ** The calls *)
Section Calls.
Context {T : Type}.
Notation st := (st T).
Lemma value_negl_undef (s : st) q : value s q = LUndef -> value s (negl q) = LUndef.
Proof. unfold value, vlit. rewrite lvar_negl. destruct (assigns s (lvar q)); destruct (lsgn q); congruence. Qed.
Lemma lneg_negl (s : st) q : lneg (value s q) = LUndef -> lneg (value s (negl q)) = LUndef.
Proof. intros H. rewrite value_negl_undef; [reflexivity|]. destruct (value s q); try discriminate; reflexivity. Qed.
Lemma in_range_set (s : st) l1 l2 : (forall q, In q l1 <-> In q l2) -> in_range s l1 = in_range s l2.
Proof.
  intros H. unfold in_range. apply Bool.eq_iff_eq_true. rewrite !forallb_forall. split; intros A q Hq; apply A, H, Hq.
Qed.
Lemma conj_clause (v : lit -> lbool) : forall ls p, conj_filter v p ls = clause_filter (fun q => lneg (v q)) p ls.
Proof.
  induction ls as [|q ls IH]; intros p; cbn; [reflexivity|].
  assert (E1 : lbool_eqb (lneg (v q)) LTrue = lbool_eqb (v q) LFalse) by (destruct (v q); reflexivity).
  assert (E2 : lbool_eqb (lneg (v q)) LFalse = lbool_eqb (v q) LTrue) by (destruct (v q); reflexivity).
  rewrite E1, E2, !IH. reflexivity.
Qed.
Lemma conj_filter_set (s : st) l1 l2 : var_sorted l1 -> var_sorted l2 -> (forall q, In q l1 <-> In q l2) -> conj_filter (value s) None l1 = conj_filter (value s) None l2.
Proof. intros. rewrite !conj_clause. apply clause_filter_set; try assumption. apply lneg_negl. Qed.

Lemma sorts_in srt l q : sorts srt -> In q (srt l) <-> In q l.
Proof. intros H. destruct (H l) as [P _]. split; apply Permutation_in; [symmetry|]; exact P. Qed.

Section Any.
Context (srt : list lit -> list lit) (HS : sorts srt).

(** Any sort gives the same. *)
Lemma new_clause_by_eq (s : st) ls : new_clause_by srt s ls = new_clause s ls.
Proof.
  unfold new_clause_by, new_clause. rewrite (clause_filter_set (value s) (value_negl_undef s) (srt ls) (sort_by lvar ls)); [reflexivity|apply HS|apply sort_by_sorts|].
  intros q. rewrite (sorts_in srt ls q HS), sort_by_In. reflexivity.
Qed.
Lemma new_clauses_by_eq : forall cs (s : st), new_clauses_by srt s cs = new_clauses s cs.
Proof. induction cs as [|c cs IH]; intros s; cbn; [reflexivity|]. rewrite new_clause_by_eq. destruct (new_clause s c) as [[s1 []]| |]; cbn; auto. Qed.
Lemma reify_by_eq (s : st) cs k c : reify_by srt s cs k c = reify s cs k c.
Proof. unfold reify_by, reify. rewrite new_clauses_by_eq. reflexivity. Qed.
Lemma new_conj_by_eq (s : st) ls : new_conj_by srt s ls = new_conj s ls.
Proof.
  unfold new_conj_by, new_conj. rewrite (conj_filter_set s (srt ls) (sort_by lvar ls)); [|apply HS|apply sort_by_sorts|intros q; rewrite (sorts_in srt ls q HS), sort_by_In; reflexivity].
  destruct (conj_filter _ _ _) as [[|a [|b r]]|]; try reflexivity. destruct (find_expr _ _); [reflexivity|]. destruct (new_var s). rewrite reify_by_eq. reflexivity.
Qed.
Lemma new_disj_by_eq (s : st) ls : new_disj_by srt s ls = new_disj s ls.
Proof.
  unfold new_disj_by, new_disj. rewrite (clause_filter_set (value s) (value_negl_undef s) (srt ls) (sort_by lvar ls)); [|apply HS|apply sort_by_sorts|intros q; rewrite (sorts_in srt ls q HS), sort_by_In; reflexivity].
  destruct (clause_filter _ _ _) as [[|a [|b r]]|]; try reflexivity. destruct (find_expr _ _); [reflexivity|]. destruct (new_var s). rewrite reify_by_eq. reflexivity.
Qed.

(** No literal is unassigned and listed together with its negation. *)
Definition unopposed (s : st) (ls : list lit) : Prop := forall q, In q ls -> In (negl q) ls -> value s q <> LUndef.
Lemma unopposed_nc (s : st) ls l : unopposed s ls -> (forall q, In q l -> In q ls) -> nocompl (value s) None l.
Proof. intros H Hi q Hq Vq. split; [|discriminate]. intros Hn. exact (H q (Hi _ Hq) (Hi _ Hn) Vq). Qed.
Lemma amo_any (s : st) ls : unopposed s ls -> amo_filter (value s) None (srt ls) = amo_filter (value s) None (sort_by lvar ls).
Proof.
  intros H. apply amo_filter_perm; [apply value_negl_undef|apply HS|apply sort_by_sorts| |].
  - rewrite <- (proj1 (HS ls)). apply sort_by_perm.
  - apply (unopposed_nc s ls); [exact H|]. intros q. apply sorts_in, HS.
Qed.
Lemma new_vars_pos : forall n (s s1 : st) u, new_vars s n = (s1, u) -> forall q, In q u -> lsgn q = true.
Proof.
  induction n as [|n IH]; intros s s1 u; cbn [new_vars]; [intros E; injection E as <- <-; intros q []|].
  destruct (new_var s) as [s2 x] eqn:E2. destruct (new_vars s2 n) as [s3 r] eqn:E3. intros E; injection E as <- <-. intros q [<-|Hq]; [reflexivity|exact (IH _ _ _ E3 q Hq)].
Qed.
Lemma pos_unopposed (s : st) u : (forall q, In q u -> lsgn q = true) -> unopposed s u.
Proof. intros H q Hq Hn. pose proof (H _ Hq) as A. pose proof (H _ Hn) as B. destruct q as [x []]; cbn in *; discriminate. Qed.
Lemma new_amo_f_by_eq : forall n (s : st) ls, unopposed s ls -> new_amo_f_by srt n s ls = new_amo_f n s ls.
Proof.
  induction n as [|n IH]; intros s ls H; cbn [new_amo_f_by new_amo_f]; [reflexivity|]. rewrite (amo_any s ls H).
  destruct (amo_filter _ _ _) as [[|a [|b r]]|]; try reflexivity. destruct (find_expr _ _); [reflexivity|].
  destruct (_ <? _).
  - destruct (new_var s). rewrite reify_by_eq. reflexivity.
  - cbv zeta. destruct (new_vars s _) as [s1 u] eqn:Eu. destruct (new_vars s1 _) as [s2 v] eqn:Ev.
    rewrite (IH s2 u) by (apply pos_unopposed; exact (new_vars_pos _ _ _ _ Eu)). destruct (new_amo_f n s2 u) as [[s3 cu]| |]; cbn [rbind]; try reflexivity.
    rewrite (IH s3 v) by (apply pos_unopposed; exact (new_vars_pos _ _ _ _ Ev)). destruct (new_amo_f n s3 v) as [[s4 cv]| |]; cbn [rbind]; try reflexivity.
    rewrite new_conj_by_eq. destruct (new_conj s4 [cu; cv]) as [[s5 c]| |]; cbn [rbind]; try reflexivity. rewrite reify_by_eq. reflexivity.
Qed.
Lemma new_amo_by_eq (s : st) ls : unopposed s ls -> new_at_most_one_by srt s ls = new_at_most_one s ls.
Proof. apply new_amo_f_by_eq. Qed.
End Any.

Lemma amo_in v : forall ls p k, amo_filter v p ls = Some k -> forall q, In q k -> In q ls.
Proof.
  assert (H2 : forall ls p k, clause_filter v p ls = Some k -> forall q, In q k -> In q ls).
  { induction ls as [|a ls IH]; intros p k; cbn; [intros H; inversion H; intros q []|].
    destruct (_ || _); [discriminate|]. destruct (_ && _).
    - destruct (clause_filter v (Some a) ls) as [k'|] eqn:E; [|discriminate]. intros H q Hq; inversion H; subst. destruct Hq as [<-|Hq]; [left; reflexivity|right; exact (IH _ _ E q Hq)].
    - intros H q Hq. right. exact (IH _ _ H q Hq). }
  induction ls as [|a ls IH]; intros p k; cbn; [intros H; inversion H; intros q []|].
  destruct (lbool_eqb (v a) LTrue); [rewrite amo2_char; intros H q Hq; right; exact (H2 _ _ _ H q Hq)|]. destruct (_ && _).
  - destruct (amo_filter v (Some a) ls) as [k'|] eqn:E; [|discriminate]. intros H q Hq; inversion H; subst. destruct Hq as [<-|Hq]; [left; reflexivity|right; exact (IH _ _ E q Hq)].
  - intros H q Hq. right. exact (IH _ _ H q Hq).
Qed.
Lemma new_exct_by_eq srt (HS : sorts srt) (s : st) ls : unopposed s ls -> new_exct_one_by srt s ls = new_exct_one s ls.
Proof.
  intros H. unfold new_exct_one_by, new_exct_one. rewrite (amo_any srt HS s ls H).
  destruct (amo_filter _ _ _) as [k|] eqn:Ek; [|reflexivity]. destruct k as [|p r]; [reflexivity|]. destruct (match r with [] => lsgn p | _ => false end); [reflexivity|].
  destruct (find_expr _ _); [reflexivity|]. rewrite (new_amo_by_eq srt HS).
  - destruct (new_at_most_one s (p :: r)) as [[s1 c]| |]; cbn [rbind]; try reflexivity. rewrite (new_clause_by_eq srt HS). reflexivity.
  - intros q Hq Hn. apply H; apply (sort_by_In lvar); eapply amo_in; eassumption.
Qed.

(** The order and the repetition of the arguments. *)
Lemma new_clause_set (s : st) l1 l2 : (forall q, In q l1 <-> In q l2) -> new_clause s l1 = new_clause s l2.
Proof.
  intros H. unfold new_clause. rewrite (in_range_set s l1 l2 H). rewrite (clause_filter_set (value s) (value_negl_undef s) (sort_by lvar l1) (sort_by lvar l2)); [reflexivity|apply sort_by_sorts|apply sort_by_sorts|].
  intros q. rewrite !sort_by_In. apply H.
Qed.
Lemma new_conj_set (s : st) l1 l2 : (forall q, In q l1 <-> In q l2) -> new_conj s l1 = new_conj s l2.
Proof.
  intros H. unfold new_conj. rewrite (in_range_set s l1 l2 H). rewrite (conj_filter_set s (sort_by lvar l1) (sort_by lvar l2)); [reflexivity|apply sort_by_sorts|apply sort_by_sorts|].
  intros q. rewrite !sort_by_In. apply H.
Qed.
Lemma new_disj_set (s : st) l1 l2 : (forall q, In q l1 <-> In q l2) -> new_disj s l1 = new_disj s l2.
Proof.
  intros H. unfold new_disj. rewrite (in_range_set s l1 l2 H). rewrite (clause_filter_set (value s) (value_negl_undef s) (sort_by lvar l1) (sort_by lvar l2)); [reflexivity|apply sort_by_sorts|apply sort_by_sorts|].
  intros q. rewrite !sort_by_In. apply H.
Qed.
Lemma amo_perm (s : st) l1 l2 : Permutation l1 l2 -> unopposed s l1 -> amo_filter (value s) None (sort_by lvar l1) = amo_filter (value s) None (sort_by lvar l2).
Proof.
  intros P H. apply amo_filter_perm; [apply value_negl_undef|apply sort_by_sorts|apply sort_by_sorts| |].
  - rewrite <- !sort_by_perm. exact P.
  - apply (unopposed_nc s l1); [exact H|]. intros q. apply sort_by_In.
Qed.
Lemma perm_in (l1 l2 : list lit) : Permutation l1 l2 -> forall q, In q l1 <-> In q l2.
Proof. intros P q; split; apply Permutation_in; [exact P|symmetry; exact P]. Qed.
Lemma new_amo_perm (s : st) l1 l2 : Permutation l1 l2 -> unopposed s l1 -> new_at_most_one s l1 = new_at_most_one s l2.
Proof.
  intros P H. unfold new_at_most_one. rewrite <- (Permutation_length P). cbn [new_amo_f]. rewrite (in_range_set s l1 l2 (perm_in _ _ P)), (amo_perm s l1 l2 P H). reflexivity.
Qed.
Lemma new_exct_perm (s : st) l1 l2 : Permutation l1 l2 -> unopposed s l1 -> new_exct_one s l1 = new_exct_one s l2.
Proof.
  intros P H. unfold new_exct_one. rewrite (in_range_set s l1 l2 (perm_in _ _ P)), (amo_perm s l1 l2 P H). reflexivity.
Qed.
End Calls.
