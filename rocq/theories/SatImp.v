(** Every assigned literal is a consequence of the decisions. *)
From Verif Require Import Base Sat SatSpec SatInv SatPop.

Section Imp.
Context {T : Type} {ops : theory_ops T} (C : contract ops).
Notation st := (st T).

(** [M] satisfies the decisions up to level [k]. *)
Definition decs_up_to (s : st) (M : nat -> bool) (k : nat) : Prop :=
  forall j d, nth_error (decisions s) j = Some d -> dlevel s - j <= k -> mlit M d = true.

Lemma lvl_nth lims : StronglySorted desc lims -> forall k n, nth_error lims k = Some n -> length lims - k <= lvl_at lims n.
Proof.
  intros H. induction H as [|m l H IH Hf]; intros k n E; [destruct k; discriminate|].
  destruct k as [|k].
  - cbn in E. inversion E; subst m. assert (Ea : lvl_at (n :: l) n = length (n :: l)); [|lia].
    apply filter_len_all. intros x [->|Hx]; apply Nat.leb_le; [lia|]. rewrite Forall_forall in Hf. apply Hf, Hx.
  - cbn in E. specialize (IH k n E). unfold lvl_at in *. cbn. destruct (m <=? n); cbn; lia.
Qed.

Lemma implied (s : st) : InvT s -> InvR s -> forall M, smodels C s M ->
  forall q, value s q = LTrue -> decs_up_to s M (level s (lvar q)) -> mlit M q = true.
Proof.
  intros HT HR M HM.
  assert (Hoff : forall q, value s q = LTrue -> ~ In (lvar q) (map lvar (trail s)) -> mlit M q = true).
  { intros q Hq Hn. apply (sm_facts _ _ _ HM q Hq). destruct (Nat.eq_dec (level s (lvar q)) 0) as [|E]; [assumption|].
    exfalso. apply Hn, (t_on s HT _ E). }
  assert (Hon : forall n pre q post, length post < n -> trail s = pre ++ q :: post ->
            decs_up_to s M (level s (lvar q)) -> mlit M q = true).
  { induction n as [|n IH]; intros pre q post Hn E Hd; [lia|].
    destruct (reason s (lvar q)) as [c|] eqn:Er.
    - destruct (r_in s HR _ _ Er) as (Hc & p & r & Ep & Vp & Ec & Hr).
      assert (p = q). { apply (value_same_var s); [exact Ep|exact Vp|]. apply (t_true s HT). rewrite E. apply in_elt. } subst p.
      destruct (sm_cls _ _ _ HM c Hc) as (x & Hx & Ex). rewrite Ec in Hx. destruct Hx as [<-|Hx]; [exact Ex|exfalso].
      assert (Hnx : mlit M (negl x) = true).
      { destruct (r_before s HR _ _ _ c E Er x) as [Hb|Hb]; [rewrite Ec; exact Hx| |].
        - apply in_split in Hb as (mid & post' & Eb).
          apply (IH (pre ++ q :: mid) (negl x) post').
          + rewrite Eb, app_length in Hn. cbn in Hn. lia.
          + rewrite E, Eb, <- app_assoc. reflexivity.
          + intros j d Hj Hl. apply (Hd j d Hj). etransitivity; [exact Hl|].
            apply (level_above s HT pre q mid (negl x) post'). rewrite E, Eb. reflexivity.
        - apply Hoff; [apply value_false_true, Hr, Hx|]. rewrite lvar_negl. exact Hb. }
      rewrite mlit_negl, Ex in Hnx. discriminate.
    - destruct (Nat.eq_dec (level s (lvar q)) 0) as [E0|E0].
      + apply (sm_facts _ _ _ HM q); [|exact E0]. apply (t_true s HT). rewrite E. apply in_elt.
      + destruct (t_rnone s HT pre q post E Er E0) as (k & Ek & El). apply (Hd k q Ek).
        rewrite (t_level s HT _ _ _ E). apply (lvl_nth _ (t_lim s HT) k _ El). }
  intros q Hq Hd. destruct (in_dec lit_eq_dec q (trail s)) as [Hi|Hi].
  - apply in_split in Hi as (pre & post & E). apply (Hon (S (length post)) pre q post); [lia|exact E|exact Hd].
  - apply Hoff; [exact Hq|]. intros Hm. apply in_map_iff in Hm as (x & Ex & Hx). apply Hi.
    assert (x = q); [|congruence]. apply (value_same_var s); [exact Ex|apply (t_true s HT x Hx)|exact Hq].
Qed.

(** A falsified clause that holds in a model: the model does not satisfy all the decisions. *)
Lemma conflict_decs1 (s : st) c M : InvT s -> InvR s -> (forall q, In q c -> value s q = LFalse) ->
  smodels C s M -> mcl M c -> exists d, In d (decisions s) /\ mlit M d = false.
Proof.
  intros HT HR Hf HM Hc. destruct (existsb (fun d => negb (mlit M d)) (decisions s)) eqn:Ex.
  - apply existsb_exists in Ex as (d & Hd & E). exists d. split; [exact Hd|]. apply negb_true_iff, E.
  - exfalso. destruct Hc as (q & Hq & Eq).
    assert (H : mlit M (negl q) = true); [|rewrite mlit_negl, Eq in H; discriminate].
    apply (implied s HT HR M HM); [apply value_false_true, Hf, Hq|].
    intros j d Hj _. destruct (mlit M d) eqn:E; [reflexivity|].
    assert (existsb (fun d => negb (mlit M d)) (decisions s) = true); [|congruence].
    apply existsb_exists. exists d. split; [apply (nth_error_In _ j), Hj|]. rewrite E. reflexivity.
Qed.
Lemma conflict_decs (s : st) c : InvT s -> InvR s -> (forall q, In q c -> value s q = LFalse) ->
  (forall M, smodels C s M -> mcl M c) ->
  forall M, smodels C s M -> exists d, In d (decisions s) /\ mlit M d = false.
Proof. intros HT HR Hf He M HM. apply (conflict_decs1 s c M); auto. Qed.
End Imp.
