(** The calls of Mix.v are those of Lra.v: on a core that holds arithmetic theories only, both do the same. *)
From Verif Require Import Base Keys Sat Reify ThSum Lin Qe Lra Mix MapTh.

Section Same.
Context {BT : Type}.
Notation up := (mp (@inr BT lra)).
Notation up1 := (m1 (@inr BT lra)).
Lemma up_th {A A'} (s : st lra) i (k : lra -> res A) (k' : lra -> res A') (g : A -> A') : (forall t, k' t = rmp g (k t)) -> mx_th (up s) i k' = rmp g (with_th s i k).
Proof.
  intros H. unfold mx_th, with_th. cbn [mp theories]. rewrite nth_error_map. destruct (nth_error (theories s) i); cbn [option_map]; [apply H|reflexivity].
Qed.
Lemma up_put (s : st lra) i t : mx_put (up s) i t = up (put_th s i t).
Proof. unfold mx_put, put_th. rewrite mp_set_th. reflexivity. Qed.
Lemma up_bind (s : st lra) v i : bind (up s) v i = up (bind s v i).
Proof. unfold bind. change (bounds (up s)) with (bounds s). destruct (memn i (bounds s v)); reflexivity. Qed.
Theorem up_new_var (s : st lra) i : mx_new_var (up s) i = rmp up1 (lra_new_var s i).
Proof. apply up_th. intros t. destruct (t_new_var t) as [t1 x]. rewrite up_put. reflexivity. Qed.
Theorem up_new_slack (s : st lra) i l : mx_new_slack (up s) i l = rmp up1 (lra_new_slack s i l).
Proof. apply up_th. intros t. change (root_level (up s)) with (root_level s). destruct (t_new_slack (root_level s) t l) as [[t1 x]| |]; cbn [rbind rmp]; [rewrite up_put|..]; reflexivity. Qed.
Theorem up_cmp (s : st lra) i sd strict l r : mx_cmp (up s) i sd strict l r = rmp up1 (lra_cmp s i sd strict l r).
Proof.
  apply up_th. intros t. cbv zeta. destruct (cmp_sat _ _ _ _); [reflexivity|]. destruct (cmp_unsat _ _ _ _); [reflexivity|].
  change (root_level (up s)) with (root_level s). destruct (t_new_slack (root_level s) t _) as [[t1 x]| |]; cbn [rbind rmp]; try reflexivity. rewrite up_put.
  destruct (cmp_sat _ _ _ _); [reflexivity|]. destruct (cmp_unsat _ _ _ _); [reflexivity|]. destruct (find_asrt _ _ _ _) as [p|]; [reflexivity|].
  rewrite mp_new_var. destruct (new_var (put_th s i t1)) as [s2 v]. cbn [m1 fst snd].
  rewrite up_bind, up_put. reflexivity.
Qed.
End Same.
