(** The calls of Two.v are those of Dl.v: on a core that holds difference logic theories only, both do the same.  And the calls of Mix.v (linear real
    arithmetic on a core that holds other theories) do not look at the other theories. *)
From Verif Require Import Base Keys Sat Reify ThSum Lin Qe Dw Dl MapTh Two Lra Mix.
Open Scope nat_scope.

Section Same.
Context {D : Type} (W : wops D) {BT : Type}.
Notation dl := (dl D).
Notation up := (mp (@inl dl BT)).
Notation up1 := (m1 (@inl dl BT)).
Notation up2 := (option_map (m1 (@inl dl BT))).
Lemma two_th {A A'} (s : st dl) i (k : dl -> res A) (k' : dl -> res A') (g : A -> A') : (forall t, k' t = rmp g (k t)) -> tw_th (up s) i k' = rmp g (dl_th s i k).
Proof.
  intros H. unfold tw_th, dl_th. cbn [mp theories]. rewrite nth_error_map. destruct (nth_error (theories s) i); cbn [option_map]; [apply H|reflexivity].
Qed.
Lemma two_put (s : st dl) i t : tw_put (up s) i t = up (dl_put s i t).
Proof. unfold tw_put, dl_put. rewrite mp_set_th. reflexivity. Qed.
Lemma two_bind (s : st dl) v i : bind (up s) v i = up (bind s v i).
Proof. unfold bind. change (bounds (up s)) with (bounds s). destruct (memn i (bounds s v)); reflexivity. Qed.
Theorem two_new_var (s : st dl) i : tw_new_var W (up s) i = rmp up1 (dl_new_var W s i).
Proof. apply two_th. intros t. destruct (t_dl_var W t) as [t1 x]. rewrite two_put. reflexivity. Qed.
Theorem two_distance (s : st dl) i from to w : tw_distance W (up s) i from to w = rmp up1 (new_distance W s i from to w).
Proof.
  apply two_th. intros t. unfold guard. destruct (_ && _); [|reflexivity]. destruct (dist_lt W _ _); [reflexivity|]. destruct (dist_le W _ _); [reflexivity|].
  rewrite mp_new_var. destruct (new_var s) as [s1 v]. cbn [m1 fst snd]. rewrite two_bind, two_put. reflexivity.
Qed.
Lemma two_both (s : st dl) i from to w from' to' w' :
  ('(s1, p) <- tw_distance W (up s) i from to w ;; '(s2, q) <- tw_distance W s1 i from' to' w' ;; new_conj s2 [p; q]) =
  rmp up1 ('(s1, p) <- new_distance W s i from to w ;; '(s2, q) <- new_distance W s1 i from' to' w' ;; new_conj s2 [p; q]).
Proof.
  rewrite two_distance. destruct (new_distance W s i from to w) as [[s1 p]| |]; cbn [rmp rbind m1 fst snd]; try reflexivity. rewrite two_distance.
  destruct (new_distance W s1 i from' to' w') as [[s2 q]| |]; cbn [rmp rbind m1 fst snd]; try reflexivity. apply (mp_new_conj (@inl dl BT)).
Qed.
Theorem two_distance2 (s : st dl) i from to mn mx : tw_distance2 W (up s) i from to mn mx = rmp up1 (new_distance2 W s i from to mn mx).
Proof. apply two_both. Qed.
Lemma two_may (r : res (st (dl + BT) * lit)) (r' : res (st dl * lit)) : r = rmp up1 r' -> may r = rmp up2 (may r').
Proof. intros ->. destruct r'; reflexivity. Qed.
Theorem two_lt (s : st dl) i l r : tw_lt W (up s) i l r = rmp up2 (dl_new_lt W s i l r).
Proof. unfold tw_lt, dl_new_lt. destruct (dl_form W (lin_sub l r)) as [[k|[] v k|[] v v1 k]|]; try reflexivity; apply two_may, two_distance. Qed.
Theorem two_leq (s : st dl) i l r : tw_leq W (up s) i l r = rmp up2 (dl_new_leq W s i l r).
Proof. unfold tw_leq, dl_new_leq. destruct (dl_form W (lin_sub l r)) as [[k|[] v k|[] v v1 k]|]; try reflexivity; apply two_may, two_distance. Qed.
Theorem two_geq (s : st dl) i l r : tw_geq W (up s) i l r = rmp up2 (dl_new_geq W s i l r).
Proof. unfold tw_geq, dl_new_geq. destruct (dl_form W (lin_sub l r)) as [[k|[] v k|[] v v1 k]|]; try reflexivity; apply two_may, two_distance. Qed.
Lemma two_eq_at (s : st dl) i v v1 k : tw_eq_at W (up s) i v v1 k = rmp up2 (eq_at W s i v v1 k).
Proof.
  apply two_th. intros t. unfold guard. destruct (_ && _); [|reflexivity]. destruct (within W _ _); [|reflexivity]. apply two_may, two_both.
Qed.
Theorem two_eq (s : st dl) i l r : tw_eq W (up s) i l r = rmp up2 (dl_new_eq W s i l r).
Proof. unfold tw_eq, dl_new_eq. destruct (dl_form W (lin_sub l r)) as [[k|n v k|n v v1 k]|]; try reflexivity; apply two_eq_at. Qed.
Theorem two_gt last last' (s : st dl) i l r : (forall s i v v1 k, last' (up s) i v v1 k = rmp up1 (last s i v v1 k)) -> tw_gt W last' (up s) i l r = rmp up2 (new_gt_with W last s i l r).
Proof. intros H. unfold tw_gt, new_gt_with. destruct (dl_form W (lin_sub l r)) as [[k|[] v k|[] v v1 k]|]; try reflexivity; apply two_may; first [apply two_distance|apply H]. Qed.
End Same.

Section Other.
Context {A B : Type} (f : A + lra -> B + lra) (Hf : forall t, f (inr t) = inr t) (Hl : forall a, exists b, f (inl a) = inl b).
Notation up := (mp f).
Notation up1 := (m1 f).
Lemma oth_th {X X'} (s : st (A + lra)) i (k : lra -> res X) (k' : lra -> res X') (g : X -> X') : (forall t, k' t = rmp g (k t)) -> mx_th (up s) i k' = rmp g (mx_th s i k).
Proof.
  intros H. unfold mx_th. cbn [mp theories]. rewrite nth_error_map. destruct (nth_error (theories s) i) as [[a|t]|]; cbn [option_map]; [|rewrite Hf; apply H|reflexivity]. destruct (Hl a) as [b ->]. reflexivity.
Qed.
Lemma oth_put (s : st (A + lra)) i t : mx_put (up s) i t = up (mx_put s i t).
Proof. unfold mx_put. rewrite mp_set_th, Hf. reflexivity. Qed.
Lemma oth_bind (s : st (A + lra)) v i : bind (up s) v i = up (bind s v i).
Proof. unfold bind. change (bounds (up s)) with (bounds s). destruct (memn i (bounds s v)); reflexivity. Qed.
Theorem oth_new_var (s : st (A + lra)) i : mx_new_var (up s) i = rmp up1 (mx_new_var s i).
Proof. apply oth_th. intros t. destruct (t_new_var t) as [t1 x]. rewrite oth_put. reflexivity. Qed.
Theorem oth_new_slack (s : st (A + lra)) i l : mx_new_slack (up s) i l = rmp up1 (mx_new_slack s i l).
Proof. apply oth_th. intros t. change (root_level (up s)) with (root_level s). destruct (t_new_slack (root_level s) t l) as [[t1 x]| |]; cbn [rbind rmp]; [rewrite oth_put|..]; reflexivity. Qed.
Theorem oth_cmp (s : st (A + lra)) i sd strict l r : mx_cmp (up s) i sd strict l r = rmp up1 (mx_cmp s i sd strict l r).
Proof.
  apply oth_th. intros t. cbv zeta. destruct (cmp_sat _ _ _ _); [reflexivity|]. destruct (cmp_unsat _ _ _ _); [reflexivity|].
  change (root_level (up s)) with (root_level s). destruct (t_new_slack (root_level s) t _) as [[t1 x]| |]; cbn [rbind rmp]; try reflexivity. rewrite oth_put.
  destruct (cmp_sat _ _ _ _); [reflexivity|]. destruct (cmp_unsat _ _ _ _); [reflexivity|]. destruct (find_asrt _ _ _ _) as [p|]; [reflexivity|].
  rewrite mp_new_var. destruct (new_var (mx_put s i t1)) as [s2 v]. cbn [m1 fst snd].
  rewrite oth_bind, oth_put. reflexivity.
Qed.
End Other.
