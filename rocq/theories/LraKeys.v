(** Textual keys of the caches of the arithmetic and of the object theories: lra_theory.h:221-222 ([exprs], [s_asrts]),
    ov_theory.h ([exprs]).  The model of the theories keys these caches by the expression (Lra.v [find_slack], [find_asrt]; Ov.v): here
    it is shown that looking up the text finds the same entry. *)
From Coq Require Import String Ascii Decimal DecimalString DecimalNat DecimalFacts QArith Lqa.
From Verif Require Import Base Keys Sat Lin Qe Lra Ov.
Local Open Scope string_scope.

(** What is needed of [utils::to_string(const rational&)], which is not in the repository: the text depends on the value alone, different values
    have different texts, and the characters are digits, a minus sign and a slash. *)
Definition nchar (c : ascii) : bool := (is_dig c || Ascii.eqb c "-" || Ascii.eqb c "/")%bool.
Fixpoint nall (s : string) : bool := match s with EmptyString => true | String c r => (nchar c && nall r)%bool end.
Definition nhead (s : string) : bool := match s with EmptyString => false | String c _ => nchar c end.
Record printer := mk_printer {
  q_str : Q -> string;
  q_str_eq : forall a b, a == b <-> q_str a = q_str b;
  q_str_chars : forall a, nall (q_str a) = true;
  q_str_nonempty : forall a, q_str a <> "" }.

Section Text.
Context (P : printer).
Local Notation qs := (q_str P).

Definition one (c : Q) : bool := Qeq_bool c 1.
Definition mone (c : Q) : bool := Qeq_bool c (-1 # 1).
(** The first term, lin.cpp:190-196. *)
Definition first_str (e : nat * Q) : string :=
  (if one (snd e) then "x" else if mone (snd e) then "-x" else qs (snd e) ++ "*x") ++ dec (fst e).
(** The other terms, lin.cpp:199-206. *)
Definition term_str (e : nat * Q) : string :=
  (if one (snd e) then " + x" else if mone (snd e) then " - x" else if qpos (snd e) then " + " ++ qs (snd e) ++ "*x" else " - " ++ qs (- snd e) ++ "*x") ++ dec (fst e).
(** lin.cpp:209-212 *)
Definition known_str (k : Q) : string := if qpos k then " + " ++ qs k else if negb (Qle_bool 0 k) then " - " ++ qs (- k) else "".
(** lin.cpp:181-214 *)
Definition lin_str (l : lin) : string :=
  match lvars l with
  | nil => qs (lkt l)
  | e :: r => first_str e ++ fold_right (fun e s => term_str e ++ s) (known_str (lkt l)) r
  end.
(** lra_theory.cpp:89, 132 ([Up]), 175, 218 ([Lo]); [es] is [utils::to_string(const inf_rational&)]. *)
Definition asrt_str (es : qe -> string) (s : side) (x : nat) (c : qe) : string :=
  "x" ++ dec x ++ (match s with Up => " <= " | Lo => " >= " end) ++ es c.
(** ov_theory.cpp:71, reached with [left < right] (line 67 has swapped the two otherwise). *)
Definition ov_str (l r : nat) : string := if Nat.ltb l r then "=e" ++ dec l ++ "e" ++ dec r else "=e" ++ dec r ++ "e" ++ dec l.

(** ** Injectivity. *)
Lemma app_n_inj : forall d1 d2 r1 r2, nall d1 = true -> nall d2 = true -> nhead r1 = false -> nhead r2 = false ->
  d1 ++ r1 = d2 ++ r2 -> d1 = d2 /\ r1 = r2.
Proof.
  induction d1 as [|c d1 IH]; intros [|e d2] r1 r2 H1 H2 N1 N2 E; cbn in *.
  - auto.
  - subst r1. cbn in N1. apply andb_prop in H2 as [H2 _]. congruence.
  - subst r2. cbn in N2. apply andb_prop in H1 as [H1 _]. congruence.
  - inversion E; subst. apply andb_prop in H1 as [_ H1]. apply andb_prop in H2 as [_ H2].
    destruct (IH d2 r1 r2 H1 H2 N1 N2) as [-> ->]; auto.
Qed.
Definition same_term (e e' : nat * Q) : Prop := fst e = fst e' /\ snd e == snd e'.
Definition same_lin (l l' : lin) : Prop := Forall2 same_term (lvars l) (lvars l') /\ lkt l == lkt l'.

(** What follows a term starts with a space, or there is nothing. *)
Definition tailish (s : string) : Prop := match s with EmptyString => True | String c _ => c = " "%char end.
Lemma tailish_dig s : tailish s -> head_dig s = false.
Proof. destruct s; cbn; [reflexivity|]. intros ->. reflexivity. Qed.
Lemma tailish_n s : tailish s -> nhead s = false.
Proof. destruct s; cbn; [reflexivity|]. intros ->. reflexivity. Qed.
Lemma known_tail k : tailish (known_str k).
Proof. unfold known_str. destruct (qpos k); [reflexivity|]. destruct (negb _); reflexivity. Qed.
Lemma term_tail e s : tailish (term_str e ++ s).
Proof. unfold term_str. destruct (one _); [reflexivity|]. destruct (mone _); [reflexivity|]. destruct (qpos _); reflexivity. Qed.
Lemma rest_tail k r : tailish (fold_right (fun e s => term_str e ++ s) (known_str k) r).
Proof. destruct r; [apply known_tail|apply term_tail]. Qed.

(** Prefix of a term: the coefficient. *)
Definition cpre (c : Q) : string := if one c then "" else if mone c then "-" else qs c.
Definition star (c : Q) : string := if one c then "x" else if mone c then "x" else "*x".
Lemma first_eq e s : first_str e ++ s = cpre (snd e) ++ (star (snd e) ++ (dec (fst e) ++ s)).
Proof. unfold first_str, cpre, star. destruct (one (snd e)); [reflexivity|]. destruct (mone (snd e)); [reflexivity|]. rewrite !app_assoc_s. reflexivity. Qed.
Lemma cpre_n c : nall (cpre c) = true.
Proof. unfold cpre. destruct (one c); [reflexivity|]. destruct (mone c); [reflexivity|]. apply q_str_chars. Qed.
Lemma star_n c s : nhead (star c ++ s) = false.
Proof. unfold star. destruct (one c); [reflexivity|]. destruct (mone c); reflexivity. Qed.
Lemma one_eq c : one c = true <-> c == 1.
Proof. unfold one. apply Qeq_bool_iff. Qed.
Lemma mone_eq c : mone c = true <-> c == -1 # 1.
Proof. unfold mone. apply Qeq_bool_iff. Qed.
Lemma after_inj x y s s' : tailish s -> tailish s' -> dec x ++ s = dec y ++ s' -> x = y /\ s = s'.
Proof. intros T T' E. apply app_dig_inj in E; [|apply dec_dig|apply dec_dig|apply tailish_dig, T|apply tailish_dig, T']. destruct E as [E ->]. apply dec_inj in E. auto. Qed.
Lemma coef_inj c c' s s' : cpre c ++ (star c ++ s) = cpre c' ++ (star c' ++ s') -> c == c' /\ s = s'.
Proof.
  intros E. apply app_n_inj in E; [|apply cpre_n|apply cpre_n|apply star_n|apply star_n]. destruct E as [E1 E2]. unfold cpre, star in *.
  destruct (one c) eqn:O1, (one c') eqn:O2.
  - cbn in E2. inversion E2. apply one_eq in O1, O2. split; [rewrite O1, O2; reflexivity|reflexivity].
  - exfalso. destruct (mone c'); [discriminate|]. cbn in E2. discriminate.
  - exfalso. destruct (mone c); [discriminate|]. cbn in E2. discriminate.
  - destruct (mone c) eqn:M1, (mone c') eqn:M2.
    + inversion E2. apply mone_eq in M1, M2. split; [rewrite M1, M2; reflexivity|reflexivity].
    + cbn in E2. discriminate.
    + cbn in E2. discriminate.
    + cbn in E2. inversion E2. split; [apply q_str_eq in E1; exact E1|reflexivity].
Qed.
Lemma first_inj e e' s s' : tailish s -> tailish s' -> first_str e ++ s = first_str e' ++ s' -> same_term e e' /\ s = s'.
Proof.
  intros T T' E. rewrite !first_eq in E. apply coef_inj in E as [E1 E2]. apply after_inj in E2 as [E2 E3]; [|exact T|exact T']. split; [split; assumption|exact E3].
Qed.

(** The other terms and the known term: a sign, then a magnitude, then possibly a variable. *)
Definition sgn (c : Q) : bool := (one c || (negb (mone c) && qpos c))%bool.
Definition mag (c : Q) : Q := if sgn c then c else - c.
Definition sg (b : bool) : string := if b then " + " else " - ".
Lemma qpos_iff c : qpos c = true <-> 0 < c.
Proof. unfold qpos. rewrite negb_true_iff. split; intros H; [apply Qnot_le_lt; intros K; apply Qle_bool_iff in K; congruence|]. destruct (Qle_bool c 0) eqn:E; [|reflexivity]. apply Qle_bool_iff in E. lra. Qed.
Lemma sgn_pos c : sgn c = true <-> 0 < c.
Proof.
  unfold sgn. destruct (one c) eqn:O; cbn.
  - apply one_eq in O. split; [intros _; lra|reflexivity].
  - destruct (mone c) eqn:M; cbn; [apply mone_eq in M; split; [discriminate|intros; lra]|apply qpos_iff].
Qed.
Lemma term_eq e s : term_str e ++ s = sg (sgn (snd e)) ++ (cpre (mag (snd e)) ++ (star (mag (snd e)) ++ (dec (fst e) ++ s))).
Proof.
  destruct e as [v c]. cbn [fst snd]. unfold term_str. cbn [fst snd].
  destruct (one c) eqn:O.
  - unfold mag, sgn, cpre, star. rewrite O. cbn. rewrite O. reflexivity.
  - destruct (mone c) eqn:M.
    + unfold mag, sgn, cpre, star. rewrite O, M. cbn [negb andb orb]. assert (K : one (- c) = true) by (apply one_eq; apply mone_eq in M; rewrite M; reflexivity). rewrite K. reflexivity.
    + unfold sgn. rewrite O, M. cbn [negb andb orb]. destruct (qpos c) eqn:Hp.
      * unfold mag, sgn, cpre, star. rewrite O, M, Hp. cbn [negb andb orb]. rewrite O, M. cbn [sg]. rewrite !app_assoc_s. reflexivity.
      * unfold mag, sgn, cpre, star. rewrite O, M, Hp. cbn [negb andb orb].
        assert (K1 : one (- c) = false) by (destruct (one (- c)) eqn:K; [|reflexivity]; apply one_eq in K; assert (K' : mone c = true) by (apply mone_eq; lra); congruence).
        assert (K2 : mone (- c) = false) by (destruct (mone (- c)) eqn:K; [|reflexivity]; apply mone_eq in K; assert (K' : one c = true) by (apply one_eq; lra); congruence).
        rewrite K1, K2. cbn [sg]. rewrite !app_assoc_s. reflexivity.
Qed.
Lemma sg_inj b b' s s' : sg b ++ s = sg b' ++ s' -> b = b' /\ s = s'.
Proof. destruct b, b'; cbn; intros E; inversion E; auto. Qed.
Lemma mag_inj c c' : sgn c = sgn c' -> mag c == mag c' -> c == c'.
Proof. unfold mag. intros ->. destruct (sgn c'); intros; lra. Qed.
Lemma term_inj e e' s s' : tailish s -> tailish s' -> term_str e ++ s = term_str e' ++ s' -> same_term e e' /\ s = s'.
Proof.
  intros T T' E. rewrite !term_eq in E. apply sg_inj in E as [E0 E]. apply coef_inj in E as [E1 E2]. apply after_inj in E2 as [E2 E3]; [|exact T|exact T'].
  split; [split; [exact E2|apply mag_inj; assumption]|exact E3].
Qed.
Lemma known_eq k : known_str k = if Qeq_bool k 0 then "" else sg (qpos k) ++ qs (if qpos k then k else - k).
Proof.
  unfold known_str. destruct (Qeq_bool k 0) eqn:E0.
  - apply Qeq_bool_iff in E0. destruct (qpos k) eqn:Hp; [apply qpos_iff in Hp; lra|]. destruct (Qle_bool 0 k) eqn:K; [reflexivity|]. exfalso. assert (Qle_bool 0 k = true) by (apply Qle_bool_iff; lra). congruence.
  - destruct (qpos k) eqn:Hp; [reflexivity|]. destruct (Qle_bool 0 k) eqn:K; [|reflexivity]. exfalso. apply Qle_bool_iff in K. assert (~ 0 < k) by (rewrite <- qpos_iff; congruence).
    assert (k == 0) by lra. apply Qeq_bool_iff in H0. congruence.
Qed.
Lemma known_inj k k' : known_str k = known_str k' -> k == k'.
Proof.
  rewrite !known_eq. destruct (Qeq_bool k 0) eqn:E, (Qeq_bool k' 0) eqn:E'; intros H.
  - apply Qeq_bool_iff in E, E'. lra.
  - destruct (qpos k'); discriminate.
  - destruct (qpos k); discriminate.
  - apply sg_inj in H as [H1 H2]. rewrite H1 in H2. apply q_str_eq in H2. destruct (qpos k'); lra.
Qed.
Lemma term_known e s k : term_str e ++ s <> known_str k.
Proof.
  rewrite term_eq, known_eq. destruct (Qeq_bool k 0); [destruct (sgn (snd e)); discriminate|]. intros H. apply sg_inj in H as [_ H].
  rewrite <- (app_nil_r_s (qs (if qpos k then k else - k))) in H. apply app_n_inj in H; [|apply cpre_n|apply q_str_chars|apply star_n|reflexivity].
  destruct H as [_ H]. unfold star in H. destruct (one _); [discriminate|]. destruct (mone _); discriminate.
Qed.
Lemma rest_inj k k' : forall r r', fold_right (fun e s => term_str e ++ s) (known_str k) r = fold_right (fun e s => term_str e ++ s) (known_str k') r' -> Forall2 same_term r r' /\ k == k'.
Proof.
  induction r as [|e r IH]; intros [|e' r'] E; cbn [fold_right] in E.
  - split; [constructor|apply known_inj, E].
  - exfalso. exact (term_known _ _ _ (eq_sym E)).
  - exfalso. exact (term_known _ _ _ E).
  - apply term_inj in E; [|apply rest_tail|apply rest_tail]. destruct E as [E1 E2]. destruct (IH r' E2) as [E3 E4]. split; [constructor; assumption|exact E4].
Qed.
Lemma lin_str_inj l l' : lin_str l = lin_str l' -> same_lin l l'.
Proof.
  unfold lin_str, same_lin. destruct (lvars l) as [|e r] eqn:El, (lvars l') as [|e' r'] eqn:El'; intros E.
  - split; [constructor|apply q_str_eq in E; exact E].
  - exfalso. rewrite first_eq in E. rewrite <- (app_nil_r_s (qs (lkt l))) in E. apply app_n_inj in E; [|apply q_str_chars|apply cpre_n|reflexivity|apply star_n].
    destruct E as [_ E]. unfold star in E. destruct (one _); [discriminate|]. destruct (mone _); discriminate.
  - exfalso. rewrite first_eq in E. rewrite <- (app_nil_r_s (qs (lkt l'))) in E. apply app_n_inj in E; [|apply cpre_n|apply q_str_chars|apply star_n|reflexivity].
    destruct E as [_ E]. unfold star in E. destruct (one _); [discriminate|]. destruct (mone _); discriminate.
  - apply first_inj in E; [|apply rest_tail|apply rest_tail]. destruct E as [E1 E2]. apply rest_inj in E2 as [E2 E3]. split; [constructor; assumption|exact E3].
Qed.
(** Equal expressions have the same text. *)
Lemma qs_proper a b : a == b -> qs a = qs b.
Proof. apply q_str_eq. Qed.
Lemma bool_iff (a b : bool) (A B : Prop) : (a = true <-> A) -> (b = true <-> B) -> (A <-> B) -> a = b.
Proof. destruct a, b; intuition congruence. Qed.
Lemma one_proper c d : c == d -> one c = one d.
Proof. intros E. apply (bool_iff _ _ _ _ (one_eq c) (one_eq d)). rewrite E. reflexivity. Qed.
Lemma mone_proper c d : c == d -> mone c = mone d.
Proof. intros E. apply (bool_iff _ _ _ _ (mone_eq c) (mone_eq d)). rewrite E. reflexivity. Qed.
Lemma qpos_proper c d : c == d -> qpos c = qpos d.
Proof. intros E. apply (bool_iff _ _ _ _ (qpos_iff c) (qpos_iff d)). rewrite E. reflexivity. Qed.
Lemma term_proper e e' : same_term e e' -> term_str e = term_str e' /\ first_str e = first_str e'.
Proof.
  destruct e as [v c], e' as [w d]. unfold same_term. cbn. intros [<- E]. unfold term_str, first_str. cbn.
  rewrite (one_proper _ _ E), (mone_proper _ _ E), (qpos_proper _ _ E), (qs_proper _ _ E). rewrite (qs_proper (- c) (- d)) by (rewrite E; reflexivity). split; reflexivity.
Qed.
Lemma known_proper k k' : k == k' -> known_str k = known_str k'.
Proof.
  intros E. rewrite !known_eq. rewrite (qpos_proper _ _ E). replace (Qeq_bool k' 0) with (Qeq_bool k 0).
  2: { apply (bool_iff _ _ _ _ (Qeq_bool_iff k 0) (Qeq_bool_iff k' 0)). rewrite E. reflexivity. }
  destruct (Qeq_bool k 0); [reflexivity|]. f_equal. apply qs_proper. destruct (qpos k'); rewrite E; reflexivity.
Qed.
Lemma lin_str_proper l l' : same_lin l l' -> lin_str l = lin_str l'.
Proof.
  unfold same_lin, lin_str. intros [H E]. destruct H as [|e e' r r' H1 H2]; [apply qs_proper, E|]. f_equal; [apply term_proper, H1|].
  induction H2 as [|a b r r' Ha H2 IH]; cbn [fold_right]; [apply known_proper, E|]. rewrite IH. f_equal. apply term_proper, Ha.
Qed.
Lemma lin_str_iff l l' : lin_str l = lin_str l' <-> same_lin l l'.
Proof. split; [apply lin_str_inj|apply lin_str_proper]. Qed.

(** The comparison of the model. *)
Lemma qmap_eqb_iff : forall m m', qmap_eqb m m' = true <-> Forall2 same_term m m'.
Proof.
  induction m as [|[v c] m IH]; intros [|[w d] m']; cbn [qmap_eqb]; split; intros H; try discriminate; try solve [inversion H]; try reflexivity.
  - constructor.
  - apply andb_prop in H as [H H2]. apply andb_prop in H as [H0 H1]. apply Nat.eqb_eq in H0. apply Qeq_bool_iff in H1. constructor; [split; assumption|apply IH, H2].
  - inversion H as [|? ? ? ? [H0 H1] H2]; subst. cbn in H0, H1. subst w. rewrite Nat.eqb_refl. apply Qeq_bool_iff in H1. rewrite H1. apply IH, H2.
Qed.
Lemma lin_eqb_iff l l' : lin_eqb l l' = true <-> same_lin l l'.
Proof. unfold lin_eqb, same_lin. rewrite andb_true_iff, qmap_eqb_iff, Qeq_bool_iff. reflexivity. Qed.
Lemma lin_eqb_text l l' : lin_eqb l l' = String.eqb (lin_str l) (lin_str l').
Proof. apply (bool_iff _ _ _ _ (lin_eqb_iff l l') (String.eqb_eq _ _)). rewrite lin_str_iff. reflexivity. Qed.

(** A cache of texts: an [unordered_map<string, A>]; [emplace] keeps the entry that is there. *)
Fixpoint tfind {A} (k : string) (m : list (string * A)) : option A :=
  match m with nil => None | (k', a) :: r => if String.eqb k' k then Some a else tfind k r end.
Lemma find_text {A} (l : lin) : forall m : list (lin * A),
  tfind (lin_str l) (map (fun e => (lin_str (fst e), snd e)) m) = match find (fun e => lin_eqb (fst e) l) m with Some e => Some (snd e) | None => None end.
Proof.
  induction m as [|[k a] m IH]; cbn [map tfind find fst snd]; [reflexivity|]. rewrite lin_eqb_text. destruct (String.eqb _ _); [reflexivity|exact IH].
Qed.
Lemma find_slack_text (t : lra) (l : lin) : tfind (lin_str l) (map (fun e => (lin_str (fst e), snd e)) (xexprs t)) = find_slack t l.
Proof. apply find_text. Qed.

(** ** Assertions. *)
Section Inf.
Context (es : qe -> string) (Hes : forall a b, (fst a == fst b /\ snd a == snd b)%Q <-> es a = es b).
Lemma asrt_str_iff s x c s' x' c' : asrt_str es s x c = asrt_str es s' x' c' <-> s = s' /\ x = x' /\ (fst c == fst c' /\ snd c == snd c')%Q.
Proof.
  unfold asrt_str. split.
  - cbn [append]. intros E. inversion E as [E1]. clear E.
    apply app_dig_inj in E1; [|apply dec_dig|apply dec_dig|destruct s; reflexivity|destruct s'; reflexivity]. destruct E1 as [E1 E2]. apply dec_inj in E1. rewrite Hes.
    destruct s, s'; cbn in E2; inversion E2; auto.
  - intros (-> & -> & H). apply Hes in H. rewrite H. reflexivity.
Qed.
End Inf.
(** ** Equalities of object variables. *)
Lemma ov_str_iff l r l' r' : ov_str l r = ov_str l' r' <-> (l = l' /\ r = r') \/ (l = r' /\ r = l').
Proof.
  assert (K : forall a b a' b', "=e" ++ dec a ++ "e" ++ dec b = "=e" ++ dec a' ++ "e" ++ dec b' -> a = a' /\ b = b').
  { intros a b a' b'. cbn [append]. intros E. inversion E as [E1]. apply app_dig_inj in E1; [|apply dec_dig|apply dec_dig|reflexivity|reflexivity].
    destruct E1 as [E1 E2]. inversion E2 as [E3]. apply dec_inj in E1. apply dec_inj in E3. auto. }
  unfold ov_str. destruct (Nat.ltb_spec l r), (Nat.ltb_spec l' r'); split; intros E; try (apply K in E); try (destruct E as [[-> ->]|[-> ->]]; try reflexivity; lia); try tauto; try lia.
  all: destruct E as [[-> ->]|[-> ->]]; try reflexivity; try lia; assert (l' = r') by lia; subst; reflexivity.
Qed.
End Text.

(** ** A printer: sign, decimal digits of the reduced numerator, then slash and denominator unless it is 1. *)
Definition z_str (z : Z) : string := if (z <? 0)%Z then "-" ++ dec (Z.to_nat (- z)) else dec (Z.to_nat z).
Definition q_dec (q : Q) : string := let r := Qred q in z_str (Qnum r) ++ (if Pos.eqb (Qden r) 1 then "" else "/" ++ dec (Pos.to_nat (Qden r))).
Lemma nall_app a b : nall (a ++ b) = (nall a && nall b)%bool.
Proof. induction a as [|c a IH]; cbn; [reflexivity|]. rewrite IH. apply andb_assoc. Qed.
Lemma dig_n s : all_dig s = true -> nall s = true.
Proof. induction s as [|c s IH]; cbn; [reflexivity|]. intros H. apply andb_prop in H as [H1 H2]. unfold nchar. rewrite H1, (IH H2). reflexivity. Qed.
Lemma dec_nonempty n : dec n <> "".
Proof.
  unfold dec. intros H. apply (f_equal NilEmpty.uint_of_string) in H. rewrite NilEmpty.usu in H. cbn in H. inversion H as [H1].
  assert (K := DecimalNat.Unsigned.of_to n). rewrite H1 in K. cbn in K. subst n. cbn in H1. discriminate.
Qed.
Lemma dec_head n s : head_dig (dec n ++ s) = true.
Proof. pose proof (dec_nonempty n) as H. pose proof (dec_dig n) as D. destruct (dec n) as [|c r]; [congruence|]. cbn in *. apply andb_prop in D as [D _]. exact D. Qed.
Lemma z_str_inj z z' s s' : head_dig s = false -> head_dig s' = false -> z_str z ++ s = z_str z' ++ s' -> z = z' /\ s = s'.
Proof.
  intros N N'. unfold z_str. destruct (Z.ltb_spec z 0), (Z.ltb_spec z' 0); cbn [append]; intros E.
  - inversion E as [E1]. apply app_dig_inj in E1; [|apply dec_dig|apply dec_dig|exact N|exact N']. destruct E1 as [E1 ->]. apply dec_inj in E1. split; [lia|reflexivity].
  - exfalso. pose proof (dec_head (Z.to_nat z') s') as D. rewrite <- E in D. discriminate.
  - exfalso. pose proof (dec_head (Z.to_nat z) s) as D. rewrite E in D. discriminate.
  - apply app_dig_inj in E; [|apply dec_dig|apply dec_dig|exact N|exact N']. destruct E as [E1 ->]. apply dec_inj in E1. split; [lia|reflexivity].
Qed.
Definition dec_printer : printer.
Proof.
  refine (mk_printer q_dec _ _ _).
  - intros a b. split.
    + intros E. unfold q_dec. rewrite (Qred_complete a b E). reflexivity.
    + unfold q_dec. intros E. rewrite <- (Qred_correct a), <- (Qred_correct b). apply z_str_inj in E; [|match goal with |- head_dig (if ?b then _ else _) = _ => destruct b; reflexivity end|match goal with |- head_dig (if ?b then _ else _) = _ => destruct b; reflexivity end].
      destruct E as [E1 E2]. destruct (Qred a) as [n d], (Qred b) as [n' d']. cbn [Qnum Qden] in *. subst n'.
      destruct (Pos.eqb_spec d 1) as [H1|H1]; destruct (Pos.eqb_spec d' 1) as [H2|H2]; [rewrite H1, H2; reflexivity|discriminate E2|discriminate E2|]. inversion E2 as [E3]. apply dec_inj in E3. apply Pos2Nat.inj in E3. rewrite E3. reflexivity.
  - intros a. unfold q_dec. rewrite nall_app. apply andb_true_intro. split.
    + unfold z_str. destruct (_ <? _)%Z; [cbn [append nall]; apply dig_n, dec_dig|apply dig_n, dec_dig].
    + destruct (Pos.eqb _ _); [reflexivity|]. cbn [append nall]. apply dig_n, dec_dig.
  - intros a. unfold q_dec, z_str. destruct (_ <? _)%Z; [discriminate|]. intros E. pose proof (dec_head (Z.to_nat (Qnum (Qred a))) (if (Qden (Qred a) =? 1)%positive then "" else "/" ++ dec (Pos.to_nat (Qden (Qred a))))) as D. rewrite E in D. discriminate.
Defined.

(** ** Lookups of assertions and of object equalities. *)
Section Look.
Context (es : qe -> string) (Hes : forall a b, (fst a == fst b /\ snd a == snd b)%Q <-> es a = es b).
Lemma find_asrt_text (t : lra) s x c : tfind (asrt_str es s x c) (map (fun e => (asrt_str es (fst (fst (fst e))) (snd (fst (fst e))) (snd (fst e)), snd e)) (s_asrts t)) = find_asrt t s x c.
Proof.
  unfold find_asrt. induction (s_asrts t) as [|[[[s' x'] c'] p] m IH]; cbn [map tfind find fst snd]; [reflexivity|].
  assert (E : String.eqb (asrt_str es s' x' c') (asrt_str es s x c) = (side_eqb s' s && Nat.eqb x' x && qe_eqb c' c)%bool).
  { refine (bool_iff _ _ _ _ (String.eqb_eq _ _) (iff_refl _) _). rewrite (asrt_str_iff es Hes), !andb_true_iff, Nat.eqb_eq. unfold qe_eqb. rewrite andb_true_iff, !Qeq_bool_iff. destruct s', s; cbn; intuition congruence. }
  rewrite E. destruct (side_eqb s' s && Nat.eqb x' x && qe_eqb c' c)%bool; [reflexivity|exact IH].
Qed.
End Look.
Lemma elook_text (m : list ((nat * nat) * lit)) l r : (forall e, In e m -> fst (fst e) < snd (fst e))%nat -> (l < r)%nat ->
  tfind (ov_str l r) (map (fun e => (ov_str (fst (fst e)) (snd (fst e)), snd e)) m) = elook (l, r) m.
Proof.
  intros Hm Hlr. induction m as [|[[a b] p] m IH]; cbn [map tfind elook fst snd]; [reflexivity|].
  rewrite IH by (intros; apply Hm; right; assumption). pose proof (Hm _ (or_introl eq_refl)) as Hab. cbn in Hab.
  assert (E : String.eqb (ov_str a b) (ov_str l r) = (Nat.eqb l a && Nat.eqb r b)%bool).
  { refine (bool_iff _ _ _ _ (String.eqb_eq _ _) (iff_refl _) _). rewrite ov_str_iff, andb_true_iff, !Nat.eqb_eq. lia. }
  rewrite E. destruct (Nat.eqb l a && Nat.eqb r b)%bool; reflexivity.
Qed.
