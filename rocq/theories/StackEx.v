(** The theories of this library do not fail when they are checked again; histories of stacks as runs of a program. *)
From Coq Require Import Lqa.
From Verif Require Import Base Keys Sat SatSpec SatInv SatPop SatLoop SatMain SatApi SatNext Stack Reify Amo Run Listen StackTh ThSum StackN Exec.
From Verif Require Import Lin Qe Lra LraTab LraVal LraInv LraChk LraPro LraCon Ov.
Local Open Scope nat_scope.

Lemma lra_again {sr : sorter} ord Hord fuel Y P HP : th_again (lraC ord Hord fuel Y P HP).
Proof.
  intros t vs val t' cf [HI HPt] HF Hn HT HV E. cbn [th_check lra_ops lraC th_feas mk_strict] in *. pose proof (lra_check_ok (fuel t) t vs HI) as H. rewrite E in H. destruct H as (K & I1 & H). destruct cf as [c|]; [|reflexivity]. exfalso.
  destruct H as (s & xi & l & Hi & Hv & Hr & _). destruct (feas_ext t t' (cb t) (cb t') (k_same _ _ K)) as (us & U1 & U2); [intros; rewrite (k_cb _ _ K); reflexivity|exact HF|].
  apply (farkas_vals t' vs I1 xi l s Hi Hv Hr (cb t') us U1 U2); reflexivity.
Qed.
Lemma ov_again {sr : sorter} : th_again ovC.
Proof. intros t vs val t' cf _ _ _ _ _ E. cbn in E. injection E as _ <-. reflexivity. Qed.
Lemma sum_again {A B} (oa : theory_ops A) (ob : theory_ops B) (CA : contract oa) (CB : contract ob) : th_again CA -> th_again CB -> th_again (sumC oa ob CA CB).
Proof.
  intros HA HB [a|b] vs val t' cf HI HF Hn HT HV E; cbn in E.
  - destruct (th_check oa a val) as [[a' cf']| |] eqn:Ec; cbn [rbind] in E; try discriminate. injection E as _ <-. apply (HA a vs val a' cf' HI HF Hn HT HV Ec).
  - destruct (th_check ob b val) as [[b' cf']| |] eqn:Ec; cbn [rbind] in E; try discriminate. injection E as _ <-. apply (HB b vs val b' cf' HI HF Hn HT HV Ec).
Qed.

(** When propagation succeeds the top core may be pushed. *)
Lemma hist_propagate {T} {ops : theory_ops T} (C : contract ops) s0 s r fuel s' : plain C -> th_again C -> good C s0 -> THist C s0 (false, s :: r) -> step (ops := ops) fuel s CPropagate = Ok (s', RBool true) -> prop_q s' = [] /\ settled C s'.
Proof.
  intros PL HA G0 HH E. destruct (stack_history C s0 false s r PL HA G0 HH) as [H _]. destruct (H eq_refl) as ((D & HL & G) & _). cbn [step] in E.
  pose proof (propagate_ok D (dlevel s) fuel s (g_inv _ _ G) (le_n _)) as P. destruct (propagate ops fuel s) as [[s1 b]| |]; cbn [rbind] in E; try discriminate. injection E as <- ->. destruct (pp_true _ _ _ _ P eq_refl) as (_ & A & B). split; [exact A|apply (like_settled C D s1 HL), B].
Qed.
