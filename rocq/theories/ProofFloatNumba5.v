(** The decimal number of the Hadamard gate *)
From Coq Require Import String List Arith NArith Nnat ZArith Bool Reals Lia Lra Psatz FunctionalExtensionality.
Import ListNotations.
From Verif Require Import Base Cplx Bits ModelTargets ModelGate ModelNumpy ModelNumba ModelFloat ModelFloatNumba SpecTargets SpecQuantum SpecCircuit SpecMeasure SpecNumba SpecFloat SpecFinite
  SpecFloatNumba ProofTargets ProofArray ProofNumpy ProofExamples ProofNumba ProofNumbaRun ProofFloatTop ProofFiniteTop ProofFloatNumbaTop ProofFloatNumba4.
Local Open Scope R_scope.

Lemma exact_within : forall u eta B, 0 <= u -> 0 <= eta -> rounds_within exact_arith u eta B.
Proof.
  intros u eta B Hu He. assert (K : forall x, Rabs (x - x) <= u * Rabs x + eta).
  { intros x. unfold Rminus. rewrite Rplus_opp_r, Rabs_R0. pose proof (Rabs_pos x). pose proof (Rmult_le_pos u (Rabs x)). lra. }
  split; cbn [exact_arith f_add f_sub f_mul f_div f_sqrt f_cos f_sin f_pi]; intros; try apply K; unfold Rminus; rewrite Rplus_opp_r, Rabs_R0; try lra.
  all: pose proof PI_RGT_0; try (apply Rmult_le_pos; lra).
  pose proof (sqrt_pos a). pose proof (Rmult_le_pos u (sqrt a)). lra.
Qed.
Lemma literal_bound : forall M n gs ops, 3 <= M -> M <= 1000000000000 -> (n <= 64)%nat -> circuit_ops n gs ops -> Forall (angles_within M) gs ->
  42 * M * INR (List.length ops) <= 10 ^ 14 ->
  exists phi, fn_run (plain_compiled exact_arith (fun x => x)) exact_arith gs n = Ok (arr n phi) /\ dist n phi (apply_all ops (ket 0)) <= 42 * M * INR (List.length ops) / 10 ^ 14.
Proof.
  intros M n gs ops H1 H2 Hn HG HW HL. assert (HX : rounds_within exact_arith (1 / 10 ^ 16) 0 (128 * M)) by (apply exact_within; lra).
  destruct (fn_linear_lemma (plain_compiled exact_arith (fun x => x)) exact_arith (1 / 10 ^ 16) 0 (128 * M) M n gs ops) as [phi [E D]]; auto; try lra.
  - apply plain_lemma; auto; try lra. intros x _. unfold Rminus. rewrite Rplus_opp_r, Rabs_R0. pose proof (Rabs_pos x). lra.
  - exists phi. split; auto. lra.
Qed.
Lemma had_circuit : circuit_ops 1 [GOne KH (TInt 0)] [sem1 KH 0].
Proof. apply (co_cons 1 _ _ [sem1 KH 0]); [|constructor]. apply (go_one 1 KH _ [0%Z]); [den|ins]. Qed.
Lemma literal_not : (7071067811865475 / 10000000000000000) <> / sqrt 2.
Proof.
  intros E. assert (Q : / sqrt 2 * / sqrt 2 = / 2) by (rewrite <- Rinv_mult, sqrt_sqrt by lra; reflexivity).
  rewrite <- E in Q. lra.
Qed.
Lemma literal_run : fn_run (plain_compiled exact_arith (fun x => x)) exact_arith [GOne KH (TInt 0)] 1 =
  Ok (let s := 7071067811865475 / 10000000000000000 in [((1 + 0) * s - (0 + 0) * 0, (1 + 0) * 0 + (0 + 0) * s); ((1 + - 0) * s - (0 + - 0) * 0, (1 + - 0) * 0 + (0 + - 0) * s)]).
Proof. vm_compute. reflexivity. Qed.
Lemma literal_refuted : fn_run (plain_compiled exact_arith (fun x => x)) exact_arith [GOne KH (TInt 0)] 1 <> Ok (arr 1 (apply_all [sem1 KH 0] (ket 0))).
Proof.
  rewrite literal_run. intros E. assert (E1 := f_equal (fun r => match r with Ok l => fst (nth 0 l C0) | Err _ => 0 end) E). cbv beta iota zeta in E1. clear E.
  unfold arr in E1. cbn [nth fst map seq Nat.pow Nat.mul Nat.add] in E1. unfold apply_all, sem1 in E1. cbn [fold_left] in E1.
  unfold ap1, ket, mat1 in E1. simpl in E1. apply literal_not. lra.
Qed.
Lemma loop_case : forall c, exists k, fk_cz c 3 [0; 2]%N = Ok k /\ rounded_loop c 3 k.
Proof.
  intros c. destruct (fk_cz c 3 [0; 2]%N) as [k|e] eqn:E; [|exfalso; vm_compute in E; discriminate]. exists k. split; auto. apply (rl_cz c 3 [0; 2]%N k); auto; [discriminate| |]; repeat constructor; cbn; try lia; intuition discriminate.
Qed.
