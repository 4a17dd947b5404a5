(** C85: rounding errors of circuits in arithmetic with underflow and overflow. *)
From Coq Require Import List Arith ZArith Bool Reals.
Import ListNotations.
From Verif Require Import Base Cplx Bits ModelTargets ModelGate ModelNumpy ModelFloat SpecTargets SpecQuantum SpecCircuit SpecFloat SpecFinite ProofExamples ProofFloatTop ProofFiniteTop.
Local Open Scope R_scope.

(** When operations on operands up to B have an error of at most u times the result plus eta, and nothing is known of larger operands, a circuit of L
    operations on n qubits with angles up to M runs without an error and ends near the exact state. *)
Theorem C85_error : forall A u eta B M n gs ops, rounds_within A u eta B -> 0 < u -> eta <= u -> 3 <= M -> 128 * M <= B -> 1000 * u * M <= 1 ->
  circuit_ops n gs ops -> Forall (angles_within M) gs ->
  (1 + 300 * (u * M)) ^ (7 * List.length ops) * (1 + eta / u * sqrt (2 ^ n)) <= 4 ->
  exists phi, fl_run A gs n = Ok (arr n phi) /\
    dist n phi (apply_all ops (ket 0)) <= ((1 + 300 * (u * M)) ^ (7 * List.length ops) - 1) * (1 + eta / u * sqrt (2 ^ n)).
Proof. exact finite_error. Qed.
Print Assumptions C85_error.
Theorem C85_linear : forall A u eta B M n gs ops, rounds_within A u eta B -> 0 < u -> eta <= u -> 3 <= M -> 128 * M <= B -> 1000 * u * M <= 1 ->
  circuit_ops n gs ops -> Forall (angles_within M) gs -> eta / u * sqrt (2 ^ n) <= 1 -> 4200 * u * M * INR (List.length ops) <= 1 ->
  exists phi, fl_run A gs n = Ok (arr n phi) /\ dist n phi (apply_all ops (ket 0)) <= 4200 * u * M * INR (List.length ops) * (1 + eta / u * sqrt (2 ^ n)).
Proof. exact finite_linear. Qed.
Print Assumptions C85_linear.

(** The rounding to p digits in multiples of 2^low: its error, its values, and the numbers it keeps. *)
Theorem C85_rounding : forall p low x, Rabs (round_above p low x - x) <= / 2 ^ p * Rabs x \/ Rabs (round_above p low x - x) <= powerRZ 2 (low - 1).
Proof. exact above_err. Qed.
Print Assumptions C85_rounding.
Theorem C85_digits : forall p low x, exists m e, round_above p low x = IZR m * powerRZ 2 e /\ (Z.abs m <= 2 ^ Z.of_nat p)%Z /\ (low <= e)%Z.
Proof. exact above_digits. Qed.
Print Assumptions C85_digits.
Theorem C85_fixed : forall p low m e, (Z.abs m < 2 ^ Z.of_nat p)%Z -> (low <= e)%Z -> round_above p low (IZR m * powerRZ 2 e) = IZR m * powerRZ 2 e.
Proof. exact above_fix. Qed.
Print Assumptions C85_fixed.
Theorem C85_finite : forall over p low high B, 2 <= B -> 2 * B <= powerRZ 2 high -> B * B <= powerRZ 2 high -> (low + Z.of_nat p <= 1)%Z ->
  rounds_within (finite_arith over p low high) (/ 2 ^ p) (powerRZ 2 (low - 1)) B.
Proof. exact finite_rounds. Qed.
Print Assumptions C85_finite.

(** Doubles, whatever an overflow gives: up to 2000 qubits, a million operations, and angles up to 7. *)
Theorem C85_double_rounds : forall over, rounds_within (double_arith over) (/ 2 ^ 53) (powerRZ 2 (-1075)) (powerRZ 2 500).
Proof. exact double_rounds. Qed.
Print Assumptions C85_double_rounds.
Theorem C85_double : forall over n gs ops, (Z.of_nat n <= 2000)%Z -> circuit_ops n gs ops -> Forall (angles_within 7) gs -> (Z.of_nat (List.length ops) <= 1000000)%Z ->
  exists phi, fl_run (double_arith over) gs n = Ok (arr n phi) /\ dist n phi (apply_all ops (ket 0)) <= 1 / 300000.
Proof. exact double_ieee. Qed.
Print Assumptions C85_double.
(** "Doubles have a bounded relative error", the assumption of C83 and C84, is false because of underflow. *)
Theorem C85_relative_refuted : forall over u, u < 1 -> ~ rounds (double_arith over) u.
Proof. exact double_relative. Qed.
Print Assumptions C85_relative_refuted.

(** The circuit of C83_case meets the hypotheses of C85_double. *)
Example C85_case : circuit_ops 3 ex_gates ex_ops /\ Forall (angles_within 7) ex_gates /\ (Z.of_nat (List.length ex_ops) <= 1000000)%Z.
Proof. exact finite_case. Qed.
Print Assumptions C85_case.
