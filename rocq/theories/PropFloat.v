(** C83: rounding errors of the NumPy backend. *)
From Coq Require Import List Arith ZArith Bool Reals.
Import ListNotations.
From Verif Require Import Base Cplx Bits ModelTargets ModelGate ModelNumpy ModelFloat SpecTargets SpecQuantum SpecCircuit SpecFloat
  ProofRun ProofExamples ProofFloatTop.
Local Open Scope R_scope.

(** Without rounding, the model of rounded runs is the model of runs. *)
Theorem C83_exact : forall rng gs n pos, Forall no_collapse gs ->
  fst (fst (np_run rng new_backend gs n no_args pos)) = match fl_run exact_arith gs n with Ok v => Ok (RState v) | Err e => Err e end.
Proof. exact exact_lemma. Qed.
Print Assumptions C83_exact.

(** When every operation has a relative error of at most u, a run on L operators returns a state within (1 + 256 u M)^(7 L) - 1 of the exact state, for
    angles up to M. *)
Theorem C83_error : forall A u M n gs ops, rounds A u -> 3 <= M -> 1000 * u * M <= 1 -> circuit_ops n gs ops -> Forall (angles_within M) gs ->
  exists phi, fl_run A gs n = Ok (arr n phi) /\ dist n phi (apply_all ops (ket 0)) <= (1 + 256 * (u * M)) ^ (7 * List.length ops) - 1.
Proof. exact error_lemma. Qed.
Print Assumptions C83_error.

(** The errors add up: at most 3584 u M for each operator, however many qubits there are. *)
Theorem C83_linear : forall A u M n gs ops, rounds A u -> 3 <= M -> 1000 * u * M <= 1 -> circuit_ops n gs ops -> Forall (angles_within M) gs ->
  3584 * u * M * INR (List.length ops) <= 1 ->
  exists phi, fl_run A gs n = Ok (arr n phi) /\ dist n phi (apply_all ops (ket 0)) <= 3584 * u * M * INR (List.length ops).
Proof. exact linear_lemma. Qed.
Print Assumptions C83_linear.

(** A state within e of the exact one has a norm within e of 1 and probabilities within e (2 + e) of the exact ones. *)
Theorem C83_norm : forall n gs ops phi e, circuit_ops n gs ops -> dist n phi (apply_all ops (ket 0)) <= e -> Rabs (norm n phi - 1) <= e.
Proof. exact norm_lemma. Qed.
Print Assumptions C83_norm.
Theorem C83_probabilities : forall n gs ops phi x e, circuit_ops n gs ops -> dist n phi (apply_all ops (ket 0)) <= e -> (x < 2 ^ n)%nat ->
  Rabs (Cnorm2 (phi x) - Cnorm2 (apply_all ops (ket 0) x)) <= e * (2 + e).
Proof. exact prob_lemma. Qed.
Print Assumptions C83_probabilities.

(** Rounding to the nearest number of p binary digits: the results have p digits, numbers of p digits stay as they are, and the relative error is at most 2^-p. *)
Theorem C83_digits : forall p x, exists m e, round_to p x = IZR m * powerRZ 2 e /\ (Z.abs m <= 2 ^ Z.of_nat p)%Z.
Proof. exact round_digits. Qed.
Print Assumptions C83_digits.
Theorem C83_fixed : forall p m e, (Z.abs m < 2 ^ Z.of_nat p)%Z -> round_to p (IZR m * powerRZ 2 e) = IZR m * powerRZ 2 e.
Proof. exact round_fix. Qed.
Print Assumptions C83_fixed.
Theorem C83_binary : forall p, rounds (binary_arith p) (/ 2 ^ p).
Proof. exact binary_rounds. Qed.
Print Assumptions C83_binary.

(** With 53 digits, as in complex128, a million gates with angles up to 7 give a state within 1/300000 of the exact one. *)
Theorem C83_double : forall n gs ops, circuit_ops n gs ops -> Forall (angles_within 7) gs -> (Z.of_nat (List.length ops) <= 1000000)%Z ->
  exists phi, fl_run (binary_arith 53) gs n = Ok (arr n phi) /\ dist n phi (apply_all ops (ket 0)) <= 1 / 300000.
Proof. exact double_lemma. Qed.
Print Assumptions C83_double.

(** No bound holds for all angles: however small u is, there is an angle for which a rounded rx is at distance 2 or more, as far as states can be. *)
Theorem C83_angles : forall u, 0 < u -> rounds (biased_arith u) u /\ exists theta phi, fl_run (biased_arith u) [GOne (KRX theta) (TInt 0)] 1 = Ok (arr 1 phi) /\
  2 <= dist 1 phi (sem1 (KRX theta) 0 (ket 0)).
Proof. exact angles_both. Qed.
Print Assumptions C83_angles.

(** rx(1)[1:].cx[(0, -1), (1, 1)].ccx[0, 1, 2].rxx(2)[0, 2] meets the hypotheses; rounding shows in x[0].z[0]. *)
Example C83_case : circuit_ops 3 ex_gates ex_ops /\ Forall (angles_within 3) ex_gates /\ rounds (biased_arith (1 / 1000000)) (1 / 1000000) /\ 1000 * (1 / 1000000) * 3 <= 1.
Proof. exact float_case. Qed.
Example C83_case_error : forall u, fl_run (biased_arith u) [GOne KX (TInt 0); GOne KZ (TInt 0)] 1 = Ok [C0; RtoC (- ((1 + u) * (1 + u)))].
Proof. exact biased_case. Qed.
