(** C86: rounding errors of circuits on the numba backend. *)
From Coq Require Import List Arith NArith ZArith Bool Reals.
Import ListNotations.
From Verif Require Import Base Cplx Bits ModelTargets ModelGate ModelNumpy ModelNumba ModelFloat ModelFloatNumba SpecTargets SpecQuantum SpecCircuit SpecMeasure SpecNumba SpecFloat SpecFinite
  SpecFloatNumba ProofExamples ProofFiniteTop ProofFloatNumbaTop ProofFloatNumba4 ProofFloatNumba5.
Local Open Scope R_scope.

(** With exact arithmetic and 1/sqrt 2 in the Hadamard gate, the rounded model is the model of the run. *)
Theorem C86_exact : forall rng gs n ec pos, Forall no_collapse gs ->
  fst (fst (nb_run rng new_backend gs n (NbArgs no_args ec) pos)) = match fn_run exact_compiled exact_arith gs n with Ok v => Ok (RState v) | Err e => Err e end.
Proof. exact fn_exact_lemma. Qed.
Print Assumptions C86_exact.

(** Loops whose assignments have the errors of [compiles], methods in an arithmetic with errors u and eta: the run ends without an error near the exact state. *)
Theorem C86_error : forall c P u eta B M n gs ops, compiles c u eta B -> rounds_within P u eta B -> 1 / 10 ^ 16 <= u -> eta <= u -> 3 <= M -> 128 * M <= B -> 1000 * u * M <= 1 ->
  (n <= 64)%nat -> circuit_ops n gs ops -> Forall (angles_within M) gs ->
  (1 + 300 * (u * M)) ^ (7 * List.length ops) * (1 + eta / u * sqrt (2 ^ n)) <= 4 ->
  exists phi, fn_run c P gs n = Ok (arr n phi) /\
    dist n phi (apply_all ops (ket 0)) <= ((1 + 300 * (u * M)) ^ (7 * List.length ops) - 1) * (1 + eta / u * sqrt (2 ^ n)).
Proof. exact fn_error_lemma. Qed.
Print Assumptions C86_error.
Theorem C86_linear : forall c P u eta B M n gs ops, compiles c u eta B -> rounds_within P u eta B -> 1 / 10 ^ 16 <= u -> eta <= u -> 3 <= M -> 128 * M <= B -> 1000 * u * M <= 1 ->
  (n <= 64)%nat -> circuit_ops n gs ops -> Forall (angles_within M) gs -> eta / u * sqrt (2 ^ n) <= 1 -> 4200 * u * M * INR (List.length ops) <= 1 ->
  exists phi, fn_run c P gs n = Ok (arr n phi) /\ dist n phi (apply_all ops (ket 0)) <= 4200 * u * M * INR (List.length ops) * (1 + eta / u * sqrt (2 ^ n)).
Proof. exact fn_linear_lemma. Qed.
Print Assumptions C86_linear.

(** Rounded or not, every interleaving of the iterations of a loop leaves the same array. *)
Theorem C86_schedule : forall c n k a, (n <= 64)%nat -> rounded_loop c (N.of_nat n) k -> List.length a = (2 ^ n)%nat -> race_free k a.
Proof. exact fn_race_free. Qed.
Print Assumptions C86_schedule.

(** Kinds of code that meet [compiles]: one operation after the other, fused operations, and either of two by the index. *)
Theorem C86_plain : forall A u eta B lit, rounds_within A u eta B -> 0 < u <= 1 / 100 -> eta <= u -> 192 <= B ->
  (forall x, Rabs x <= 1 -> Rabs (lit x - x) <= u * Rabs x + eta) -> compiles (plain_compiled A lit) u eta B.
Proof. exact plain_lemma. Qed.
Print Assumptions C86_plain.
Theorem C86_fused : forall A u eta B lit, rounds_within A u eta B -> 0 < u <= 1 / 100 -> eta <= u -> 192 <= B ->
  (forall x, Rabs x <= 1 -> Rabs (lit x - x) <= u * Rabs x + eta) -> forall F, fuses F u eta B -> compiles (fused_compiled A F lit) u eta B.
Proof. exact fused_lemma. Qed.
Print Assumptions C86_fused.
Theorem C86_mixed : forall p c d u eta B, compiles c u eta B -> compiles d u eta B -> compiles (mixed_compiled p c d) u eta B.
Proof. exact mixed_lemma. Qed.
Print Assumptions C86_mixed.

(** Doubles: up to 64 qubits, a million operations, and angles up to 7. *)
Theorem C86_double_plain : forall over, compiles (plain_compiled (double_arith over) (double_lit over)) (/ 2 ^ 53) (powerRZ 2 (-1075)) (powerRZ 2 500).
Proof. exact dbl_plain. Qed.
Print Assumptions C86_double_plain.
Theorem C86_double_fused : forall over, compiles (fused_compiled (double_arith over) (double_fma over) (double_lit over)) (/ 2 ^ 53) (powerRZ 2 (-1075)) (powerRZ 2 500).
Proof. exact dbl_fused. Qed.
Print Assumptions C86_double_fused.
Theorem C86_double : forall c over n gs ops, compiles c (/ 2 ^ 53) (powerRZ 2 (-1075)) (powerRZ 2 500) -> (n <= 64)%nat -> circuit_ops n gs ops -> Forall (angles_within 7) gs ->
  (Z.of_nat (List.length ops) <= 1000000)%Z ->
  exists phi, fn_run c (double_arith over) gs n = Ok (arr n phi) /\ dist n phi (apply_all ops (ket 0)) <= 1 / 300000.
Proof. exact dbl_lemma. Qed.
Print Assumptions C86_double.

(** The program has 0.7071067811865475 for 1/sqrt 2: this alone, without rounding, gives an error that grows with the operations, and one Hadamard gate shows it. *)
Theorem C86_literal : forall M n gs ops, 3 <= M -> M <= 1000000000000 -> (n <= 64)%nat -> circuit_ops n gs ops -> Forall (angles_within M) gs ->
  42 * M * INR (List.length ops) <= 10 ^ 14 ->
  exists phi, fn_run (plain_compiled exact_arith (fun x => x)) exact_arith gs n = Ok (arr n phi) /\ dist n phi (apply_all ops (ket 0)) <= 42 * M * INR (List.length ops) / 10 ^ 14.
Proof. exact literal_bound. Qed.
Print Assumptions C86_literal.
Theorem C86_literal_refuted : exists gs ops, circuit_ops 1 gs ops /\ fn_run (plain_compiled exact_arith (fun x => x)) exact_arith gs 1 <> Ok (arr 1 (apply_all ops (ket 0))).
Proof. exact (ex_intro _ _ (ex_intro _ _ (conj had_circuit literal_refuted))). Qed.
Print Assumptions C86_literal_refuted.

(** The circuit of C83_case meets the hypotheses of C86_double, and a loop of it those of C86_schedule. *)
Example C86_case : circuit_ops 3 ex_gates ex_ops /\ Forall (angles_within 7) ex_gates /\ (Z.of_nat (List.length ex_ops) <= 1000000)%Z.
Proof. exact finite_case. Qed.
Print Assumptions C86_case.
Example C86_loop : forall c, exists k, fk_cz c 3 [0; 2]%N = Ok k /\ rounded_loop c 3 k.
Proof. exact loop_case. Qed.
Print Assumptions C86_loop.
