(** C92.  The index array of 32 bits of the numpy backend. *)
From Coq Require Import List Arith NArith ZArith Bool Reals.
Import ListNotations.
From Verif Require Import Base Cplx Bits ModelNumpy ModelNumpyIndex SpecQuantum ProofNumpyIndex.
Local Open Scope nat_scope.

(** Registers of at most 32 qubits, and the first 32 qubits of others: the masks and gates of ModelNumpy *)
Theorem C92_masks : forall n target, n <= 32 -> mask32_eq0 n target = mask_eq0 n target /\ mask32_ne0 n target = mask_ne0 n target.
Proof. exact masks_same. Qed.
Print Assumptions C92_masks.
Theorem C92_masks_low : forall n target, (target < 32)%Z -> mask32_eq0 n target = mask_eq0 n target /\ mask32_ne0 n target = mask_ne0 n target.
Proof. exact masks_low. Qed.
Print Assumptions C92_masks_low.
Theorem C92_steps : forall n target, n <= 32 \/ (target < 32)%Z ->
  (forall s, step32_x n target s = step_x n target s) /\ (forall s, step32_h n target s = step_h n target s) /\ (forall a s, step32_diag1 a n target s = step_diag1 a n target s).
Proof. exact steps_same. Qed.
Print Assumptions C92_steps.
Theorem C92_acts : forall n t, (0 <= t < Z.of_nat n)%Z -> n <= 32 -> forall psi beta,
  (exists beta', step32_x n t (arr n psi, arr n beta) = Ok (arr n (ap1 mX (Z.to_nat t) psi), arr n beta')) /\
  (exists beta', step32_h n t (arr n psi, arr n beta) = Ok (arr n (ap1 mH (Z.to_nat t) psi), arr n beta')) /\
  (forall a, exists beta', step32_diag1 a n t (arr n psi, arr n beta) = Ok (arr n (ap1 (mk2 C1 C0 C0 a) (Z.to_nat t) psi), arr n beta')).
Proof. exact acts32. Qed.
Print Assumptions C92_acts.

(** Later qubits: every index counts as having bit 0 *)
Theorem C92_masks_high : forall n target, (32 <= target)%Z -> mask32_eq0 n target = Ok (map (fun _ => true) (seq 0 (2 ^ n))) /\ mask32_ne0 n target = Ok (map (fun _ => false) (seq 0 (2 ^ n))).
Proof. exact masks_high. Qed.
Print Assumptions C92_masks_high.
Theorem C92_high : forall n target psi newq, (32 <= target)%Z -> step32_x n target (arr n psi, newq) = Err ValueError /\ step32_h n target (arr n psi, newq) = Err ValueError /\
  forall a, step32_diag1 a n target (arr n psi, newq) = Ok (arr n psi, newq).
Proof. exact high_steps. Qed.
Print Assumptions C92_high.
Theorem C92_refuted : exists n target, (0 <= target < Z.of_nat n)%Z /\ (forall psi newq, step32_x n target (arr n psi, newq) = Err ValueError) /\ (forall psi newq, step32_h n target (arr n psi, newq) = Err ValueError) /\
  exists psi, arr n (ap1 (mk2 C1 C0 C0 (- C1)%C) (Z.to_nat target) psi) <> arr n psi /\ forall newq, step32_diag1 (- C1)%C n target (arr n psi, newq) = Ok (arr n psi, newq).
Proof. exact index_refuted. Qed.
Print Assumptions C92_refuted.

Example C92_case : (0 <= 1 < Z.of_nat 2)%Z /\ mask32_eq0 2 1 = Ok [true; true; false; false] /\ mask32_ne0 2 1 = Ok [false; false; true; true].
Proof. exact index_case. Qed.
Print Assumptions C92_case.
