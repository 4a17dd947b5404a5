(** C97: with many slices, quantum annealing samples the thermal state of the Hamiltonian E - G sum X *)
From Coq Require Import List Arith Bool Reals.
Import ListNotations.
From Verif Require Import Cplx Bits SpecQuantum SpecLaw SpecWq SpecOpt SpecAnneal SpecSqa SpecThermal ProofLie ProofThermal.
Local Open Scope R_scope.

(** Every matrix has an exponential, *)
Theorem C97_exists : forall n K, exists A, exponential_of n K A.
Proof. exact exponential_exists. Qed.
Print Assumptions C97_exists.
(** and [hops a], which the slices of Trotter's formula use, is exp(a sum X). *)
Theorem C97_hops : forall n a, exponential_of n (fun b c => a * field_matrix n b c) (hops a).
Proof. exact hops_exponential. Qed.
Print Assumptions C97_hops.
(** The probabilities of the thermal state exp(-(E - G sum X)/T) are positive and add up to 1. *)
Theorem C97_positive : forall n energy T G, 0 < T -> 0 < G -> forall A, gibbs n (field_hamiltonian n energy G) T A -> forall c, In c (values n) -> 0 < thermal_law n A c.
Proof. exact thermal_positive. Qed.
Print Assumptions C97_positive.
Theorem C97_total : forall n energy T G, 0 < T -> 0 < G -> forall A, gibbs n (field_hamiltonian n energy G) T A -> Rsum (thermal_law n A) (values n) = 1.
Proof. exact thermal_total. Qed.
Print Assumptions C97_total.
(** As the number of slices grows, a slice of the path follows the law of the thermal state, *)
Theorem C97_limit : forall n Q T G A, 0 < T -> 0 < G -> gibbs n (field_hamiltonian n (objective n Q) G) T A -> forall c eps, In c (values n) -> 0 < eps ->
  exists P0, forall P, (P0 <= P)%nat -> Rabs (first_slice n P (boltzmann (P * n) (slices_energy n P (objective n Q) T G) T) c - thermal_law n A c) < eps.
Proof. exact slices_limit. Qed.
Print Assumptions C97_limit.
(** and so does the first slice of the annealer's answer, with enough proposals for each field, when the last field is [G]. *)
Theorem C97_answer : forall n Q T G A, (0 < n)%nat -> 0 < T -> 0 < G -> gibbs n (field_hamiltonian n (objective n Q) G) T A -> forall c eps, In c (values n) -> 0 < eps ->
  exists P0, forall P, (P0 <= P)%nat -> forall l, exists k0, forall k, (k0 <= k)%nat ->
  Rabs (first_slice n P (phase_chance (P * n) (field_phases n P (objective n Q) T k (l ++ [G]))) c - thermal_law n A c) < eps.
Proof. exact answer_limit. Qed.
Print Assumptions C97_answer.
(** a spin without energy in the field 2, at temperature 1 *)
Example C97_case : gibbs 1 (field_hamiltonian 1 (fun _ => 0) 2) 1 (hops 2) /\ thermal_law 1 (hops 2) [true] = / 2.
Proof. exact free_spin. Qed.
