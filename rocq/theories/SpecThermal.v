(** Thermal states of spins in a transverse field. *)
From Coq Require Import List Arith ZArith Bool Reals.
Import ListNotations.
From Verif Require Import Cplx Bits SpecQuantum SpecLaw SpecWq SpecOpt SpecAnneal SpecSqa.
Local Open Scope R_scope.

(** the Hamiltonian E - G sum X *)
Definition field_hamiltonian (n : nat) (energy : (nat -> R) -> R) (G : R) : cmat := fun b c => energy (spin b) * is b c - G * field_matrix n b c.
(** [A] is exp(K): each element is the sum of the exponential series *)
Definition exponential_of (n : nat) (K A : cmat) : Prop :=
  forall b c, In b (values n) -> In c (values n) -> infinite_sum (fun k => cpower n K k b c / INR (fact k)) (A b c).
(** [A] is exp(-H/T) *)
Definition gibbs (n : nat) (H : cmat) (T : R) (A : cmat) : Prop := exponential_of n (fun b c => - H b c / T) A.
(** the probability that the state exp(-H/T) / trace is measured as [c] *)
Definition thermal_law (n : nat) (A : cmat) (c : list bool) : R := A c c / ctrace n A.
(** the probability that the first slice of the answer is [c] *)
Definition first_slice (n P : nat) (law : list bool -> R) (c : list bool) : R := Rsum (fun b => law b * is (slice n b 0) c) (values (P * n)).
