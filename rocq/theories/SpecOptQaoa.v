(** Specification of QAOA for a QUBO. *)
From Coq Require Import List Arith Reals.
Import ListNotations.
From Verif Require Import Cplx Bits SpecWq SpecDemo.
Local Open Scope R_scope.

(** the QUBO energy of the bits of a number *)
Definition bits_energy (n : nat) (Q : nat -> nat -> R) (x : nat) : R := qubo_energy n Q (bit_value x).
(** variable [i] has a linear term or a coupling to another variable *)
Definition matters (n : nat) (Q : nat -> nat -> R) (i : nat) : Prop :=
  (i < n)%nat /\ (Q i i <> 0 \/ exists j, (j < n)%nat /\ j <> i /\ Q i j + Q j i <> 0).
(** all variables that matter are below [k] *)
Definition covers (n : nat) (Q : nat -> nat -> R) (k : nat) : Prop := forall i, matters n Q i -> (i < k)%nat.
