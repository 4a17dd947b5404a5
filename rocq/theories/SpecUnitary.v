(** Specification of circuit_to_unitary. *)
From Coq Require Import List Arith ZArith Bool Reals.
Import ListNotations.
From Verif Require Import Base Cplx Bits ModelTargets ModelGate SpecQuantum SpecCircuit SpecMeasure.

(** Running the circuit once from each of the basis states [js], one after the other in the stream of random numbers; the final states. *)
Inductive basis_runs (rng : nat -> R) (n : nat) (gs : list gate) : nat -> list nat -> list state -> nat -> Prop :=
| br_nil : forall pos, basis_runs rng n gs pos [] [] pos
| br_cons : forall pos j js w psis pos', exec rng n gs (World (ket j) (fun _ => 0) pos) w -> basis_runs rng n gs (w_pos w) js psis pos' ->
    basis_runs rng n gs pos (j :: js) (w_psi w :: psis) pos'.
(** [m] has the columns [psis] *)
Definition has_columns (n : nat) (psis : list state) (m : list (list C)) : Prop :=
  length m = 2 ^ n /\ Forall (fun row => length row = length psis) m /\
  forall r c, r < 2 ^ n -> c < length psis -> nth c (nth r m []) C0 = nth c psis (ket 0) r.
