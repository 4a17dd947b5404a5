(** How wrong rounded energies by sparse matrices may be. *)
From Coq Require Import List Arith ZArith Bool Reals.
Import ListNotations.
From Verif Require Import Base Cplx Bits ModelPauli ModelPauliMatrix ModelFloat SpecQuantum SpecPauli SpecVqe SpecFloatNumba.
Local Open Scope R_scope.

(** The numbers [D] of the arithmetic: sums with 0 and products with 0, 1 and -1 are not rounded *)
Record keeps (A : arith) (D : R -> Prop) : Prop := Keeps {
  k_zero : D 0; k_one : D 1; k_opp : forall x, D x -> D (- x);
  k_add0 : forall x, D x -> f_add A x 0 = x /\ f_add A 0 x = x;
  k_sub0 : forall x, D x -> f_sub A x 0 = x /\ f_sub A 0 x = - x;
  k_mul0 : forall x, D x -> f_mul A x 0 = 0 /\ f_mul A 0 x = 0;
  k_mul1 : forall x, D x -> f_mul A x 1 = x /\ f_mul A 1 x = x;
  k_mulm1 : forall x, D x -> f_mul A x (-1) = - x /\ f_mul A (-1) x = - x }.
Definition coefficients_in (D : R -> Prop) (ham : expr) : Prop := Forall (fun t => D (Cre (t_coeff t)) /\ D (Cim (t_coeff t))) ham.

(** [np.vdot] of up to [2^n] numbers, the first ones of a state, in any order: an error of at most [w] times the sum of the sizes of the products, and [g] *)
Definition dots_within (dot : list C -> list C -> C) (n : nat) (w g B : R) : Prop :=
  forall a b, List.length a = List.length b -> (List.length a <= 2 ^ n)%nat -> Forall (fun z => size z <= 6) a -> Forall (fun z => size z <= B / 20) b ->
  2 * Rsum (fun p => size (fst p) * size (snd p)) (combine a b) + 2 <= B ->
  size (dot a b - Csum (fun p => Cconj (fst p) * snd p) (combine a b))%C <= w * Rsum (fun p => size (fst p) * size (snd p)) (combine a b) + g.
(** one product after the other *)
Definition sequential_dot (A : arith) (a b : list C) : C := fold_left (fun s p => fc_add A s (fc_mul A (Cconj (fst p)) (snd p))) (combine a b) C0.

(** the sum of the sizes of the coefficients *)
Definition total (ham : expr) : R := Rsum (fun t => size (t_coeff t)) ham.
(** precision, least number, largest number, Hamiltonian *)
Definition sparse_ranges (u eta B : R) (ham : expr) : Prop :=
  0 < u <= / 1000 /\ 0 <= eta <= u / 1000 /\ INR (List.length ham) * u <= 1 / 10 /\ 2 ^ expr_qubits ham * (INR (List.length ham) * INR (List.length ham) * eta) <= / 1000 /\ 1000 * (1 + total ham) <= B.
(** a number of double precision *)
Definition is_double (x : R) : Prop := exists m e : Z, (Z.abs m < 2 ^ 53)%Z /\ (-1074 <= e)%Z /\ Rabs x <= powerRZ 2 1023 /\ x = IZR m * powerRZ 2 e.
(** a simplified Hamiltonian on [n] qubits for double precision *)
Definition double_sparse (n : nat) (ham : expr) : Prop :=
  expr_qubits ham = n /\ Forall (fun t => separate_word n (t_ops t)) ham /\ coefficients_in is_double ham /\ (Z.of_nat (List.length ham) <= 1000000)%Z /\ total ham <= 10 ^ 12.
