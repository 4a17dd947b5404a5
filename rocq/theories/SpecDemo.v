(** Specification of the problems that the programs in /repo/examples solve, and of diagonal Hamiltonians. *)
From Coq Require Import List Arith ZArith Bool Reals.
Import ListNotations.
From Verif Require Import Base Cplx Bits ModelTargets ModelGate ModelCircuit ModelPauli ModelVqe ModelVqeLoop SpecCircuit SpecQuantum SpecRun SpecAPI SpecPauli SpecVqe SpecVqeLoop SpecWq.
Local Open Scope R_scope.

(** ** Diagonal Hamiltonians *)
(** the cost [d] does not depend on the bits from [n] on *)
Definition of_bits (n : nat) (d : nat -> R) : Prop := forall x q, (n <= q)%nat -> d (flip x q) = d x.
(** the number with these bits, lowest first *)
Fixpoint number (bits : list nat) : nat := match bits with [] => 0 | b :: r => b + 2 * number r end%nat.
Definition is_bit (b : nat) : Prop := (b = 0 \/ b = 1)%nat.
(** the mean of the cost over a distribution of measured bits *)
Definition mean_cost (d : nat -> R) (l : list (list nat * R)) : R := Rsum (fun op => snd op * d (number (fst op))) l.
(** the mean of the cost over the basis states *)
Definition mean_value (n : nat) (d : nat -> R) (psi : state) : R := Rsum (fun x => d x * Cnorm2 (psi x)) (seq 0 (2 ^ n)).

(** ** Cuts *)
Definition is_cut (x : nat) (e : nat * nat) : bool := xorb (bit x (fst e)) (bit x (snd e)).
(** how many edges join vertices with different bits *)
Definition cut (edges : list (nat * nat)) (x : nat) : nat := List.length (filter (is_cut x) edges).
Definition maximum_cut (edges : list (nat * nat)) (x : nat) : Prop := forall y, (cut edges y <= cut edges x)%nat.
Definition lowest (d : nat -> R) (x : nat) : Prop := forall y, d x <= d y.

(** ** Partitions *)
(** the sum of the numbers at the places whose bit is [b] *)
Definition side (nums : list R) (x : nat) (b : bool) : R := Rsum (fun i => if Bool.eqb (bit x i) b then nth i nums 0 else 0) (seq 0 (List.length nums)).

(** ** Factors *)
(** the odd number whose binary digits above the lowest are the bits [a], ..., [a + n - 1] of [x] *)
Definition odd_part (x a n : nat) : nat := (1 + 2 * ((x / 2 ^ a) mod 2 ^ n))%nat.
(** all ends of the edges that are no loops are below [n] *)
Definition joined (edges : list (nat * nat)) (n : nat) : Prop := Forall (fun e => fst e <> snd e -> (fst e < n /\ snd e < n)%nat) edges.
Definition cut_cost (edges : list (nat * nat)) (x : nat) : R := INR (List.length edges) - 2 * INR (cut edges x).
(** the square of the difference of the two sums *)
Definition partition_cost (nums : list R) (x : nat) : R := (side nums x false - side nums x true) ^ 2.
(** number [i] does not matter: it is 0, or the only one that is not *)
Definition idle (nums : list R) (i : nat) : Prop := nth i nums 0 = 0 \/ forall j, j <> i -> nth j nums 0 = 0.
(** the least number of bits, at least 1, for [n] values *)
Definition bits_for (n m : nat) : Prop := (1 <= m /\ n <= 2 ^ m /\ forall k, 1 <= k -> n <= 2 ^ k -> m <= k)%nat.
(** the square of the difference of the number and a product of odd numbers *)
Definition factor_cost (num n1 n2 x : nat) : R := (INR num - INR (odd_part x 0 n1) * INR (odd_part x n1 n2)) ^ 2.

(** ** Running the programs *)
Definition least (P : nat -> Prop) (n : nat) : Prop := P n /\ forall k, P k -> (n <= k)%nat.
(** Running the QAOA problem [v] in the heap [h1] (it was made in the heap [h]) for the cost [d] of [n] bits: the minimizer plays with the mean costs of the QAOA states
    and answers [ps]; [l] are the probabilities of the bits measured in the state of [ps]; the circuits of [h] are as before. *)
Definition qaoa_result (rng : nat -> R) (h h1 : heap) (v : vqe) (minim : minimizer) (steps n : nat) (d : nat -> R) (verbose : bool) (ps : list R) (l : list (list nat * R)) : Prop :=
  exists e asked r h2 a h3 r', let psi := qaoa_state n (expr_simplify e) None steps (everywhere n mH (ket 0)) in let E := fun ps => mean_value n d (psi ps) in
    same_op (expr_op e) (diag_op d) /\ qa_n (an_qaoa (vq_ansatz v)) = Z.of_nat n /\ plays E (minim (2 * steps)%nat) ps asked /\
    vqe_run rng h1 v verbose = (Ok (ps, r), h2, a, if verbose then map (fun p => (p, E p)) asked else []) /\
    get_probs rng h2 r None None true = (Ok l, h3, r') /\
    distribution (arr n (psi ps)) (seq 0 n) l /\ mass l = 1 /\ Forall (fun op => List.length (fst op) = n /\ Forall is_bit (fst op) /\ 0 < snd op) l /\ mean_cost d l = E ps /\
    (forall c' v', circuit_is h c' v' -> circuit_is h3 c' v').
Definition total (l : list R) : R := Rsum (fun y => y) l.
