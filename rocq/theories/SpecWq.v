(** Specification of QUBO and Ising energies, and of annealing. *)
From Coq Require Import List Arith ZArith Bool Reals.
Import ListNotations.
From Verif Require Import Cplx Bits SpecQuantum.
Local Open Scope R_scope.

Definition total (n : nat) (f : nat -> R) : R := Rsum f (seq 0 n).
(** x^T Q x *)
Definition qubo_energy (n : nat) (Q : nat -> nat -> R) (x : nat -> R) : R := total n (fun i => total n (fun j => Q i j * x i * x j)).
Definition upper_triangular (n : nat) (Q : nat -> nat -> R) : Prop := forall i j, (j < i < n)%nat -> Q i j = 0.
Definition upper_part (Q : nat -> nat -> R) : nat -> nat -> R := fun i j => if (i <=? j)%nat then Q i j else 0.
(** linear terms on the diagonal, every pair i < j once *)
Definition ising_energy (n : nat) (J : nat -> nat -> R) (q : nat -> R) : R :=
  total n (fun i => J i i * q i) + total n (fun i => total n (fun j => if (i <? j)%nat then J i j * q i * q j else 0)).

Definition bits (n : nat) (x : nat -> R) : Prop := forall i, (i < n)%nat -> x i = 0 \/ x i = 1.
Definition spins (n : nat) (q : nat -> R) : Prop := forall i, (i < n)%nat -> q i = -1 \/ q i = 1.
(** the bit of a spin *)
Definition bit_of (q : R) : R := (q + 1) / 2.

(** the energy of spins, for the upper triangle of a matrix *)
Definition objective (n : nat) (Q : nat -> nat -> R) (q : nat -> R) : R := qubo_energy n (upper_part Q) (fun i => bit_of (q i)).

(** ** Simulated annealing of an energy function on spin vectors of length [n] *)
Section Annealing.
Variable n : nat.
Variable energy : (nat -> R) -> R.
Definition flipped (q : nat -> R) (x : nat) : nat -> R := fun i => if (i =? x)%nat then - q i else q i.
Definition difference (q : nat -> R) (x : nat) : R := energy (flipped q x) - energy q.
(** the stream of numbers drawn, and of spins proposed *)
Variable draws : nat -> R.
Variable sites : nat -> nat.
(** a proposal at temperature [T] to turn spin [x], when [d] numbers have been drawn: it is accepted if the energy falls, else a number is drawn *)
Inductive proposal (T : R) (x : nat) (q : nat -> R) (d : nat) : (nat -> R) -> nat -> Prop :=
| falls : difference q x < 0 -> proposal T x q d (flipped q x) d
| lucky : ~ difference q x < 0 -> draws d < exp (- difference q x / T) -> proposal T x q d (flipped q x) (S d)
| rejected : ~ difference q x < 0 -> ~ draws d < exp (- difference q x / T) -> proposal T x q d q (S d).
Inductive sweep (T : R) : list nat -> (nat -> R) -> nat -> (nat -> R) -> nat -> Prop :=
| sw_nil : forall q d, sweep T [] q d q d
| sw_step : forall x xs q d q1 d1 q2 d2, (x < n)%nat -> proposal T x q d q1 d1 -> sweep T xs q1 d1 q2 d2 -> sweep T (x :: xs) q d q2 d2.
(** temperatures T, T*r, T*r^2, ... while above [target], each with [k] proposals; [l]: the states after each of them, starting from [q];
    [s], [d]: how many sites and numbers have been used before and, [s'], [d'], after *)
Inductive schedule (target r : R) (k : nat) : R -> (nat -> R) -> nat -> nat -> list (nat -> R) -> nat -> nat -> Prop :=
| sc_end : forall T q s d, T <= target -> schedule target r k T q s d [] s d
| sc_round : forall T q s d q' d1 l s' d', target < T -> sweep T (map sites (seq s k)) q d q' d1 -> schedule target r k (T * r) q' (s + k) d1 l s' d' ->
    schedule target r k T q s d (q' :: l) s' d'.
(** [shots] runs, one after the other, from spins chosen by [choices]: the energies of the states after each temperature, the start included,
    and the bits of the last state; [c], [s], [d]: how many choices, sites and numbers have been used before *)
Variable choices : nat -> bool.
Definition chosen (c : nat) : nat -> R := fun i => if choices (c + i) then 1 else -1.
Definition bits_are (q : nat -> R) (b : list Z) : Prop := length b = n /\ forall i, (i < n)%nat -> IZR (nth i b 0%Z) = bit_of (q i).
Inductive anneals (start target r : R) (k : nat) : nat -> nat -> nat -> nat -> list (list R * list Z) -> Prop :=
| an_end : forall c s d, anneals start target r k 0 c s d []
| an_shot : forall m c s d l s' d' b res,
    schedule target r k start (chosen c) s d l s' d' -> bits_are (last l (chosen c)) b -> anneals start target r k m (c + n) s' d' res ->
    anneals start target r k (S m) c s d ((map energy (chosen c :: l), b) :: res).
End Annealing.

(** ** Minima *)
Definition minimal (n : nat) (E : (nat -> R) -> R) (x : nat -> R) : Prop := bits n x /\ forall y, bits n y -> E x <= E y.
(** number of ones *)
Definition ones (n : nat) (x : nat -> R) : R := total n x.
Definition dot (n : nat) (a x : nat -> R) : R := total n (fun i => a i * x i).
(** the position that an index into [n] elements denotes *)
Definition in_range (n : nat) (z : Z) : Prop := (- Z.of_nat n <= z < Z.of_nat n)%Z.
Definition position (n : nat) (z : Z) : nat := Z.to_nat (if (z <? 0)%Z then Z.of_nat n + z else z)%Z.
(** how many entries of [arr] denote a position with a one *)
Definition chosen_ones (n : nat) (arr : list Z) (x : nat -> R) : R := Rsum (fun z => x (position n z)) arr.
(** how many pairs have ones at both ends *)
Definition connected (pairs : list (Z * Z)) (x : nat -> R) : R := Rsum (fun p => x (Z.to_nat (fst p)) * x (Z.to_nat (snd p))) pairs.
Definition same_pair (p q : Z * Z) : Prop := p = q \/ p = (snd q, fst q).

(** an operator that multiplies the amplitude of each basis state by a number *)
Definition diag_op (d : nat -> R) : oper := fun psi x => (RtoC (d x) * psi x)%C.
(** the bit of a qubit in a basis state *)
Definition bit_value (x i : nat) : R := if bit x i then 1 else 0.

(** a pair of numbers below [n] *)
Definition natural (n : nat) (p : Z * Z) : Prop := (0 <= fst p < Z.of_nat n)%Z /\ (0 <= snd p < Z.of_nat n)%Z.
