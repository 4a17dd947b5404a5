(** Measurements in arithmetic with underflow and overflow. *)
From Coq Require Import List Arith NArith ZArith Bool Reals Permutation.
Import ListNotations.
From Verif Require Import Base Cplx ModelFloat ModelFloatNumba SpecFinite SpecFloatMeasure SpecFloatNumba.
Local Open Scope R_scope.

(** divisors from 1/B on *)
Definition divides_within (A : arith) (u eta B : R) : Prop :=
  forall a b, Rabs a <= B -> / B <= b <= B -> Rabs (f_div A a b - a / b) <= u * Rabs (a / b) + eta.
(** factors up to 1/u *)
Definition scales (c : compiled) (u eta : R) : Prop :=
  forall i z s, size z <= 6 -> Rabs s <= / u -> size (c_mul c i z (RtoC s) - z * RtoC s)%C <= 5 * u * (size z * Rabs s) + 20 * eta.

(** The norm, and the sum of the squares, of up to [2^n] numbers whose squares add up to at most 4 *)
Definition norms_within (N : list C -> R) (n : nat) (w g : R) : Prop :=
  forall v, (List.length v <= 2 ^ n)%nat -> exact_norm2 v <= 4 -> Rabs (N v - sqrt (exact_norm2 v)) <= w * (sqrt (exact_norm2 v) + g).
Definition sums_within (S : list C -> R) (n : nat) (w g : R) : Prop :=
  forall v, (List.length v <= 2 ^ n)%nat -> exact_norm2 v <= 4 -> Rabs (S v - exact_norm2 v) <= w * (exact_norm2 v + g).

(** The sum of the squares of some numbers in any order and grouping, with [k] additions, started from zeros or not; a square may be rounded before it is
    added or not, as in a fused operation. *)
Inductive added (u eta : R) : nat -> list R -> R -> Prop :=
| added_zero : added u eta 0 [] 0
| added_square : forall x r, Rabs (r - x * x) <= u * (x * x) + eta -> added u eta 0 [x] r
| added_sum : forall k j xs ys zs x y r, added u eta k xs x -> added u eta j ys y -> Permutation (xs ++ ys) zs ->
    Rabs (r - (x + y)) <= u * Rabs (x + y) + eta -> added u eta (S (k + j)) zs r.
Definition parts (v : list C) : list R := flat_map (fun z => [fst z; snd z]) v.
(** a norm that is a rounded square root of such a sum *)
Definition root_of_sum (u eta : R) (k : nat) (v : list C) (r : R) : Prop :=
  exists s, added u eta k (parts v) s /\ 0 <= s /\ Rabs (r - sqrt s) <= u * sqrt s + eta.

(** Errors u and eta for operands up to B, angles up to M, a register of n qubits; g is the share of underflow in the errors *)
Definition ranges (u eta B M : R) (n : nat) (g : R) : Prop :=
  0 < u /\ eta <= u * u /\ / u <= B /\ 3 <= M /\ 1000 * u * M <= 1 /\ eta / u * sqrt (2 ^ n) <= g /\ g <= 1.
(** of a shot with L operations, measurements and resets; v is the error of a probability *)
Definition shot_error (u M g v : R) (L : nat) : R := ((1 + 300 * (u * M)) ^ (7 * L) - 1 + v) * (1 + 2 * g).
(** the sum of the squares one after the other, in the arithmetic [A]; [sequential_norm A v] is its root *)
Definition sequential_sum (A : arith) (v : list C) : R :=
  fold_left (fun s z => f_add A s (f_add A (f_mul A (fst z) (fst z)) (f_mul A (snd z) (snd z)))) v 0.
