(** Rounded measurements. *)
From Coq Require Import List Arith ZArith Bool Reals.
Import ListNotations.
From Verif Require Import Base Cplx Bits ModelTargets ModelGate ModelNumpy ModelFloat SpecTargets SpecQuantum SpecCircuit SpecMeasure SpecLaw SpecFloat.
Local Open Scope R_scope.

(** A function that finds the Euclidean norm of up to [2^n] numbers with a relative error of at most [u] *)
Definition exact_norm2 (v : list C) : R := Rsum (fun z => fst z * fst z + snd z * snd z) v.
Definition norms (N : list C -> R) (n : nat) (u : R) : Prop :=
  forall v, (List.length v <= 2 ^ n)%nat -> Rabs (N v - sqrt (exact_norm2 v)) <= u * sqrt (exact_norm2 v).
(** the sum of the squares one after the other, in the arithmetic [A] *)
Definition sequential_norm (A : arith) (v : list C) : R :=
  f_sqrt A (fold_left (fun s z => f_add A s (f_add A (f_mul A (fst z) (fst z)) (f_mul A (snd z) (snd z)))) v 0).

(** The exact probability of 0 at every measurement and reset, when the values before it are [s] *)
Fixpoint thresholds (n : nat) (es : list event) (s : list bool) (psi : state) : list R :=
  match es, s with
  | [], _ => []
  | EOp U :: r, _ => thresholds n r s (U psi)
  | EMeasure t :: r, b :: s => prob n t false psi / norm2 n psi :: thresholds n r s (project t b psi)
  | EReset t :: r, b :: s => prob n t false psi / norm2 n psi :: thresholds n r s (if b then ap1 mX t (project t b psi) else project t b psi)
  | _, [] => []
  end.
(** no draw is within [m] of its threshold *)
Definition apart (m : R) (ts : list R) (rng : nat -> R) (pos : nat) : Prop :=
  forall i, (i < List.length ts)%nat -> m <= Rabs (rng (pos + i)%nat - nth i ts 0).
(** The intervals of the draws without those within [m] of the thresholds, and their volume *)
Definition narrow (m : R) (b : bool) (iv : R * R) : R * R := if b then (fst iv + m, snd iv) else (fst iv, snd iv - m).
Fixpoint narrowed (m : R) (s : list bool) (ivs : list (R * R)) : list (R * R) :=
  match s, ivs with b :: s, iv :: ivs => narrow m b iv :: narrowed m s ivs | _, _ => [] end.
Definition volume (ivs : list (R * R)) : R := fold_right (fun iv v => Rmax 0 (snd iv - fst iv) * v) 1 ivs.
(** the same with a margin at every draw that is [m] divided by the probability of the values before it *)
Fixpoint clear (m : R) (n : nat) (es : list event) (s : list bool) (psi : state) (rng : nat -> R) (pos : nat) : Prop :=
  match es, s with
  | [], _ => True
  | EOp U :: r, _ => clear m n r s (U psi) rng pos
  | EMeasure t :: r, b :: s => m <= Rabs (rng pos - prob n t false psi / norm2 n psi) * norm2 n psi /\ clear m n r s (project t b psi) rng (S pos)
  | EReset t :: r, b :: s => m <= Rabs (rng pos - prob n t false psi / norm2 n psi) * norm2 n psi /\
      clear m n r s (if b then ap1 mX t (project t b psi) else project t b psi) rng (S pos)
  | _, [] => True
  end.
