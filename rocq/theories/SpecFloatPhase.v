(** The removal of the global phase with rounding. *)
From Coq Require Import List Arith NArith ZArith Bool Reals.
Import ListNotations.
From Verif Require Import Base Cplx Bits ModelFloat SpecQuantum SpecFloat SpecFinite.
Local Open Scope R_scope.

(** [abs] of a complex number with a relative error of [w]; for small numbers it may be larger *)
Definition abs_within (habs : C -> R) (w : R) : Prop := forall q, Cabs q <= 2 -> Rabs (habs q - Cabs q) <= w * (Cabs q + / 10 ^ 10).
(** quotients of numbers of either sign *)
Definition divides_signed (A : arith) (u eta B : R) : Prop :=
  forall a b, Rabs a <= B -> / B <= Rabs b <= B -> Rabs (f_div A a b - a / b) <= u * Rabs (a / b) + eta.
(** the state with the entry [j] turned to a positive number *)
Definition turned (j : nat) (psi : state) : state := scl (RtoC (Cabs (psi j)) / psi j) psi.
(** [j] is the first entry above 1/10^7, and no entry up to [j] has a modulus in the distance of less than [m] from that *)
Definition leads (n : nat) (psi : state) (j : nat) (m : R) : Prop :=
  (j < 2 ^ n)%nat /\ / 10 ^ 7 + m <= Cabs (psi j) /\ forall i, (i < j)%nat -> Cabs (psi i) <= / 10 ^ 7 - m.
(** precision, least number and largest number *)
Definition phase_ranges (u eta B : R) (n : nat) (g : R) : Prop := 0 < u <= / 10 ^ 4 /\ 0 <= eta <= u / 10 ^ 20 /\ 10 ^ 10 <= B /\ eta / u * sqrt (2 ^ n) <= g.

(** [f] multiplies a state by a number of modulus 1, up to an error; the number turns the first entry with [abs] above [thr] to a positive one *)
Definition unit_close (n : nat) (u w g : R) (habs : C -> R) (thr : R) (f : list C -> list C) : Prop := forall phi, norm n phi <= 3 / 2 ->
  exists k phi', Cnorm2 k = 1 /\ f (arr n phi) = arr n phi' /\ dist n phi' (scl k phi) <= (120 * u + 6 * w) * (norm n phi + g) /\
  ((exists i, (i < 2 ^ n)%nat /\ thr < habs (phi i)) ->
   exists j, (j < 2 ^ n)%nat /\ thr < habs (phi j) /\ (forall i, (i < j)%nat -> habs (phi i) <= thr) /\ (k * phi j)%C = RtoC (Cabs (phi j))).
(** [f] gives states close to the turned one to states close to [psi] if no modulus is too close to 1/10^7 *)
Definition turned_close (n : nat) (u w g : R) (f : list C -> list C) : Prop := forall phi psi j e m, norm n psi <= 1 -> dist n phi psi <= e -> e <= 1 / 2 ->
  e + 3 * w * / 10 ^ 7 <= m -> leads n psi j m ->
  exists phi', f (arr n phi) = arr n phi' /\ dist n phi' (turned j psi) <= (1 + 2 / Cabs (psi j)) * e + (120 * u + 6 * w) * (3 / 2 + g).
