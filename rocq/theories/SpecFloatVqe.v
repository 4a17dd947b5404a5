(** How wrong rounded probabilities and energies may be. *)
From Coq Require Import List Arith ZArith Bool Reals.
Import ListNotations.
From Verif Require Import Base Cplx Bits ModelPauli SpecQuantum SpecVqe.
Local Open Scope R_scope.

(** [x ** 2]: twice the error of a product, as [pow] of the C library need not round to the nearest *)
Definition squares_within (sq : R -> R) (u eta : R) : Prop := forall x, Rabs x <= 2 -> Rabs (sq x - x * x) <= 2 * u * (x * x) + 2 * eta.
(** the probability of the outcome [o] in a dictionary *)
Definition chance (d : list (list nat * R)) (o : list nat) : R := Rsum (fun kv => if list_eq_dec Nat.eq_dec (fst kv) o then snd kv else 0) d.
(** [d] has each outcome at most once, only outcomes of [meas]; the sum of all errors of probabilities is at most [t] *)
Definition close_distribution (v : list C) (meas : list nat) (d : list (list nat * R)) (t : R) : Prop :=
  NoDup (map fst d) /\ (forall o p, In (o, p) d -> exists x, (x < List.length v)%nat /\ readout meas x = o) /\
  forall os, NoDup os -> Rsum (fun o => Rabs (chance d o - marginal v meas o)) os <= t.
(** precision, least number, largest number, number of qubits *)
Definition sum_ranges (u eta B : R) (n : nat) : Prop := 0 < u <= / 1000 /\ 0 <= eta <= u / 1000 /\ 4 <= B /\ 2 ^ n * u <= 1 / 10.
(** the sum of the coefficients of a Hamiltonian without signs, and the number of outcomes of all its terms *)
Definition strength (ham : expr) : R := Rsum (fun t => Rabs (Cre (t_coeff t))) ham.
Definition all_outcomes (ham : expr) : R := Rsum (fun t => 2 ^ List.length (t_ops t)) ham.
Definition energy_ranges (u B : R) (ham : expr) : Prop :=
  all_outcomes ham * u <= 1 / 10 /\ 5 * (1 + strength ham) <= B /\ Forall (fun t => Rabs (Cim (t_coeff t)) <= B) ham.
(** a Hamiltonian for double precision *)
Definition double_ham (n : nat) (ham : expr) : Prop :=
  Forall (fun t => separate_word n (t_ops t) /\ Rabs (Cim (t_coeff t)) <= 10 ^ 12) ham /\ all_outcomes ham <= 1000000 /\ strength ham <= 10 ^ 12.
