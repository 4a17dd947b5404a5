(** The probability law of quantum annealing by path integrals: a Markov chain on [P] slices of [n] spins, whose energy changes with the transverse field. *)
From Coq Require Import List Arith ZArith Bool Reals.
Import ListNotations.
From Verif Require Import Cplx Bits SpecQuantum SpecLaw SpecWq SpecOpt SpecAnneal.
Local Open Scope R_scope.

(** A chain each of whose proposals has its energy function and its temperature *)
Definition phase : Type := ((list bool -> R) * R)%type.
Fixpoint phase_moves (m : nat) (fs : list phase) (b c : list bool) : R :=
  match fs with
  | [] => is b c
  | (E, T) :: fs => Rsum (fun d => move m E T b d * phase_moves m fs d c) (values m)
  end.
Fixpoint phase_box (fs : list phase) (hs : list (nat * bool)) (b : list bool) : option (list (R * R)) :=
  match fs, hs with
  | (E, T) :: fs, (x, a) :: hs =>
      if Rlt_dec (rise E b x) 0 then (if a then phase_box fs hs (flip_spin b x) else None)
      else option_map (cons (if a then (0, exp (- rise E b x / T)) else (exp (- rise E b x / T), 1))) (phase_box fs hs (if a then flip_spin b x else b))
  | _, _ => Some []
  end.
Definition phase_weight (m : nat) (fs : list phase) (hs : list (nat * bool)) (b : list bool) : R :=
  (/ INR m) ^ List.length hs * match phase_box fs hs b with Some ivs => box_volume ivs | None => 0 end.
Definition phase_chance (m : nat) (fs : list phase) (c : list bool) : R := Rsum (fun b => / 2 ^ m * phase_moves m fs b c) (values m).

(** the spin [i] of slice [p] has the number [p * n + i] *)
Definition slice_spin (n : nat) (b : list bool) : nat -> nat -> R := fun p i => spin b (p * n + i).
(** the energy of a path *)
Definition slices_energy (n P : nat) (energy : (nat -> R) -> R) (T G : R) (b : list bool) : R := path_energy n P energy T G (slice_spin n b).
(** [k] proposals for each of the fields *)
Definition field_phases (n P : nat) (energy : (nat -> R) -> R) (T : R) (k : nat) (Gs : list R) : list phase :=
  flat_map (fun G => repeat (slices_energy n P energy T G, T) k) Gs.

(** ** Trotter's formula *)
(** matrices on the configurations of [n] spins: an energy's Boltzmann factors and those of independent spins in a transverse field, exp(a X) each *)
Definition cmat : Type := list bool -> list bool -> R.
Definition cmul (n : nat) (A B : cmat) : cmat := fun b c => Rsum (fun d => A b d * B d c) (values n).
Fixpoint cpower (n : nat) (A : cmat) (k : nat) : cmat := match k with O => is | S k => cmul n A (cpower n A k) end.
Definition ctrace (n : nat) (A : cmat) : R := Rsum (fun b => A b b) (values n).
Fixpoint hops (a : R) (b c : list bool) : R :=
  match b, c with
  | [], [] => 1
  | s :: b, t :: c => (if bool_dec s t then cosh a else sinh a) * hops a b c
  | _, _ => 0
  end.
Definition trotter (n P : nat) (energy : (nat -> R) -> R) (T G : R) : cmat := fun b c => exp (- energy (spin b) / (INR P * T)) * hops (G / (INR P * T)) b c.
(** the slice [p] of a path *)
Definition slice (n : nat) (b : list bool) (p : nat) : list bool := firstn n (skipn (p * n) b).
(** the product of the elements of a matrix around the ring of the slices [qs] *)
Fixpoint open_product (A : cmat) (b : list bool) (qs : list (list bool)) (c : list bool) : R :=
  match qs with [] => A b c | d :: qs => A b d * open_product A d qs c end.
Definition ring_product (A : cmat) (qs : list (list bool)) : R := match qs with [] => 1 | b :: qs => open_product A b qs b end.
(** the sum of the operators X of [n] spins *)
Definition field_matrix (n : nat) : cmat := fun b c => Rsum (fun x => is (flip_spin b x) c) (seq 0 n).
