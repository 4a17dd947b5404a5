(** Specification of quantum annealing by path integrals, of sums of QUBOs, and of Ising problems for an annealing machine. *)
From Coq Require Import List Arith ZArith Bool Reals.
Import ListNotations.
From Verif Require Import Cplx SpecWq.
Local Open Scope R_scope.

(** ** Path integrals: [P] copies of [n] spins, coupled in a ring *)
Definition next (P p : nat) : nat := if (S p =? P)%nat then 0%nat else S p.
Definition agreement (n P : nat) (q : nat -> nat -> R) : R := total P (fun p => total n (fun i => q p i * q (next P p) i)).
Definition mean (P : nat) (f : nat -> R) : R := total P f / INR P.
(** the coupling of neighbouring slices for the temperature T and the transverse field G *)
Definition bond (T : R) (P : nat) (G : R) : R := - (T / 2) * ln (tanh (G / (INR P * T))).
Definition path_energy (n P : nat) (energy : (nat -> R) -> R) (T G : R) (q : nat -> nat -> R) : R :=
  mean P (fun p => energy (q p)) - bond T P G * agreement n P q.
(** the same with the other sign of the coupling, for a field and a state *)
Definition recorded (n P : nat) (energy : (nat -> R) -> R) (T : R) (p : R * (nat -> nat -> R)) : R :=
  mean P (fun k => energy (snd p k)) + bond T P (fst p) * agreement n P (snd p).
Definition all_spins (n P : nat) (q : nat -> nat -> R) : Prop := forall p, (p < P)%nat -> spins n (q p).

Section Annealing.
Variables n P : nat.
(** the energy for each transverse field *)
Variable energy : R -> (nat -> nat -> R) -> R.
Definition flipped_at (q : nat -> nat -> R) (y x : nat) : nat -> nat -> R := fun p i => if ((p =? y) && (i =? x))%nat then - q p i else q p i.
Definition difference_at (G : R) (q : nat -> nat -> R) (y x : nat) : R := energy G (flipped_at q y x) - energy G q.
Variable draws : nat -> R.
Variables sites slots : nat -> nat.
(** a proposal at temperature [T] to turn spin [x] of slice [y], when [d] numbers have been drawn *)
Inductive proposal_at (T G : R) (y x : nat) (q : nat -> nat -> R) (d : nat) : (nat -> nat -> R) -> nat -> Prop :=
| falls_at : difference_at G q y x < 0 -> proposal_at T G y x q d (flipped_at q y x) d
| lucky_at : ~ difference_at G q y x < 0 -> draws d < exp (- difference_at G q y x / T) -> proposal_at T G y x q d (flipped_at q y x) (S d)
| rejected_at : ~ difference_at G q y x < 0 -> ~ draws d < exp (- difference_at G q y x / T) -> proposal_at T G y x q d q (S d).
Inductive sweep_at (T G : R) : nat -> (nat -> nat -> R) -> nat -> nat -> (nat -> nat -> R) -> nat -> Prop :=
| swa_nil : forall q s d, sweep_at T G 0 q s d q d
| swa_step : forall k q s d q1 d1 q2 d2, (sites s < n)%nat -> (slots s < P)%nat -> proposal_at T G (slots s) (sites s) q d q1 d1 ->
    sweep_at T G k q1 (S s) d1 q2 d2 -> sweep_at T G (S k) q s d q2 d2.
(** fields G, G*r, G*r^2, ... while above [target], each with [k] proposals; the list: the field and the state after each of them *)
Inductive fields (T target r : R) (k : nat) : R -> (nat -> nat -> R) -> nat -> nat -> list (R * (nat -> nat -> R)) -> Prop :=
| fi_end : forall G q s d, G <= target -> fields T target r k G q s d []
| fi_round : forall G q s d q' d' l, target < G -> sweep_at T G k q s d q' d' -> fields T target r k (G * r) q' (s + k) d' l ->
    fields T target r k G q s d ((G, q') :: l).
End Annealing.
(** the spins chosen at the start *)
Definition chosen_slices (choices : nat -> bool) (n : nat) : nat -> nat -> R := fun p i => if choices (p * n + i)%nat then 1 else -1.

(** ** Sums of QUBOs *)
Definition weighted_sum (l : list ((nat -> nat -> R) * R)) (i j : nat) : R := Rsum (fun p => snd p * fst p i j) l.

(** ** Ising problems of linear and quadratic terms *)
Definition problem_energy (linear : list (nat * R)) (quad : list ((nat * nat) * R)) (s : nat -> R) : R :=
  Rsum (fun p => snd p * s (fst p)) linear + Rsum (fun p => snd p * s (fst (fst p)) * s (snd (fst p))) quad.
(** an answer of spins with the least energy *)
Definition ground (n : nat) (E : (nat -> R) -> R) (l : list Z) : Prop :=
  (n <= length l)%nat /\ spins n (fun i => IZR (nth i l 0%Z)) /\ forall s, spins n s -> E (fun i => IZR (nth i l 0%Z)) <= E s.
(** a machine for [n] spins that always finds such an answer *)
Definition perfect (n : nat) (sample : list (nat * R) -> list ((nat * nat) * R) -> list Z) : Prop :=
  forall linear quad, Forall (fun p => (fst p < n)%nat) linear -> Forall (fun p => (fst (fst p) < n)%nat /\ (snd (fst p) < n)%nat) quad ->
    ground n (problem_energy linear quad) (sample linear quad).
(** the hypotheses on a solver: the first [n] nodes exist, every coupler is listed once, from the lower to the higher node, and no coupling lacks a coupler *)
Definition suitable (n : nat) (Q : nat -> nat -> R) (nodes : list nat) (edges : list (nat * nat)) : Prop :=
  filter (fun i => (i <? n)%nat) nodes = seq 0 n /\ NoDup edges /\ (forall i j, In (i, j) edges -> (i < n)%nat -> (j < n)%nat -> (i < j)%nat) /\
  (forall i j, (i < j < n)%nat -> Q i j <> 0 -> In (i, j) edges).
