(** Specification of polynomials as sums of products of variables, and of their coefficients on bits, where every power of a variable is the variable. *)
From Coq Require Import List Arith Bool Reals.
Import ListNotations.
From Verif Require Import Cplx SpecWq SpecNbody.
Local Open Scope R_scope.

(** how often a variable occurs in a product *)
Definition power (m : list nat) (v : nat) : nat := count_occ Nat.eq_dec m v.
Definition same_product (a b : list nat) : bool := forallb (fun v => power a v =? power b v)%nat (a ++ b).
Definition same_set (a b : list nat) : bool := forallb (fun v => existsb (Nat.eqb v) b) a && forallb (fun v => existsb (Nat.eqb v) a) b.
(** the coefficient of a product of variables *)
Definition coefficient (s : list (R * list nat)) (m : list nat) : R := Rsum (fun t => if same_product (snd t) m then fst t else 0) s.
Definition present (s : list (R * list nat)) (m : list nat) : Prop := coefficient s m <> 0.
(** the coefficient on bits of the product of a set of variables *)
Definition reduced (s : list (R * list nat)) (S : list nat) : R := Rsum (fun t => if same_set (snd t) S then fst t else 0) s.
Definition uses (s : list (R * list nat)) (i : nat) : Prop := exists S, In i S /\ reduced s S <> 0.
(** the variables that matter on bits are 0 .. n-1 *)
Definition numbered (s : list (R * list nat)) (n : nat) : Prop := forall i, uses s i <-> (i < n)%nat.
(** at most two variables in each product *)
Definition at_most_two (s : list (R * list nat)) : Prop := forall m, present s m -> exists i j, incl m [i; j].
(** no variable has a higher power than the highest power of the lowest variable *)
Definition led (s : list (R * list nat)) : Prop :=
  exists v m0, present s m0 /\ In v m0 /\ (forall m w, present s m -> In w m -> (v <= w)%nat) /\ (forall m w, present s m -> (power m w <= power m0 v)%nat).
(** no powers above the second *)
Definition squares (s : list (R * list nat)) : Prop := forall m w, present s m -> (power m w <= 2)%nat.

(** the value of a sum of products of powers *)
Definition value_of (a : nat -> R) (q : list (list (nat * nat) * R)) : R :=
  Rsum (fun t => snd t * fold_right (fun f r => a (fst f) ^ snd f * r) 1 (fst t)) q.
(** the products are different and have coefficients other than zero; in each product the variables are different *)
Definition collected (q : list (list (nat * nat) * R)) : Prop :=
  NoDup (map fst q) /\ Forall (fun t => snd t <> 0 /\ NoDup (map fst (fst t)) /\ Forall (fun f => (0 < snd f)%nat) (fst t)) q.
(** no powers *)
Definition flat (q : list (list (nat * nat) * R)) : Prop := Forall (fun t => Forall (fun f => snd f = 1%nat) (fst t)) q.
(** the sum of the coefficients of the products with a set of variables *)
Definition of_set (q : list (list (nat * nat) * R)) (S : list nat) : R := Rsum (fun t => if same_set (map fst (fst t)) S then snd t else 0) q.
(** a matrix with the coefficients on bits, whose energies are the values of the polynomial without its constant *)
Definition right_matrix (s : list (R * list nat)) (n : nat) (M : nat -> nat -> R) : Prop :=
  (forall i j, (i <= j < n)%nat -> M i j = reduced s [i; j]) /\ upper_triangular n M /\ (forall a, binary a -> qubo_energy n M a + reduced s [] = value a s).
