(** Specification of the reduction of polynomials to quadratic ones. *)
From Coq Require Import List Arith Reals.
Import ListNotations.
From Verif Require Import Cplx.
Local Open Scope R_scope.

Definition product (a : nat -> R) (vars : list nat) : R := fold_right (fun v r => a v * r) 1 vars.
(** the value of a polynomial at an assignment *)
Definition value (a : nat -> R) (p : list (R * list nat)) : R := Rsum (fun t => fst t * product a (snd t)) p.
Definition binary (a : nat -> R) : Prop := forall v, a v = 0 \/ a v = 1.
Definition multilinear (p : list (R * list nat)) : Prop := Forall (fun t => NoDup (snd t)) p.
(** the supplementary variables are different from each other and from those of the polynomial *)
Definition fresh (qs : list nat) (p : list (R * list nat)) : Prop := NoDup qs /\ forall v, In v qs -> ~ In v (flat_map snd p).
Definition quadratic (p : list (R * list nat)) : Prop := Forall (fun t => (length (snd t) <= 2)%nat) p.
(** every supplementary variable is the product of the pair it replaces *)
Definition products (a : nat -> R) (m : list ((nat * nat) * nat)) : Prop := forall v1 v2 v, In ((v1, v2), v) m -> a v = a v1 * a v2.
(** how many supplementary variables are needed at most *)
Definition excess (p : list (R * list nat)) : nat := list_sum (map (fun t => (length (snd t) - 2)%nat) p).
(** the constant term *)
Definition constant (p : list (R * list nat)) : R := Rsum (fun t => match snd t with [] => fst t | _ => 0 end) p.
(** what the reduction of [p] to [new], with penalty [con] and mapping [m], must satisfy *)
Definition ok_result (qs : list nat) (p new con : list (R * list nat)) (m : list ((nat * nat) * nat)) : Prop :=
  quadratic new /\ NoDup (map fst m) /\ (forall k v, In (k, v) m -> In v qs) /\
  (forall a, binary a -> 0 <= value a con /\ (value a con = 0 <-> products a m) /\ (value a con = 0 -> value a new = value a p)).
(** no term but the constant has the coefficient one *)
Definition unit_free (p : list (R * list nat)) : Prop := Forall (fun t => snd t <> [] -> fst t <> 1) p.
