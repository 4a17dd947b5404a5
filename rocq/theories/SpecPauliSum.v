(** Which terms of the left operand enter a sum of Pauli expressions. *)
From Coq Require Import List.
Import ListNotations.
From Verif Require Import Cplx ModelPauli.

(** the terms of a sum that python's dictionary of coefficients keeps: those that are not zero and that no later term with the same
    operators, itself not zero, replaces *)
Inductive survivors : expr -> expr -> Prop :=
| survivors_nil : survivors [] []
| survivors_zero : forall t r k, t_coeff t = C0 -> survivors r k -> survivors (t :: r) k
| survivors_replaced : forall t s r k, In s r -> t_ops s = t_ops t -> t_coeff s <> C0 -> survivors r k -> survivors (t :: r) k
| survivors_kept : forall t r k, t_coeff t <> C0 -> (forall s, In s r -> t_ops s = t_ops t -> t_coeff s = C0) -> survivors r k ->
    survivors (t :: r) (t :: k).
