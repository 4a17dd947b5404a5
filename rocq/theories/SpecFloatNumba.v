(** Rounding errors of compiled loops. *)
From Coq Require Import List Arith NArith ZArith Bool Reals.
Import ListNotations.
From Verif Require Import Base Cplx ModelNumba ModelFloat ModelFloatNumba SpecFinite.
Local Open Scope R_scope.

Definition size (z : C) : R := Rabs (fst z) + Rabs (snd z).

(** Entries of the state have a size of at most 6, factors of at most 2: in this range an assignment has an error of at most 5 u times the sizes of the products
    it adds, plus 20 eta. *)
Record compiles (c : compiled) (u eta B : R) : Prop := Compiles {
  co_arith : rounds_within (c_arith c) u eta B;
  co_lit : forall x, Rabs x <= 1 -> Rabs (c_lit c x - x) <= u * Rabs x + eta;
  co_coef : forall a b, size a <= 2 -> size b <= 2 -> size (c_coef c a b - a * b)%C <= 5 * u * (size a * size b) + 20 * eta;
  co_mul : forall i z f, size z <= 6 -> size f <= 2 -> size (c_mul c i z f - z * f)%C <= 5 * u * (size z * size f) + 20 * eta;
  co_lin : forall i a t b v, size a <= 2 -> size t <= 6 -> size b <= 2 -> size v <= 6 ->
    size (c_lin c i a t b v - (a * t + b * v))%C <= 5 * u * (size a * size t + size b * size v) + 20 * eta;
  co_had : forall i t v s, size t <= 6 -> size v <= 6 -> Rabs s <= 1 ->
    size (c_had c i t v s - (t + v) * RtoC s)%C <= 5 * u * ((size t + size v) * Rabs s) + 20 * eta }.

(** a fused product and sum with one rounding *)
Definition fuses (F : R -> R -> R -> R) (u eta B : R) : Prop :=
  forall a b c, Rabs a <= B -> Rabs b <= B -> Rabs c <= B -> Rabs (F a b c - (a * b + c)) <= u * Rabs (a * b + c) + eta.

(** The loops that the gates start on a register of [n] qubits. *)
Inductive rounded_loop (c : compiled) (n : N) : kernel -> Prop :=
| rl_x : forall t, (t < n)%N -> rounded_loop c n (k_x n t)
| rl_y : forall t, (t < n)%N -> rounded_loop c n (fk_y c n t)
| rl_h : forall t, (t < n)%N -> rounded_loop c n (fk_h c n t)
| rl_diag : forall t f, (t < n)%N -> rounded_loop c n (fk_diag c f n t)
| rl_rz : forall t th, (t < n)%N -> rounded_loop c n (fk_rz c th n t)
| rl_ry : forall t th, (t < n)%N -> rounded_loop c n (fk_ry c th n t)
| rl_rx : forall t th, (t < n)%N -> rounded_loop c n (fk_rx c th n t)
| rl_u3 : forall t th ph la, (t < n)%N -> rounded_loop c n (fk_u3 c th ph la n t)
| rl_cz : forall ct k, ct <> [] -> NoDup ct -> Forall (fun q => q < n)%N ct -> fk_cz c n ct = Ok k -> rounded_loop c n k
| rl_cx : forall ct k, ct <> [] -> NoDup ct -> Forall (fun q => q < n)%N ct -> k_cx n ct = Ok k -> rounded_loop c n k
| rl_crx : forall ct th k, ct <> [] -> NoDup ct -> Forall (fun q => q < n)%N ct -> fk_crx c th n ct = Ok k -> rounded_loop c n k
| rl_cry : forall ct th k, ct <> [] -> NoDup ct -> Forall (fun q => q < n)%N ct -> fk_cry c th n ct = Ok k -> rounded_loop c n k
| rl_crz : forall ct th k, ct <> [] -> NoDup ct -> Forall (fun q => q < n)%N ct -> fk_crz c th n ct = Ok k -> rounded_loop c n k
| rl_cphase : forall ct th k, ct <> [] -> NoDup ct -> Forall (fun q => q < n)%N ct -> fk_cphase c th n ct = Ok k -> rounded_loop c n k.

(** doubles: a fused operation rounds once *)
Definition double_lit (over : R -> R) : R -> R := round_finite over 53 (-1074) 1023.
Definition double_fma (over : R -> R) (a b c : R) : R := round_finite over 53 (-1074) 1023 (a * b + c).
