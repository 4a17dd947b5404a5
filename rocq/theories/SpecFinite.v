(** Floating point arithmetic with underflow and overflow. *)
From Coq Require Import List Arith ZArith Bool Reals.
Import ListNotations.
From Verif Require Import Base Cplx ModelFloat.
Local Open Scope R_scope.

(** For operands up to [B], every operation has an error of at most [u] times the exact result plus [eta]; cos and sin have an absolute error of at most [u].
    Nothing is said about larger operands. *)
Record rounds_within (A : arith) (u eta B : R) : Prop := RoundsWithin {
  w_add : forall a b, Rabs a <= B -> Rabs b <= B -> Rabs (f_add A a b - (a + b)) <= u * Rabs (a + b) + eta;
  w_sub : forall a b, Rabs a <= B -> Rabs b <= B -> Rabs (f_sub A a b - (a - b)) <= u * Rabs (a - b) + eta;
  w_mul : forall a b, Rabs a <= B -> Rabs b <= B -> Rabs (f_mul A a b - a * b) <= u * Rabs (a * b) + eta;
  w_div : forall a b, Rabs a <= B -> 1 <= b <= B -> Rabs (f_div A a b - a / b) <= u * Rabs (a / b) + eta;
  w_sqrt : forall a, 0 <= a <= B -> Rabs (f_sqrt A a - sqrt a) <= u * sqrt a + eta;
  w_cos : forall a, Rabs a <= B -> Rabs (f_cos A a - cos a) <= u;
  w_sin : forall a, Rabs a <= B -> Rabs (f_sin A a - sin a) <= u;
  w_pi : Rabs (f_pi A - PI) <= u * PI }.

(** Numbers with [p] significant binary digits that are multiples of [2^low], rounded to the nearest. *)
Definition round_above (p : nat) (low : Z) (x : R) : R :=
  if Req_EM_T x 0 then 0
  else let unit := powerRZ 2 (Z.max low (Int_part (ln (Rabs x) / ln 2) - Z.of_nat p + 1)) in IZR (Int_part (x / unit + 1 / 2)) * unit.
(** Results above [2^high] may be anything: [over]. *)
Definition round_finite (over : R -> R) (p : nat) (low high : Z) (x : R) : R :=
  if Rle_dec (Rabs x) (powerRZ 2 high) then round_above p low x else over x.
Definition finite_arith (over : R -> R) (p : nat) (low high : Z) : arith :=
  let r := round_finite over p low high in
  Arith (fun a b => r (a + b)) (fun a b => r (a - b)) (fun a b => r (a * b)) (fun a b => r (a / b)) (fun a => r (sqrt a)) (fun a => r (cos a)) (fun a => r (sin a)) (r PI).
(** double precision of IEEE 754: 53 digits, the least positive number is 2^-1074, overflow above 2^1023 (at the earliest) *)
Definition double_arith (over : R -> R) : arith := finite_arith over 53 (-1074) 1023.
