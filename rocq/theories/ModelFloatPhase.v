(** Model of [ignore_global_phase] (blueqat/utils.py:41-55) and [_ignore_global] (blueqat/backends/_numba_backend_impl.py:645-652) in any arithmetic of real
    numbers, as ModelNumpy has them in exact arithmetic.  [abs] of a complex number is an argument.  The state is changed in place and returned; only the value
    is modelled.  Infinities, NaN and signed zeros are left out. *)
From Coq Require Import List Arith NArith ZArith Bool Reals.
Import ListNotations.
From Verif Require Import Base Cplx ModelNumpy ModelFloat ModelFloatNumba.
Local Open Scope R_scope.

Section Phase.
(** [abs(q)] *)
Variable habs : C -> R.
(** the quotient of a real and a complex number *)
Variable quot : R -> C -> C.
(** the product that is assigned to the entry with the given index *)
Variable mul : N -> C -> C -> C.
(** the number 0.0000001 *)
Variable thr : R.

(** the loop over [q] up to the [break] *)
Fixpoint first_above (l : carr) : option C :=
  match l with
  | [] => None
  | q :: r => if Rltb thr (habs q) then Some q else first_above r
  end.
(** [statevec *= ang] *)
Definition mul_all (ang : C) (v : carr) : carr := map (fun p => mul (N.of_nat (fst p)) (snd p) ang) (combine (seq 0 (List.length v)) v).
(** utils.py:50-55, _numba_backend_impl.py:647-652 *)
Definition fl_ignore_global (v : carr) : carr :=
  match first_above v with
  | Some q => mul_all (quot (habs q) q) v
  | None => v
  end.
End Phase.

Section Quotients.
Variable A : arith.
(** NumPy's quotient of complex numbers (Smith), where the dividend has the imaginary part 0 *)
Definition np_quot (h : R) (w : C) : C :=
  let c := fst w in let d := snd w in
  if Rle_dec (Rabs d) (Rabs c) then
    let rat := f_div A d c in let scl := f_div A 1 (f_add A c (f_mul A d rat)) in
    (f_mul A (f_add A h (f_mul A 0 rat)) scl, f_mul A (f_sub A 0 (f_mul A h rat)) scl)
  else
    let rat := f_div A c d in let scl := f_div A 1 (f_add A d (f_mul A c rat)) in
    (f_mul A (f_add A (f_mul A h rat) 0) scl, f_mul A (f_sub A (f_mul A 0 rat) h) scl).
(** numba's, which is CPython's *)
Definition py_quot (h : R) (w : C) : C :=
  let c := fst w in let d := snd w in
  if Rle_dec (Rabs d) (Rabs c) then
    let ratio := f_div A d c in let denom := f_add A c (f_mul A d ratio) in
    (f_div A (f_add A h (f_mul A 0 ratio)) denom, f_div A (f_sub A 0 (f_mul A h ratio)) denom)
  else
    let ratio := f_div A c d in let denom := f_add A (f_mul A c ratio) d in
    (f_div A (f_add A (f_mul A h ratio) 0) denom, f_div A (f_sub A (f_mul A 0 ratio) h) denom).
End Quotients.

(** [ignore_global_phase] on an array of NumPy *)
Definition np_ignore_global (A : arith) (habs : C -> R) (thr : R) : carr -> carr := fl_ignore_global habs (np_quot A) (fun _ => fc_mul A) thr.
(** [_ignore_global] as compiled *)
Definition nb_ignore_global (c : compiled) (habs : C -> R) (thr : R) : carr -> carr := fl_ignore_global habs (py_quot (c_arith c)) (c_mul c) thr.
