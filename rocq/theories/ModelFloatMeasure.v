(** Model of measurements and resets of blueqat/backends/numpy_backend.py in any arithmetic of real numbers, as ModelNumpy models them in exact arithmetic and
    ModelFloat the other gates.  [np.linalg.norm] is an argument, as the order of its sum is not defined.  The square [x ** 2] is the product; the division of a
    complex array by a real number is NumPy's division of complex numbers.  One shot on a new backend is modelled. *)
From Coq Require Import List Arith ZArith Bool Reals.
Import ListNotations.
From Verif Require Import Base Cplx ModelTargets ModelGate ModelNumpy ModelFloat.
Local Open Scope R_scope.

Section Arith.
Variable A : arith.
(** [np.linalg.norm] *)
Variable norm : carr -> R.
(** the values that [random.random()] returns, in order *)
Variable rng : nat -> R.

(** [z / s]: NumPy's quotient of complex numbers (Smith), where the divisor has the imaginary part 0 *)
Definition fl_div (s : R) (z : C) : C :=
  let rat := f_div A 0 s in
  let scl := f_div A 1 (f_add A s (f_mul A 0 rat)) in
  (f_mul A (f_add A (fst z) (f_mul A (snd z) rat)) scl, f_mul A (f_sub A (snd z) (f_mul A (fst z) rat)) scl).
(** [np.linalg.norm(v) ** 2] *)
Definition fl_norm2 (v : carr) : R := f_mul A (norm v) (norm v).

(** numpy_backend.py:420-430, one iteration, as in [step_measure] *)
Definition fl_measure (n : nat) (target : Z) (s : carr * list nat * nat) : (carr * list nat * nat) * option exn :=
  let '(qubits, cregs, pos) := s in
  match mask_eq0 n target, mask_ne0 n target with
  | Ok t0, Ok t1 =>
      let p_zero := fl_norm2 (np_get qubits t0) in
      let rand := rng pos in
      let pos := S pos in
      let r :=
        if Rltb rand p_zero then
          let* q := np_put_scalar qubits t1 C0 in
          let q := map (fl_div (f_sqrt A p_zero)) q in
          let* c := list_set cregs (Z.to_nat target) 0%nat in
          Ok (q, c)
        else
          let* q := np_put_scalar qubits t0 C0 in
          let q := map (fl_div (f_sqrt A (f_sub A 1 p_zero))) q in
          let* c := list_set cregs (Z.to_nat target) 1%nat in
          Ok (q, c) in
      match r with
      | Ok (q, c) => ((q, c, pos), None)
      | Err e => ((qubits, cregs, pos), Some e)
      end
  | Err e, _ | _, Err e => (s, Some e)
  end.

(** numpy_backend.py:438-448, as in [step_reset] *)
Definition fl_reset (n : nat) (target : Z) (s : carr * list nat * nat) : (carr * list nat * nat) * option exn :=
  let '(qubits, cregs, pos) := s in
  match mask_eq0 n target, mask_ne0 n target with
  | Ok t0, Ok t1 =>
      let p_zero := fl_norm2 (np_get qubits t0) in
      let rand := rng pos in
      let pos := S pos in
      let r :=
        if Rltb rand p_zero then
          let* q := np_put_scalar qubits t1 C0 in
          Ok (map (fl_div (f_sqrt A p_zero)) q)
        else
          let* q := np_put qubits t0 (np_get qubits t1) in
          let* q := np_put_scalar q t1 C0 in
          Ok (map (fl_div (f_sqrt A (f_sub A 1 p_zero))) q) in
      match r with
      | Ok q => ((q, cregs, pos), None)
      | Err e => ((qubits, cregs, pos), Some e)
      end
  | Err e, _ | _, Err e => (s, Some e)
  end.

(** [_get_action] of the numpy backend *)
Definition fl_action (g : gate) (n : nat) : option (npctx -> sres) :=
  match g with
  | GMeasure tg => Some (np_collapse fl_measure tg)
  | GReset tg => Some (np_collapse fl_reset tg)
  | _ => match fl_unitary A g n with
         | Some f => Some (fun ctx => match f (x_qubits ctx, x_buf ctx) with
                                      | Ok s => SOk (set_bufs ctx s)
                                      | Err e => SErr e (x_pos ctx)
                                      end)
         | None => None
         end
  end.
(** numpy_backend.py:110-117 *)
Fixpoint fl_run_single (fuel : nat) (g : gate) (ctx : npctx) : sres :=
  match fl_action g (x_n ctx) with
  | Some act => act ctx
  | None =>
      match fuel with
      | O => SErr RecursionError (x_pos ctx)
      | S f => match fl_fallback A g (Z.of_nat (x_n ctx)) with
               | Err e => SErr e (x_pos ctx)
               | Ok gs => run_list (fl_run_single f) gs ctx
               end
      end
  end.
(** numpy_backend.py:119-125, the first shot on a new backend *)
Definition fl_shot (gs : list gate) (n pos : nat) : sres := run_list (fl_run_single recursion_limit) gs (prepare (new_ctx n pos) None).
End Arith.
