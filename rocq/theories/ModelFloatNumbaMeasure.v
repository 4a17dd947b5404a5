(** Model of measurements and resets of blueqat/backends/_numba_backend_impl.py with rounding, as ModelNumba models them in exact arithmetic and ModelFloatNumba the
    other gates.  The sum of [_p0calc] is an argument, as its order is not defined: the loop is a parallel reduction, compiled with [fastmath=True].
    One shot on a new backend is modelled; the cache that it leaves for the next one is not. *)
From Coq Require Import List Arith NArith ZArith Bool Reals.
Import ListNotations.
From Verif Require Import Base Cplx ModelTargets ModelGate ModelNumpy ModelNumba ModelFloat ModelFloatNumba.
Local Open Scope R_scope.

(** the state, the classical bits and the number of draws so far; with the exception that ends the shot *)
Definition fnctx : Type := (carr * list nat * nat)%type.
Fixpoint fn_list (f : gate -> fnctx -> fnctx * option exn) (l : list gate) (s : fnctx) : fnctx * option exn :=
  match l with
  | [] => (s, None)
  | g :: r => match f g s with
              | (s', None) => fn_list f r s'
              | (s', Some e) => (s', Some e)
              end
  end.

Section Compiled.
Variable c : compiled.
Let A := c_arith c.
(** the sum of the squares of the parts of the amplitudes *)
Variable psum : carr -> R.
(** Python's arithmetic *)
Variable P : arith.
(** the values that [random.random()] returns, in order *)
Variable rng : nat -> R.

(** lines 317-325 *)
Definition fn_p0calc (a : carr) (target n : N) : res R :=
  let* v := map_res (fun i => load a (idx0 target i)) (map N.of_nat (seq 0 (N.to_nat (half n)))) in Ok (psum v).
(** [1.0 / math.sqrt(x)], as in [sqrt_inv] *)
Definition fn_sqrt_inv (x : R) : res R :=
  if Rltb x 0 then Err Undefined
  else if Reqb (f_sqrt A x) 0 then Err ZeroDivisionError else Ok (f_div A 1 (f_sqrt A x)).
(** lines 328-335 *)
Definition fk_reduce0 (s : R) (n target : N) : kernel := Kernel (half n) (fun i =>
  fk_scale_at c (idx0 target i) (RtoC s) ++ [Store (idx1 target i) (fun _ => C0)]).
(** lines 338-345 *)
Definition fk_reduce1 (s : R) (n target : N) : kernel := Kernel (half n) (fun i =>
  fk_scale_at c (idx1 target i) (RtoC s) ++ [Store (idx0 target i) (fun _ => C0)]).
(** lines 348-355 *)
Definition fk_reset1 (s : R) (n target : N) : kernel := Kernel (half n) (fun i =>
  [Load 0 (idx1 target i); Store (idx0 target i) (fun r => c_mul c (idx0 target i) (r 0%nat) (RtoC s)); Store (idx1 target i) (fun _ => C0)]).

(** lines 619-626, one iteration, as in [nb_step_measure] *)
Definition fn_measure (n : nat) (t : Z) (s : fnctx) : fnctx * option exn :=
  let '(a, cregs, pos) := s in
  let rand := rng pos in
  let pos := S pos in
  let r :=
    if in_reg n t then
      let* p0 := fn_p0calc a (Z.to_N t) (N.of_nat n) in
      if Rltb rand p0 then
        let* s := fn_sqrt_inv p0 in
        let* a := run_kernel (fk_reduce0 s (N.of_nat n) (Z.to_N t)) a in
        let* c := list_set cregs (Z.to_nat t) 0%nat in
        Ok (a, c)
      else
        let* s := fn_sqrt_inv (f_sub A 1 p0) in
        let* a := run_kernel (fk_reduce1 s (N.of_nat n) (Z.to_N t)) a in
        let* c := list_set cregs (Z.to_nat t) 1%nat in
        Ok (a, c)
    else Err Undefined in
  match r with
  | Ok (a, c) => ((a, c, pos), None)
  | Err e => ((a, cregs, pos), Some e)
  end.
(** lines 636-642, as in [nb_step_reset] *)
Definition fn_reset (n : nat) (t : Z) (s : fnctx) : fnctx * option exn :=
  let '(a, cregs, pos) := s in
  let rand := rng pos in
  let pos := S pos in
  let r :=
    if in_reg n t then
      let* p0 := fn_p0calc a (Z.to_N t) (N.of_nat n) in
      if Rltb rand p0 then
        let* s := fn_sqrt_inv p0 in
        run_kernel (fk_reduce0 s (N.of_nat n) (Z.to_N t)) a
      else
        let* s := fn_sqrt_inv (f_sub A 1 p0) in
        run_kernel (fk_reset1 s (N.of_nat n) (Z.to_N t)) a
    else Err Undefined in
  match r with
  | Ok a => ((a, cregs, pos), None)
  | Err e => ((a, cregs, pos), Some e)
  end.
(** lines 612-642 *)
Definition fn_collapse (step : Z -> fnctx -> fnctx * option exn) (tg : target) (n : nat) (s : fnctx) : fnctx * option exn :=
  let g := slicing tg (Z.of_nat n) in
  match loop_state (yields g) step s with
  | (s', Some e) => (s', Some e)
  | (s', None) => (s', raised g)
  end.

(** lines 415-422 *)
Fixpoint fn_gate (fuel : nat) (n : nat) (g : gate) (s : fnctx) : fnctx * option exn :=
  match g with
  | GMeasure tg => fn_collapse (fn_measure n) tg n s
  | GReset tg => fn_collapse (fn_reset n) tg n s
  | _ =>
      match fn_unitary c P g n with
      | Some f => let '(a, cregs, pos) := s in
          match f a with
          | Ok a' => ((a', cregs, pos), None)
          | Err e => (s, Some e)
          end
      | None =>
          match fuel with
          | O => (s, Some RecursionError)
          | S fuel => match fl_fallback P g (Z.of_nat n) with
                      | Ok gs => fn_list (fn_gate fuel n) gs s
                      | Err e => (s, Some e)
                      end
          end
      end
  end.
(** lines 424-430, the first shot on a new backend *)
Definition fn_shot (gs : list gate) (n pos : nat) : fnctx * option exn :=
  fn_list (fn_gate recursion_limit n) gs (basis0 n, repeat 0%nat n, pos).
End Compiled.
