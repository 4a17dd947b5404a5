(** Model of [run] of the numpy and numba backends in any arithmetic of real numbers: any number of shots, the cache, the values that are returned.  ModelNumpy
    and ModelNumba have the same functions in exact arithmetic; ModelFloatMeasure and ModelFloatNumbaMeasure have the gates, measurements and resets with rounding.
    What [ignore_global_phase] and [_ignore_global] do to the state is an argument. *)
From Coq Require Import List Arith NArith ZArith Bool String Reals.
Import ListNotations.
From Verif Require Import Base Cplx ModelTargets ModelGate ModelNumpy ModelNumba ModelFloat ModelFloatMeasure ModelFloatNumba ModelFloatNumbaMeasure.
Local Open Scope R_scope.

Section Numpy.
Variable A : arith.
(** [np.linalg.norm] *)
Variable norm : carr -> R.
(** [ignore_global_phase] (utils.py:41-55) *)
Variable glob : carr -> carr.
(** the values that [random.random()] returns, in order *)
Variable rng : nat -> R.

(** numpy_backend.py:121-125, as in [np_run_gates] *)
Fixpoint fl_run_gates (gates : list gate) (ctx : npctx) (b : backend) : sres * backend :=
  match gates with
  | [] => (SOk ctx, b)
  | g :: r =>
      match fl_run_single A norm rng recursion_limit g ctx with
      | SErr e p => (SErr e p, b)
      | SOk ctx' =>
          let b' := if x_save ctx' then Backend (Some (x_qubits ctx')) (b_idx b + 1) else b in
          fl_run_gates r ctx' b'
      end
  end.
(** numpy_backend.py:119-127, as in [np_shots] *)
Fixpoint fl_shots (shots : nat) (gates : list gate) (ctx : npctx) (b : backend) : sres * backend :=
  match shots with
  | O => (SOk ctx, b)
  | S k =>
      let ctx := prepare ctx (b_cache b) in
      match fl_run_gates (skipn (Z.to_nat (b_idx b + 1)) gates) ctx b with
      | (SErr e p, b) => (SErr e p, b)
      | (SOk ctx, b) =>
          let ctx := match x_cregs ctx with [] => ctx | _ => store_shot ctx end in
          fl_shots k gates ctx b
      end
  end.
(** numpy_backend.py:87-131, as in [np_run] *)
Definition fl_np_run (b : backend) (gates : list gate) (n : nat) (a : run_args) (pos : nat) : res run_result * backend * nat :=
  match parse_run_args a with
  | Err e => (Err e, b, pos)
  | Ok (shots, returns, ignore_global) =>
      let b := clear_cache_if_invalid b n in
      let ctx := new_ctx n pos in
      match fl_shots (Z.to_nat shots) gates ctx b with
      | (SErr e p, b) => (Err e, b, p)
      | (SOk ctx, b) =>
          let ctx := if ignore_global then set_bufs ctx (glob (x_qubits ctx), x_buf ctx) else ctx in
          (Ok (return_type returns ctx), b, x_pos ctx)
      end
  end.
End Numpy.

Section Numba.
Variable c : compiled.
(** the sum of [_p0calc] *)
Variable psum : carr -> R.
(** Python's arithmetic *)
Variable P : arith.
(** [_ignore_global] (_numba_backend_impl.py:645-652) *)
Variable glob : carr -> carr.
(** the values that [random.random()] returns, in order *)
Variable rng : nat -> R.

(** _numba_backend_impl.py:444-642, as in [nb_action] *)
Definition fb_action (g : gate) (n : nat) : option (npctx -> backend -> nres) :=
  match g with
  | GMeasure tg => Some (nb_collapse (fn_measure c psum rng) tg)
  | GReset tg => Some (nb_collapse (fn_reset c psum rng) tg)
  | _ => match fn_unitary c P g n with
         | Some f => Some (fun ctx b => match f (x_qubits ctx) with
                                        | Ok a => NOk (set_bufs ctx (a, x_buf ctx)) b
                                        | Err e => NErr e (x_pos ctx) b
                                        end)
         | None => None
         end
  end.
(** lines 415-422, as in [nb_run_single] *)
Fixpoint fb_single (fuel : nat) (g : gate) (ctx : npctx) (b : backend) : nres :=
  match fb_action g (x_n ctx) with
  | Some act => act ctx b
  | None =>
      match fuel with
      | O => NErr RecursionError (x_pos ctx) b
      | S f => match fl_fallback P g (Z.of_nat (x_n ctx)) with
               | Err e => NErr e (x_pos ctx) b
               | Ok gs => nb_run_list (fb_single f) gs ctx b
               end
      end
  end.
(** lines 427-430, as in [nb_run_gates] *)
Fixpoint fb_gates (gates : list gate) (ctx : npctx) (b : backend) (cache_idx : Z) : nres * Z :=
  match gates with
  | [] => (NOk ctx b, cache_idx)
  | g :: r =>
      match fb_single recursion_limit g ctx b with
      | NErr e p b' => (NErr e p b', cache_idx)
      | NOk ctx' b' => fb_gates r ctx' b' (if x_save ctx' then cache_idx + 1 else cache_idx)%Z
      end
  end.
(** lines 424-435, as in [nb_shots] *)
Fixpoint fb_shots (shots : nat) (gates : list gate) (ctx : npctx) (b : backend) : nres :=
  match shots with
  | O => NOk ctx b
  | S k =>
      let ctx := prepare ctx (b_cache b) in
      match fb_gates (skipn (Z.to_nat (b_idx b + 1)) gates) ctx b (b_idx b) with
      | (NErr e p b, _) => NErr e p b
      | (NOk ctx b, cache_idx) =>
          let b := if (b_idx b =? cache_idx)%Z then b
                   else Backend (if x_save ctx then Some (x_qubits ctx) else b_cache b) cache_idx in
          let ctx := match x_cregs ctx with [] => ctx | _ => store_shot ctx end in
          fb_shots k gates ctx b
      end
  end.
(** lines 387-439, as in [nb_run] *)
Definition fb_run (b : backend) (gates : list gate) (n : nat) (a : nb_args) (pos : nat) : res run_result * backend * nat :=
  match parse_run_args (na_args a) with
  | Err e => (Err e, b, pos)
  | Ok (shots, returns, ignore_global) =>
      let b := if na_enable_cache a then clear_cache_if_invalid b n else new_backend in
      let ctx := nb_new_ctx n (na_enable_cache a) pos in
      match fb_shots (Z.to_nat shots) gates ctx b with
      | NErr e p b => (Err e, b, p)
      | NOk ctx b =>
          let ctx := if ignore_global then set_bufs ctx (glob (x_qubits ctx), x_buf ctx) else ctx in
          (Ok (return_type returns ctx), b, x_pos ctx)
      end
  end.
End Numba.
