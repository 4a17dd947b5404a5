(** Model of runs that are interrupted (KeyboardInterrupt, MemoryError, a signal handler that raises): what the attributes
    [cache] and [cache_idx] of the backend object are after each statement of [run].  A run that stops between two
    statements leaves one of these states.  Only the statements that assign the attributes matter; an assignment is taken to
    be atomic.  The flag marks the states in the middle of an update: one of the two attributes is new, the other one
    still old. *)
From Coq Require Import List Arith ZArith Bool Reals.
Import ListNotations.
From Verif Require Import Base Cplx ModelTargets ModelGate ModelNumpy ModelNumba.

Definition points : Type := list (backend * bool).

(** [__clear_cache_if_invalid] and [__clear_cache] (numpy_backend.py:71-85, _numba_backend_impl.py:372-385): [self.cache = None] and
    then [self.cache_idx = -1] *)
Definition clear_points (b b' : backend) : points := [(b, false); (Backend (b_cache b') (b_idx b), false); (b', false)].

Section Random.
Variable rng : nat -> R.

(** numpy_backend.py:121-125: [self.cache = ctx.qubits.copy()] and then [self.cache_idx += 1] *)
Fixpoint np_gate_points (gates : list gate) (ctx : npctx) (b : backend) : points :=
  (b, false) ::
  match gates with
  | [] => []
  | g :: r =>
      match np_run_single rng recursion_limit g ctx with
      | SErr _ _ => []
      | SOk ctx' =>
          if x_save ctx'
          then (Backend (Some (x_qubits ctx')) (b_idx b), true) :: np_gate_points r ctx' (Backend (Some (x_qubits ctx')) (b_idx b + 1))
          else np_gate_points r ctx' b
      end
  end.

(** numpy_backend.py:119-127 *)
Fixpoint np_shot_points (shots : nat) (gates : list gate) (ctx : npctx) (b : backend) : points :=
  match shots with
  | O => [(b, false)]
  | S k =>
      let ctx := prepare ctx (b_cache b) in
      np_gate_points (skipn (Z.to_nat (b_idx b + 1)) gates) ctx b ++
      match np_run_gates rng (skipn (Z.to_nat (b_idx b + 1)) gates) ctx b with
      | (SErr _ _, _) => []
      | (SOk ctx, b) => np_shot_points k gates (match x_cregs ctx with [] => ctx | _ => store_shot ctx end) b
      end
  end.

(** numpy_backend.py:87-131 *)
Definition np_points (b : backend) (gates : list gate) (n : nat) (a : run_args) (pos : nat) : points :=
  match parse_run_args a with
  | Err _ => [(b, false)]
  | Ok (shots, _, _) =>
      clear_points b (clear_cache_if_invalid b n) ++
      np_shot_points (Z.to_nat shots) gates (new_ctx n pos) (clear_cache_if_invalid b n)
  end.

Definition collapses (g : gate) : bool := match g with GMeasure _ | GReset _ => true | _ => false end.

(** _numba_backend_impl.py:427-430.  The first measurement or reset of a shot assigns [self.cache] (lines 613-614,
    631-632), all else leaves the attributes alone. *)
Fixpoint nb_gate_points (gates : list gate) (ctx : npctx) (b : backend) (amid : bool) : points :=
  (b, amid) ::
  match gates with
  | [] => []
  | g :: r =>
      let amid' := amid || (x_save ctx && collapses g) in
      match nb_run_single rng recursion_limit g ctx b with
      | NErr _ _ b' => [(b', amid')]
      | NOk ctx' b' => nb_gate_points r ctx' b' amid'
      end
  end.

(** lines 424-435: [self.cache_idx = cache_idx] and then [self.cache = ctx.qubits.copy()] *)
Fixpoint nb_shot_points (shots : nat) (gates : list gate) (ctx : npctx) (b : backend) : points :=
  match shots with
  | O => [(b, false)]
  | S k =>
      let ctx := prepare ctx (b_cache b) in
      nb_gate_points (skipn (Z.to_nat (b_idx b + 1)) gates) ctx b false ++
      match nb_run_gates rng (skipn (Z.to_nat (b_idx b + 1)) gates) ctx b (b_idx b) with
      | (NErr _ _ _, _) => []
      | (NOk ctx b, cache_idx) =>
          (if (b_idx b =? cache_idx)%Z then [] else [(Backend (b_cache b) cache_idx, true)]) ++
          nb_shot_points k gates (match x_cregs ctx with [] => ctx | _ => store_shot ctx end)
            (if (b_idx b =? cache_idx)%Z then b
             else Backend (if x_save ctx then Some (x_qubits ctx) else b_cache b) cache_idx)
      end
  end.

(** lines 387-439 *)
Definition nb_points (b : backend) (gates : list gate) (n : nat) (a : nb_args) (pos : nat) : points :=
  match parse_run_args (na_args a) with
  | Err _ => [(b, false)]
  | Ok (shots, _, _) =>
      let b' := if na_enable_cache a then clear_cache_if_invalid b n else new_backend in
      clear_points b b' ++ nb_shot_points (Z.to_nat shots) gates (nb_new_ctx n (na_enable_cache a) pos) b'
  end.
End Random.
