(** Model of blueqat/backends/_numba_backend_impl.py. *)
From Coq Require Import List Arith NArith ZArith Bool String Reals.
Import ListNotations.
From Verif Require Import Base Cplx ModelTargets ModelGate ModelNumpy.
Local Open Scope R_scope.

(** ** Index arithmetic in 64 bit unsigned integers (_numba_backend_impl.py:33-41) *)
Definition u64 (x : N) : N := (x mod 2 ^ 64)%N.
Definition not64 (x : N) : N := N.lnot x 64.
(** [1 << k] *)
Definition shl1 (k : N) : N := u64 (N.shiftl 1 k).

(** lines 72-75 *)
Definition shifted (lower_mask idx : N) : N :=
  let lower := N.land idx lower_mask in
  let higher := u64 (N.shiftl (N.land idx (not64 lower_mask)) 1) in
  u64 (higher + lower).

(** [indices.sort()] *)
Fixpoint insert (x : N) (l : list N) : list N :=
  match l with
  | [] => [x]
  | y :: r => if (x <=? y)%N then x :: l else y :: insert x r
  end.
Definition sort (l : list N) : list N := fold_right insert [] l.

(** line 83: [masks[i] = (1 << (x - i)) - 1] for the sorted indices; a negative shift is undefined. *)
Fixpoint raw_masks (i : N) (xs : list N) : res (list N) :=
  match xs with
  | [] => Ok []
  | x :: r => if (x <? i)%N then Err Undefined else
              let* ms := raw_masks (i + 1) r in Ok ((shl1 (x - i) - 1)%N :: ms)
  end.
(** lines 85-86, from the last entry to the second one: [masks[i] &= ~masks[i - 1]] *)
Fixpoint diff_masks (prev : N) (ms : list N) : list N :=
  match ms with
  | [] => []
  | m :: r => N.land m (not64 prev) :: diff_masks m r
  end.
(** lines 79-87.  [masks[-1] = ~0].  The in-place sorting of the argument is not modelled: no caller reads it again. *)
Definition create_masks (indices : list N) : res (list N) :=
  let* raw := raw_masks 0 (sort indices) in
  match raw ++ [not64 0] with
  | [] => Ok []
  | m :: r => Ok (m :: diff_masks m r)
  end.

(** lines 91-95 *)
Fixpoint mult_shifted_from (i : N) (masks : list N) (idx acc : N) : N :=
  match masks with
  | [] => acc
  | x :: r => mult_shifted_from (i + 1) r idx (N.lor acc (u64 (N.shiftl (N.land idx x) i)))
  end.
Definition mult_shifted (masks : list N) (idx : N) : N := mult_shifted_from 0 masks idx 0.

(** ** Loops over arrays
    The body of a loop is a list of single reads and writes of the array; values read are kept in variables of the
    iteration.  [qubits[i] *= k] is a read and a write. *)
Inductive instr : Type :=
| Load (r : nat) (i : N)
| Store (i : N) (f : (nat -> C) -> C).

Definition set_reg (regs : nat -> C) (r : nat) (v : C) : nat -> C := fun k => if Nat.eqb k r then v else regs k.

(** access outside of the array is undefined, numba does not check bounds *)
Definition load (a : carr) (i : N) : res C :=
  match nth_error a (N.to_nat i) with Some v => Ok v | None => Err Undefined end.
Definition store (a : carr) (i : N) (v : C) : res carr :=
  match list_set a (N.to_nat i) v with Ok a' => Ok a' | Err _ => Err Undefined end.

Definition exec_instr (x : instr) (s : carr * (nat -> C)) : res (carr * (nat -> C)) :=
  let (a, regs) := s in
  match x with
  | Load r i => let* v := load a i in Ok (a, set_reg regs r v)
  | Store i f => let* a' := store a i (f regs) in Ok (a', regs)
  end.
Definition no_regs : nat -> C := fun _ => C0.
Definition exec_body (body : list instr) (a : carr) : res carr :=
  let* s := for_list body exec_instr (a, no_regs) in Ok (fst s).

(** A [prange] loop: the number of iterations and the body of each.  [run_kernel] executes the iterations in order; that
    every other schedule gives the same is property C25. *)
Record kernel : Type := Kernel { k_count : N; k_body : N -> list instr }.
Definition iterations (k : kernel) : list N := map N.of_nat (seq 0 (N.to_nat (k_count k))).
Definition run_kernel (k : kernel) (a : carr) : res carr :=
  for_list (iterations k) (fun i => exec_body (k_body k i)) a.

(** [qubits[i] *= f] *)
Definition scale_at (i : N) (f : C) : list instr := [Load 0 i; Store i (fun r => (r 0%nat * f)%C)].

(** loops over the pairs of indices that differ in the bit [target] *)
Definition half (n : N) : N := shl1 (n - 1).
Definition low (target : N) : N := (shl1 target - 1)%N.
Definition idx0 (target i : N) : N := shifted (low target) i.
Definition idx1 (target i : N) : N := u64 (shifted (low target) i + shl1 target).

(** lines 98-103 *)
Definition k_z (n target : N) : kernel := Kernel (half n) (fun i => scale_at (idx1 target i) (- C1)%C).
(** lines 106-114 *)
Definition k_x (n target : N) : kernel := Kernel (half n) (fun i =>
  let i0 := idx0 target i in let i1 := idx1 target i in
  [Load 0 i0; Load 1 i1; Store i0 (fun r => r 1%nat); Store i1 (fun r => r 0%nat)]).
(** lines 117-125 *)
Definition k_y (n target : N) : kernel := Kernel (half n) (fun i =>
  let i0 := idx0 target i in let i1 := idx1 target i in
  [Load 0 i0; Load 1 i1; Store i0 (fun r => (r 1%nat * - Ci)%C); Store i1 (fun r => (r 0%nat * Ci)%C)]).
(** the form of lines 128-138 and 165-213: both entries are read, then written *)
Definition k_mat (a b c d : C) (n target : N) : kernel := Kernel (half n) (fun i =>
  let i0 := idx0 target i in let i1 := idx1 target i in
  [Load 0 i0; Load 1 i1; Store i0 (fun r => (a * r 0%nat + b * r 1%nat)%C);
   Store i1 (fun r => (c * r 0%nat + d * r 1%nat)%C)]).
(** lines 128-138; 0.7071067811865475 stands for 1/sqrt 2 *)
Definition k_h (n target : N) : kernel := Kernel (half n) (fun i =>
  let i0 := idx0 target i in let i1 := idx1 target i in
  let sqrt2_inv := RtoC (/ sqrt 2) in
  [Load 0 i0; Load 1 i1; Store i0 (fun r => ((r 0%nat + r 1%nat) * sqrt2_inv)%C);
   Store i1 (fun r => ((r 0%nat - r 1%nat) * sqrt2_inv)%C)]).
(** lines 141-147 *)
Definition k_diag (factor : C) (n target : N) : kernel := Kernel (half n) (fun i => scale_at (idx1 target i) factor).
(** lines 150-162 *)
Definition k_rz (ang : R) (n target : N) : kernel :=
  let ang := ang * (1/2) in
  let eit := cis ang in let eitstar := Cconj eit in
  Kernel (half n) (fun i =>
    let i0 := idx0 target i in let i1 := idx1 target i in
    [Load 0 i0; Load 1 i1] ++ scale_at i0 eitstar ++ scale_at i1 eit).
(** lines 165-177 *)
Definition k_ry (ang : R) : N -> N -> kernel :=
  let ang := ang * (1/2) in
  k_mat (RtoC (cos ang)) (- RtoC (sin ang))%C (RtoC (sin ang)) (RtoC (cos ang)).
(** lines 180-192 *)
Definition k_rx (ang : R) : N -> N -> kernel :=
  let ang := ang * (1/2) in
  let nisin := (RtoC (sin ang) * - Ci)%C in
  k_mat (RtoC (cos ang)) nisin nisin (RtoC (cos ang)).
(** lines 195-213 *)
Definition k_u3 (theta phi lambd : R) : N -> N -> kernel :=
  let theta := theta * (1/2) in
  let expadd := cis ((phi + lambd) * (1/2)) in
  let expsub := cis ((phi - lambd) * (1/2)) in
  k_mat (Cconj expadd * RtoC (cos theta))%C (- Cconj expsub * RtoC (sin theta))%C
        (expsub * RtoC (sin theta))%C (expadd * RtoC (cos theta))%C.

(** The controlled gates: [controls_target] lists the controls, then the target.  [n_loop] wraps around when there are
    more of them than qubits, which is left undefined here. *)
Definition or_bits (l : list N) : N := fold_left (fun m b => N.lor m (shl1 b)) l 0%N.
Definition ctl_kernel (n : N) (ct : list N) (body : N -> N -> list instr) : res kernel :=
  match rev ct with
  | [] => Err Undefined
  | target :: rest =>
      let c_mask := or_bits (rev rest) in
      let t_mask := shl1 target in
      if (n <? N.of_nat (List.length ct))%N then Err Undefined else
      let n_loop := shl1 (n - N.of_nat (List.length ct)) in
      let* masks := create_masks ct in
      Ok (Kernel n_loop (fun i => body (N.lor (mult_shifted masks i) c_mask) t_mask))
  end.
(** lines 216-226 *)
Definition k_cz (n : N) (ct : list N) : res kernel :=
  let all1 := or_bits ct in
  if (n <? N.of_nat (List.length ct))%N then Err Undefined else
  let n_loop := shl1 (n - N.of_nat (List.length ct)) in
  let* masks := create_masks ct in
  Ok (Kernel n_loop (fun i => scale_at (N.lor (mult_shifted masks i) all1) (- C1)%C)).
(** lines 229-242 *)
Definition k_cx (n : N) (ct : list N) : res kernel :=
  ctl_kernel n ct (fun i10 t_mask =>
    let i11 := N.lor i10 t_mask in
    [Load 0 i10; Load 1 i11; Store i10 (fun r => r 1%nat); Store i11 (fun r => r 0%nat)]).
Definition k_cmat (a b c d : C) (n : N) (ct : list N) : res kernel :=
  ctl_kernel n ct (fun i10 t_mask =>
    let i11 := N.lor i10 t_mask in
    [Load 0 i10; Load 1 i11; Store i10 (fun r => (a * r 0%nat + b * r 1%nat)%C);
     Store i11 (fun r => (c * r 0%nat + d * r 1%nat)%C)]).
(** lines 245-262 *)
Definition k_crx (ang : R) : N -> list N -> res kernel :=
  let ang := ang * (1/2) in
  let nisin := (RtoC (sin ang) * - Ci)%C in
  k_cmat (RtoC (cos ang)) nisin nisin (RtoC (cos ang)).
(** lines 265-282 *)
Definition k_cry (ang : R) : N -> list N -> res kernel :=
  let ang := ang * (1/2) in
  k_cmat (RtoC (cos ang)) (- RtoC (sin ang))%C (RtoC (sin ang)) (RtoC (cos ang)).
(** lines 285-300 *)
Definition k_crz (ang : R) (n : N) (ct : list N) : res kernel :=
  let ang := ang * (1/2) in
  let eit := cis ang in let eitstar := Cconj eit in
  ctl_kernel n ct (fun i10 t_mask => scale_at i10 eitstar ++ scale_at (N.lor i10 t_mask) eit).
(** lines 303-314 *)
Definition k_cphase (ang : R) (n : N) (ct : list N) : res kernel :=
  ctl_kernel n ct (fun i10 t_mask => scale_at (N.lor i10 t_mask) (cis ang)).

(** lines 317-325, the reduction: the sum over the iterations *)
Definition p0calc (a : carr) (target n : N) : res R :=
  for_list (map N.of_nat (seq 0 (N.to_nat (half n))))
    (fun i p0 => let* v := load a (idx0 target i) in Ok (p0 + Cnorm2 v)) 0.

(** [1.0 / math.sqrt(x)] in compiled code; the square root of a negative number is nan there, which is left undefined *)
Definition sqrt_inv (x : R) : res R :=
  if Rltb x 0 then Err Undefined
  else if Reqb x 0 then Err ZeroDivisionError else Ok (/ sqrt x).
(** lines 328-335 *)
Definition k_reduce0 (s : R) (n target : N) : kernel := Kernel (half n) (fun i =>
  scale_at (idx0 target i) (RtoC s) ++ [Store (idx1 target i) (fun _ => C0)]).
(** lines 338-345 *)
Definition k_reduce1 (s : R) (n target : N) : kernel := Kernel (half n) (fun i =>
  scale_at (idx1 target i) (RtoC s) ++ [Store (idx0 target i) (fun _ => C0)]).
(** lines 348-355 *)
Definition k_reset1 (s : R) (n target : N) : kernel := Kernel (half n) (fun i =>
  [Load 0 (idx1 target i); Store (idx0 target i) (fun r => (r 0%nat * RtoC s)%C); Store (idx1 target i) (fun _ => C0)]).

(** ** Gates (lines 444-609)
    A qubit number outside of the register makes the kernels access memory outside of the array. *)
Definition in_reg (n : nat) (z : Z) : bool := ((0 <=? z) && (z <? Z.of_nat n))%Z.

Definition nb_loop1 (n : nat) (tg : target) (k : N -> N -> kernel) (a : carr) : res carr :=
  for_gen (slicing tg (Z.of_nat n)) (fun t a =>
    if in_reg n t then run_kernel (k (N.of_nat n) (Z.to_N t)) a else Err Undefined) a.
Definition nb_loop2 (n : nat) (tg : target) (k : N -> list N -> res kernel) (a : carr) : res carr :=
  let* ps := qubit_pairs tg (Z.of_nat n) in
  for_list ps (fun p a =>
    if in_reg n (fst p) && in_reg n (snd p)
    then let* k := k (N.of_nat n) [Z.to_N (fst p); Z.to_N (snd p)] in run_kernel k a else Err Undefined) a.

(** [np.array(gate.targets, dtype=np.uint32)] (lines 585, 591).  Simplification: targets that are not a tuple of integers
    of the register are left undefined (numpy and numba refuse some of them). *)
Definition raw_targets (n : nat) (tg : target) : res (list N) :=
  match tg with
  | TTuple l => map_res (fun t => match t with TInt z => if in_reg n z then Ok (Z.to_N z) else Err Undefined
                                  | _ => Err Undefined end) l
  | _ => Err Undefined
  end.
Definition nb_raw (n : nat) (tg : target) (k : N -> list N -> res kernel) (a : carr) : res carr :=
  let* ct := raw_targets n tg in
  let* k := k (N.of_nat n) ct in
  run_kernel k a.

Definition nb_unitary (g : gate) (n : nat) : option (carr -> res carr) :=
  match g with
  | GOne KX tg => Some (nb_loop1 n tg k_x)
  | GOne KY tg => Some (nb_loop1 n tg k_y)
  | GOne KZ tg => Some (nb_loop1 n tg k_z)
  | GOne KH tg => Some (nb_loop1 n tg k_h)
  | GOne KT tg => Some (nb_loop1 n tg (k_diag (cis (PI / 4))))
  | GOne KTdg tg => Some (nb_loop1 n tg (k_diag (cis (- (PI / 4)))))
  | GOne KS tg => Some (nb_loop1 n tg (k_diag Ci))
  | GOne KSdg tg => Some (nb_loop1 n tg (k_diag (- Ci)%C))
  | GOne (KRX theta) tg => Some (nb_loop1 n tg (k_rx theta))
  | GOne (KRY theta) tg => Some (nb_loop1 n tg (k_ry theta))
  | GOne (KRZ theta) tg => Some (nb_loop1 n tg (k_rz theta))
  | GOne (KPhase theta) tg => Some (nb_loop1 n tg (k_diag (cis theta)))
  | GOne (KU1 lambd) tg => Some (nb_loop1 n tg (k_rz lambd))
  | GOne (KU3 theta phi lambd) tg => Some (nb_loop1 n tg (k_u3 theta phi lambd))
  | GTwo KCZ tg => Some (nb_loop2 n tg k_cz)
  | GTwo KCX tg => Some (nb_loop2 n tg k_cx)
  | GTwo (KCRX theta) tg => Some (nb_loop2 n tg (k_crx theta))
  | GTwo (KCRY theta) tg => Some (nb_loop2 n tg (k_cry theta))
  | GTwo (KCRZ theta) tg => Some (nb_loop2 n tg (k_crz theta))
  | GTwo (KCPhase theta) tg => Some (nb_loop2 n tg (k_cphase theta))
  | GThree KCCZ tg => Some (nb_raw n tg k_cz)
  | GThree KCCX tg => Some (nb_raw n tg k_cx)
  | _ => None
  end.

(** ** Runs.  The context (lines 42-66) has the attributes of the numpy one except for the second array, which stays
    empty here. *)
Definition nb_new_ctx (n : nat) (save : bool) (pos : nat) : npctx := Ctx n (zeros n) [] save [] [] pos.

(** Outcome of running a gate.  The attributes of the backend object survive an exception. *)
Inductive nres : Type := NOk (c : npctx) (b : backend) | NErr (e : exn) (pos : nat) (b : backend).

Section Random.
Variable rng : nat -> R.

(** lines 619-626, one iteration; the draw is taken first *)
Definition nb_step_measure (n : nat) (t : Z) (s : carr * list nat * nat) : (carr * list nat * nat) * option exn :=
  let '(a, cregs, pos) := s in
  let rand := rng pos in
  let pos := S pos in
  let r :=
    if in_reg n t then
      let* p0 := p0calc a (Z.to_N t) (N.of_nat n) in
      if Rltb rand p0 then
        let* s := sqrt_inv p0 in
        let* a := run_kernel (k_reduce0 s (N.of_nat n) (Z.to_N t)) a in
        let* c := list_set cregs (Z.to_nat t) 0%nat in
        Ok (a, c)
      else
        let* s := sqrt_inv (1 - p0) in
        let* a := run_kernel (k_reduce1 s (N.of_nat n) (Z.to_N t)) a in
        let* c := list_set cregs (Z.to_nat t) 1%nat in
        Ok (a, c)
    else Err Undefined in
  match r with
  | Ok (a, c) => ((a, c, pos), None)
  | Err e => ((a, cregs, pos), Some e)
  end.

(** lines 636-642 *)
Definition nb_step_reset (n : nat) (t : Z) (s : carr * list nat * nat) : (carr * list nat * nat) * option exn :=
  let '(a, cregs, pos) := s in
  let rand := rng pos in
  let pos := S pos in
  let r :=
    if in_reg n t then
      let* p0 := p0calc a (Z.to_N t) (N.of_nat n) in
      if Rltb rand p0 then
        let* s := sqrt_inv p0 in
        run_kernel (k_reduce0 s (N.of_nat n) (Z.to_N t)) a
      else
        let* s := sqrt_inv (1 - p0) in
        run_kernel (k_reset1 s (N.of_nat n) (Z.to_N t)) a
    else Err Undefined in
  match r with
  | Ok a => ((a, cregs, pos), None)
  | Err e => ((a, cregs, pos), Some e)
  end.

(** gate_measure and gate_reset (lines 612-642): the state before the measurement becomes the cache *)
Definition nb_collapse (step : nat -> Z -> carr * list nat * nat -> (carr * list nat * nat) * option exn)
  (tg : target) (ctx : npctx) (b : backend) : nres :=
  let b := if x_save ctx then Backend (Some (x_qubits ctx)) (b_idx b) else b in
  let g := slicing tg (Z.of_nat (x_n ctx)) in
  let '((q, c, pos), e) := loop_state (yields g) (step (x_n ctx)) (x_qubits ctx, x_cregs ctx, x_pos ctx) in
  match e, raised g with
  | Some e, _ => NErr e pos b
  | None, Some e => NErr e pos b
  | None, None => NOk (Ctx (x_n ctx) q (x_buf ctx) false (x_shots ctx) c pos) b
  end.

Definition nb_action (g : gate) (n : nat) : option (npctx -> backend -> nres) :=
  match g with
  | GMeasure tg => Some (nb_collapse nb_step_measure tg)
  | GReset tg => Some (nb_collapse nb_step_reset tg)
  | _ => match nb_unitary g n with
         | Some f => Some (fun ctx b => match f (x_qubits ctx) with
                                        | Ok a => NOk (set_bufs ctx (a, x_buf ctx)) b
                                        | Err e => NErr e (x_pos ctx) b
                                        end)
         | None => None
         end
  end.

Fixpoint nb_run_list (f : gate -> npctx -> backend -> nres) (l : list gate) (ctx : npctx) (b : backend) : nres :=
  match l with
  | [] => NOk ctx b
  | g :: r => match f g ctx b with
              | NOk ctx' b' => nb_run_list f r ctx' b'
              | NErr e p b' => NErr e p b'
              end
  end.

(** lines 415-422 *)
Fixpoint nb_run_single (fuel : nat) (g : gate) (ctx : npctx) (b : backend) : nres :=
  match nb_action g (x_n ctx) with
  | Some act => act ctx b
  | None =>
      match fuel with
      | O => NErr RecursionError (x_pos ctx) b
      | S f => match fallback g (Z.of_nat (x_n ctx)) with
               | Err e => NErr e (x_pos ctx) b
               | Ok gs => nb_run_list (nb_run_single f) gs ctx b
               end
      end
  end.

(** lines 427-430: the loop over the gates of a shot, with the local variable [cache_idx] *)
Fixpoint nb_run_gates (gates : list gate) (ctx : npctx) (b : backend) (cache_idx : Z) : nres * Z :=
  match gates with
  | [] => (NOk ctx b, cache_idx)
  | g :: r =>
      match nb_run_single recursion_limit g ctx b with
      | NErr e p b' => (NErr e p b', cache_idx)
      | NOk ctx' b' => nb_run_gates r ctx' b' (if x_save ctx' then cache_idx + 1 else cache_idx)%Z
      end
  end.

(** lines 424-435 *)
Fixpoint nb_shots (shots : nat) (gates : list gate) (ctx : npctx) (b : backend) : nres :=
  match shots with
  | O => NOk ctx b
  | S k =>
      let ctx := prepare ctx (b_cache b) in
      match nb_run_gates (skipn (Z.to_nat (b_idx b + 1)) gates) ctx b (b_idx b) with
      | (NErr e p b, _) => NErr e p b
      | (NOk ctx b, cache_idx) =>
          let b := if (b_idx b =? cache_idx)%Z then b
                   else Backend (if x_save ctx then Some (x_qubits ctx) else b_cache b) cache_idx in
          let ctx := match x_cregs ctx with [] => ctx | _ => store_shot ctx end in
          nb_shots k gates ctx b
      end
  end.
End Random.

(** Arguments (lines 388-389); [dtype] is always the default (ModelNumbaMemory has it). *)
Record nb_args : Type := NbArgs { na_args : run_args; na_enable_cache : bool }.

(** lines 387-439 [NumbaBackend.run]; the arguments that both simulators have are treated as in the numpy backend
    (lines 390-404 and numpy_backend.py:88-103 have the same text).  [_ignore_global] (lines 645-652) computes what
    [ignore_global_phase] does. *)
Definition nb_run (rng : nat -> R) (b : backend) (gates : list gate) (n : nat) (a : nb_args) (pos : nat)
  : res run_result * backend * nat :=
  match parse_run_args (na_args a) with
  | Err e => (Err e, b, pos)
  | Ok (shots, returns, ignore_global) =>
      let b := if na_enable_cache a then clear_cache_if_invalid b n else new_backend in
      let ctx := nb_new_ctx n (na_enable_cache a) pos in
      match nb_shots rng (Z.to_nat shots) gates ctx b with
      | NErr e p b => (Err e, b, p)
      | NOk ctx b =>
          let ctx := if ignore_global
                     then set_bufs ctx (ignore_global_phase (x_qubits ctx), x_buf ctx) else ctx in
          (Ok (return_type returns ctx), b, x_pos ctx)
      end
  end.
