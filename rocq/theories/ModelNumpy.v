(** Model of blueqat/backends/numpy_backend.py and of the helper [ignore_global_phase] of blueqat/utils.py. *)
From Coq Require Import List Arith ZArith Bool String Reals.
Import ListNotations.
From Verif Require Import Base Cplx ModelTargets ModelGate.
Local Open Scope R_scope.

(** ** NumPy arrays
    A complex array is a list.  Simplifications: exact complex numbers instead of complex128; no length-1
    broadcasting in sums; the uint32 index array (n_qubits <= 32) is a list of naturals. *)
Notation carr := (list C).

(** [a[m]] for a boolean mask [m]: the entries where the mask is set, in order. *)
Fixpoint np_get {A} (a : list A) (m : list bool) : list A :=
  match a, m with
  | x :: a', b :: m' => if b then x :: np_get a' m' else np_get a' m'
  | _, _ => []
  end.

Fixpoint count_true (m : list bool) : nat :=
  match m with [] => 0 | b :: r => (if b then 1 else 0) + count_true r end.

(** writing the values [v], in order, to the places where the mask is set *)
Fixpoint np_scatter {A} (a : list A) (m : list bool) (v : list A) : list A :=
  match a, m with
  | x :: a', true :: m' =>
      match v with y :: v' => y :: np_scatter a' m' v' | [] => x :: a' end
  | x :: a', false :: m' => x :: np_scatter a' m' v
  | _, _ => a
  end.

(** [a[m] = v] for an array [v]: NumPy raises ValueError when the numbers of values differ. *)
Definition np_put (a : carr) (m : list bool) (v : carr) : res carr :=
  if Nat.eqb (List.length v) (count_true m) then Ok (np_scatter a m v) else Err ValueError.

(** [a[m] = s] for a scalar [s] *)
Definition np_put_scalar (a : carr) (m : list bool) (s : C) : res carr :=
  np_put a m (repeat s (count_true m)).

(** [s * v] *)
Definition np_scale (s : C) (v : carr) : carr := map (fun x => (s * x)%C) v.

(** [v + w] and [v - w]; shapes that do not match raise ValueError *)
Definition np_zip (f : C -> C -> C) (v w : carr) : res carr :=
  if Nat.eqb (List.length v) (List.length w)
  then Ok (map (fun p => f (fst p) (snd p)) (combine v w)) else Err ValueError.
Definition np_add := np_zip Cadd.
Definition np_sub := np_zip Csub.

(** [a[m] *= s], which is [a[m] = a[m] * s] *)
Definition np_imul (a : carr) (m : list bool) (s : C) : res carr := np_put a m (np_scale s (np_get a m)).

(** elementwise [&] of boolean arrays of equal length *)
Definition mask_and (a b : list bool) : list bool := map (fun p => andb (fst p) (snd p)) (combine a b).

(** [np.arange(2**n_qubits)] (numpy_backend.py:36) *)
Definition indices (n : nat) : list nat := seq 0 (2 ^ n).

(** [(i & (1 << target)) == 0] and [!= 0]; [1 << target] raises ValueError for a negative target. *)
Definition mask_eq0 (n : nat) (target : Z) : res (list bool) :=
  if (target <? 0)%Z then Err ValueError
  else Ok (map (fun i => Nat.eqb (Nat.land i (Nat.shiftl 1 (Z.to_nat target))) 0) (indices n)).
Definition mask_ne0 (n : nat) (target : Z) : res (list bool) :=
  if (target <? 0)%Z then Err ValueError
  else Ok (map (fun i => negb (Nat.eqb (Nat.land i (Nat.shiftl 1 (Z.to_nat target))) 0)) (indices n)).

(** The two buffers [qubits] and [newq] that the gate methods read, write and exchange. *)
Notation bufs := (carr * carr)%type.

(** numpy_backend.py:141-146, one iteration of gate_x *)
Definition step_x (n : nat) (target : Z) (s : bufs) : res bufs :=
  let (qubits, newq) := s in
  let* t0 := mask_eq0 n target in
  let* t1 := mask_ne0 n target in
  let* newq := np_put newq t0 (np_get qubits t1) in
  let* newq := np_put newq t1 (np_get qubits t0) in
  Ok (newq, qubits).

(** numpy_backend.py:156-161 *)
Definition step_y (n : nat) (target : Z) (s : bufs) : res bufs :=
  let (qubits, newq) := s in
  let* t0 := mask_eq0 n target in
  let* t1 := mask_ne0 n target in
  let* newq := np_put newq t0 (np_scale (- Ci)%C (np_get qubits t1)) in
  let* newq := np_put newq t1 (np_scale Ci (np_get qubits t0)) in
  Ok (newq, qubits).

(** numpy_backend.py:170-171, 245-246, 256-257, 264-265: multiply the amplitudes of bit 1 *)
Definition step_diag1 (a : C) (n : nat) (target : Z) (s : bufs) : res bufs :=
  let (qubits, newq) := s in
  let* t1 := mask_ne0 n target in
  let* qubits := np_imul qubits t1 a in
  Ok (qubits, newq).

(** numpy_backend.py:179-185 *)
Definition step_h (n : nat) (target : Z) (s : bufs) : res bufs :=
  let (qubits, newq) := s in
  let* t0 := mask_eq0 n target in
  let* t1 := mask_ne0 n target in
  let* v := np_add (np_get qubits t0) (np_get qubits t1) in
  let* newq := np_put newq t0 v in
  let* v := np_sub (np_get qubits t0) (np_get qubits t1) in
  let* newq := np_put newq t1 v in
  let newq := np_scale (RtoC (1 / sqrt 2)) newq in
  Ok (newq, qubits).

(** numpy_backend.py:198-203, 217-222 *)
Definition step_mat (a00 a01 a10 a11 : C) (n : nat) (target : Z) (s : bufs) : res bufs :=
  let (qubits, newq) := s in
  let* t0 := mask_eq0 n target in
  let* t1 := mask_ne0 n target in
  let* v := np_add (np_scale a00 (np_get qubits t0)) (np_scale a01 (np_get qubits t1)) in
  let* newq := np_put newq t0 v in
  let* v := np_add (np_scale a10 (np_get qubits t0)) (np_scale a11 (np_get qubits t1)) in
  let* newq := np_put newq t1 v in
  Ok (newq, qubits).

(** numpy_backend.py:234-236, 384-386 *)
Definition step_diag01 (a0 a1 : C) (n : nat) (target : Z) (s : bufs) : res bufs :=
  let (qubits, newq) := s in
  let* t0 := mask_eq0 n target in
  let* qubits := np_imul qubits t0 a0 in
  let* t1 := mask_ne0 n target in
  let* qubits := np_imul qubits t1 a1 in
  Ok (qubits, newq).

(** numpy_backend.py:403-411 *)
Definition step_u3 (a00 a01 a10 a11 : C) (n : nat) (target : Z) (s : bufs) : res bufs :=
  let (qubits, newq) := s in
  let newq := qubits in
  let* t0 := mask_eq0 n target in
  let* t1 := mask_ne0 n target in
  let* newq := np_put newq t0 (np_scale a00 (np_get qubits t0)) in
  let* v := np_sub (np_get newq t0) (np_scale a01 (np_get qubits t1)) in
  let* newq := np_put newq t0 v in
  let* newq := np_put newq t1 (np_scale a10 (np_get qubits t0)) in
  let* v := np_add (np_get newq t1) (np_scale a11 (np_get qubits t1)) in
  let* newq := np_put newq t1 v in
  Ok (newq, qubits).

(** numpy_backend.py:281-288; [np.copyto(newq, qubits)] first *)
Definition step_cx (n : nat) (ct : Z * Z) (s : bufs) : res bufs :=
  let (control, target) := ct in
  let (qubits, newq) := s in
  let newq := qubits in
  let* c1 := mask_ne0 n control in
  let* t0 := mask_eq0 n target in
  let* t1 := mask_ne0 n target in
  let* newq := np_put newq (mask_and c1 t0) (np_get qubits (mask_and c1 t1)) in
  let* newq := np_put newq (mask_and c1 t1) (np_get qubits (mask_and c1 t0)) in
  Ok (newq, qubits).

(** numpy_backend.py:301-308, 322-329 *)
Definition step_cmat (a00 a01 a10 a11 : C) (n : nat) (ct : Z * Z) (s : bufs) : res bufs :=
  let (control, target) := ct in
  let (qubits, newq) := s in
  let newq := qubits in
  let* c1 := mask_ne0 n control in
  let* t0 := mask_eq0 n target in
  let* t1 := mask_ne0 n target in
  let c1t0 := mask_and t0 c1 in
  let c1t1 := mask_and t1 c1 in
  let* v := np_add (np_scale a00 (np_get qubits c1t0)) (np_scale a01 (np_get qubits c1t1)) in
  let* newq := np_put newq c1t0 v in
  let* v := np_add (np_scale a10 (np_get qubits c1t0)) (np_scale a11 (np_get qubits c1t1)) in
  let* newq := np_put newq c1t1 v in
  Ok (newq, qubits).

(** numpy_backend.py:272-273, 354-356 *)
Definition step_cdiag1 (a : C) (n : nat) (ct : Z * Z) (s : bufs) : res bufs :=
  let (control, target) := ct in
  let (qubits, newq) := s in
  let* c1 := mask_ne0 n control in
  let* t1 := mask_ne0 n target in
  let* qubits := np_imul qubits (mask_and c1 t1) a in
  Ok (qubits, newq).

(** numpy_backend.py:341-345 *)
Definition step_cdiag01 (a0 a1 : C) (n : nat) (ct : Z * Z) (s : bufs) : res bufs :=
  let (control, target) := ct in
  let (qubits, newq) := s in
  let* c1 := mask_ne0 n control in
  let* t0 := mask_eq0 n target in
  let* t1 := mask_ne0 n target in
  let* qubits := np_imul qubits (mask_and c1 t0) a0 in
  let* qubits := np_imul qubits (mask_and c1 t1) a1 in
  Ok (qubits, newq).

(** [1 << c] where [c] is whatever the user wrote (numpy_backend.py:364-366): anything but an integer is a
    TypeError.  *)
Definition raw_index (t : target) : res Z :=
  match t with TInt z => Ok z | _ => Err TypeError end.

(** numpy_backend.py:359-368 *)
Definition np_ccz (n : nat) (tg : target) (s : bufs) : res bufs :=
  let* (c1, c2, t) := unpack3 tg in
  let (qubits, newq) := s in
  let* c1 := raw_index c1 in
  let* m1 := mask_ne0 n c1 in
  let* c2 := raw_index c2 in
  let* m2 := mask_ne0 n c2 in
  let* t := raw_index t in
  let* m3 := mask_ne0 n t in
  let* qubits := np_imul qubits (mask_and (mask_and m1 m2) m3) (- C1)%C in
  Ok (qubits, newq).

Definition np_h (n : nat) (tg : target) (s : bufs) : res bufs :=
  for_gen (slicing tg (Z.of_nat n)) (step_h n) s.

(** numpy_backend.py:370-375 *)
Definition np_ccx (n : nat) (tg : target) (s : bufs) : res bufs :=
  let* (c1, c2, t) := unpack3 tg in
  let* s := np_h n t s in
  let* s := np_ccz n tg s in
  np_h n t s.

(** [for target in gate.target_iter(n_qubits)] and [for control, target in gate.control_target_iter(n_qubits)] *)
Definition loop1 (n : nat) (tg : target) (f : nat -> Z -> bufs -> res bufs) (s : bufs) : res bufs :=
  for_gen (slicing tg (Z.of_nat n)) (f n) s.
Definition loop2 (n : nat) (tg : target) (f : nat -> Z * Z -> bufs -> res bufs) (s : bufs) : res bufs :=
  let* ps := qubit_pairs tg (Z.of_nat n) in for_list ps (f n) s.

(** The methods gate_x ... gate_u3 (numpy_backend.py:136-414) except gate_measure and gate_reset, selected as
    [_get_action] does (backendbase.py:86-90).  [None]: the backend has no such method. *)
Definition np_unitary (g : gate) (n : nat) : option (bufs -> res bufs) :=
  match g with
  | GOne KX tg => Some (loop1 n tg step_x)
  | GOne KY tg => Some (loop1 n tg step_y)
  | GOne KZ tg => Some (loop1 n tg (step_diag1 (- C1)%C))
  | GOne KH tg => Some (np_h n tg)
  | GOne (KRX theta) tg =>
      let halftheta := theta * (1/2) in
      let a00 := RtoC (cos halftheta) in
      let a01 := (- Ci * RtoC (sin halftheta))%C in
      Some (loop1 n tg (step_mat a00 a01 a01 a00))
  | GOne (KRY theta) tg =>
      let halftheta := theta * (1/2) in
      let a00 := RtoC (cos halftheta) in
      let a10 := RtoC (sin halftheta) in
      let a01 := (- a10)%C in
      Some (loop1 n tg (step_mat a00 a01 a10 a00))
  | GOne (KRZ theta) tg =>
      let halftheta := theta * (1/2) in
      Some (loop1 n tg (step_diag01 (cos halftheta, - sin halftheta) (cos halftheta, sin halftheta)))
  | GOne (KPhase theta) tg => Some (loop1 n tg (step_diag1 (cos theta, sin theta)))
  | GOne KT tg => Some (loop1 n tg (step_diag1 (1 / sqrt 2, 1 / sqrt 2)))
  | GOne KS tg => Some (loop1 n tg (step_diag1 Ci))
  | GOne (KU1 lambd) tg =>
      let halflambda := lambd * (1/2) in
      Some (loop1 n tg (step_diag01 (cos halflambda, - sin halflambda) (cos halflambda, sin halflambda)))
  | GOne (KU3 theta phi lambd) tg =>
      let globalphase : C := (cos ((- phi - lambd) * (1/2)), sin ((- phi - lambd) * (1/2))) in
      let a00 := (RtoC (cos (theta * (1/2))) * globalphase)%C in
      let a11 := (a00 * (cos (phi + lambd), sin (phi + lambd)))%C in
      let a := (RtoC (sin (theta * (1/2))) * globalphase)%C in
      let a01 := (a * (cos lambd, sin lambd))%C in
      let a10 := (a * (cos phi, sin phi))%C in
      Some (loop1 n tg (step_u3 a00 a01 a10 a11))
  | GTwo KCZ tg => Some (loop2 n tg (step_cdiag1 (- C1)%C))
  | GTwo KCX tg => Some (loop2 n tg step_cx)
  | GTwo (KCRX theta) tg =>
      let halftheta := theta * (1/2) in
      let a00 := RtoC (cos halftheta) in
      let a01 := (- Ci * RtoC (sin halftheta))%C in
      Some (loop2 n tg (step_cmat a00 a01 a01 a00))
  | GTwo (KCRY theta) tg =>
      let halftheta := theta * (1/2) in
      let a00 := RtoC (cos halftheta) in
      let a10 := RtoC (sin halftheta) in
      let a01 := (- a10)%C in
      Some (loop2 n tg (step_cmat a00 a01 a10 a00))
  | GTwo (KCRZ theta) tg =>
      let halftheta := theta * (1/2) in
      Some (loop2 n tg (step_cdiag01 (cos halftheta, - sin halftheta) (cos halftheta, sin halftheta)))
  | GTwo (KCPhase theta) tg => Some (loop2 n tg (step_cdiag1 (cos theta, sin theta)))
  | GThree KCCZ tg => Some (np_ccz n tg)
  | GThree KCCX tg => Some (np_ccx n tg)
  | _ => None
  end.

(** ** The context (numpy_backend.py:29-55) *)
Definition counter : Type := list (list nat * nat).

(** [d[key] = d.get(key, 0) + 1] on an insertion ordered dictionary *)
Fixpoint counter_incr (d : counter) (key : list nat) : counter :=
  match d with
  | [] => [(key, 1%nat)]
  | (k, v) :: r => if list_eq_dec Nat.eq_dec k key then (k, S v) :: r else (k, v) :: counter_incr r key
  end.

(** [x_pos] is the number of draws taken so far from the random stream, which is global in Python.
    The keys of the counter are the lists of the creg values; Python joins them to a string of digits. *)
Record npctx : Type := Ctx {
  x_n : nat;
  x_qubits : carr;
  x_buf : carr;
  x_save : bool;
  x_shots : counter;
  x_cregs : list nat;
  x_pos : nat }.

Definition zeros (n : nat) : carr := repeat C0 (2 ^ n).

(** numpy_backend.py:32-39; [cregs = None] is modelled by the empty list, both are false in a condition *)
Definition new_ctx (n pos : nat) : npctx := Ctx n (zeros n) (zeros n) true [] [] pos.

(** [self.qubits.fill(0.0); self.qubits[0] = 1.0] (numpy_backend.py:46-47) *)
Definition basis0 (n : nat) : carr :=
  match zeros n with [] => [] | _ :: r => C1 :: r end.

(** numpy_backend.py:41-48; [np.copyto] needs equal lengths, which [clear_cache_if_invalid] ensures *)
Definition prepare (ctx : npctx) (cache : option carr) : npctx :=
  let q := match cache with Some c => c | None => basis0 (x_n ctx) end in
  Ctx (x_n ctx) q (x_buf ctx) (x_save ctx) (x_shots ctx) (repeat 0%nat (x_n ctx)) (x_pos ctx).

(** numpy_backend.py:50-55 *)
Definition store_shot (ctx : npctx) : npctx :=
  Ctx (x_n ctx) (x_qubits ctx) (x_buf ctx) (x_save ctx) (counter_incr (x_shots ctx) (x_cregs ctx))
      (x_cregs ctx) (x_pos ctx).

(** Result of running a gate: the context, or an exception together with the position that the random
    stream reached (the rest of the context is lost). *)
Inductive sres : Type := SOk (c : npctx) | SErr (e : exn) (pos : nat).

Definition set_bufs (ctx : npctx) (s : bufs) : npctx :=
  Ctx (x_n ctx) (fst s) (snd s) (x_save ctx) (x_shots ctx) (x_cregs ctx) (x_pos ctx).

(** [np.linalg.norm(v) ** 2] *)
Definition np_norm2 (v : carr) : R := Rsum Cnorm2 v.

(** [l[i] = v] on a Python list *)
Fixpoint list_set {A} (l : list A) (i : nat) (v : A) : res (list A) :=
  match l, i with
  | [], _ => Err IndexError
  | _ :: r, O => Ok (v :: r)
  | x :: r, S j => let* r' := list_set r j v in Ok (x :: r')
  end.

Section Random.
(** the values that [random.random()] returns, in order *)
Variable rng : nat -> R.

(** numpy_backend.py:420-430, one iteration; state: qubits, cregs, stream position.  An exception is returned
    with the position reached. *)
Definition step_measure (n : nat) (target : Z) (s : carr * list nat * nat)
  : (carr * list nat * nat) * option exn :=
  let '(qubits, cregs, pos) := s in
  match mask_eq0 n target, mask_ne0 n target with
  | Ok t0, Ok t1 =>
      let p_zero := np_norm2 (np_get qubits t0) in
      let rand := rng pos in
      let pos := S pos in
      let r :=
        if Rltb rand p_zero then
          let* q := np_put_scalar qubits t1 C0 in
          let q := map (fun x => (x / RtoC (sqrt p_zero))%C) q in
          let* c := list_set cregs (Z.to_nat target) 0%nat in
          Ok (q, c)
        else
          let* q := np_put_scalar qubits t0 C0 in
          let q := map (fun x => (x / RtoC (sqrt (1 - p_zero)))%C) q in
          let* c := list_set cregs (Z.to_nat target) 1%nat in
          Ok (q, c) in
      match r with
      | Ok (q, c) => ((q, c, pos), None)
      | Err e => ((qubits, cregs, pos), Some e)
      end
  | Err e, _ | _, Err e => (s, Some e)
  end.

(** numpy_backend.py:438-448 *)
Definition step_reset (n : nat) (target : Z) (s : carr * list nat * nat)
  : (carr * list nat * nat) * option exn :=
  let '(qubits, cregs, pos) := s in
  match mask_eq0 n target, mask_ne0 n target with
  | Ok t0, Ok t1 =>
      let p_zero := np_norm2 (np_get qubits t0) in
      let rand := rng pos in
      let pos := S pos in
      let r :=
        if Rltb rand p_zero then
          let* q := np_put_scalar qubits t1 C0 in
          Ok (map (fun x => (x / RtoC (sqrt p_zero))%C) q)
        else
          let* q := np_put qubits t0 (np_get qubits t1) in
          let* q := np_put_scalar q t1 C0 in
          Ok (map (fun x => (x / RtoC (sqrt (1 - p_zero)))%C) q) in
      match r with
      | Ok q => ((q, cregs, pos), None)
      | Err e => ((qubits, cregs, pos), Some e)
      end
  | Err e, _ | _, Err e => (s, Some e)
  end.

(** a [for] loop whose body may raise, keeping the state that was reached *)
Fixpoint loop_state {S} (l : list Z) (f : Z -> S -> S * option exn) (s : S) : S * option exn :=
  match l with
  | [] => (s, None)
  | a :: r => match f a s with
              | (s', None) => loop_state r f s'
              | (s', Some e) => (s', Some e)
              end
  end.

(** gate_measure and gate_reset (numpy_backend.py:416-450) around one of the two loop bodies *)
Definition np_collapse (step : nat -> Z -> carr * list nat * nat -> (carr * list nat * nat) * option exn)
  (tg : target) (ctx : npctx) : sres :=
  let g := slicing tg (Z.of_nat (x_n ctx)) in
  let '((q, c, pos), e) := loop_state (yields g) (step (x_n ctx)) (x_qubits ctx, x_cregs ctx, x_pos ctx) in
  match e, raised g with
  | Some e, _ => SErr e pos
  | None, Some e => SErr e pos
  | None, None => SOk (Ctx (x_n ctx) q (x_buf ctx) false (x_shots ctx) c pos)
  end.

(** [_get_action] of the numpy backend *)
Definition np_action (g : gate) (n : nat) : option (npctx -> sres) :=
  match g with
  | GMeasure tg => Some (np_collapse step_measure tg)
  | GReset tg => Some (np_collapse step_reset tg)
  | _ => match np_unitary g n with
         | Some f => Some (fun ctx => match f (x_qubits ctx, x_buf ctx) with
                                      | Ok s => SOk (set_bufs ctx s)
                                      | Err e => SErr e (x_pos ctx)
                                      end)
         | None => None
         end
  end.

Fixpoint run_list (f : gate -> npctx -> sres) (l : list gate) (ctx : npctx) : sres :=
  match l with
  | [] => SOk ctx
  | g :: r => match f g ctx with
              | SOk ctx' => run_list f r ctx'
              | SErr e p => SErr e p
              end
  end.

(** numpy_backend.py:110-117 [run_single_gate].  [fuel] stands for Python's recursion limit; the nesting of
    fallbacks is shown to stay below it. *)
Fixpoint np_run_single (fuel : nat) (g : gate) (ctx : npctx) : sres :=
  match np_action g (x_n ctx) with
  | Some act => act ctx
  | None =>
      match fuel with
      | O => SErr RecursionError (x_pos ctx)
      | S f => match fallback g (Z.of_nat (x_n ctx)) with
               | Err e => SErr e (x_pos ctx)
               | Ok gs => run_list (np_run_single f) gs ctx
               end
      end
  end.

Definition recursion_limit : nat := 100.

(** The attributes [cache] and [cache_idx] of a backend object (numpy_backend.py:68-70). *)
Record backend : Type := Backend { b_cache : option carr; b_idx : Z }.
Definition new_backend : backend := Backend None (-1).

(** numpy_backend.py:72-85.  All arrays have the default dtype, so the test of the dtype is left out. *)
Definition clear_cache_if_invalid (b : backend) (n : nat) : backend :=
  match b_cache b with
  | None => new_backend
  | Some c => if Nat.eqb (List.length c) (2 ^ n) then b else new_backend
  end.

(** numpy_backend.py:121-125, the loop over the gates of one shot *)
Fixpoint np_run_gates (gates : list gate) (ctx : npctx) (b : backend) : sres * backend :=
  match gates with
  | [] => (SOk ctx, b)
  | g :: r =>
      match np_run_single recursion_limit g ctx with
      | SErr e p => (SErr e p, b)
      | SOk ctx' =>
          let b' := if x_save ctx' then Backend (Some (x_qubits ctx')) (b_idx b + 1) else b in
          np_run_gates r ctx' b'
      end
  end.

(** numpy_backend.py:119-127; [gates[self.cache_idx + 1:]] *)
Fixpoint np_shots (shots : nat) (gates : list gate) (ctx : npctx) (b : backend) : sres * backend :=
  match shots with
  | O => (SOk ctx, b)
  | S k =>
      let ctx := prepare ctx (b_cache b) in
      match np_run_gates (skipn (Z.to_nat (b_idx b + 1)) gates) ctx b with
      | (SErr e p, b) => (SErr e p, b)
      | (SOk ctx, b) =>
          let ctx := match x_cregs ctx with [] => ctx | _ => store_shot ctx end in
          np_shots k gates ctx b
      end
  end.

End Random.

(** utils.py:41-55 [ignore_global_phase] *)
Fixpoint first_nonzero (l : carr) : option C :=
  match l with
  | [] => None
  | q :: r => if Rltb (1 / 10000000) (Cabs q) then Some q else first_nonzero r
  end.
Definition ignore_global_phase (statevec : carr) : carr :=
  match first_nonzero statevec with
  | Some q => let ang := (RtoC (Cabs q) / q)%C in map (fun x => (x * ang)%C) statevec
  | None => statevec
  end.

(** The arguments of [run] (numpy_backend.py:88) and what it returns (60-65). *)
Record run_args : Type := RunArgs { a_shots : option Z; a_returns : option string; a_ignore_global : bool }.
Definition no_args : run_args := RunArgs None None false.

Inductive run_result : Type :=
| RState (v : carr)
| RShots (c : counter)
| RBoth (v : carr) (c : counter)
| RCtx (ctx : npctx).

Definition default_shots : Z := 1024.

(** numpy_backend.py:88-103.  The warning is left out. *)
Definition parse_run_args (a : run_args) : res (Z * string * bool) :=
  let returns := match a_returns a with
                 | Some r => r
                 | None => match a_shots a with None => "statevector" | Some _ => "shots" end
                 end%string in
  if negb (String.eqb returns "statevector" || String.eqb returns "shots"
           || String.eqb returns "statevector_and_shots" || String.eqb returns "_inner_ctx")%bool
  then Err ValueError
  else
    let shots := match a_shots a with
                 | Some s => s
                 | None => if (String.eqb returns "statevector" || String.eqb returns "_inner_ctx")%bool
                           then 1%Z else default_shots
                 end in
    Ok (shots, returns, a_ignore_global a).

(** numpy_backend.py:60-65 *)
Definition return_type (returns : string) (ctx : npctx) : run_result :=
  if String.eqb returns "statevector" then RState (x_qubits ctx)
  else if String.eqb returns "shots" then RShots (x_shots ctx)
  else if String.eqb returns "statevector_and_shots" then RBoth (x_qubits ctx) (x_shots ctx)
  else RCtx ctx.

(** numpy_backend.py:87-131 [NumPyBackend.run]: result, backend afterwards, stream position afterwards *)
Definition np_run (rng : nat -> R) (b : backend) (gates : list gate) (n : nat) (a : run_args) (pos : nat)
  : res run_result * backend * nat :=
  match parse_run_args a with
  | Err e => (Err e, b, pos)
  | Ok (shots, returns, ignore_global) =>
      let b := clear_cache_if_invalid b n in
      let ctx := new_ctx n pos in
      match np_shots rng (Z.to_nat shots) gates ctx b with
      | (SErr e p, b) => (Err e, b, p)
      | (SOk ctx, b) =>
          let ctx := if ignore_global
                     then set_bufs ctx (ignore_global_phase (x_qubits ctx), x_buf ctx) else ctx in
          (Ok (return_type returns ctx), b, x_pos ctx)
      end
  end.
