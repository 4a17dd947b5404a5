(** Model of the index array of blueqat/backends/numpy_backend.py with its dtype uint32, which ModelNumpy models as natural numbers. *)
From Coq Require Import List Arith NArith ZArith Bool Reals.
Import ListNotations.
From Verif Require Import Base Cplx ModelNumpy.
Local Open Scope nat_scope.

(** [np.arange(2**n_qubits, dtype=np.uint32)] (numpy_backend.py:36): NumPy fills the array with 0, 1, ... in arithmetic of 32 bits *)
Definition indices32 (n : nat) : list nat := map (fun i => N.to_nat (N.of_nat i mod 4294967296)) (seq 0 (2 ^ n)).
(** [(i & (1 << target)) == 0] and [!= 0], as in [mask_eq0]; [1 << target] is a Python int, with which NumPy computes in 64 bits if it has more than 32 (target < 63) *)
Definition mask32_eq0 (n : nat) (target : Z) : res (list bool) :=
  if (target <? 0)%Z then Err ValueError
  else Ok (map (fun i => Nat.eqb (Nat.land i (Nat.shiftl 1 (Z.to_nat target))) 0) (indices32 n)).
Definition mask32_ne0 (n : nat) (target : Z) : res (list bool) :=
  if (target <? 0)%Z then Err ValueError
  else Ok (map (fun i => negb (Nat.eqb (Nat.land i (Nat.shiftl 1 (Z.to_nat target))) 0)) (indices32 n)).

(** numpy_backend.py:141-146, as in [step_x] *)
Definition step32_x (n : nat) (target : Z) (s : bufs) : res bufs :=
  let (qubits, newq) := s in
  let* t0 := mask32_eq0 n target in
  let* t1 := mask32_ne0 n target in
  let* newq := np_put newq t0 (np_get qubits t1) in
  let* newq := np_put newq t1 (np_get qubits t0) in
  Ok (newq, qubits).
(** numpy_backend.py:170-171, as in [step_diag1] *)
Definition step32_diag1 (a : C) (n : nat) (target : Z) (s : bufs) : res bufs :=
  let (qubits, newq) := s in
  let* t1 := mask32_ne0 n target in
  let* qubits := np_imul qubits t1 a in
  Ok (qubits, newq).
(** numpy_backend.py:179-185, as in [step_h] *)
Definition step32_h (n : nat) (target : Z) (s : bufs) : res bufs :=
  let (qubits, newq) := s in
  let* t0 := mask32_eq0 n target in
  let* t1 := mask32_ne0 n target in
  let* v := np_add (np_get qubits t0) (np_get qubits t1) in
  let* newq := np_put newq t0 v in
  let* v := np_sub (np_get qubits t0) (np_get qubits t1) in
  let* newq := np_put newq t1 v in
  let newq := np_scale (RtoC (1 / sqrt 2)) newq in
  Ok (newq, qubits).
