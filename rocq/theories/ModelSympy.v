(** Model of blueqat/backends/sympy_backend.py.
    Simplifications: the entries of a sympy matrix are the complex numbers that its expressions stand for (symbolic angles: for each value of the
    symbols); [_angle_simplify] (28-34) returns its argument, since it only replaces a float by an expression for the same multiple of pi; comparison
    with 0 is exact; warnings are left out.  Shapes always agree, since every operand is made for the same number of qubits; ShapeError is not modelled. *)
From Coq Require Import List Arith ZArith Bool String Reals.
Import ListNotations.
From Verif Require Import Base Cplx ModelTargets ModelGate ModelNumpy ModelBackend.
Local Open Scope R_scope.

(** ** Matrices of sympy: the list of the rows *)
Definition matrix : Type := list (list C).
(** [m[i, j]] *)
Definition mat_at (m : matrix) (i j : nat) : C := nth j (nth i m []) C0.
(** [eye(d)] *)
Definition eye (d : nat) : matrix := map (fun i => map (fun j => if Nat.eqb i j then C1 else C0) (seq 0 d)) (seq 0 d).
(** [a * b] for matrices, [a + b], and [a * s] for a number [s] *)
Definition mat_mul (a b : matrix) : matrix :=
  map (fun row => map (fun j => Csum (fun k => (nth k row C0 * mat_at b k j)%C) (seq 0 (List.length row))) (seq 0 (List.length b))) a.
Definition mat_add (a b : matrix) : matrix := map (fun p => map (fun q => (fst q + snd q)%C) (combine (fst p) (snd p))) (combine a b).
Definition mat_scale (a : matrix) (s : C) : matrix := map (map (fun z => (z * s)%C)) a.
(** [TensorProduct(a, b)] *)
Definition tensor (a b : matrix) : matrix :=
  flat_map (fun ra => map (fun rb => flat_map (fun x => map (fun y => (x * y)%C) rb) ra) b) a.
(** [functools.reduce(f, l)] *)
Definition reduce {A} (f : A -> A -> A) (l : list A) : res A :=
  match l with [] => Err TypeError | a :: r => Ok (fold_left f r a) end.

(** ** Gates (55-73) *)
Definition two (a b c d : C) : matrix := [[a; b]; [c; d]].
Definition sy_c0 : matrix := two C1 C0 C0 C0.
Definition sy_c1 : matrix := two C0 C0 C0 C1.
Definition sy_x : matrix := two C0 C1 C1 C0.
Definition sy_y : matrix := two C0 (- Ci)%C Ci C0.
Definition sy_z : matrix := two C1 C0 C0 (- C1)%C.
Definition sy_h : matrix := mat_scale (two C1 C1 C1 (- C1)%C) (/ RtoC (sqrt 2))%C.
Definition sy_rx (theta : R) : matrix :=
  two (RtoC (cos (theta / 2))) (- Ci * RtoC (sin (theta / 2)))%C (- Ci * RtoC (sin (theta / 2)))%C (RtoC (cos (theta / 2))).
Definition sy_ry (theta : R) : matrix := two (RtoC (cos (theta / 2))) (- RtoC (sin (theta / 2)))%C (RtoC (sin (theta / 2))) (RtoC (cos (theta / 2))).
Definition sy_rz (theta : R) : matrix := two (cis (- theta / 2)) C0 C0 (cis (theta / 2)).
Definition sy_phase (theta : R) : matrix := two C1 C0 C0 (cis theta).
Definition sy_u1 (lambd : R) : matrix := two (cis (- lambd / 2)) C0 C0 (cis (lambd / 2)).
Definition sy_u2 (phi lambd : R) : matrix :=
  two (cis (- (phi + lambd) / 2) / RtoC (sqrt 2))%C (- cis (- (phi - lambd) / 2) / RtoC (sqrt 2))%C
      (cis ((phi - lambd) / 2) / RtoC (sqrt 2))%C (cis ((phi + lambd) / 2) / RtoC (sqrt 2))%C.
Definition sy_u3 (theta phi lambd : R) : matrix :=
  two (cis (- (phi + lambd) / 2) * RtoC (cos (theta / 2)))%C (- cis (- (phi - lambd) / 2) * RtoC (sin (theta / 2)))%C
      (cis ((phi - lambd) / 2) * RtoC (sin (theta / 2)))%C (cis ((phi + lambd) / 2) * RtoC (cos (theta / 2)))%C.

(** The matrices that [_one_qubit_gate_noargs], [_one_qubit_gate_args_theta] and [_one_qubit_gate_ugate] look up (91-98, 109-123), for the classes
    that have such a method (100-107, 125-127). *)
Definition sy_gate (k : g1) : option matrix :=
  match k with
  | KX => Some sy_x | KY => Some sy_y | KZ => Some sy_z | KH => Some sy_h
  | KRX theta => Some (sy_rx theta) | KRY theta => Some (sy_ry theta) | KRZ theta => Some (sy_rz theta) | KPhase theta => Some (sy_phase theta)
  | KU1 lambd => Some (sy_u1 lambd) | KU2 phi lambd => Some (sy_u2 phi lambd) | KU3 theta phi lambd => Some (sy_u3 theta phi lambd)
  | _ => None
  end.

(** sympy_backend.py:75-83; [idx in targets] *)
Definition one_qubit_matrix (n_qubits : nat) (targets : list Z) (matrix_of_gate : matrix) : res matrix :=
  let gates := map (fun idx => if existsb (Z.eqb (Z.of_nat idx)) targets then matrix_of_gate else eye 2) (seq 0 n_qubits) in
  reduce tensor (rev gates).
(** sympy_backend.py:85-89 *)
Definition one_qubit_circuit (n_qubits : nat) (tg : target) (matrix_of_gate : matrix) (m : matrix) : res matrix :=
  let* ts := gen_list (slicing tg (Z.of_nat n_qubits)) in
  let* g := one_qubit_matrix n_qubits ts matrix_of_gate in
  Ok (mat_mul g m).
(** sympy_backend.py:129-133 *)
Definition two_qubit_matrix (n_qubits : nat) (matrix_of_gate : matrix) (control target : Z) : res matrix :=
  let* c0 := one_qubit_matrix n_qubits [control] sy_c0 in
  let* c1 := one_qubit_matrix n_qubits [control] sy_c1 in
  let* tgt := one_qubit_matrix n_qubits [target] matrix_of_gate in
  Ok (mat_add c0 (mat_mul tgt c1)).
(** sympy_backend.py:135-140 *)
Definition two_qubit_circuit (n_qubits : nat) (tg : target) (matrix_of_gate : matrix) (m : matrix) : res matrix :=
  let* ps := qubit_pairs tg (Z.of_nat n_qubits) in
  for_list ps (fun ct m => let* g := two_qubit_matrix n_qubits matrix_of_gate (fst ct) (snd ct) in Ok (mat_mul g m)) m.
(** The bound methods (100-107, 125-127, 142-143, 157-158).  [Undefined]: not reached, there is no such method and the backend uses the fallback. *)
Definition sy_action (n_qubits : nat) (g : gate) (m : matrix) : res matrix :=
  match g with
  | GOne k tg => match sy_gate k with Some a => one_qubit_circuit n_qubits tg a m | None => Err Undefined end
  | GTwo KCX tg => two_qubit_circuit n_qubits tg sy_x m
  | GTwo KCZ tg => two_qubit_circuit n_qubits tg sy_z m
  | GMeasure _ | GReset _ => Ok m
  | _ => Err Undefined
  end.
(** sympy_backend.py:164-170 *)
Fixpoint first_diagonal (m : matrix) (l : list nat) : option C :=
  match l with
  | [] => None
  | i :: r => if Req_EM_T (Cnorm2 (mat_at m i i)) 0 then first_diagonal m r else Some (mat_at m i i)
  end.
Definition sy_postprocess (n_qubits : nat) (ignore_global : bool) (m : matrix) : matrix :=
  if ignore_global then
    match first_diagonal m (seq 0 (2 ^ n_qubits)) with
    | Some d => mat_scale m (RtoC (Cabs d) / d)%C
    | None => m
    end
  else m.
(** backendbase.py:54-72 with sympy_backend.py:160-162: [Circuit.to_unitary] (circuit.py:234-236) *)
Definition sympy_run (gates : list gate) (n_qubits : nat) (ignore_global : bool) : res matrix :=
  let* m := run_gates sympy_names (sy_action n_qubits) recursion_limit gates (Z.of_nat n_qubits) (eye (2 ^ n_qubits)) in
  Ok (sy_postprocess n_qubits ignore_global m).
