(** Properties of the matrices of circuits: the sympy_unitary backend, and circuit_to_unitary.
    [is_matrix n U m]: [m] is the matrix of [U] on [n] qubits; [circuit_ops n gs ops]: the gates [gs] are unitary and stand for the operators [ops]. *)
From Coq Require Import String List Arith ZArith Bool Reals.
Import ListNotations.
From Verif Require Import Base Cplx Bits ModelTargets ModelGate ModelNumpy ModelCircuit ModelSympy ModelUnitary SpecTargets SpecQuantum SpecCircuit
  SpecMeasure SpecAPI SpecVqe SpecSympy SpecUnitary ProofBackend ProofVqeEx ProofSympy ProofToUnitary.
Local Open Scope nat_scope.

(** C27.  The matrix of the sympy_unitary backend, applied to |0...0>, is the state vector of the simulator, if there is a qubit and no one qubit gate
    lists a qubit twice. *)
Theorem C27_partial : forall rng n gs ops pos, 0 < n -> circuit_ops n gs ops -> Forall is_method gs -> Forall (unrepeated n) gs ->
  exists m v b, sympy_run gs n false = Ok m /\ np_run rng new_backend gs n no_args pos = (Ok (RState v), b, pos) /\
    is_matrix n (apply_all ops) m /\ map (fun row => nth 0 row C0) m = v.
Proof. exact sympy_numpy. Qed.
Print Assumptions C27_partial.
(** In general a one qubit gate acts once on each listed qubit, and measurement and reset are left out. *)
Theorem C27_once : forall n gs ops, 0 < n -> circuit_ops_once n gs ops -> Forall is_method gs ->
  exists m, sympy_run gs n false = Ok m /\ is_matrix n (apply_all ops) m.
Proof. exact sympy_once. Qed.
Print Assumptions C27_once.
(** ignore_global=True: a phase factor is put in front that makes the first non-zero diagonal entry a positive number. *)
Theorem C27_ignore_global : forall n gs m, sympy_run gs n false = Ok m -> forall U, is_matrix n U m ->
  exists m' k, sympy_run gs n true = Ok m' /\ Cnorm2 k = 1%R /\ is_matrix n (fun psi => scl k (U psi)) m' /\
    ((exists i, i < 2 ^ n /\ U (ket i) i <> C0 /\ (forall j, j < i -> U (ket j) j = C0) /\ Cim (k * U (ket i) i) = 0%R /\ (0 < Cre (k * U (ket i) i))%R) \/
     (forall i, i < 2 ^ n -> U (ket i) i = C0) /\ k = C1).
Proof. exact sympy_ignore. Qed.
Print Assumptions C27_ignore_global.
Example C27_case : exists ops, circuit_ops 2 bell_gates ops /\ Forall is_method bell_gates /\ Forall (unrepeated 2) bell_gates.
Proof. exact bell_case. Qed.
(** x[0, 0]: the simulator applies X twice, the sympy backend once. *)
Theorem C27_twice_refuted : forall rng pos, exists m v b, circuit_ops 1 [twice] [sem1 KX 0; sem1 KX 0] /\ sympy_run [twice] 1 false = Ok m /\
  np_run rng new_backend [twice] 1 no_args pos = (Ok (RState v), b, pos) /\ map (fun row => nth 0 row C0) m <> v.
Proof. exact twice_refuted. Qed.
Print Assumptions C27_twice_refuted.
(** Circuit().x[:] has no qubit: the simulator runs it, the sympy backend raises TypeError. *)
Theorem C27_width0_refuted : forall rng pos, let g := GOne KX (TSlice None None None) in exists v b, circuit_ops 0 [g] [] /\ sympy_run [g] 0 false = Err TypeError /\
  np_run rng new_backend [g] 0 no_args pos = (Ok (RState v), b, pos).
Proof. exact width0_refuted. Qed.
Print Assumptions C27_width0_refuted.
(** Circuit(1).x[-2]: the simulator raises ValueError, the sympy backend ignores the gate. *)
Theorem C27_outside_refuted : forall rng pos, let g := GOne KX (TInt (-2)) in exists m b, sympy_run [g] 1 false = Ok m /\ is_matrix 1 (fun psi => psi) m /\
  np_run rng new_backend [g] 1 no_args pos = (Err ValueError, b, pos).
Proof. exact outside_ignored. Qed.
Print Assumptions C27_outside_refuted.

(** C28.  circuit_to_unitary returns the matrix of the circuit; no circuit of the program is changed.  The runs use the global default backend. *)
Theorem C28_matrix : forall rng seen h circ v ops, reachable rng seen h -> circuit_is h circ v -> simulated rng h (VCirc (v_gates v) (v_n v) None) ->
  circuit_ops (Z.to_nat (v_n v)) (v_gates v) ops ->
  exists m h', circuit_to_unitary rng h circ SelDefault (unitary_args None None) = (Ok m, h') /\ is_matrix (Z.to_nat (v_n v)) (apply_all ops) m /\
    reachable rng seen h' /\ h_pos h' = h_pos h /\ h_default h' = h_default h /\ (forall c' v', circuit_is h c' v' -> circuit_is h' c' v').
Proof. exact unitary_matrix. Qed.
Print Assumptions C28_matrix.
(** With measurements and resets: column [j] is the state of a run from the basis state [j]. *)
Theorem C28_runs : forall rng seen h circ v, reachable rng seen h -> circuit_is h circ v -> simulated rng h (VCirc (v_gates v) (v_n v) None) -> draws_ok rng ->
  valid (Z.to_nat (v_n v)) (v_gates v) -> (v_n v <> 0)%Z ->
  let n := Z.to_nat (v_n v) in
  exists m h' psis, circuit_to_unitary rng h circ SelDefault (unitary_args None None) = (Ok m, h') /\
    basis_runs rng n (v_gates v) (h_pos h) (seq 0 (2 ^ n)) psis (h_pos h') /\ has_columns n psis m /\
    reachable rng seen h' /\ h_default h' = h_default h /\ (forall c' v', circuit_is h c' v' -> circuit_is h' c' v').
Proof. exact unitary_runs. Qed.
Print Assumptions C28_runs.
Example C28_case : forall rng, exists h c, reachable rng [] h /\ circuit_is h c x0 /\ simulated rng h x0 /\ circuit_ops 2 (v_gates x0) [sem1 KX 0].
Proof. exact x0_case. Qed.
Example C28_runs_case : forall rng, exists h c, reachable rng [] h /\ circuit_is h c x0_measured /\ simulated rng h x0_measured /\ valid 2 (v_gates x0_measured).
Proof. exact measured_case. Qed.
