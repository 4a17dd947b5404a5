(** Properties C06 to C10: the gates, runs of circuits, unitarity and fallbacks. *)
From Coq Require Import List ZArith String Reals.
Import ListNotations.
From Verif Require Import Base Cplx ModelTargets ModelGate ModelBackend ModelNumpy SpecTargets SpecQuantum SpecCircuit SpecMeasure
  ProofRun ProofUnitary ProofCache ProofWhole ProofBackend ProofExamples.
Local Open Scope R_scope.

(** C06.  Executing a gate on the numpy backend applies the textbook matrices of the gate, for each qubit or pair of qubits
    that its target denotes and in that order, to any state vector. *)
Theorem C06_gate_matrices : forall rng n g ops, gate_ops n g ops ->
  forall ctx psi, x_n ctx = n -> x_qubits ctx = arr n psi -> List.length (x_buf ctx) = (2 ^ n)%nat ->
  exists buf, List.length buf = (2 ^ n)%nat /\
    np_run_single rng recursion_limit g ctx = SOk (set_bufs ctx (arr n (apply_all ops psi), buf)).
Proof. exact gate_acts. Qed.
Print Assumptions C06_gate_matrices.

(** Every array of the right length is such a vector. *)
Theorem C06_all_vectors : forall n v, List.length v = (2 ^ n)%nat -> exists psi, v = arr n psi.
Proof. exact ProofArray.arr_exists. Qed.
Print Assumptions C06_all_vectors.

(** What an array says about a state: exactly its values on the indices below 2^n. *)
Theorem C06_array_values : forall n phi psi, arr n phi = arr n psi <-> forall x, (x < 2 ^ n)%nat -> phi x = psi x.
Proof. exact arr_values. Qed.
Print Assumptions C06_array_values.

Example C06_case : gate_ops 3 (GOne (KRX 1) (TSlice (Some 1%Z) None None)) [sem1 (KRX 1) 1; sem1 (KRX 1) 2]
  /\ gate_ops 3 (GTwo KCX (TTuple [TTuple [TInt 0; TInt (-1)]; TTuple [TInt 1; TInt 1]])) [sem2 KCX 0 1; sem2 KCX 2 1]
  /\ gate_ops 3 (GThree KCCX (TTuple [TInt 0; TInt 1; TInt 2])) [sem3 KCCX 0 1 2].
Proof. exact (conj ex_slice (conj ex_pairs ex_ccx)). Qed.

(** C07.  [run()] of a new circuit returns the product of the matrices of the gates, in order, applied to |0...0>. *)
Theorem C07_run : forall rng n gs ops pos, circuit_ops n gs ops ->
  exists b, np_run rng new_backend gs n no_args pos = (Ok (RState (arr n (apply_all ops (ket 0)))), b, pos).
Proof. exact run_unitary_new. Qed.
Print Assumptions C07_run.

(** For the gates of [a] followed by those of [b], it is the operator of [b] applied to the state of [a]. *)
Theorem C07_concatenation : forall rng n a b oa ob pos, circuit_ops n a oa -> circuit_ops n b ob ->
  exists bk, np_run rng new_backend (a ++ b) n no_args pos =
    (Ok (RState (arr n (apply_all ob (apply_all oa (ket 0))))), bk, pos).
Proof. exact run_unitary_app. Qed.
Print Assumptions C07_concatenation.

Example C07_case : circuit_ops 3 ex_gates ex_ops.
Proof. exact ex_circuit. Qed.

(** C08.  Circuits preserve inner products ... *)
Theorem C08_inner_product : forall rng n gs ops, circuit_ops n gs ops -> forall c1 c2 phi psi,
  x_n c1 = n -> x_qubits c1 = arr n phi -> List.length (x_buf c1) = (2 ^ n)%nat ->
  x_n c2 = n -> x_qubits c2 = arr n psi -> List.length (x_buf c2) = (2 ^ n)%nat ->
  exists c1' c2' phi' psi', run_list (np_run_single rng recursion_limit) gs c1 = SOk c1' /\
    run_list (np_run_single rng recursion_limit) gs c2 = SOk c2' /\
    x_qubits c1' = arr n phi' /\ x_qubits c2' = arr n psi' /\ inner n phi' psi' = inner n phi psi.
Proof. exact run_inner. Qed.
Print Assumptions C08_inner_product.

(** ... and every run returns a vector of norm 1, whatever is measured or reset. *)
Theorem C08_run_norm : forall rng n gs s pos b, draws_ok rng -> valid n gs -> cache_ok n gs (clear_cache_if_invalid b n) ->
  (match s with Some z => (0 < z)%Z | None => True end) ->
  exists v b' p, np_run rng b gs n (RunArgs s (Some "statevector"%string) false) pos = (Ok (RState v), b', p) /\
    List.length v = (2 ^ n)%nat /\ Rsum Cnorm2 v = 1.
Proof. exact run_norm. Qed.
Print Assumptions C08_run_norm.

(** Not so for zero shots: a vector of zeros is returned. *)
Theorem C08_run_norm_refuted : exists rng n gs, draws_ok rng /\ valid n gs /\
  exists v, fst (fst (np_run rng new_backend gs n (RunArgs (Some 0%Z) (Some "statevector"%string) false) 0)) = Ok (RState v) /\
  Rsum Cnorm2 v <> 1.
Proof. exact run_zero_shots_norm. Qed.
Print Assumptions C08_run_norm_refuted.

Example C08_case : valid 3 ex_measured /\ draws_ok (fun i => if Nat.even i then 0 else 1 / 2) /\
  cache_ok 3 ex_measured (clear_cache_if_invalid new_backend 3).
Proof. exact (conj ex_measured_valid (conj ex_draws (new_cache_ok 3 ex_measured))). Qed.

(** C09.  A fallback has the same effect as the gate ... *)
Theorem C09_fallback : forall n g gs ops, fallback g (Z.of_nat n) = Ok gs -> gate_ops n g ops -> is_phase g = false ->
  exists ops', circuit_ops n gs ops' /\ forall psi, apply_all ops' psi = apply_all ops psi.
Proof. exact fallback_sound. Qed.
Print Assumptions C09_fallback.

(** ... up to the phase e^(-i theta/2) for each qubit in the case of the phase gate.
    (For cu1 the global phase is part of its specification [sem2].) *)
Theorem C09_fallback_phase : forall n th tg l gs, fallback (GOne (KPhase th) tg) (Z.of_nat n) = Ok gs ->
  denotes (Z.of_nat n) tg l -> Forall (inside n) l ->
  exists ops', circuit_ops n gs ops' /\ forall psi,
    apply_all ops' psi = scl (cis (- (th / 2) * INR (List.length l)))
                             (apply_all (map (fun t => sem1 (KPhase th) (Z.to_nat t)) l) psi).
Proof. exact fallback_phase_sound. Qed.
Print Assumptions C09_fallback_phase.

Example C09_case : gate_ops 3 (GTwo (KRXX 2) (TTuple [TInt 0; TInt 2])) [sem2 (KRXX 2) 0 2] /\
  fallback (GTwo (KRXX 2) (TTuple [TInt 0; TInt 2])) 3 =
    Ok [GOne KH (TInt 0); GOne KH (TInt 2); GTwo (KRZZ 2) (TTuple [TInt 0; TInt 2]); GOne KH (TInt 0); GOne KH (TInt 2)].
Proof. exact (conj ex_rxx eq_refl). Qed.

(** C10.  For every circuit method, resolving fallbacks ends, at a nesting of at most three, in gates that the backend has. *)
Theorem C10_executable : forall names, In names [numpy_names; numba_names; sympy_names; qasm_names] ->
  forall n g, is_method g -> valid_gate n g ->
  exists l, resolve names 3 g (Z.of_nat n) = Ok l /\ Forall (fun g' => has_action names g' = true) l.
Proof. exact all_backends_ok. Qed.
Print Assumptions C10_executable.

(** The resolved gates have the effect of the original circuit, for any backend with the eleven basic gates. *)
Theorem C10_resolved_meaning : forall names, has_base names -> forall fuel n gs ops, circuit_ops n gs ops ->
  (Forall no_ccz gs \/ In "ccz"%string names) -> (3 <= fuel)%nat ->
  exists l ops', resolve_fallback names fuel gs (Z.of_nat n) = Ok l /\ Forall (fun g' => has_action names g' = true) l /\
    circuit_ops n l ops' /\ forall psi, apply_all ops' psi = apply_all ops psi.
Proof. exact resolve_fallback_ok. Qed.
Print Assumptions C10_resolved_meaning.

(** With any targets at all the recursion is bounded for the simulators. *)
Theorem C10_no_recursion_error : forall names, has_base names -> In "ccz"%string names -> In "measure"%string names ->
  In "reset"%string names -> forall fuel g n, (depth g <= fuel)%nat -> resolve names fuel g n <> Err RecursionError.
Proof. exact never_recursion. Qed.
Print Assumptions C10_no_recursion_error.

Theorem C10_numpy_dispatch : forall rng g n,
  has_action numpy_names g = match np_action rng g n with Some _ => true | None => false end.
Proof. exact numpy_table. Qed.
Print Assumptions C10_numpy_dispatch.

Example C10_case : has_base sympy_names /\ is_method (GThree KCSwap (TTuple [TInt 2; TInt 0; TInt 1])) /\
  valid_gate 3 (GThree KCCX (TTuple [TInt 0; TInt 1; TInt 2])) /\ ~ is_method (GThree KCCZ (TTuple [])).
Proof.
  exact (conj has_base_sympy (conj (proj2 (method_no_ccz (GThree KCSwap (TTuple [TInt 2; TInt 0; TInt 1]))) I) (conj (ex_intro _ _ ex_ccx)
    (fun H => proj1 (method_no_ccz (GThree KCCZ (TTuple []))) H)))).
Qed.
