(** C91: how wrong the energies by sparse matrices are that the code computes with rounded numbers. *)
From Coq Require Import String List Arith NArith ZArith Bool Reals.
Import ListNotations.
From Verif Require Import Base Cplx Bits ModelTargets ModelGate ModelNumpy ModelNumba ModelCircuit ModelPauli ModelPauliMatrix ModelVqe ModelFloat ModelFloatNumba ModelFloatMeasure ModelFloatNumbaMeasure ModelFloatRun ModelFloatVqe ModelFloatSparse
  SpecTargets SpecQuantum SpecCircuit SpecMeasure SpecRun SpecAPI SpecPauli SpecPauliMatrix SpecVqe SpecFloat SpecFinite SpecFloatNumba SpecFloatRun SpecFloatVqe SpecFloatSparse
  ProofExamples ProofFloatTop ProofFloatVqeTop ProofFloatSparseSum ProofFloatSparseTop.
Local Open Scope R_scope.

(** Without rounding: the matrix and the energy of C66 *)
Theorem C91_exact_parts : (forall ham, expr_simplify ham = ham -> fl_make_sparse exact_arith ham = make_sparse ham) /\
  (forall m v, fl_sparse_expectation exact_arith (sequential_dot exact_arith) m v = sparse_expectation m v).
Proof. exact sparse_parts. Qed.
Print Assumptions C91_exact_parts.
Theorem C91_exact : forall rng seen h c v ops ham m, reachable rng seen h -> circuit_is h c v -> simulated rng h v ->
  circuit_ops (Z.to_nat (v_n v)) (v_gates v) ops -> expr_simplify ham = ham -> make_sparse ham = Ok m ->
  fst (get_energy_sparse rng h m c) = fl_energy_sparse exact_arith (sequential_dot exact_arith) (fun gs => fl_run exact_arith gs (Z.to_nat (v_n v))) (v_gates v) ham.
Proof. exact sparse_same. Qed.
Print Assumptions C91_exact.
(** a state with another number of qubits, in any arithmetic *)
Theorem C91_shape : forall A dot ham m v, fl_make_sparse A ham = Ok m -> List.length v <> (2 ^ expr_qubits ham)%nat -> fl_sparse_expectation A dot m v = Err ValueError.
Proof. exact sparse_shape. Qed.
Print Assumptions C91_shape.

(** The energy of a state [e] away from [psi] *)
Theorem C91_state : forall A u eta B w g D n ham dot, rounds_within A u eta B -> keeps A D -> sparse_ranges u eta B ham -> dots_within dot n w g B -> 0 <= w <= 1 -> expr_qubits ham = n -> (0 < n)%nat ->
  Forall (fun t => separate_word n (t_ops t)) ham -> coefficients_in D ham -> forall phi psi e, norm n psi <= 1 -> dist n phi psi <= e -> 0 <= e <= 1 / 10 ->
  exists m r, fl_make_sparse A ham = Ok m /\ fl_sparse_expectation A dot m (arr n phi) = Ok r /\
    Rabs (r - Cre (expval n (expr_op ham) psi)) <= total ham * (5 * e + 15 * INR (List.length ham) * u + 4 * w) + 400 * 2 ^ n * (INR (List.length ham) * INR (List.length ham) * eta) + g.
Proof. exact sparse_close. Qed.
Print Assumptions C91_state.
(** products added one after the other *)
Theorem C91_dot : forall A u eta B n, rounds_within A u eta B -> 0 < u <= / 1000 -> 0 <= eta <= u / 1000 -> 2 ^ n * u <= 1 / 10 -> 6 <= B ->
  dots_within (sequential_dot A) n ((2 * 2 ^ n + 3) * u) (11 * 2 ^ n * eta) B.
Proof. exact dot_seq. Qed.
Print Assumptions C91_dot.

(** Runs of the numpy backend and of the numba backend *)
Theorem C91_numpy : forall A u eta B M D w g dot n gs ops ham norm glob rng b pos, rounds_within A u eta B -> keeps A D -> sparse_ranges u eta B ham -> dots_within dot n w g B -> 0 <= w <= 1 ->
  3 <= M -> 128 * M <= B -> 1000 * u * M <= 1 -> (0 < n)%nat -> circuit_ops n gs ops -> Forall (angles_within M) gs -> expr_qubits ham = n -> Forall (fun t => separate_word n (t_ops t)) ham -> coefficients_in D ham ->
  eta / u * sqrt (2 ^ n) <= 1 / 10 -> 5000 * u * M * INR (List.length ops) <= 1 / 10 -> np_cached A n gs b ->
  exists r, fl_energy_sparse A dot (np_state A norm glob rng b n pos) gs ham = Ok r /\
    Rabs (r - Cre (expval n (expr_op ham) (apply_all ops (ket 0)))) <=
      total ham * (5 * (5000 * u * M * INR (List.length ops)) + 15 * INR (List.length ham) * u + 4 * w) + 400 * 2 ^ n * (INR (List.length ham) * INR (List.length ham) * eta) + g.
Proof. exact np_sparse. Qed.
Print Assumptions C91_numpy.
Theorem C91_numba : forall c psum P u eta B M D w g dot n gs ops ham glob rng b pos, compiles c u eta B -> rounds_within P u eta B -> 1 / 10 ^ 16 <= u -> keeps P D -> sparse_ranges u eta B ham -> dots_within dot n w g B -> 0 <= w <= 1 ->
  3 <= M -> 128 * M <= B -> 1000 * u * M <= 1 -> (0 < n <= 64)%nat -> circuit_ops n gs ops -> Forall (angles_within M) gs -> expr_qubits ham = n -> Forall (fun t => separate_word n (t_ops t)) ham -> coefficients_in D ham ->
  eta / u * sqrt (2 ^ n) <= 1 / 10 -> 5000 * u * M * INR (List.length ops) <= 1 / 10 -> nb_cached c P n gs b ->
  exists r, fl_energy_sparse P dot (nb_state c psum P glob rng b n pos) gs ham = Ok r /\
    Rabs (r - Cre (expval n (expr_op ham) (apply_all ops (ket 0)))) <=
      total ham * (5 * (5000 * u * M * INR (List.length ops)) + 15 * INR (List.length ham) * u + 4 * w) + 400 * 2 ^ n * (INR (List.length ham) * INR (List.length ham) * eta) + g.
Proof. exact nb_sparse. Qed.
Print Assumptions C91_numba.

(** Double precision *)
Theorem C91_double_keeps : forall over, keeps (double_arith over) is_double.
Proof. exact double_keeps. Qed.
Print Assumptions C91_double_keeps.
Theorem C91_double_numpy : forall over dot n gs ops ham norm glob rng b pos, dots_within dot n ((2 * 2 ^ n + 3) * / 2 ^ 53) (11 * 2 ^ n * powerRZ 2 (-1075)) (powerRZ 2 500) ->
  (0 < n <= 20)%nat -> circuit_ops n gs ops -> Forall (angles_within 7) gs -> (Z.of_nat (List.length ops) <= 10000)%Z -> double_sparse n ham -> let A := double_arith over in np_cached A n gs b ->
  exists r, fl_energy_sparse A dot (np_state A norm glob rng b n pos) gs ham = Ok r /\ Rabs (r - Cre (expval n (expr_op ham) (apply_all ops (ket 0)))) <= total ham / 5000000 + / 2 ^ 1000.
Proof. exact double_np. Qed.
Print Assumptions C91_double_numpy.
Theorem C91_double_numba : forall c psum over dot n gs ops ham glob rng b pos, compiles c (/ 2 ^ 53) (powerRZ 2 (-1075)) (powerRZ 2 500) -> dots_within dot n ((2 * 2 ^ n + 3) * / 2 ^ 53) (11 * 2 ^ n * powerRZ 2 (-1075)) (powerRZ 2 500) ->
  (0 < n <= 20)%nat -> circuit_ops n gs ops -> Forall (angles_within 7) gs -> (Z.of_nat (List.length ops) <= 10000)%Z -> double_sparse n ham -> let P := double_arith over in nb_cached c P n gs b ->
  exists r, fl_energy_sparse P dot (nb_state c psum P glob rng b n pos) gs ham = Ok r /\ Rabs (r - Cre (expval n (expr_op ham) (apply_all ops (ket 0)))) <= total ham / 5000000 + / 2 ^ 1000.
Proof. exact double_nb. Qed.
Print Assumptions C91_double_numba.

Example C91_case : circuit_ops 3 ex_gates ex_ops /\ Forall (angles_within 7) ex_gates /\ (Z.of_nat (List.length ex_ops) <= 10000)%Z /\ double_sparse 3 ex_ham /\ total ex_ham = 11 / 2 /\ expr_simplify (expr_simplify ex_ham) = expr_simplify ex_ham /\
  (forall over, dots_within (sequential_dot (double_arith over)) 3 ((2 * 2 ^ 3 + 3) * / 2 ^ 53) (11 * 2 ^ 3 * powerRZ 2 (-1075)) (powerRZ 2 500)).
Proof. exact sparse_case. Qed.
Print Assumptions C91_case.
