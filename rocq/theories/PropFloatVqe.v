(** C90.  Rounded probabilities and energies of variational algorithms. *)
From Coq Require Import String List Arith NArith ZArith Bool Reals.
Import ListNotations.
From Verif Require Import Base Cplx Bits ModelTargets ModelGate ModelNumpy ModelNumba ModelCircuit ModelPauli ModelVqe ModelFloat ModelFloatNumba ModelFloatMeasure ModelFloatNumbaMeasure ModelFloatRun ModelFloatVqe
  SpecTargets SpecQuantum SpecCircuit SpecMeasure SpecRun SpecAPI SpecPauli SpecVqe SpecFloat SpecFinite SpecFloatNumba SpecFloatRun SpecFloatVqe
  ProofArray ProofExamples ProofReach ProofFloatVqe ProofFloatVqeRun ProofFloatVqeTop.
Local Open Scope R_scope.

(** Without rounding they are the functions of C41 and C42. *)
Theorem C90_exact : (forall v meas, fl_expect exact_arith (fun x => x ^ 2) v meas = expect v meas) /\ (forall w, fl_basis_change exact_arith w = basis_change w) /\
  (forall d c val, fl_add_measured exact_arith d c val = add_measured d c val).
Proof. exact exact_parts. Qed.
Print Assumptions C90_exact.
Theorem C90_exact_energy : forall rng seen h c v ops ham, reachable rng seen h -> circuit_is h c v -> simulated rng h v ->
  circuit_ops (Z.to_nat (v_n v)) (v_gates v) ops -> Forall (fun t => separate_word (Z.to_nat (v_n v)) (t_ops t)) ham ->
  fst (get_energy rng h ham c (non_sampling_sampler rng)) = fl_energy exact_arith (fun x => x ^ 2) (fun gs => fl_run exact_arith gs (Z.to_nat (v_n v))) (v_gates v) ham.
Proof. exact energy_same. Qed.
Print Assumptions C90_exact_energy.

(** A copy of a circuit with more gates gives the same rounded state from the cache of the circuit as from the start. *)
Theorem C90_copies : forall A N glob c psum P rng b b' n pos gs more q q', (0 < n)%nat ->
  (np_cached A n gs b -> fl_run A (gs ++ more) n = Ok q -> np_copy A N glob rng b n pos (gs ++ more) = Ok q) /\
  (nb_cached c P n gs b' -> fn_run c P (gs ++ more) n = Ok q' -> nb_copy c psum P glob rng b' n pos (gs ++ more) = Ok q').
Proof. exact copies_run. Qed.
Print Assumptions C90_copies.

(** The probabilities of the outcomes of a state within e of the exact one: all errors together are at most 3 e + (2 2^n + 5) u. *)
Theorem C90_expect : forall A u eta B sq n, rounds_within A u eta B -> sum_ranges u eta B n -> squares_within sq u eta ->
  forall phi psi e, norm n psi <= 1 -> dist n phi psi <= e -> e <= 1 / 10 -> forall meas,
  exists d, fl_expect A sq (arr n phi) (map Z.of_nat meas) = Ok d /\ close_distribution (arr n psi) meas d (3 * e + (2 * 2 ^ n + 5) * u).
Proof. exact expect_close. Qed.
Print Assumptions C90_expect.
(** Doubles: an outcome whose probability underflows is left out. *)
Theorem C90_outcomes_refuted : forall over, let A := double_arith over in exists v d, List.length v = 2%nat /\ Rsum Cnorm2 v = 1 /\ marginal v [0%nat] [1%nat] <> 0 /\
  fl_expect A (fun x => f_mul A x x) v [0%Z] = Ok d /\ forall p, ~ In ([1%nat], p) d.
Proof. exact underflow. Qed.
Print Assumptions C90_outcomes_refuted.

(** The energy: the sum of the sizes of the coefficients times the errors of the runs, of the probabilities and of the sums.  As in C42 each Y has the wrong sign. *)
Theorem C90_numpy : forall A u eta B M sq n gs ops ham k norm glob rng b pos, rounds_within A u eta B -> sum_ranges u eta B n -> squares_within sq u eta -> energy_ranges u B ham ->
  3 <= M -> 128 * M <= B -> 1000 * u * M <= 1 -> (0 < n)%nat -> circuit_ops n gs ops -> Forall (angles_within M) gs -> Forall (fun t => separate_word n (t_ops t) /\ (List.length (t_ops t) <= k)%nat) ham ->
  eta / u * sqrt (2 ^ n) <= 1 / 10 -> 5000 * u * M * INR (List.length ops + k) <= 1 / 10 -> np_cached A n gs b ->
  exists r, fl_energy A sq (np_copy A norm glob rng b n pos) gs ham = Ok r /\
    Rabs (r - Cre (expval_y n ham (apply_all ops (ket 0)))) <= strength ham * (3 * (5000 * u * M * INR (List.length ops + k)) + (2 * 2 ^ n + 5 + 10 * all_outcomes ham) * u) + 8 * all_outcomes ham * eta.
Proof. exact np_energy. Qed.
Print Assumptions C90_numpy.
Theorem C90_numba : forall c psum P u eta B M sq n gs ops ham k glob rng b pos, compiles c u eta B -> rounds_within P u eta B -> 1 / 10 ^ 16 <= u -> sum_ranges u eta B n -> squares_within sq u eta -> energy_ranges u B ham ->
  3 <= M -> 128 * M <= B -> 1000 * u * M <= 1 -> (0 < n <= 64)%nat -> circuit_ops n gs ops -> Forall (angles_within M) gs -> Forall (fun t => separate_word n (t_ops t) /\ (List.length (t_ops t) <= k)%nat) ham ->
  eta / u * sqrt (2 ^ n) <= 1 / 10 -> 5000 * u * M * INR (List.length ops + k) <= 1 / 10 -> nb_cached c P n gs b ->
  exists r, fl_energy P sq (nb_copy c psum P glob rng b n pos) gs ham = Ok r /\
    Rabs (r - Cre (expval_y n ham (apply_all ops (ket 0)))) <= strength ham * (3 * (5000 * u * M * INR (List.length ops + k)) + (2 * 2 ^ n + 5 + 10 * all_outcomes ham) * u) + 8 * all_outcomes ham * eta.
Proof. exact nb_energy. Qed.
Print Assumptions C90_numba.

(** Double precision, up to 20 qubits and 10000 operators. *)
Theorem C90_double_numpy : forall over n gs ops ham norm glob rng b pos, (0 < n <= 20)%nat -> circuit_ops n gs ops -> Forall (angles_within 7) gs -> (Z.of_nat (List.length ops) <= 10000)%Z -> double_ham n ham ->
  let A := double_arith over in np_cached A n gs b ->
  exists r, fl_energy A (fun x => f_mul A x x) (np_copy A norm glob rng b n pos) gs ham = Ok r /\ Rabs (r - Cre (expval_y n ham (apply_all ops (ket 0)))) <= strength ham / 5000000 + / 2 ^ 1000.
Proof. exact double_energy. Qed.
Print Assumptions C90_double_numpy.
Theorem C90_double_numba : forall c psum over n gs ops ham glob rng b pos, compiles c (/ 2 ^ 53) (powerRZ 2 (-1075)) (powerRZ 2 500) -> (0 < n <= 20)%nat -> circuit_ops n gs ops -> Forall (angles_within 7) gs ->
  (Z.of_nat (List.length ops) <= 10000)%Z -> double_ham n ham -> let P := double_arith over in nb_cached c P n gs b ->
  exists r, fl_energy P (fun x => f_mul P x x) (nb_copy c psum P glob rng b n pos) gs ham = Ok r /\ Rabs (r - Cre (expval_y n ham (apply_all ops (ket 0)))) <= strength ham / 5000000 + / 2 ^ 1000.
Proof. exact double_energy_nb. Qed.
Print Assumptions C90_double_numba.

Example C90_case : circuit_ops 3 ex_gates ex_ops /\ Forall (angles_within 7) ex_gates /\ (Z.of_nat (List.length ex_ops) <= 10000)%Z /\ double_ham 3 ex_ham /\ strength ex_ham = 11 / 2 /\ all_outcomes ex_ham = 7.
Proof. exact vqe_case. Qed.
Print Assumptions C90_case.
