(** C87: rounding errors of shots with measurements and resets, with underflow and overflow, on both backends. *)
From Coq Require Import List Arith NArith ZArith Bool Reals.
Import ListNotations.
From Verif Require Import Base Cplx Bits ModelTargets ModelGate ModelNumpy ModelNumba ModelFloat ModelFloatMeasure ModelFloatNumba ModelFloatNumbaMeasure SpecTargets SpecQuantum SpecCircuit
  SpecMeasure SpecNumba SpecLaw SpecFloat SpecFloatMeasure SpecFinite SpecFloatNumba SpecFiniteMeasure ProofLawStat ProofFloatMeasCase ProofFiniteMeasRun ProofFiniteNbMeas ProofFiniteNbRun
  ProofFiniteSums ProofFiniteDouble.
Local Open Scope R_scope.

(** Without rounding and with the exact sum, the model of rounded shots on the numba backend is the model of runs. *)
Theorem C87_exact : forall rng gs n ec pos,
  let r := nb_run rng new_backend gs n (NbArgs no_args ec) pos in
  (fst (fst r), snd r) = match fn_shot exact_compiled exact_norm2 exact_arith rng gs n pos with
    | ((a, _, p), None) => (Ok (RState a), p) | ((_, _, p), Some e) => (Err e, p) end.
Proof. exact fn_shot_exact. Qed.
Print Assumptions C87_exact.

(** NumPy: a shot that would find the values s without rounding, with every draw further than 14 d err / W from its threshold, finds them with rounding and ends in
    a state within (14 d + 2) err / W of the exact one; d is the number of draws, W the probability of s. *)
Theorem C87_numpy : forall A u eta B M N w g rng n gs es s pos err, rounds_within A u eta B -> divides_within A u eta B -> ranges u eta B M n g ->
  norms_within N n w g -> u <= w <= 1 / 100 -> draws_ok rng -> circuit_events n gs es -> Forall (angles_within M) gs -> List.length s = draws es ->
  let W := weight n es s in let d := INR (draws es) in
  shot_error u M g (6 * w) (List.length es) <= err -> 0 < W -> 28 * (1 + d * d) * err <= W ->
  in_box (box n es s (ket 0)) rng pos -> apart (14 * d * err / W) (thresholds n es s (ket 0)) rng pos ->
  exists ctx phi, fl_shot A N rng gs n pos = SOk ctx /\ x_qubits ctx = arr n phi /\ x_cregs ctx = record n es s /\ x_pos ctx = (pos + draws es)%nat /\
    dist n phi (scl (RtoC (/ sqrt W)) (branch es s (ket 0))) <= (14 * d + 2) * err / W.
Proof. exact np_finite_shot. Qed.
Print Assumptions C87_numpy.
(** The draws that find s with rounding have a probability of at least W - 14 d^2 err / W. *)
Theorem C87_numpy_chance : forall A u eta B M N w g n gs es s err, rounds_within A u eta B -> divides_within A u eta B -> ranges u eta B M n g ->
  norms_within N n w g -> u <= w <= 1 / 100 -> circuit_events n gs es -> Forall (angles_within M) gs -> List.length s = draws es ->
  let W := weight n es s in let d := INR (draws es) in
  shot_error u M g (6 * w) (List.length es) <= err -> 0 < W -> 28 * (1 + d * d) * err <= W ->
  exists ivs, List.length ivs = draws es /\ W - 14 * (d * d) * err / W <= volume ivs /\
    forall rng pos, draws_ok rng -> in_box ivs rng pos -> exists ctx, fl_shot A N rng gs n pos = SOk ctx /\ x_cregs ctx = record n es s.
Proof. exact np_finite_chance. Qed.
Print Assumptions C87_numpy_chance.

(** numba: the same for loops whose assignments have the errors of [compiles] and [scales]. *)
Theorem C87_numba : forall c P u eta B M S w g rng n gs es s pos err, compiles c u eta B -> scales c u eta -> divides_within (c_arith c) u eta B -> rounds_within P u eta B ->
  ranges u eta B M n g -> 1 / 10 ^ 16 <= u -> (n <= 64)%nat ->
  sums_within S n w g -> u <= w <= 1 / 100 -> draws_ok rng -> circuit_events n gs es -> Forall (angles_within M) gs -> List.length s = draws es ->
  let W := weight n es s in let d := INR (draws es) in
  shot_error u M g (2 * w) (List.length es) <= err -> 0 < W -> 28 * (1 + d * d) * err <= W ->
  in_box (box n es s (ket 0)) rng pos -> apart (14 * d * err / W) (thresholds n es s (ket 0)) rng pos ->
  exists phi, fn_shot c S P rng gs n pos = ((arr n phi, record n es s, (pos + draws es)%nat), None) /\
    dist n phi (scl (RtoC (/ sqrt W)) (branch es s (ket 0))) <= (14 * d + 2) * err / W.
Proof. exact nb_finite_shot. Qed.
Print Assumptions C87_numba.
Theorem C87_numba_chance : forall c P u eta B M S w g n gs es s err, compiles c u eta B -> scales c u eta -> divides_within (c_arith c) u eta B -> rounds_within P u eta B ->
  ranges u eta B M n g -> 1 / 10 ^ 16 <= u -> (n <= 64)%nat ->
  sums_within S n w g -> u <= w <= 1 / 100 -> circuit_events n gs es -> Forall (angles_within M) gs -> List.length s = draws es ->
  let W := weight n es s in let d := INR (draws es) in
  shot_error u M g (2 * w) (List.length es) <= err -> 0 < W -> 28 * (1 + d * d) * err <= W ->
  exists ivs, List.length ivs = draws es /\ W - 14 * (d * d) * err / W <= volume ivs /\
    forall rng pos, draws_ok rng -> in_box ivs rng pos -> exists a, fn_shot c S P rng gs n pos = ((a, record n es s, (pos + draws es)%nat), None).
Proof. exact nb_finite_chance. Qed.
Print Assumptions C87_numba_chance.
(** Every interleaving of the iterations of the loops of a measurement or reset leaves the same array. *)
Theorem C87_schedule : forall c n t s a, (n <= 64)%nat -> (t < N.of_nat n)%N -> List.length a = (2 ^ n)%nat ->
  race_free (fk_reduce0 c s (N.of_nat n) t) a /\ race_free (fk_reduce1 c s (N.of_nat n) t) a /\ race_free (fk_reset1 c s (N.of_nat n) t) a.
Proof. exact fk_measure_race_free. Qed.
Print Assumptions C87_schedule.

(** Sums and norms: any order and grouping with at most K additions; the exact ones. *)
Theorem C87_sums : forall u eta, 0 < u -> 0 <= eta -> forall S n K,
  (forall v, (List.length v <= 2 ^ n)%nat -> exact_norm2 v <= 4 -> exists k, (k <= K)%nat /\ added u eta k (parts v) (S v)) ->
  sums_within S n ((1 + u) ^ (K + 1) - 1) (INR (2 ^ (n + 1) + K) * (eta / u)).
Proof. exact sums_lemma. Qed.
Print Assumptions C87_sums.
Theorem C87_norms : forall u eta, 0 < u -> 0 <= eta <= 1 -> forall N n K, (1 + u) ^ (K + 1) <= 2 ->
  (forall v, (List.length v <= 2 ^ n)%nat -> exact_norm2 v <= 4 -> exists k, (k <= K)%nat /\ root_of_sum u eta k v (N v)) ->
  norms_within N n ((1 + u) ^ (K + 2) - 1) (sqrt (INR (2 ^ (n + 1) + K) * eta) / u).
Proof. exact norms_lemma. Qed.
Print Assumptions C87_norms.
Theorem C87_exact_sums : forall n w g, 0 <= w -> 0 <= g -> sums_within exact_norm2 n w g /\ norms_within (fun v => sqrt (exact_norm2 v)) n w g.
Proof. exact exact_sum_lemma. Qed.
Print Assumptions C87_exact_sums.

(** Kinds of code that meet [scales]. *)
Theorem C87_plain : forall A u eta B, rounds_within A u eta B -> 0 < u <= 1 / 100 -> 0 <= eta <= u -> 8 / u <= B -> forall lit, scales (plain_compiled A lit) u eta.
Proof. exact plain_scales. Qed.
Print Assumptions C87_plain.
Theorem C87_fused : forall A u eta B, rounds_within A u eta B -> 0 < u <= 1 / 100 -> 0 <= eta <= u -> 8 / u <= B -> forall lit F, fuses F u eta B -> scales (fused_compiled A F lit) u eta.
Proof. exact fused_scales. Qed.
Print Assumptions C87_fused.
Theorem C87_mixed : forall p c d u eta, scales c u eta -> scales d u eta -> scales (mixed_compiled p c d) u eta.
Proof. exact mixed_scales. Qed.
Print Assumptions C87_mixed.

(** Doubles: division and products; sums and norms for up to 20 qubits, of at most 2^22 additions in any order, and one after the other. *)
Theorem C87_double_divides : forall over, divides_within (double_arith over) (/ 2 ^ 53) (powerRZ 2 (-1075)) (powerRZ 2 500).
Proof. exact double_divides. Qed.
Print Assumptions C87_double_divides.
Theorem C87_double_scales : forall over, scales (plain_compiled (double_arith over) (double_lit over)) (/ 2 ^ 53) (powerRZ 2 (-1075)) /\
  scales (fused_compiled (double_arith over) (double_fma over) (double_lit over)) (/ 2 ^ 53) (powerRZ 2 (-1075)).
Proof. exact double_scales. Qed.
Print Assumptions C87_double_scales.
Theorem C87_double_sums : forall S n, (n <= 20)%nat ->
  (forall v, (List.length v <= 2 ^ n)%nat -> exact_norm2 v <= 4 -> exists k, (Z.of_nat k <= 4194304)%Z /\ added (/ 2 ^ 53) (powerRZ 2 (-1075)) k (parts v) (S v)) ->
  sums_within S n (/ 2 ^ 29) (powerRZ 2 (-400)).
Proof. exact double_sums. Qed.
Print Assumptions C87_double_sums.
Theorem C87_double_norms : forall N n, (n <= 20)%nat ->
  (forall v, (List.length v <= 2 ^ n)%nat -> exact_norm2 v <= 4 -> exists k, (Z.of_nat k <= 4194304)%Z /\ root_of_sum (/ 2 ^ 53) (powerRZ 2 (-1075)) k v (N v)) ->
  norms_within N n (/ 2 ^ 29) (powerRZ 2 (-400)).
Proof. exact double_norms. Qed.
Print Assumptions C87_double_norms.
Theorem C87_double_sequential : forall over n, (n <= 20)%nat -> sums_within (sequential_sum (double_arith over)) n (/ 2 ^ 29) (powerRZ 2 (-400)) /\
  norms_within (sequential_norm (double_arith over)) n (/ 2 ^ 29) (powerRZ 2 (-400)).
Proof. exact (fun over n H => conj (double_seq_sum over n H) (double_seq_norm over n H)). Qed.
Print Assumptions C87_double_sequential.

(** Doubles: shots of up to a million operations, measurements and resets, with angles up to 7. *)
Theorem C87_double_numpy : forall over N rng n gs es s pos, norms_within N n (/ 2 ^ 29) (powerRZ 2 (-400)) -> (n <= 64)%nat -> draws_ok rng ->
  circuit_events n gs es -> Forall (angles_within 7) gs -> (Z.of_nat (List.length es) <= 1000000)%Z -> List.length s = draws es ->
  let W := weight n es s in let err := 1 / 300000 in let d := INR (draws es) in
  0 < W -> 28 * (1 + d * d) * err <= W -> in_box (box n es s (ket 0)) rng pos -> apart (14 * d * err / W) (thresholds n es s (ket 0)) rng pos ->
  exists ctx phi, fl_shot (double_arith over) N rng gs n pos = SOk ctx /\ x_qubits ctx = arr n phi /\ x_cregs ctx = record n es s /\ x_pos ctx = (pos + draws es)%nat /\
    dist n phi (scl (RtoC (/ sqrt W)) (branch es s (ket 0))) <= (14 * d + 2) * err / W.
Proof. exact double_np_shot. Qed.
Print Assumptions C87_double_numpy.
Theorem C87_double_numba : forall c over S rng n gs es s pos, compiles c (/ 2 ^ 53) (powerRZ 2 (-1075)) (powerRZ 2 500) -> scales c (/ 2 ^ 53) (powerRZ 2 (-1075)) ->
  divides_within (c_arith c) (/ 2 ^ 53) (powerRZ 2 (-1075)) (powerRZ 2 500) -> sums_within S n (/ 2 ^ 29) (powerRZ 2 (-400)) -> (n <= 64)%nat -> draws_ok rng ->
  circuit_events n gs es -> Forall (angles_within 7) gs -> (Z.of_nat (List.length es) <= 1000000)%Z -> List.length s = draws es ->
  let W := weight n es s in let err := 1 / 300000 in let d := INR (draws es) in
  0 < W -> 28 * (1 + d * d) * err <= W -> in_box (box n es s (ket 0)) rng pos -> apart (14 * d * err / W) (thresholds n es s (ket 0)) rng pos ->
  exists phi, fn_shot c S (double_arith over) rng gs n pos = ((arr n phi, record n es s, (pos + draws es)%nat), None) /\
    dist n phi (scl (RtoC (/ sqrt W)) (branch es s (ket 0))) <= (14 * d + 2) * err / W.
Proof. exact double_nb_shot. Qed.
Print Assumptions C87_double_numba.
Theorem C87_double_numba_chance : forall c over S n gs es s, compiles c (/ 2 ^ 53) (powerRZ 2 (-1075)) (powerRZ 2 500) -> scales c (/ 2 ^ 53) (powerRZ 2 (-1075)) ->
  divides_within (c_arith c) (/ 2 ^ 53) (powerRZ 2 (-1075)) (powerRZ 2 500) -> sums_within S n (/ 2 ^ 29) (powerRZ 2 (-400)) -> (n <= 64)%nat ->
  circuit_events n gs es -> Forall (angles_within 7) gs -> (Z.of_nat (List.length es) <= 1000000)%Z -> List.length s = draws es ->
  let W := weight n es s in let err := 1 / 300000 in let d := INR (draws es) in
  0 < W -> 28 * (1 + d * d) * err <= W ->
  exists ivs, List.length ivs = draws es /\ W - 14 * (d * d) * err / W <= volume ivs /\
    forall rng pos, draws_ok rng -> in_box ivs rng pos -> exists a, fn_shot c S (double_arith over) rng gs n pos = ((a, record n es s, (pos + draws es)%nat), None).
Proof. exact double_nb_chance. Qed.
Print Assumptions C87_double_numba_chance.

(** "A shot never records values of probability 0" is false on the numba backend too: h[0].h[0].m[0] in doubles, one operation after the other, with a draw that
    random.random() can return, records 1 and leaves the zero vector. *)
Theorem C87_possible_refuted : forall over, exists rng a, draws_ok rng /\ (forall i, exists k, rng i = IZR k * powerRZ 2 (-53)) /\
  circuit_events 1 ex_hhm ex_hhm_events /\ weight 1 ex_hhm_events [true] = 0 /\
  fn_shot (plain_compiled (double_arith over) (double_lit over)) (sequential_sum (double_arith over)) (double_arith over) rng ex_hhm 1 0 = ((a, [1%nat], 1%nat), None) /\ a = [C0; C0].
Proof. exact nb_impossible. Qed.
Print Assumptions C87_possible_refuted.

(** h[0].m[0].reset[:] with draws of 3/4 meets the hypotheses of C87_double_numpy and C87_double_numba, with C86_double_plain and the theorems above for the others. *)
Example C87_case : let W := weight 1 ex_events [true; true] in let err := 1 / 300000 in
  (1 <= 20)%nat /\ draws_ok ex_draws /\ circuit_events 1 ex_law ex_events /\ Forall (angles_within 7) ex_law /\ (Z.of_nat (List.length ex_events) <= 1000000)%Z /\ draws ex_events = 2%nat /\
  0 < W /\ 28 * (1 + 2 * 2) * err <= W /\ in_box (box 1 ex_events [true; true] (ket 0)) ex_draws 0 /\ apart (14 * 2 * err / W) (thresholds 1 ex_events [true; true] (ket 0)) ex_draws 0.
Proof. exact double_case. Qed.
Print Assumptions C87_case.
