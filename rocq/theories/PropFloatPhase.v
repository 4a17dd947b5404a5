(** C89: the removal of the global phase with rounding. *)
From Coq Require Import String List Arith NArith ZArith Bool Reals.
Import ListNotations.
From Verif Require Import Base Cplx Bits ModelTargets ModelGate ModelNumpy ModelNumba ModelFloat ModelFloatMeasure ModelFloatNumba ModelFloatNumbaMeasure ModelFloatRun ModelFloatPhase
  SpecTargets SpecQuantum SpecCircuit SpecMeasure ProofBorn SpecLaw SpecFloat SpecFloatMeasure SpecFinite SpecFloatNumba SpecFiniteMeasure SpecFloatRun SpecFloatPhase
  ProofFloatPhaseRun ProofFloatPhaseTop ProofFloatPhaseCase.
Local Open Scope R_scope.

(** Without rounding it is [ignore_global_phase] of ModelNumpy, which turns the first entry above the threshold to a positive number. *)
Theorem C89_exact : np_ignore_global exact_arith Cabs (1 / 10000000) = ignore_global_phase /\ nb_ignore_global exact_compiled Cabs (1 / 10000000) = ignore_global_phase.
Proof. exact (conj np_phase_exact nb_phase_exact). Qed.
Print Assumptions C89_exact.
Theorem C89_exact_turned : forall n psi j m, 0 < m -> leads n psi j m -> ignore_global_phase (arr n psi) = arr n (turned j psi).
Proof. exact exact_turned. Qed.
Print Assumptions C89_exact_turned.

(** With rounding: only the global phase changes, and the result is close to the exact one if no modulus is too close to the threshold. *)
Theorem C89_numpy : forall u eta B g w n, (0 < n)%nat -> phase_ranges u eta B n g -> forall habs thr, abs_within habs w -> u <= w <= 1 / 1000 ->
  Rabs (thr - / 10 ^ 7) <= w * / 10 ^ 7 -> forall A, rounds_within A u eta B -> divides_signed A u eta B ->
  unit_close n u w g habs thr (np_ignore_global A habs thr) /\ turned_close n u w g (np_ignore_global A habs thr).
Proof. exact np_phase. Qed.
Print Assumptions C89_numpy.
Theorem C89_numba : forall u eta B g w n, (0 < n)%nat -> phase_ranges u eta B n g -> forall habs thr, abs_within habs w -> u <= w <= 1 / 1000 ->
  Rabs (thr - / 10 ^ 7) <= w * / 10 ^ 7 -> forall c, compiles c u eta B -> divides_signed (c_arith c) u eta B ->
  unit_close n u w g habs thr (nb_ignore_global c habs thr) /\ turned_close n u w g (nb_ignore_global c habs thr).
Proof. exact nb_phase. Qed.
Print Assumptions C89_numba.

(** Runs with [ignore_global=True]. *)
Theorem C89_numpy_run : forall A u eta B M N w g n gs es err habs wa thr, rounds_within A u eta B -> divides_signed A u eta B -> ranges u eta B M n g -> phase_ranges u eta B n g ->
  norms_within N n w g -> u <= w <= 1 / 100 -> abs_within habs wa -> u <= wa <= 1 / 1000 -> Rabs (thr - / 10 ^ 7) <= wa * / 10 ^ 7 ->
  (0 < n)%nat -> circuit_events n gs es -> Forall (angles_within M) gs -> shot_error u M g (6 * w) (List.length es) <= err ->
  forall rng b ss s returns pos j m, draws_ok rng -> np_cached A n gs b -> In returns ["statevector"; "shots"; "statevector_and_shots"]%string ->
  (forall i s', nth_error (ss ++ [s]) i = Some s' -> sure n es err s' rng (pos + i * draws es)) ->
  let W := SpecLaw.weight n es s in let psi := scl (RtoC (/ sqrt W)) (branch es s (ket 0)) in let e := (14 * INR (draws es) + 2) * err / W in
  e <= 1 / 2 -> e + 3 * wa * / 10 ^ 7 <= m -> leads n psi j m ->
  let r := fl_np_run A N (np_ignore_global A habs thr) rng b gs n (RunArgs (Some (Z.of_nat (List.length (ss ++ [s])))) (Some returns) true) pos in
  exists phi c, gives returns (arr n phi) c (fst (fst r)) /\ (forall k, lookup c k = hits n es k (ss ++ [s])) /\
    dist n phi (turned j psi) <= (1 + 2 / Cabs (psi j)) * e + (120 * u + 6 * wa) * (3 / 2 + g).
Proof. exact np_run_phase. Qed.
Print Assumptions C89_numpy_run.
Theorem C89_numba_run : forall c P u eta B M S w g n gs es err habs wa thr, compiles c u eta B -> scales c u eta -> divides_signed (c_arith c) u eta B -> rounds_within P u eta B ->
  ranges u eta B M n g -> phase_ranges u eta B n g -> 1 / 10 ^ 16 <= u -> (0 < n <= 64)%nat -> sums_within S n w g -> u <= w <= 1 / 100 ->
  abs_within habs wa -> u <= wa <= 1 / 1000 -> Rabs (thr - / 10 ^ 7) <= wa * / 10 ^ 7 -> circuit_events n gs es -> Forall (angles_within M) gs ->
  shot_error u M g (2 * w) (List.length es) <= err ->
  forall rng b ss s returns ec pos j m, draws_ok rng -> (ec = true -> nb_cached c P n gs b) -> In returns ["statevector"; "shots"; "statevector_and_shots"]%string ->
  (forall i s', nth_error (ss ++ [s]) i = Some s' -> sure n es err s' rng (pos + i * draws es)) ->
  let W := SpecLaw.weight n es s in let psi := scl (RtoC (/ sqrt W)) (branch es s (ket 0)) in let e := (14 * INR (draws es) + 2) * err / W in
  e <= 1 / 2 -> e + 3 * wa * / 10 ^ 7 <= m -> leads n psi j m ->
  let r := fb_run c S P (nb_ignore_global c habs thr) rng b gs n (NbArgs (RunArgs (Some (Z.of_nat (List.length (ss ++ [s])))) (Some returns) true) ec) pos in
  exists phi t, gives returns (arr n phi) t (fst (fst r)) /\ (forall k, lookup t k = hits n es k (ss ++ [s])) /\
    dist n phi (turned j psi) <= (1 + 2 / Cabs (psi j)) * e + (120 * u + 6 * wa) * (3 / 2 + g).
Proof. exact nb_run_phase. Qed.
Print Assumptions C89_numba_run.

(** Doubles. *)
Theorem C89_double_numpy : forall over habs n phi psi j e m, abs_within habs (/ 2 ^ 50) -> (0 < n <= 64)%nat ->
  norm n psi <= 1 -> dist n phi psi <= e -> e <= 1 / 2 -> e + 3 * / 2 ^ 50 * / 10 ^ 7 <= m -> leads n psi j m ->
  exists phi', np_ignore_global (double_arith over) habs (double_lit over (1 / 10000000)) (arr n phi) = arr n phi' /\
    dist n phi' (turned j psi) <= (1 + 2 / Cabs (psi j)) * e + 3 / 10 ^ 14.
Proof. exact double_np_phase. Qed.
Print Assumptions C89_double_numpy.
Theorem C89_double_numba : forall c habs thr n phi psi j e m, compiles c (/ 2 ^ 53) (powerRZ 2 (-1075)) (powerRZ 2 500) ->
  divides_signed (c_arith c) (/ 2 ^ 53) (powerRZ 2 (-1075)) (powerRZ 2 500) -> abs_within habs (/ 2 ^ 50) -> Rabs (thr - / 10 ^ 7) <= / 2 ^ 50 * / 10 ^ 7 -> (0 < n <= 64)%nat ->
  norm n psi <= 1 -> dist n phi psi <= e -> e <= 1 / 2 -> e + 3 * / 2 ^ 50 * / 10 ^ 7 <= m -> leads n psi j m ->
  exists phi', nb_ignore_global c habs thr (arr n phi) = arr n phi' /\ dist n phi' (turned j psi) <= (1 + 2 / Cabs (psi j)) * e + 3 / 10 ^ 14.
Proof. exact double_nb_phase. Qed.
Print Assumptions C89_double_numba.

(** Close to the threshold no bound is possible: states that are as close as one likes get results at a distance of at least 1, without any rounding. *)
Theorem C89_close_refuted : forall e, 0 < e -> exists psi phi psi' phi', norm 1 psi = 1 /\ norm 1 phi = 1 /\ dist 1 phi psi <= e /\
  ignore_global_phase (arr 1 psi) = arr 1 psi' /\ ignore_global_phase (arr 1 phi) = arr 1 phi' /\ 1 <= dist 1 phi' psi'.
Proof. exact phase_jumps. Qed.
Print Assumptions C89_close_refuted.

(** The hypotheses hold in doubles with a rounded modulus (for the runs see also C87_case and C88_case), and for the state i |1>. *)
Example C89_case : forall over n, (0 < n <= 64)%nat -> rounds_within (double_arith over) (/ 2 ^ 53) (powerRZ 2 (-1075)) (powerRZ 2 500) /\
  divides_signed (double_arith over) (/ 2 ^ 53) (powerRZ 2 (-1075)) (powerRZ 2 500) /\ phase_ranges (/ 2 ^ 53) (powerRZ 2 (-1075)) (powerRZ 2 500) n (powerRZ 2 (-400)) /\
  abs_within (fun q => double_lit over (Cabs q)) (/ 2 ^ 50) /\ / 2 ^ 53 <= / 2 ^ 50 <= 1 / 1000 /\ Rabs (double_lit over (1 / 10000000) - / 10 ^ 7) <= / 2 ^ 50 * / 10 ^ 7.
Proof. exact ex_hyps. Qed.
Print Assumptions C89_case.
Example C89_case_state : norm 1 ex_state = 1 /\ leads 1 ex_state 1 (/ 10 ^ 7) /\ turned 1 ex_state 1%nat = C1.
Proof. exact ex_leads. Qed.
Print Assumptions C89_case_state.
