(** C88: rounded runs with any number of shots, with the cache of the backend, on both backends. *)
From Coq Require Import String List Arith NArith ZArith Bool Reals.
Import ListNotations.
From Verif Require Import Base Cplx Bits ModelTargets ModelGate ModelNumpy ModelNumba ModelFloat ModelFloatMeasure ModelFloatNumba ModelFloatNumbaMeasure ModelFloatRun
  SpecTargets SpecQuantum SpecCircuit SpecMeasure ProofBorn SpecLaw SpecFloat SpecFloatMeasure SpecFinite SpecFloatNumba SpecFiniteMeasure SpecFloatRun
  ProofLawStat ProofFloatMeasCase ProofFloatShots ProofFloatNbShots ProofFloatRunExact ProofFiniteMeasRun ProofFloatRuns.
Local Open Scope R_scope.

(** Without rounding these are the runs of ModelNumpy and ModelNumba. *)
Theorem C88_exact_numpy : forall rng b gs n a pos, draws_ok rng ->
  fl_np_run exact_arith (fun v => sqrt (exact_norm2 v)) ignore_global_phase rng b gs n a pos = np_run rng b gs n a pos.
Proof. exact np_run_exact. Qed.
Print Assumptions C88_exact_numpy.
Theorem C88_exact_numba : forall rng b gs n a pos, fb_run exact_compiled exact_norm2 exact_arith ignore_global_phase rng b gs n a pos = nb_run rng b gs n a pos.
Proof. exact nb_run_exact. Qed.
Print Assumptions C88_exact_numba.

(** In every arithmetic, a run is a repetition of shots on a new backend, whatever the cache, and the cache stays right. *)
Theorem C88_numpy_shots : forall A N glob rng n gs b m returns ig pos, (0 < n)%nat -> np_cached A n gs b -> In returns ["statevector"; "shots"; "statevector_and_shots"]%string ->
  let r := fl_np_run A N glob rng b gs n (RunArgs (Some (Z.of_nat m)) (Some returns) ig) pos in
  runs_as (fun p => np_result (fl_shot A N rng gs n p)) n m pos returns (if ig then glob else fun q => q) (fst (fst r)) (snd r) /\ np_cached A n gs (snd (fst r)).
Proof. exact np_run_shots. Qed.
Print Assumptions C88_numpy_shots.
Theorem C88_numba_shots : forall c S P glob rng n gs b ec m returns ig pos, (0 < n)%nat -> (ec = true -> nb_cached c P n gs b) -> In returns ["statevector"; "shots"; "statevector_and_shots"]%string ->
  let r := fb_run c S P glob rng b gs n (NbArgs (RunArgs (Some (Z.of_nat m)) (Some returns) ig) ec) pos in
  runs_as (fun p => nb_result (fn_shot c S P rng gs n p)) n m pos returns (if ig then glob else fun q => q) (fst (fst r)) (snd r) /\
  ((exists v, fst (fst r) = Ok v) -> nb_cached c P n gs (snd (fst r))).
Proof. exact nb_run_shots. Qed.
Print Assumptions C88_numba_shots.
(** The cache of a new backend is right, and it stays right when gates are appended. *)
Theorem C88_numpy_cached : forall A n gs more b, np_cached A n gs new_backend /\ (np_cached A n gs b -> np_cached A n (gs ++ more) b).
Proof. exact (fun A n gs more b => conj (np_cached_new A n gs) (np_cached_more A n gs more b)). Qed.
Print Assumptions C88_numpy_cached.
Theorem C88_numba_cached : forall c P n gs more b, nb_cached c P n gs new_backend /\ (nb_cached c P n gs b -> nb_cached c P n (gs ++ more) b).
Proof. exact (fun c P n gs more b => conj (nb_cached_new c P n gs) (nb_cached_more c P n gs more b)). Qed.
Print Assumptions C88_numba_cached.

(** Draws of known values that are not too close to the thresholds: the counts are exact, and the last state is close to the exact one. *)
Theorem C88_numpy_counts : forall A u eta B M N w g n gs es err, rounds_within A u eta B -> divides_within A u eta B -> ranges u eta B M n g ->
  norms_within N n w g -> u <= w <= 1 / 100 -> (0 < n)%nat -> circuit_events n gs es -> Forall (angles_within M) gs -> shot_error u M g (6 * w) (List.length es) <= err ->
  forall glob rng b ss returns ig pos, draws_ok rng -> np_cached A n gs b -> In returns ["statevector"; "shots"; "statevector_and_shots"]%string ->
  (forall i s, nth_error ss i = Some s -> sure n es err s rng (pos + i * draws es)) ->
  let r := fl_np_run A N glob rng b gs n (RunArgs (Some (Z.of_nat (List.length ss))) (Some returns) ig) pos in
  snd r = (pos + List.length ss * draws es)%nat /\ np_cached A n gs (snd (fst r)) /\
  exists q c, gives returns (if ig then glob q else q) c (fst (fst r)) /\ (forall k, lookup c k = hits n es k ss) /\
    forall ss' s, ss = ss' ++ [s] -> let W := weight n es s in
      exists phi, q = arr n phi /\ dist n phi (scl (RtoC (/ sqrt W)) (branch es s (ket 0))) <= (14 * INR (draws es) + 2) * err / W.
Proof. exact np_counts. Qed.
Print Assumptions C88_numpy_counts.
Theorem C88_numba_counts : forall c P u eta B M S w g n gs es err, compiles c u eta B -> scales c u eta -> divides_within (c_arith c) u eta B -> rounds_within P u eta B ->
  ranges u eta B M n g -> 1 / 10 ^ 16 <= u -> (0 < n <= 64)%nat -> sums_within S n w g -> u <= w <= 1 / 100 -> circuit_events n gs es -> Forall (angles_within M) gs ->
  shot_error u M g (2 * w) (List.length es) <= err ->
  forall glob rng b ss returns ig ec pos, draws_ok rng -> (ec = true -> nb_cached c P n gs b) -> In returns ["statevector"; "shots"; "statevector_and_shots"]%string ->
  (forall i s, nth_error ss i = Some s -> sure n es err s rng (pos + i * draws es)) ->
  let r := fb_run c S P glob rng b gs n (NbArgs (RunArgs (Some (Z.of_nat (List.length ss))) (Some returns) ig) ec) pos in
  snd r = (pos + List.length ss * draws es)%nat /\ nb_cached c P n gs (snd (fst r)) /\
  exists q t, gives returns (if ig then glob q else q) t (fst (fst r)) /\ (forall k, lookup t k = hits n es k ss) /\
    forall ss' s, ss = ss' ++ [s] -> let W := weight n es s in
      exists phi, q = arr n phi /\ dist n phi (scl (RtoC (/ sqrt W)) (branch es s (ket 0))) <= (14 * INR (draws es) + 2) * err / W.
Proof. exact nb_counts. Qed.
Print Assumptions C88_numba_counts.
(** The margins of C87 are enough. *)
Theorem C88_margins : forall n gs es, circuit_events n gs es -> forall m s rng pos, List.length s = draws es -> 0 <= m -> 0 < weight n es s ->
  apart (m / weight n es s) (thresholds n es s (ket 0)) rng pos -> clear m n es s (ket 0) rng pos.
Proof. exact (fun n gs es C m s rng pos => clear_apart n es (ProofLaw.circuit_events_ok n gs es C) m s (ket 0) rng pos). Qed.
Print Assumptions C88_margins.

(** With uniform and independent draws, [k] rounded shots and [k] exact shots with the same draws have the same counts, except with a probability of
    at most 28 k (1 + d + d^2) 2^d err, where [d] is the number of draws of a shot. *)
Theorem C88_numpy_agree : forall A u eta B M N w g n gs es err, rounds_within A u eta B -> divides_within A u eta B -> ranges u eta B M n g ->
  norms_within N n w g -> u <= w <= 1 / 100 -> (0 < n)%nat -> circuit_events n gs es -> Forall (angles_within M) gs -> shot_error u M g (6 * w) (List.length es) <= err ->
  forall glob b k, np_cached A n gs b -> let d := INR (draws es) in let a := RunArgs (Some (Z.of_nat k)) None false in
  mostly (k * draws es) (INR k * (28 * (1 + d + d * d) * 2 ^ draws es * err))
    (fun rng pos => same_counts (fl_np_run A N glob rng b gs n a pos) (np_run rng new_backend gs n a pos)).
Proof. exact np_agree. Qed.
Print Assumptions C88_numpy_agree.
Theorem C88_numba_agree : forall c P u eta B M S w g n gs es err, compiles c u eta B -> scales c u eta -> divides_within (c_arith c) u eta B -> rounds_within P u eta B ->
  ranges u eta B M n g -> 1 / 10 ^ 16 <= u -> (0 < n <= 64)%nat -> sums_within S n w g -> u <= w <= 1 / 100 -> circuit_events n gs es -> Forall (angles_within M) gs ->
  shot_error u M g (2 * w) (List.length es) <= err ->
  forall glob b ec k, (ec = true -> nb_cached c P n gs b) -> let d := INR (draws es) in let a := NbArgs (RunArgs (Some (Z.of_nat k)) None false) ec in
  mostly (k * draws es) (INR k * (28 * (1 + d + d * d) * 2 ^ draws es * err))
    (fun rng pos => same_counts (fb_run c S P glob rng b gs n a pos) (nb_run rng new_backend gs n a pos)).
Proof. exact nb_agree. Qed.
Print Assumptions C88_numba_agree.
(** [mostly] is not empty. *)
Theorem C88_mostly : forall m delta Q, mostly m delta Q -> delta < 1 -> forall pos, exists rng, draws_ok rng /\ Q rng pos.
Proof. exact mostly_some. Qed.
Print Assumptions C88_mostly.

(** Doubles: up to 1000 operations, measurements and resets, with angles up to 7. *)
Theorem C88_double_numpy : forall over N n gs es, norms_within N n (/ 2 ^ 29) (powerRZ 2 (-400)) -> (0 < n <= 64)%nat -> circuit_events n gs es -> Forall (angles_within 7) gs ->
  (List.length es <= 1000)%nat -> forall glob b k, np_cached (double_arith over) n gs b -> let d := INR (draws es) in let a := RunArgs (Some (Z.of_nat k)) None false in
  mostly (k * draws es) (INR k * (28 * (1 + d + d * d) * 2 ^ draws es * (1 / 50000000)))
    (fun rng pos => same_counts (fl_np_run (double_arith over) N glob rng b gs n a pos) (np_run rng new_backend gs n a pos)).
Proof. exact double_np_agree. Qed.
Print Assumptions C88_double_numpy.
Theorem C88_double_numba : forall c over S n gs es, compiles c (/ 2 ^ 53) (powerRZ 2 (-1075)) (powerRZ 2 500) -> scales c (/ 2 ^ 53) (powerRZ 2 (-1075)) ->
  divides_within (c_arith c) (/ 2 ^ 53) (powerRZ 2 (-1075)) (powerRZ 2 500) -> sums_within S n (/ 2 ^ 29) (powerRZ 2 (-400)) -> (0 < n <= 64)%nat ->
  circuit_events n gs es -> Forall (angles_within 7) gs -> (List.length es <= 1000)%nat ->
  forall glob b ec k, (ec = true -> nb_cached c (double_arith over) n gs b) -> let d := INR (draws es) in let a := NbArgs (RunArgs (Some (Z.of_nat k)) None false) ec in
  mostly (k * draws es) (INR k * (28 * (1 + d + d * d) * 2 ^ draws es * (1 / 50000000)))
    (fun rng pos => same_counts (fb_run c S (double_arith over) glob rng b gs n a pos) (nb_run rng new_backend gs n a pos)).
Proof. exact double_nb_agree. Qed.
Print Assumptions C88_double_numba.

(** h[0].m[0].reset[:] with draws of 3/4 meets the hypotheses of the theorems above in doubles (the others are in C87_case), for any number of shots; 1000 shots agree
    with probability at least 0.984. *)
Example C88_case : (forall pos, sure 1 ex_events (1 / 300000) [true; true] ex_draws pos) /\
  INR (draws ex_events) = 2 /\ INR 1000 * (28 * (1 + 2 + 2 * 2) * 2 ^ draws ex_events * (1 / 50000000)) <= 16 / 1000.
Proof. exact (conj ex_sure ex_loss). Qed.
Print Assumptions C88_case.
(** A run of h[0] leaves a cache that is right for h[0].m[0].reset[:]. *)
Example C88_case_cache : forall A N glob rng, exists q,
  fl_np_run A N glob rng new_backend (firstn 1 ex_law) 1 (RunArgs (Some 1%Z) (Some "shots"%string) false) 0 = (Ok (RShots [([0%nat], 1%nat)]), Backend (Some q) 0, 0%nat) /\
  np_cached A 1 ex_law (Backend (Some q) 0).
Proof. exact ex_prefix_cached. Qed.
Print Assumptions C88_case_cache.
