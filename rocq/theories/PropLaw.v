(** C82: the probability law of whole runs, with measurements and resets anywhere and any number of shots. *)
From Coq Require Import List Arith ZArith Bool String Reals.
Import ListNotations.
From Verif Require Import Base Cplx Bits ModelTargets ModelGate ModelNumpy ModelNumba SpecTargets SpecQuantum SpecCircuit SpecMeasure SpecLaw
  ProofCache ProofMeasure ProofBorn ProofWhole ProofLaw ProofLawStat.
Local Open Scope R_scope.

(** Every circuit whose targets are in the register is a sequence of operators, measurements and resets. *)
Theorem C82_events : forall n gs, valid n gs <-> exists es, circuit_events n gs es.
Proof. exact law_events. Qed.
Print Assumptions C82_events.

(** A run without shots takes one draw for each measurement and reset.  The draws are in the box of exactly one list of values, and the result is the branch
    of these values, normalised. *)
Theorem C82_state : forall rng n gs es pos b, draws_ok rng -> circuit_events n gs es -> cache_ok n gs (clear_cache_if_invalid b n) ->
  exists s b', List.length s = draws es /\ in_box (box n es s (ket 0)) rng pos /\ 0 < weight n es s /\
    (forall s', List.length s' = draws es -> in_box (box n es s' (ket 0)) rng pos -> s' = s) /\
    np_run rng b gs n (RunArgs None None false) pos = (Ok (RState (arr n (scl (RtoC (/ sqrt (weight n es s))) (branch es s (ket 0))))), b', (pos + draws es)%nat).
Proof. exact law_state. Qed.
Print Assumptions C82_state.

(** A run with N shots takes N times as many draws, shot after shot.  The values of shot i are those whose box the draws of that shot are in, and every
    key of the counter has the number of shots that recorded it. *)
Theorem C82_counts : forall rng n gs es N pos b, draws_ok rng -> (0 < n)%nat -> circuit_events n gs es -> cache_ok n gs (clear_cache_if_invalid b n) ->
  exists ss c b', np_run rng b gs n (RunArgs (Some (Z.of_nat N)) None false) pos = (Ok (RShots c), b', (pos + N * draws es)%nat) /\ List.length ss = N /\
    (forall i s, (i < N)%nat -> (nth_error ss i = Some s <-> List.length s = draws es /\ in_box (box n es s (ket 0)) rng (pos + i * draws es))) /\
    forall k, lookup c k = hits n es k ss.
Proof. exact law_counts. Qed.
Print Assumptions C82_counts.
Theorem C82_numba : forall rng n gs es N pos c, (n <= 64)%nat -> draws_ok rng -> (0 < n)%nat -> circuit_events n gs es ->
  exists ss d b', nb_run rng new_backend gs n (NbArgs (RunArgs (Some (Z.of_nat N)) None false) c) pos = (Ok (RShots d), b', (pos + N * draws es)%nat) /\ List.length ss = N /\
    (forall i s, (i < N)%nat -> (nth_error ss i = Some s <-> List.length s = draws es /\ in_box (box n es s (ket 0)) rng (pos + i * draws es))) /\
    forall k, lookup d k = hits n es k ss.
Proof. exact law_counts_numba. Qed.
Print Assumptions C82_numba.

(** The box of a list of values lies in the unit cube, and its volume is the squared norm of the branch: with independent uniform draws, the values have
    the probabilities of quantum mechanics. *)
Theorem C82_box : forall n gs es s, circuit_events n gs es -> List.length s = draws es ->
  List.length (box n es s (ket 0)) = draws es /\ Forall (fun iv => 0 <= fst iv /\ snd iv <= 1 /\ fst iv <= snd iv) (box n es s (ket 0)) /\
  box_volume (box n es s (ket 0)) = weight n es s.
Proof. exact law_box. Qed.
Print Assumptions C82_box.
(** Shots are independent: the box of a sequence of shots is the product of theirs. *)
Theorem C82_product : forall n gs es ss, circuit_events n gs es -> Forall (fun s => List.length s = draws es) ss ->
  let B := flat_map (fun s => box n es s (ket 0)) ss in
  (List.length B = List.length ss * draws es)%nat /\ box_volume B = seq_weight n es ss /\
  forall rng pos, in_box B rng pos <-> forall i s, nth_error ss i = Some s -> in_box (box n es s (ket 0)) rng (pos + i * draws es).
Proof. exact law_product. Qed.
Print Assumptions C82_product.
(** [values] and [sequences] are all lists of the length, and the probabilities add up to 1. *)
Theorem C82_values : forall d s, In s (values d) <-> List.length s = d.
Proof. exact values_spec. Qed.
Print Assumptions C82_values.
Theorem C82_values_once : forall d, NoDup (values d).
Proof. exact values_nodup. Qed.
Print Assumptions C82_values_once.
Theorem C82_sequences : forall A (l : list A) N ss, In ss (sequences N l) <-> List.length ss = N /\ Forall (fun s => In s l) ss.
Proof. exact sequences_spec. Qed.
Print Assumptions C82_sequences.
Theorem C82_total : forall n gs es, circuit_events n gs es -> Rsum (weight n es) (values (draws es)) = 1.
Proof. exact law_total. Qed.
Print Assumptions C82_total.
Theorem C82_total_shots : forall n gs es N, circuit_events n gs es -> expected n es N (fun _ => 1) = 1.
Proof. exact law_all. Qed.
Print Assumptions C82_total_shots.

(** The count of a key in N shots: N p on average, with variance N p (1 - p); its share is further than eps from p with probability at most 1 / (4 N eps^2). *)
Theorem C82_mean : forall n gs es N k, circuit_events n gs es -> expected n es N (fun ss => INR (hits n es k ss)) = INR N * chance n es k.
Proof. exact law_mean. Qed.
Print Assumptions C82_mean.
Theorem C82_spread : forall n gs es N k, circuit_events n gs es ->
  expected n es N (fun ss => Rsqr (INR (hits n es k ss) - INR N * chance n es k)) = INR N * (chance n es k * (1 - chance n es k)).
Proof. exact law_spread. Qed.
Print Assumptions C82_spread.
Theorem C82_large : forall n gs es N k eps, circuit_events n gs es -> (0 < N)%nat -> 0 < eps ->
  expected n es N (fun ss => if Rle_dec eps (Rabs (INR (hits n es k ss) / INR N - chance n es k)) then 1 else 0) <= 1 / (4 * INR N * Rsqr eps).
Proof. exact law_large. Qed.
Print Assumptions C82_large.

(** H, measure, reset: 1 is recorded with probability 1/2, and the reset then finds what the measurement found. *)
Theorem C82_case : circuit_events 1 ex_law ex_events /\ draws ex_events = 2%nat /\ record 1 ex_events [true; true] = [1%nat] /\ chance 1 ex_events [1%nat] = 1 / 2.
Proof. exact (conj ex_law_events ex_chance). Qed.
Print Assumptions C82_case.
Theorem C82_case_weights : weight 1 ex_events [false; false] = 1 / 2 /\ weight 1 ex_events [true; true] = 1 / 2 /\
  weight 1 ex_events [false; true] = 0 /\ weight 1 ex_events [true; false] = 0.
Proof. exact ex_weights. Qed.
Print Assumptions C82_case_weights.
