(** C84: rounding errors of shots with measurements and resets. *)
From Coq Require Import List Arith ZArith Bool Reals.
Import ListNotations.
From Verif Require Import Base Cplx Bits ModelTargets ModelGate ModelNumpy ModelFloat ModelFloatMeasure SpecTargets SpecQuantum SpecCircuit SpecMeasure SpecLaw SpecFloat
  SpecFloatMeasure ProofLawStat ProofFloatMeasRun ProofFloatMeasTop ProofFloatMeasCase.
Local Open Scope R_scope.

(** Without rounding and with the exact norm, the model of rounded shots is the model of runs. *)
Theorem C84_exact : forall rng gs n pos, draws_ok rng ->
  let r := np_run rng new_backend gs n no_args pos in
  (fst (fst r), snd r) = match fl_shot exact_arith (fun v => sqrt (exact_norm2 v)) rng gs n pos with
    | SOk ctx => (Ok (RState (x_qubits ctx)), x_pos ctx) | SErr e p => (Err e, p) end.
Proof. exact shot_exact. Qed.
Print Assumptions C84_exact.

(** A shot that would find the values s without rounding, with every draw further than 14 d err / W from its threshold, finds them with rounding and ends in a
    state within (14 d + 2) err / W of the exact one; d is the number of draws, W the probability of s, err the error of a circuit without measurements. *)
Theorem C84_run : forall A u M N rng n gs es s pos, rounds A u -> 3 <= M -> 1000 * u * M <= 1 -> norms N n u -> draws_ok rng ->
  circuit_events n gs es -> Forall (angles_within M) gs -> List.length s = draws es ->
  let W := weight n es s in let err := (1 + 256 * (u * M)) ^ (7 * List.length es) - 1 in let d := INR (draws es) in
  0 < W -> 28 * (d * d) * err <= W -> in_box (box n es s (ket 0)) rng pos -> apart (14 * d * err / W) (thresholds n es s (ket 0)) rng pos ->
  exists ctx phi, fl_shot A N rng gs n pos = SOk ctx /\ x_qubits ctx = arr n phi /\ x_cregs ctx = record n es s /\ x_pos ctx = (pos + draws es)%nat /\
    dist n phi (scl (RtoC (/ sqrt W)) (branch es s (ket 0))) <= (14 * d + 2) * err / W.
Proof. exact shot_lemma. Qed.
Print Assumptions C84_run.

(** The draws that find s with rounding have a probability of at least W - 14 d^2 err / W. *)
Theorem C84_chance : forall A u M N n gs es s, rounds A u -> 3 <= M -> 1000 * u * M <= 1 -> norms N n u ->
  circuit_events n gs es -> Forall (angles_within M) gs -> List.length s = draws es ->
  let W := weight n es s in let err := (1 + 256 * (u * M)) ^ (7 * List.length es) - 1 in let d := INR (draws es) in
  0 < W -> 28 * (d * d) * err <= W ->
  exists ivs, List.length ivs = draws es /\ W - 14 * (d * d) * err / W <= volume ivs /\
    forall rng pos, draws_ok rng -> in_box ivs rng pos ->
      exists ctx, fl_shot A N rng gs n pos = SOk ctx /\ x_cregs ctx = record n es s.
Proof. exact chance_lemma. Qed.
Print Assumptions C84_chance.
Theorem C84_margin : forall n gs es s mu, circuit_events n gs es -> List.length s = draws es -> 0 <= mu ->
  weight n es s - INR (draws es) * mu <= volume (narrowed mu s (box n es s (ket 0))) /\
  forall rng pos, in_box (narrowed mu s (box n es s (ket 0))) rng pos -> in_box (box n es s (ket 0)) rng pos /\ apart mu (thresholds n es s (ket 0)) rng pos.
Proof. exact margin_lemma. Qed.
Print Assumptions C84_margin.

(** Norms: the exact one; the sum of the squares one after the other; that sum with 53 digits, for up to 20 qubits. *)
Theorem C84_exact_norm : forall n u, 0 <= u -> norms (fun v => sqrt (exact_norm2 v)) n u.
Proof. exact exact_norms. Qed.
Print Assumptions C84_exact_norm.
Theorem C84_norm : forall A u, rounds A u -> u <= 1 -> forall n, norms (sequential_norm A) n ((1 + u) ^ (2 ^ n + 3) - 1).
Proof. exact seq_norms. Qed.
Print Assumptions C84_norm.
Theorem C84_double_norm : forall n, (n <= 20)%nat -> norms (sequential_norm (binary_arith 53)) n (/ 2 ^ 31).
Proof. exact double_norm. Qed.
Print Assumptions C84_double_norm.
(** A bound on the errors may be raised, to that of the norm. *)
Theorem C84_weaker : forall A u v, rounds A u -> u <= v -> rounds A v.
Proof. exact rounds_le. Qed.
Print Assumptions C84_weaker.

(** "A shot never records values of probability 0" is false with rounding: h[0].h[0].m[0] with 53 digits and the draw 1 - 2^-53, which random.random()
    can return, records 1 and leaves the zero vector. *)
Theorem C84_possible_refuted : exists rng, draws_ok rng /\ (forall i, exists k, rng i = IZR k * powerRZ 2 (-53)) /\
  circuit_events 1 ex_hhm ex_hhm_events /\ weight 1 ex_hhm_events [true] = 0 /\
  exists ctx, fl_shot (binary_arith 53) (sequential_norm (binary_arith 53)) rng ex_hhm 1 0 = SOk ctx /\ x_cregs ctx = [1%nat] /\ x_qubits ctx = [C0; C0].
Proof. exact impossible_lemma. Qed.
Print Assumptions C84_possible_refuted.

(** h[0].m[0].reset[:] with draws of 3/4 and relative errors of 10^-8 meets the hypotheses of C84_run. *)
Example C84_case : let u := 1 / 100000000 in let err := (1 + 256 * (u * 3)) ^ (7 * List.length ex_events) - 1 in let W := weight 1 ex_events [true; true] in
  rounds (biased_arith u) u /\ 1000 * u * 3 <= 1 /\ norms (fun v => sqrt (exact_norm2 v)) 1 u /\ draws_ok ex_draws /\ circuit_events 1 ex_law ex_events /\
  Forall (angles_within 3) ex_law /\ draws ex_events = 2%nat /\ 0 < W /\ 28 * (2 * 2) * err <= W /\ in_box (box 1 ex_events [true; true] (ket 0)) ex_draws 0 /\
  apart (14 * 2 * err / W) (thresholds 1 ex_events [true; true] (ket 0)) ex_draws 0.
Proof. exact case_lemma. Qed.
