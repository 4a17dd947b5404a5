(** Property: energies from measurements scatter around the energy.
    A term of the Hamiltonian is a word of X, Y and Z on different qubits with a coefficient; [balanced n w]: with qubit q the word is also on qubit n - 1 - q.
    [shaped N ham sss]: [sss] lists for every term N shots, each with a value for every qubit of its word; [estimate N ham sss] is the energy these values give.
    [energy_box n ops ham sss] are the intervals the draws have to be in to find the values [sss], its volume is their probability under independent uniform draws;
    [mean_shots n ops N ham f] is the mean of [f] over these probabilities.  [expval_y] is the energy of C42, with -Y for Y. *)
From Coq Require Import List Arith ZArith Bool String Reals.
Import ListNotations.
From Verif Require Import Base Cplx Bits ModelTargets ModelGate ModelNumpy ModelCircuit ModelPauli ModelVqe
  SpecTargets SpecQuantum SpecCircuit SpecMeasure SpecRun SpecAPI SpecPauli SpecLaw SpecVqe ProofVqe ProofVqeEx ProofShotRun ProofShotLost ProofShotTop SpecShots.
Local Open Scope R_scope.

(** C100.  get_energy with the measurement sampler of N shots is the estimate from exactly the values in whose box the draws are; it uses one draw for each
    qubit of each word in each shot and changes no circuit.
    Missing for all Hamiltonians: terms that are not balanced (there it is false, see C43_energy_refuted). *)
Theorem C100_run_partial : forall rng seen h c v ops ham N, let n := Z.to_nat (v_n v) in reachable rng seen h -> circuit_is h c v -> simulated rng h v -> draws_ok rng ->
  circuit_ops n (v_gates v) ops -> (0 < n)%nat -> (0 < N)%nat -> Forall (fun t => separate_word n (t_ops t) /\ balanced n (t_ops t)) ham ->
  exists sss h', get_energy rng h ham c (measurement_sampler rng (Z.of_nat N)) = (Ok (estimate N ham sss), h') /\
    shaped N ham sss /\ in_box (energy_box n ops ham sss) rng (h_pos h) /\
    (forall sss', shaped N ham sss' -> in_box (energy_box n ops ham sss') rng (h_pos h) -> sss' = sss) /\
    h_pos h' = (h_pos h + N * list_sum (map (fun t => List.length (t_ops t)) ham))%nat /\
    reachable rng seen h' /\ h_default h' = h_default h /\ (forall c' v', circuit_is h c' v' -> circuit_is h' c' v').
Proof. exact get_energy_shots. Qed.
Print Assumptions C100_run_partial.
(** For all Hamiltonians with words on different qubits: every term counts with a number between -1 and 1, and if its word is not on the mirror image of one of its qubits,
    with a number above 0, whatever the circuit and the draws.  So the measured energy of Z[0] is never negative on two or more qubits, even where the energy is -1. *)
Theorem C100_unpaired : forall rng seen h c v ops ham N, let n := Z.to_nat (v_n v) in reachable rng seen h -> circuit_is h c v -> simulated rng h v -> draws_ok rng ->
  circuit_ops n (v_gates v) ops -> (0 < n)%nat -> (0 < N)%nat -> Forall (fun t => separate_word n (t_ops t)) ham ->
  exists ps h', get_energy rng h ham c (measurement_sampler rng (Z.of_nat N)) = (Ok (Rsum (fun tp => Cre (t_coeff (fst tp)) * snd tp) (combine ham ps)), h') /\
    Forall2 (fun t p => Rabs p <= 1 /\ (unpaired n (t_ops t) -> 0 < p)) ham ps.
Proof. exact get_energy_lost. Qed.
Print Assumptions C100_unpaired.
Example C100_unpaired_case : separate_word 2 [(LZ, 0%nat)] /\ unpaired 2 [(LZ, 0%nat)] /\ separate_word 5 [(LX, 0%nat); (LZ, 3%nat)] /\ unpaired 5 [(LX, 0%nat); (LZ, 3%nat)].
Proof. exact unpaired_case. Qed.
(** The mean runs over every list of values once, and the probabilities add up to 1. *)
Theorem C100_total : forall n gs ops N ham, circuit_ops n gs ops -> Forall (fun t => separate_word n (t_ops t)) ham ->
  NoDup (all_shots N ham) /\ (forall sss, In sss (all_shots N ham) <-> shaped N ham sss) /\ mean_shots n ops N ham (fun _ => 1) = 1.
Proof. exact shots_total. Qed.
Print Assumptions C100_total.
(** The mean of the estimates is the energy of the exact sampler, with any number of shots; with an even number of factors Y in each term it is the expectation of the Hamiltonian. *)
Theorem C100_mean : forall n gs ops N ham, circuit_ops n gs ops -> Forall (fun t => separate_word n (t_ops t)) ham -> (0 < N)%nat ->
  mean_shots n ops N ham (estimate N ham) = Cre (expval_y n ham (apply_all ops (ket 0))).
Proof. exact shots_mean. Qed.
Print Assumptions C100_mean.
Theorem C100_even : forall n gs ops N ham, circuit_ops n gs ops -> Forall (fun t => separate_word n (t_ops t)) ham -> (0 < N)%nat ->
  Forall (fun t => Nat.even (ycount (t_ops t)) = true) ham -> mean_shots n ops N ham (estimate N ham) = Cre (expval n (expr_op ham) (apply_all ops (ket 0))).
Proof. exact shots_even. Qed.
Print Assumptions C100_even.
(** The mean squared error is at most the sum of the squared coefficients divided by N, *)
Theorem C100_spread : forall n gs ops N ham, circuit_ops n gs ops -> Forall (fun t => separate_word n (t_ops t)) ham -> (0 < N)%nat ->
  mean_shots n ops N ham (fun sss => Rsqr (estimate N ham sss - Cre (expval_y n ham (apply_all ops (ket 0))))) <= squares ham / INR N.
Proof. exact shots_spread. Qed.
Print Assumptions C100_spread.
(** and errors of [eps] or more are as improbable as Chebyshev's inequality says. *)
Theorem C100_far : forall n gs ops N ham, circuit_ops n gs ops -> Forall (fun t => separate_word n (t_ops t)) ham -> forall eps, (0 < N)%nat -> 0 < eps ->
  mean_shots n ops N ham (fun sss => if Rle_dec eps (Rabs (estimate N ham sss - Cre (expval_y n ham (apply_all ops (ket 0))))) then 1 else 0) <= squares ham / (INR N * Rsqr eps).
Proof. exact shots_far. Qed.
Print Assumptions C100_far.
(** So with enough shots an error of [eps] or more is as improbable as wanted. *)
Theorem C100_enough : forall n gs ops ham, circuit_ops n gs ops -> Forall (fun t => separate_word n (t_ops t)) ham -> forall eps delta, 0 < eps -> 0 < delta ->
  exists N0, (0 < N0)%nat /\ forall N, (N0 <= N)%nat ->
    mean_shots n ops N ham (fun sss => if Rle_dec eps (Rabs (estimate N ham sss - Cre (expval_y n ham (apply_all ops (ket 0))))) then 1 else 0) <= delta.
Proof. exact shots_enough. Qed.
Print Assumptions C100_enough.
Example C100_case : exists h c, draws_ok half_rng /\ reachable half_rng [] h /\ circuit_is h c x0 /\ simulated half_rng h x0 /\ circuit_ops 2 (v_gates x0) [sem1 KX 0] /\
  Forall (fun t => separate_word 2 (t_ops t) /\ balanced 2 (t_ops t)) zz /\ Forall (fun t => Nat.even (ycount (t_ops t)) = true) zz /\ squares zz = 1 /\
  ~ balanced 2 [(LZ, 0%nat)] /\ shaped 2 zz [[[true; false]; [false; false]]] /\ estimate 2 zz [[[true; false]; [false; false]]] = 0.
Proof. exact zz_shots. Qed.
