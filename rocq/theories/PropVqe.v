(** Properties of samplers, energies, QAOA circuits and results of blueqat/vqe.py.
    [simulated rng h v]: the circuit [v] runs by default on the numpy backend, or on the numba backend with at most 64 qubits;
    [circuit_ops n gs ops]: the gates [gs] are unitary and stand for the operators [ops] on [n] qubits. *)
From Coq Require Import List Arith ZArith Bool String Reals.
Import ListNotations.
From Verif Require Import Base Cplx Bits ModelTargets ModelGate ModelNumpy ModelCircuit ModelPauli ModelPauliMatrix ModelVqe SpecTargets SpecQuantum SpecCircuit
  SpecMeasure SpecRun SpecAPI SpecPauli SpecPauliMatrix SpecVqe ProofVqe ProofVqeRun ProofVqeSparse ProofVqeSample ProofQaoa ProofVqeRes ProofVqeEx.
Local Open Scope nat_scope.

(** C41.  expect(state, meas) is the distribution of the outcomes of the listed qubits, each non-zero probability once; the probabilities add up to
    the squared norm of the state. *)
Theorem C41_expect : forall v meas, exists d, expect v (map Z.of_nat meas) = Ok d /\ distribution v meas d /\ mass d = Rsum Cnorm2 v.
Proof. exact expect_distribution. Qed.
Print Assumptions C41_expect.
Theorem C41_negative : forall v meas, (exists m, In m meas /\ (m < 0)%Z) -> expect v meas = Err ValueError.
Proof. exact expect_negative. Qed.
Print Assumptions C41_negative.
Theorem C41_sampler : forall rng seen h c v ops meas, reachable rng seen h -> circuit_is h c v -> simulated rng h v ->
  circuit_ops (Z.to_nat (v_n v)) (v_gates v) ops ->
  exists h' d, non_sampling_sampler rng h c (map Z.of_nat meas) = (Ok d, h') /\ distribution (arr (Z.to_nat (v_n v)) (apply_all ops (ket 0))) meas d /\
    reachable rng seen h' /\ h_pos h' = h_pos h /\ h_default h' = h_default h /\ (forall c' v', circuit_is h c' v' -> circuit_is h' c' v').
Proof. exact exact_sampler. Qed.
Print Assumptions C41_sampler.
Example C41_case : forall rng, exists h c, reachable rng [] h /\ circuit_is h c x0 /\ simulated rng h x0 /\ circuit_ops 2 (v_gates x0) [sem1 KX 0].
Proof. exact x0_case. Qed.

(** C42.  With the exact sampler get_energy is the expectation of the Hamiltonian in which each Y is replaced by -Y; no circuit is changed. *)
Theorem C42_energy_partial : forall rng seen h c v ops ham, reachable rng seen h -> circuit_is h c v -> simulated rng h v ->
  circuit_ops (Z.to_nat (v_n v)) (v_gates v) ops -> Forall (fun t => separate_word (Z.to_nat (v_n v)) (t_ops t)) ham ->
  exists h', get_energy rng h ham c (non_sampling_sampler rng) = (Ok (Cre (expval_y (Z.to_nat (v_n v)) ham (apply_all ops (ket 0)))), h') /\
    reachable rng seen h' /\ h_pos h' = h_pos h /\ h_default h' = h_default h /\ (forall c' v', circuit_is h c' v' -> circuit_is h' c' v').
Proof. exact get_energy_exact. Qed.
Print Assumptions C42_energy_partial.
(** This is the expectation of the Hamiltonian if every term has an even number of factors Y. *)
Theorem C42_even : forall n ham psi, Forall (fun t => Nat.even (ycount (t_ops t)) = true) ham -> expval_y n ham psi = expval n (expr_op ham) psi.
Proof. exact expval_even. Qed.
Print Assumptions C42_even.
(** get_energy_sparse is the expectation for any Hamiltonian that make_sparse accepts, if the circuit has exactly its width. *)
Theorem C42_sparse : forall rng seen h c v ops ham m, reachable rng seen h -> circuit_is h c v -> simulated rng h v ->
  circuit_ops (Z.to_nat (v_n v)) (v_gates v) ops -> make_sparse ham = Ok m ->
  exists h', get_energy_sparse rng h m c = ((if Nat.eq_dec (Z.to_nat (v_n v)) (expr_qubits ham)
      then Ok (Cre (expval (expr_qubits ham) (expr_op ham) (apply_all ops (ket 0)))) else Err ValueError), h') /\
    reachable rng seen h' /\ h_pos h' = h_pos h /\ h_default h' = h_default h /\ (forall c' v', circuit_is h c' v' -> circuit_is h' c' v').
Proof. exact energy_sparse. Qed.
Print Assumptions C42_sparse.
Theorem C42_make_sparse : forall e, expr_qubits e = 0 \/ expr_simplify e <> [] -> exists m, make_sparse e = Ok m /\ matrix_of (expr_qubits e) (expr_op e) m /\
  (match m with SDense _ _ | SCsc _ _ _ _ => True | _ => False end).
Proof. exact make_sparse_ok. Qed.
Print Assumptions C42_make_sparse.
(** So for Y[0] in the state (|0> + i|1>)/sqrt 2 the two energies are -1 and 1. *)
Theorem C42_y_refuted : forall rng, exists h c h1 h2 m, reachable rng [] h /\ circuit_is h c yplus /\
  get_energy rng h y0 c (non_sampling_sampler rng) = (Ok (-1)%R, h1) /\
  make_sparse y0 = Ok m /\ get_energy_sparse rng h m c = (Ok 1%R, h2) /\ Cre (expval 1 (expr_op y0) (apply_all [sem1 KH 0; sem1 KS 0] (ket 0))) = 1%R.
Proof. exact y_energy. Qed.
Print Assumptions C42_y_refuted.
Example C42_case : forall rng, exists h c m, reachable rng [] h /\ circuit_is h c x0 /\ simulated rng h x0 /\ circuit_ops 2 (v_gates x0) [sem1 KX 0] /\
  Forall (fun t => separate_word 2 (t_ops t)) zz /\ Forall (fun t => Nat.even (ycount (t_ops t)) = true) zz /\ make_sparse zz = Ok m /\ expr_qubits zz = 2.
Proof. exact zz_case. Qed.

(** C43.  The measurement sampler with N samples: every key is the record of some shot, read from the mirrored register; its value is the relative
    frequency of one of the full outcomes with that key; the values add up to 1 if all qubits are measured.  The circuit gets the measurement. *)
Theorem C43_sampler_partial : forall rng seen h c v N meas, let n := Z.to_nat (v_n v) in reachable rng seen h -> circuit_is h c v -> simulated rng h v ->
  draws_ok rng -> valid n (v_gates v) -> 0 < n -> 0 < N -> Forall (fun m => m < n) meas ->
  exists ws d h', measurement_sampler rng (Z.of_nat N) h c (map Z.of_nat meas) = (Ok d, h') /\
    shots rng n (v_gates v ++ [measure_gate_of meas]) (h_pos h) ws /\ List.length ws = N /\ NoDup (map fst d) /\
    (forall o, In o (map fst d) <-> In o (map (mirrored n meas) ws)) /\
    (forall o p, In (o, p) d -> exists w, In w ws /\ o = mirrored n meas w /\ p = frequency (map (outcomes n) ws) (outcomes n w)) /\
    (mass d <= 1)%R /\ ((forall q, q < n -> In q meas) -> mass d = 1%R) /\
    reachable rng seen h' /\ circuit_is h' c (VCirc (v_gates v ++ [measure_gate_of meas]) (v_n v) (v_default v)).
Proof. exact measured_run. Qed.
Print Assumptions C43_sampler_partial.
(** On x[0] with two qubits, asked for qubit 0, every shot records 1 but the only key is 0. *)
Theorem C43_order_refuted : forall rng N, draws_ok rng -> 0 < N -> exists h c ws h', reachable rng [] h /\ circuit_is h c x0 /\
  measurement_sampler rng (Z.of_nat N) h c [0%Z] = (Ok [([0], 1%R)], h') /\
  shots rng 2 (v_gates x0 ++ [measure_gate_of [0]]) (h_pos h) ws /\ List.length ws = N /\ Forall (fun w => requested [0] w = [1]) ws.
Proof. exact mirrored_refuted. Qed.
Print Assumptions C43_order_refuted.
(** So the sampled energy of Z[0] is 1 instead of -1. *)
Theorem C43_energy_refuted : forall rng N, draws_ok rng -> 0 < N -> exists h c h1 h2, reachable rng [] h /\ circuit_is h c x0 /\
  get_energy rng h z0 c (measurement_sampler rng (Z.of_nat N)) = (Ok 1%R, h1) /\
  get_energy rng h z0 c (non_sampling_sampler rng) = (Ok (-1)%R, h2).
Proof. exact sampled_energy. Qed.
Print Assumptions C43_energy_refuted.
(** On h[0] with two qubits and the draws 0, 1/2, the frequencies for qubit 0 add up to 1/2. *)
Theorem C43_mass_refuted : exists h c ws d h', draws_ok coin /\ reachable coin [] h /\ circuit_is h c h0 /\
  measurement_sampler coin 2 h c [0%Z] = (Ok d, h') /\ shots coin 2 (v_gates h0 ++ [measure_gate_of [0]]) (h_pos h) ws /\ List.length ws = 2 /\ mass d = (1 / 2)%R.
Proof. exact overwritten. Qed.
Print Assumptions C43_mass_refuted.
(** The sampler of state vectors: the outcomes of the exact distribution with the frequencies that were drawn. *)
Theorem C43_state_vector : forall rng seen h c v ops meas N (multinomial : nat -> list R -> list nat), reachable rng seen h -> circuit_is h c v -> simulated rng h v ->
  circuit_ops (Z.to_nat (v_n v)) (v_gates v) ops -> 0 < N ->
  (forall probs, List.length (multinomial N probs) = List.length probs /\ list_sum (multinomial N probs) = N) ->
  exists d f h', state_vector_sampler rng multinomial N h c (map Z.of_nat meas) = (Ok f, h') /\
    distribution (arr (Z.to_nat (v_n v)) (apply_all ops (ket 0))) meas d /\ map fst f = map fst d /\
    map snd f = map (fun k => INR k / INR N)%R (multinomial N (map snd d)) /\ mass f = 1%R /\
    reachable rng seen h' /\ (forall c' v', circuit_is h c' v' -> circuit_is h' c' v').
Proof. exact vector_sampler. Qed.
Print Assumptions C43_state_vector.
Example C43_case : draws_ok coin /\ valid 2 (v_gates x0) /\ Forall (fun m => m < 2) [1; 0].
Proof. exact sampler_case. Qed.

(** C56.  most_common(k) of the probabilities p: k of the best in descending order, equal ones in the order of p. *)
Theorem C56_most_common : forall rng h r p h' r' k, get_probs rng h r None None true = (Ok p, h', r') ->
  exists l, most_common rng h r (Z.of_nat k) = (Ok l, h', r') /\ best p k l.
Proof. exact most_common_best. Qed.
Print Assumptions C56_most_common.
(** most_common(-k) leaves out the k worst *)
Theorem C56_most_common_negative : forall rng h r p h' r' k, get_probs rng h r None None true = (Ok p, h', r') -> 0 < k ->
  exists l, most_common rng h r (- Z.of_nat k) = (Ok l, h', r') /\ best p (List.length p - k) l.
Proof. exact most_common_negative. Qed.
Print Assumptions C56_most_common_negative.
Theorem C56_most_common_error : forall rng h r e h' r' k, get_probs rng h r None None true = (Err e, h', r') -> most_common rng h r k = (Err e, h', r').
Proof. exact most_common_error. Qed.
Print Assumptions C56_most_common_error.
(** Stored probabilities are returned without running anything, unless a rerun is asked for. *)
Theorem C56_stored : forall rng h r p store, vr_probs r = Some p ->
  get_probs rng h r None None store = (Ok p, h, r) /\ (forall s, get_probs rng h r s (Some false) store = (Ok p, h, r)).
Proof. exact stored_probs. Qed.
Print Assumptions C56_stored.
(** Otherwise they are computed; with exact sampling they are the distribution of all qubits, they are stored if asked for, and circuits do not change. *)
Theorem C56_exact_partial : forall rng seen h r v ops s rerun store, reachable rng seen h -> circuit_is h (vr_circuit r) v -> simulated rng h v ->
  circuit_ops (Z.to_nat (v_n v)) (v_gates v) ops -> vr_probs r = None \/ rerun_of s rerun = true ->
  (s = Some (non_sampling_sampler rng) \/ s = None /\ (vr_vqe r = Some None \/ vr_vqe r = Some (Some (non_sampling_sampler rng)))) ->
  exists d h', get_probs rng h r s rerun store = (Ok d, h', if store then VqeResult (vr_vqe r) (vr_circuit r) (Some d) else r) /\
    distribution (arr (Z.to_nat (v_n v)) (apply_all ops (ket 0))) (seq 0 (Z.to_nat (v_n v))) d /\ mass d = 1%R /\
    reachable rng seen h' /\ h_pos h' = h_pos h /\ h_default h' = h_default h /\ (forall c' v', circuit_is h c' v' -> circuit_is h' c' v').
Proof. exact exact_probs. Qed.
Print Assumptions C56_exact_partial.
Theorem C56_no_vqe : forall rng h r rerun store, vr_probs r = None -> vr_vqe r = None -> get_probs rng h r None rerun store = (Err AttributeError, h, r).
Proof. exact probs_no_vqe. Qed.
Print Assumptions C56_no_vqe.
(** Asking a result whose sampler measures appends a measurement to its circuit. *)
Theorem C56_measured_refuted : forall rng N, draws_ok rng -> 0 < N -> exists h r d h' r' v',
  vr_vqe r = Some (Some (measurement_sampler rng (Z.of_nat N))) /\ reachable rng [] h /\ circuit_is h (vr_circuit r) x0 /\
  get_probs rng h r None None true = (Ok d, h', r') /\ circuit_is h' (vr_circuit r) v' /\ v_gates v' = v_gates x0 ++ [measure_gate_of [0; 1]].
Proof. exact result_measured. Qed.
Print Assumptions C56_measured_refuted.
Example C56_case : forall rng, exists h c r, reachable rng [] h /\ circuit_is h c x0 /\ r = VqeResult (Some None) c None /\ rerun_of (vr_probs r) (Some true) = true /\
  best [([0], 1%R); ([1], 3%R); ([2], 3%R)] 2 [([1], 3%R); ([2], 3%R)].
Proof. exact result_case. Qed.

(** C57.  The circuit of a QaoaAnsatz without mixers: |+...+>, then for each pair of angles the evolutions of the terms, in order, and RX on every qubit.
    (The evolution with a term has the sign of C39.) *)
Theorem C57_plain : forall rng seen h ham step_ betas gammas, let n := expr_qubits (expr_simplify ham) in reachable rng seen h ->
  simulated rng h (VCirc [] (Z.of_nat n) None) -> pairwise_commuting (expr_simplify ham) -> Forall (fun t => Cim (t_coeff t) = 0%R) (expr_simplify ham) ->
  List.length betas = step_ ->
  exists q h1 d h' gs ops', qaoa_new rng h ham step_ None None = (Ok q, h1) /\ qa_n q = Z.of_nat n /\ qaoa_circuit rng h1 q (betas ++ gammas) = (Ok d, h') /\
    circuit_is h' d (VCirc gs (Z.of_nat n) None) /\ circuit_ops n gs ops' /\
    apply_all ops' (ket 0) = fold_left (qaoa_round n (expr_simplify ham) None) (combine betas gammas) (everywhere n mH (ket 0)) /\
    (forall c' v', circuit_is h c' v' -> circuit_is h' c' v').
Proof. exact qaoa_plain_commuting. Qed.
Print Assumptions C57_plain.
(** With an initial circuit that is wide enough, and perhaps mixers: the same from the state of that circuit, which is not changed. *)
Theorem C57_init : forall rng seen h ham step_ c mixer v ops betas gammas, reachable rng seen h -> circuit_is h c v -> simulated rng h v ->
  circuit_ops (Z.to_nat (v_n v)) (v_gates v) ops -> pairwise_commuting (expr_simplify ham) -> Forall (fun t => Cim (t_coeff t) = 0%R) (expr_simplify ham) ->
  (Z.of_nat (expr_qubits (expr_simplify ham)) <= v_n v)%Z -> match mixer with Some ts => suits (v_n v) ts | None => True end -> List.length betas = step_ ->
  exists q h1 d h' gs ops', qaoa_new rng h ham step_ (Some c) mixer = (Ok q, h1) /\ qa_n q = v_n v /\ qaoa_circuit rng h1 q (betas ++ gammas) = (Ok d, h') /\
    circuit_is h' d (VCirc (v_gates v ++ gs) (v_n v) (v_default v)) /\ circuit_ops (Z.to_nat (v_n v)) (v_gates v ++ gs) ops' /\
    apply_all ops' (ket 0) = fold_left (qaoa_round (Z.to_nat (v_n v)) (expr_simplify ham) mixer) (combine betas gammas) (apply_all ops (ket 0)) /\
    (forall c' v', circuit_is h c' v' -> circuit_is h' c' v').
Proof. exact qaoa_init_commuting. Qed.
Print Assumptions C57_init.
(** Hamiltonians with anticommuting terms (not both tiny) and mixers without an initial circuit are refused. *)
Theorem C57_refused : forall rng h ham step_ init mixer,
  (~ ForallOrdPairs (fun a b => ~ opposed a b) (expr_simplify ham) -> qaoa_new rng h ham step_ init mixer = (Err ValueError, h)) /\
  (forall t ts, init = None -> mixer = Some (t :: ts) -> qaoa_new rng h ham step_ init mixer = (Err ValueError, h)).
Proof. exact qaoa_refusals. Qed.
Print Assumptions C57_refused.
Example C57_case : forall rng, simulated rng (empty_heap 0) (VCirc [] (Z.of_nat (expr_qubits (expr_simplify zz))) None) /\
  pairwise_commuting (expr_simplify zz) /\ Forall (fun t => Cim (t_coeff t) = 0%R) (expr_simplify zz).
Proof. exact zz_fine. Qed.
Example C57_refused_case : opposed (Term [(LX, 0)] C1) (Term [(LZ, 0)] C1).
Proof. exact xz_opposed. Qed.
