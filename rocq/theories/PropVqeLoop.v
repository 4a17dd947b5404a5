(** Properties of Vqe.run (blueqat/vqe.py).
    A minimizer is any procedure that evaluates the objective finitely often, choosing the parameters from the values seen so far, and then answers.
    [plays E t ps asked]: with the values of the function [E], the minimizer [t] asks for [asked] and answers [ps]. *)
From Coq Require Import List Arith ZArith Bool String Reals.
Import ListNotations.
From Verif Require Import Base Cplx Bits ModelTargets ModelGate ModelNumpy ModelCircuit ModelPauli ModelPauliMatrix ModelVqe ModelVqeLoop SpecTargets SpecQuantum SpecCircuit
  SpecMeasure SpecRun SpecAPI SpecPauli SpecPauliMatrix SpecVqe SpecVqeLoop ProofVqeEx ProofVqeLoop ProofVqeLoopEx.
Local Open Scope nat_scope.

(** C65.  Vqe.run without a sampler on an ansatz whose initial circuit has the width of the Hamiltonian: the minimizer, asked for 2 * step parameters, plays
    with the exact energies of the QAOA states; the result is its answer and a circuit that prepares the state of the answer; with verbose the
    evaluations are printed in order; other circuits do not change. *)
Theorem C65_run : forall rng seen h0 h1 ham step_ init mixer q h v ops a minim verbose, let n := Z.to_nat (v_n v) in let e := expr_simplify ham in
  qaoa_new rng h0 ham step_ init mixer = (Ok q, h1) ->
  reachable rng seen h -> circuit_is h (qa_init q) v -> simulated rng h v -> circuit_ops n (v_gates v) ops -> n = expr_qubits e ->
  match mixer with Some ts => suits (v_n v) ts | None => True end ->
  an_qaoa a = q -> an_sparse a = None \/ (exists m, make_sparse e = Ok m /\ an_sparse a = Some m) ->
  let psi := qaoa_state n e mixer step_ (apply_all ops (ket 0)) in let E := fun ps => Cre (expval n (expr_op e) (psi ps)) in
  exists ps asked m c h' gs ops', plays E (minim (2 * step_)) ps asked /\ make_sparse e = Ok m /\
    vqe_run rng h (Vqe a minim None) verbose = (Ok (ps, VqeResult (Some None) c None), h', Ansatz q (Some m), if verbose then map (fun p => (p, E p)) asked else []) /\
    circuit_is h' c (VCirc (v_gates v ++ gs) (v_n v) (v_default v)) /\ circuit_ops n (v_gates v ++ gs) ops' /\ apply_all ops' (ket 0) = psi ps /\
    reachable rng seen h' /\ h_default h' = h_default h /\ (forall c' v', circuit_is h c' v' -> circuit_is h' c' v').
Proof. exact run_sparse. Qed.
Print Assumptions C65_run.
(** The play is determined by the function, and every minimizer can be played with. *)
Theorem C65_play : forall E t, exists ps asked, plays E t ps asked /\ forall ps' asked', plays E t ps' asked' -> ps' = ps /\ asked' = asked.
Proof. exact play_once. Qed.
Print Assumptions C65_play.
(** From the construction of the ansatz to the result, with the default initial circuit; no energy that is met is below the spectrum of the Hamiltonian. *)
Theorem C65_default : forall rng seen h ham step_ minim verbose, let e := expr_simplify ham in let n := expr_qubits e in reachable rng seen h ->
  simulated rng h (VCirc [] (Z.of_nat n) None) -> pairwise_commuting e -> Forall (fun t => Cim (t_coeff t) = 0%R) e ->
  let psi := qaoa_state n e None step_ (everywhere n mH (ket 0)) in let E := fun ps => Cre (expval n (expr_op e) (psi ps)) in
  exists q h1 ps asked m c h' gs ops', qaoa_new rng h ham step_ None None = (Ok q, h1) /\ plays E (minim (2 * step_)) ps asked /\ make_sparse e = Ok m /\
    vqe_run rng h1 (Vqe (ansatz_of q) minim None) verbose = (Ok (ps, VqeResult (Some None) c None), h', Ansatz q (Some m), if verbose then map (fun p => (p, E p)) asked else []) /\
    circuit_is h' c (VCirc gs (Z.of_nat n) None) /\ circuit_ops n gs ops' /\ apply_all ops' (ket 0) = psi ps /\
    reachable rng seen h' /\ h_default h' = h_default h /\ (forall c' v', circuit_is h c' v' -> circuit_is h' c' v') /\
    (forall g, below_spectrum n (expr_op e) g -> Forall (fun p => (g <= E p)%R) (ps :: asked)).
Proof. exact run_default. Qed.
Print Assumptions C65_default.
Theorem C65_bound : forall n e mixer step_ gs ops g ps, suits (Z.of_nat n) e -> match mixer with Some ts => suits (Z.of_nat n) ts | None => True end ->
  circuit_ops n gs ops -> below_spectrum n (expr_op e) g -> (g <= Cre (expval n (expr_op e) (qaoa_state n e mixer step_ (apply_all ops (ket 0)) ps)))%R.
Proof. exact energy_bound. Qed.
Print Assumptions C65_bound.
(** With the exact sampler the circuit may be wider; the energies are those of C42, with each Y replaced by -Y. *)
Theorem C65_sampler_partial : forall rng seen h0 h1 ham step_ init mixer q h v ops a minim verbose, let n := Z.to_nat (v_n v) in let e := expr_simplify ham in
  qaoa_new rng h0 ham step_ init mixer = (Ok q, h1) ->
  reachable rng seen h -> circuit_is h (qa_init q) v -> simulated rng h v -> circuit_ops n (v_gates v) ops -> expr_qubits e <= n ->
  match mixer with Some ts => suits (v_n v) ts | None => True end -> an_qaoa a = q ->
  let psi := qaoa_state n e mixer step_ (apply_all ops (ket 0)) in let E := fun ps => Cre (expval_y n e (psi ps)) in
  exists ps asked c h' gs ops', plays E (minim (2 * step_)) ps asked /\
    vqe_run rng h (Vqe a minim (Some (non_sampling_sampler rng))) verbose =
      (Ok (ps, VqeResult (Some (Some (non_sampling_sampler rng))) c None), h', a, if verbose then map (fun p => (p, E p)) asked else []) /\
    circuit_is h' c (VCirc (v_gates v ++ gs) (v_n v) (v_default v)) /\ circuit_ops n (v_gates v ++ gs) ops' /\ apply_all ops' (ket 0) = psi ps /\
    reachable rng seen h' /\ h_default h' = h_default h /\ (forall c' v', circuit_is h c' v' -> circuit_is h' c' v').
Proof. exact run_exact. Qed.
Print Assumptions C65_sampler_partial.
(** Without a sampler a wider initial circuit makes the first evaluation raise ValueError. *)
Theorem C65_wide : forall rng seen h0 h1 ham step_ init mixer q h v ops minim verbose ps next, let n := Z.to_nat (v_n v) in let e := expr_simplify ham in
  qaoa_new rng h0 ham step_ init mixer = (Ok q, h1) ->
  reachable rng seen h -> circuit_is h (qa_init q) v -> simulated rng h v -> circuit_ops n (v_gates v) ops -> expr_qubits e < n ->
  match mixer with Some ts => suits (v_n v) ts | None => True end -> minim (2 * step_) = Evaluate ps next ->
  exists h' a', vqe_run rng h (Vqe (ansatz_of q) minim None) verbose = (Err ValueError, h', a', []) /\
    reachable rng seen h' /\ h_default h' = h_default h /\ (forall c' v', circuit_is h c' v' -> circuit_is h' c' v').
Proof. exact run_wide. Qed.
Print Assumptions C65_wide.
(** So QAOA for Z[0] on a circuit of two qubits runs with the exact sampler and raises without a sampler. *)
Theorem C65_wide_refuted : forall rng step_, exists h h1 c q h2 a2 h3 r lines, reachable rng [] h /\ circuit_is h c x0 /\
  qaoa_new rng h z0 step_ (Some c) None = (Ok q, h1) /\
  vqe_run rng h1 (Vqe (ansatz_of q) ask_once None) true = (Err ValueError, h2, a2, []) /\
  vqe_run rng h1 (Vqe (ansatz_of q) ask_once (Some (non_sampling_sampler rng))) true = (Ok r, h3, ansatz_of q, lines) /\ List.length lines = 1.
Proof. exact wide_case. Qed.
Print Assumptions C65_wide_refuted.
(** The default minimizer starts scipy with one number of random.random() for each parameter. *)
Theorem C65_start : forall random scipy n, exists l, scipy_minimizer random scipy n = scipy l /\ List.length l = n /\ forall i, i < n -> nth_error l i = Some (random i).
Proof. exact start_point. Qed.
Print Assumptions C65_start.
Example C65_case : forall rng, simulated rng (empty_heap 0) (VCirc [] (Z.of_nat (expr_qubits (expr_simplify zz))) None) /\
  pairwise_commuting (expr_simplify zz) /\ Forall (fun t => Cim (t_coeff t) = 0%R) (expr_simplify zz).
Proof. exact zz_fine. Qed.
Example C65_bound_case : below_spectrum 2 (expr_op zz) (-1).
Proof. exact spectrum_case. Qed.
