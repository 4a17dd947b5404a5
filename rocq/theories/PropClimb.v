(** Property: QAOA with enough steps reaches the lowest cost.
    [same_op (expr_op e) (diag_op d)]: the expression [e] is the operator that multiplies the basis state [x] by the real number [d x].
    [mean_value n d psi] is the mean of [d] over the outcomes of the state [psi] of [n] qubits; [chance g l] is the probability of the measured bits that [g] accepts.
    The samplers are none (matrix energies) and the exact one; the start is any reachable heap in which new circuits run on numpy, or on numba with up to 64 qubits. *)
From Coq Require Import List Arith ZArith Bool String Reals.
Import ListNotations.
From Verif Require Import Base Cplx Bits ModelTargets ModelGate ModelNumpy ModelCircuit ModelPauli ModelPauliMatrix ModelVqe ModelVqeLoop ModelDemo SpecTargets SpecQuantum SpecCircuit
  SpecMeasure SpecRun SpecAPI SpecPauli SpecPauliMatrix SpecVqe SpecVqeLoop SpecWq SpecDemo SpecClimb ProofDemo ProofDemoRun ProofDemoEx ProofDemoProg ProofDemoCase ProofClimbRun.
Local Open Scope R_scope.

(** C99.  For every diagonal Hamiltonian and every error, QAOA with enough steps has parameters whose mean cost is the lowest one up to the error. *)
Theorem C99_reach : forall e d, same_op (expr_op e) (diag_op d) -> let h := expr_simplify e in let n := expr_qubits h in forall eps, 0 < eps ->
  exists P0, forall P, (P0 <= P)%nat -> exists ps, List.length ps = (2 * P)%nat /\ forall x, mean_value n d (qaoa_state n h None P (everywhere n mH (ket 0)) ps) <= d x + eps.
Proof. exact reach. Qed.
Print Assumptions C99_reach.
(** More steps are never worse: steps with angles 0 do nothing, with any Hamiltonian, mixer and state. *)
Theorem C99_more : forall n ham mixer P k psi betas gammas, List.length betas = P -> List.length gammas = P ->
  qaoa_state n ham mixer (P + k) psi ((betas ++ repeat 0 k) ++ gammas ++ repeat 0 k) = qaoa_state n ham mixer P psi (betas ++ gammas).
Proof. exact more_steps. Qed.
Print Assumptions C99_more.
(** Running a problem with enough steps and any minimizer: if the minimizer finds the lowest energy up to [tol], the mean cost of the measured bits is the lowest one up to [eps],
    and the measured bits have the lowest cost with a probability of at least 1 - eps. *)
Theorem C99_run : forall rng random powell seen h ham d s verbose, let e := expr_simplify (v_expr ham) in let n := expr_qubits e in reachable rng seen h ->
  simulated rng h (VCirc [] (Z.of_nat n) None) -> same_op (expr_op (v_expr ham)) (diag_op d) -> s = None \/ s = Some (non_sampling_sampler rng) ->
  forall eps, 0 < eps -> exists tol P0, 0 < tol /\ forall P m, (P0 <= P)%nat ->
  let E := fun ps => mean_value n d (qaoa_state n e None P (everywhere n mH (ket 0)) ps) in
  exists v h1 ps asked r h2 a l h3 r', make_vqe rng random powell h ham P m s = (Ok v, h1) /\ plays E (minimizer_or random powell m (2 * P)%nat) ps asked /\
    vqe_run rng h1 v verbose = (Ok (ps, r), h2, a, if verbose then map (fun p => (p, E p)) asked else []) /\
    get_probs rng h2 r None None true = (Ok l, h3, r') /\ mass l = 1 /\ mean_cost d l = E ps /\
    ((forall p, List.length p = (2 * P)%nat -> E ps <= E p + tol) -> forall x, mean_cost d l <= d x + eps /\ (lowest d x -> 1 - eps <= chance (low_bits d x) l)).
Proof. exact reach_run. Qed.
Print Assumptions C99_run.
(** There are such parameters: a minimizer that answers them. *)
Theorem C99_answer : forall rng random powell seen h ham d s verbose, let e := expr_simplify (v_expr ham) in let n := expr_qubits e in reachable rng seen h ->
  simulated rng h (VCirc [] (Z.of_nat n) None) -> same_op (expr_op (v_expr ham)) (diag_op d) -> s = None \/ s = Some (non_sampling_sampler rng) ->
  forall eps, 0 < eps -> exists P0, forall P, (P0 <= P)%nat -> exists ps, List.length ps = (2 * P)%nat /\
  exists v h1 r h2 a l h3 r', make_vqe rng random powell h ham P (Some (fun _ => Answer ps)) s = (Ok v, h1) /\ vqe_run rng h1 v verbose = (Ok (ps, r), h2, a, []) /\
    get_probs rng h2 r None None true = (Ok l, h3, r') /\ mass l = 1 /\ Forall (fun op => List.length (fst op) = n /\ Forall is_bit (fst op) /\ 0 < snd op) l /\
    forall x, mean_cost d l <= d x + eps /\ (lowest d x -> 1 - eps <= chance (low_bits d x) l).
Proof. exact reach_answer. Qed.
Print Assumptions C99_answer.
(** maxcut_qaoa measures maximum cuts almost surely, for every graph; *)
Theorem C99_maxcut : forall rng random powell seen h edges n s verbose, reachable rng seen h -> simulated rng h (VCirc [] (Z.of_nat n) None) -> least (joined edges) n ->
  s = None \/ s = Some (non_sampling_sampler rng) -> forall eps, 0 < eps -> exists P0, forall P, (P0 <= P)%nat -> exists ps, List.length ps = (2 * P)%nat /\
  exists v h1 r h2 a l h3 r', maxcut_qaoa rng random powell h P edges (Some (fun _ => Answer ps)) s = (Ok v, h1) /\ vqe_run rng h1 v verbose = (Ok (ps, r), h2, a, []) /\
    get_probs rng h2 r None None true = (Ok l, h3, r') /\ mass l = 1 /\
    forall x, INR (cut edges x) - eps <= mean_cost (fun y => INR (cut edges y)) l /\ (maximum_cut edges x -> 1 - eps <= chance (cut_bits_of edges x) l).
Proof. exact reach_maxcut. Qed.
Print Assumptions C99_maxcut.
(** numpartition_qaoa measures groups with the same sum almost surely, if there are any; *)
Theorem C99_partition : forall rng random powell seen h nums n s verbose, reachable rng seen h -> simulated rng h (VCirc [] (Z.of_nat n) None) ->
  least (fun k => forall i, (k <= i)%nat -> idle nums i) n -> s = None \/ s = Some (non_sampling_sampler rng) -> forall eps, 0 < eps ->
  exists P0, forall P, (P0 <= P)%nat -> exists ps, List.length ps = (2 * P)%nat /\
  exists v h1 r h2 a l h3 r', numpartition_qaoa rng random powell h P nums (Some (fun _ => Answer ps)) s = (Ok v, h1) /\ vqe_run rng h1 v verbose = (Ok (ps, r), h2, a, []) /\
    get_probs rng h2 r None None true = (Ok l, h3, r') /\ mass l = 1 /\ (forall x, mean_cost (partition_cost nums) l <= partition_cost nums x + eps) /\
    ((exists x, partition_cost nums x = 0) -> 1 - eps <= chance (fun bits => equal_groups (groups nums bits)) l).
Proof. exact reach_partition. Qed.
Print Assumptions C99_partition.
(** and factoring_qaoa measures factors of a product of two odd numbers almost surely, if the larger one has at most one digit more than the bits. *)
Theorem C99_factors : forall rng random powell seen h a b m s verbose, let num := ((1 + 2 * a) * (1 + 2 * b))%nat in reachable rng seen h ->
  simulated rng h (VCirc [] (Z.of_nat (m - 1 + m)) None) -> bits_for (Nat.sqrt num) m -> (a <= b)%nat -> (b < 2 ^ m)%nat -> s = None \/ s = Some (non_sampling_sampler rng) ->
  forall eps, 0 < eps -> exists P0, forall P, (P0 <= P)%nat -> exists ps, List.length ps = (2 * P)%nat /\
  exists v sep h1 r h2 c l h3 r', factoring_qaoa rng random powell h P num (Some (fun _ => Answer ps)) s = (Ok (v, sep), h1) /\ vqe_run rng h1 v verbose = (Ok (ps, r), h2, c, []) /\
    get_probs rng h2 r None None true = (Ok l, h3, r') /\ mass l = 1 /\ 1 - eps <= chance (fun bits => factors num (sep bits)) l.
Proof. exact reach_factors. Qed.
Print Assumptions C99_factors.
Example C99_case : forall rng, reachable rng [] (empty_heap 0) /\ simulated rng (empty_heap 0) (VCirc [] 3 None) /\ same_op (val_op (maxcut_hamiltonian path3)) (diag_op (cut_cost path3)) /\
  (least (joined path3) 3 /\ cut path3 2 = 2%nat /\ maximum_cut path3 2) /\
  (least (fun k => forall i, (k <= i)%nat -> idle [1; 2; 3] i) 3 /\ partition_cost [1; 2; 3] (number [0; 0; 1]%nat) = 0 /\ groups [1; 2; 3] [0; 0; 1]%nat = ([1; 2], [3]) /\
    partition_cost [1; 2; 3] (number [1; 0; 0]%nat) = 16) /\
  bits_for (Nat.sqrt ((1 + 2 * 1) * (1 + 2 * 2))) 2.
Proof. intros rng. exact (conj (start_reachable rng) (conj (start_simulated rng 3) (conj (maxcut_cost _) (conj path_case (conj thirds_case (proj1 fifteen_case)))))). Qed.
