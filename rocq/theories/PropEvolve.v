(** C98: repeated time evolutions of terms, and QAOA with many steps, approach the evolution of the sum *)
From Coq Require Import String List Arith ZArith Bool Reals.
Import ListNotations.
From Verif Require Import Base Cplx Bits ModelTargets ModelGate SpecQuantum SpecCircuit ModelCircuit SpecAPI ModelPauli SpecPauli ModelVqe SpecVqe SpecEvolve ProofVqeEx ProofEvolve.
Local Open Scope R_scope.

(** Every expression has an evolution exp(i t H), as the sum of the exponential series; *)
Theorem C98_exists : forall n e t psi, Forall (fun s => fits n (t_ops s)) e -> exists phi, evolves n (expr_op e) t psi phi.
Proof. exact evolve_exists. Qed.
Print Assumptions C98_exists.
(** for one string of operators it is cos t + i sin t P, which C39 and C57 are about; *)
Theorem C98_word : forall n w s psi, separate_word n w -> evolves n (word_op w) s psi (op_exp s (word_op w) psi).
Proof. exact word_evolves. Qed.
Print Assumptions C98_word.
(** it keeps the norm. *)
Theorem C98_norm : forall n ts, suits (Z.of_nat n) ts -> forall t psi phi, evolves n (expr_op (generated ts)) t psi phi -> norm2 n phi = norm2 n psi.
Proof. exact evolution_norm. Qed.
Print Assumptions C98_norm.
(** The circuit that appends the time evolutions of all terms by t/P, P times, approaches the evolution by t, whether the terms commute or not. *)
Theorem C98_trotter_partial : forall n ts fs, suits (Z.of_nat n) ts -> map_res time_evolution ts = Ok fs -> forall t psi phi, evolves n (expr_op (generated ts)) t psi phi ->
  forall x eps, (x < 2 ^ n)%nat -> 0 < eps -> exists P0, forall P, (P0 <= P)%nat ->
  exists ops, circuit_ops n (concat (repeat (flat_map (fun f => f (t / INR P)) fs) P)) ops /\ Cnorm2 (apply_all ops psi x - phi x)%C < eps.
Proof. exact trotter_circuit. Qed.
Print Assumptions C98_trotter_partial.
(** The Hamiltonian is that of the terms if none is a number and each has an even number of factors Y (see C39 for the others). *)
Theorem C98_generated : forall ts, Forall (fun t => t_ops t <> [] /\ Nat.even (ycount (t_ops t)) = true /\ Cim (t_coeff t) = 0) ts -> generated ts = ts.
Proof. exact generated_same. Qed.
Print Assumptions C98_generated.
(** QAOA with P steps and the angles b/P and g/P approaches the evolution by i (2 pi g H - pi b / 2 sum X), from the uniform superposition, *)
Theorem C98_qaoa : forall rng seen h ham, let n := expr_qubits (expr_simplify ham) in reachable rng seen h ->
  simulated rng h (VCirc [] (Z.of_nat n) None) -> pairwise_commuting (expr_simplify ham) -> Forall (fun t => Cim (t_coeff t) = 0) (expr_simplify ham) ->
  forall b g phi, series_sum n (qaoa_generator n (expr_simplify ham) None b g) (everywhere n mH (ket 0)) phi -> forall x eps, (x < 2 ^ n)%nat -> 0 < eps ->
  exists P0, forall P, (P0 <= P)%nat ->
  exists q h1 d h' gs ops, qaoa_new rng h ham P None None = (Ok q, h1) /\ qaoa_circuit rng h1 q (repeat (b / INR P) P ++ repeat (g / INR P) P) = (Ok d, h') /\
    circuit_is h' d (VCirc gs (Z.of_nat n) None) /\ circuit_ops n gs ops /\ Cnorm2 (apply_all ops (ket 0) x - phi x)%C < eps.
Proof. exact qaoa_limit. Qed.
Print Assumptions C98_qaoa.
(** and from the state of an initial circuit, with a mixer or without. *)
Theorem C98_qaoa_init : forall rng seen h ham c mixer v ops, let n := Z.to_nat (v_n v) in reachable rng seen h -> circuit_is h c v -> simulated rng h v ->
  circuit_ops n (v_gates v) ops -> pairwise_commuting (expr_simplify ham) -> Forall (fun t => Cim (t_coeff t) = 0) (expr_simplify ham) ->
  (Z.of_nat (expr_qubits (expr_simplify ham)) <= v_n v)%Z -> match mixer with Some ts => suits (v_n v) ts | None => True end ->
  forall b g phi, series_sum n (qaoa_generator n (expr_simplify ham) mixer b g) (apply_all ops (ket 0)) phi -> forall x eps, (x < 2 ^ n)%nat -> 0 < eps ->
  exists P0, forall P, (P0 <= P)%nat ->
  exists q h1 d h' gs ops', qaoa_new rng h ham P (Some c) mixer = (Ok q, h1) /\ qaoa_circuit rng h1 q (repeat (b / INR P) P ++ repeat (g / INR P) P) = (Ok d, h') /\
    circuit_is h' d (VCirc (v_gates v ++ gs) (v_n v) (v_default v)) /\ circuit_ops n (v_gates v ++ gs) ops' /\ Cnorm2 (apply_all ops' (ket 0) x - phi x)%C < eps.
Proof. exact qaoa_init_limit. Qed.
Print Assumptions C98_qaoa_init.
(** Z[0]*Z[1] + 2*X[0], whose terms do not commute *)
Example C98_case : suits 2 field_pair /\ (exists fs, map_res time_evolution field_pair = Ok fs) /\ generated field_pair = field_pair /\
  (forall t psi, exists phi, evolves 2 (expr_op (generated field_pair)) t psi phi) /\ ~ pairwise_commuting field_pair.
Proof. exact field_pair_case. Qed.
Example C98_qaoa_case : forall rng, reachable rng [] (empty_heap 0) /\ simulated rng (empty_heap 0) (VCirc [] (Z.of_nat (expr_qubits (expr_simplify zz))) None) /\
  pairwise_commuting (expr_simplify zz) /\ Forall (fun t => Cim (t_coeff t) = 0) (expr_simplify zz) /\
  forall b g psi, exists phi, series_sum (expr_qubits (expr_simplify zz)) (qaoa_generator (expr_qubits (expr_simplify zz)) (expr_simplify zz) None b g) psi phi.
Proof. exact qaoa_case. Qed.
