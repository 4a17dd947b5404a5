(** Properties of diagonal Hamiltonians and of the programs in /repo/examples (maxcut_qaoa.py, numpartition_qaoa.py, factoring_qaoa.py).
    [same_op (expr_op e) (diag_op d)]: the expression [e] is the operator that multiplies the basis state [x] by the real number [d x].
    The bits of a basis state are the measured values; [number] turns a list of measured bits into the index of its basis state.
    [qaoa_result]: running the problem lets the minimizer play with the mean costs of the QAOA states, and [l] are the probabilities of the measured bits.
    The samplers are none (matrix energies) and the exact one; the start is any reachable heap in which new circuits run on numpy, or on numba with up to 64 qubits. *)
From Coq Require Import List Arith ZArith Bool String Reals.
Import ListNotations.
From Verif Require Import Base Cplx Bits ModelTargets ModelGate ModelNumpy ModelCircuit ModelPauli ModelPauliMatrix ModelVqe ModelVqeLoop ModelDemo SpecTargets SpecQuantum SpecCircuit
  SpecMeasure SpecRun SpecAPI SpecPauli SpecPauliMatrix SpecVqe SpecVqeLoop SpecWq SpecDemo ProofDemo ProofDemoRun ProofDemoEx ProofDemoProg ProofDemoCase.
Local Open Scope R_scope.

(** C72.  A Hamiltonian that is diagonal as an operator, however it was written, simplifies to terms with real coefficients that are products of Z. *)
Theorem C72_terms : forall e d, same_op (expr_op e) (diag_op d) -> Forall (fun t => Forall (fun o => fst o = LZ) (t_ops t) /\ Cim (t_coeff t) = 0) (expr_simplify e).
Proof. exact diag_terms. Qed.
Print Assumptions C72_terms.
(** Its number of qubits is the number of low bits that the cost depends on. *)
Theorem C72_width : forall e d n, same_op (expr_op e) (diag_op d) -> ((expr_qubits (expr_simplify e) <= n)%nat <-> of_bits n d).
Proof. exact diag_width. Qed.
Print Assumptions C72_width.
(** Its energy is the mean of the cost. *)
Theorem C72_energy : forall n d psi, Cre (expval n (diag_op d) psi) = mean_value n d psi.
Proof. exact diag_energy. Qed.
Print Assumptions C72_energy.
(** Its time evolution turns the phase of every basis state by the cost, up to a common phase. *)
Theorem C72_phase : forall e d, same_op (expr_op e) (diag_op d) -> exists c, forall s psi x, evolved_all s (expr_simplify e) psi x = (cis (s * (d x - c)) * psi x)%C.
Proof. exact diag_phase. Qed.
Print Assumptions C72_phase.
(** QAOA with it: nothing is refused; the energies are mean costs; the reported probabilities have the reported energy as mean cost; no cost is missed from below, and a
    minimal energy means that only bits of minimal cost are measured. *)
Theorem C72_run : forall rng random powell seen h ham d step_ m s verbose, let e := expr_simplify (v_expr ham) in let n := expr_qubits e in reachable rng seen h ->
  simulated rng h (VCirc [] (Z.of_nat n) None) -> same_op (expr_op (v_expr ham)) (diag_op d) -> s = None \/ s = Some (non_sampling_sampler rng) ->
  let E := fun ps => mean_value n d (qaoa_state n e None step_ (everywhere n mH (ket 0)) ps) in
  exists v h1 ps asked r h2 a l h3 r', make_vqe rng random powell h ham step_ m s = (Ok v, h1) /\ qa_n (an_qaoa (vq_ansatz v)) = Z.of_nat n /\
    plays E (minimizer_or random powell m (2 * step_)%nat) ps asked /\
    vqe_run rng h1 v verbose = (Ok (ps, r), h2, a, if verbose then map (fun p => (p, E p)) asked else []) /\
    get_probs rng h2 r None None true = (Ok l, h3, r') /\
    distribution (arr n (qaoa_state n e None step_ (everywhere n mH (ket 0)) ps)) (seq 0 n) l /\
    mass l = 1 /\ Forall (fun op => List.length (fst op) = n /\ Forall is_bit (fst op) /\ 0 < snd op) l /\ mean_cost d l = E ps /\
    (forall g, (forall x, g <= d x) -> g <= E ps /\ (E ps = g -> Forall (fun op => d (number (fst op)) = g) l)) /\
    (forall c' v', circuit_is h c' v' -> circuit_is h3 c' v').
Proof. exact diag_run. Qed.
Print Assumptions C72_run.
Example C72_case : forall rng, reachable rng [] (empty_heap 0) /\ simulated rng (empty_heap 0) (VCirc [] 2 None) /\
  same_op (val_op (maxcut_hamiltonian [(0, 1)%nat])) (diag_op (cut_cost [(0, 1)%nat])).
Proof. intros rng. exact (conj (start_reachable rng) (conj (start_simulated rng 2) (maxcut_cost _))). Qed.

(** C73.  The Hamiltonian of maxcut_qaoa is the number of edges minus twice the number of edges that the bits cut (several edges and loops allowed); *)
Theorem C73_cost : forall edges, same_op (val_op (maxcut_hamiltonian edges)) (diag_op (cut_cost edges)).
Proof. exact maxcut_cost. Qed.
Print Assumptions C73_cost.
(** its lowest states are exactly the maximum cuts; *)
Theorem C73_lowest : forall edges x, lowest (cut_cost edges) x <-> maximum_cut edges x.
Proof. exact lowest_cut. Qed.
Print Assumptions C73_lowest.
(** it needs the qubits up to the last vertex with an edge to another vertex. *)
Theorem C73_width : forall edges n, of_bits n (cut_cost edges) <-> joined edges n.
Proof. exact cut_bits. Qed.
Print Assumptions C73_width.
Theorem C73_run : forall rng random powell seen h steps edges n m s verbose, reachable rng seen h -> simulated rng h (VCirc [] (Z.of_nat n) None) -> least (joined edges) n ->
  s = None \/ s = Some (non_sampling_sampler rng) ->
  exists v h1 ps l, maxcut_qaoa rng random powell h steps edges m s = (Ok v, h1) /\ qaoa_result rng h h1 v (minimizer_or random powell m) steps n (cut_cost edges) verbose ps l /\
    mean_cost (cut_cost edges) l = INR (List.length edges) - 2 * mean_cost (fun x => INR (cut edges x)) l /\
    forall k, (forall x, (cut edges x <= k)%nat) -> mean_cost (fun x => INR (cut edges x)) l <= INR k /\
      (mean_cost (fun x => INR (cut edges x)) l = INR k -> Forall (fun op => cut edges (number (fst op)) = k) l).
Proof. exact maxcut_run. Qed.
Print Assumptions C73_run.
(** One step solves a single edge exactly. *)
Theorem C73_reached : forall rng random powell, exists v h1 l, maxcut_qaoa rng random powell (empty_heap 0) 1 [(0, 1)%nat] (Some answer_edge) None = (Ok v, h1) /\
  qaoa_result rng (empty_heap 0) h1 v answer_edge 1 2 (cut_cost [(0, 1)%nat]) false [1 / 4; 1 / 8] l /\ mean_cost (fun x => INR (cut [(0, 1)%nat] x)) l = 1 /\
  Forall (fun op => cut [(0, 1)%nat] (number (fst op)) = 1%nat) l.
Proof. exact reached_edge. Qed.
Print Assumptions C73_reached.
Example C73_case : least (joined path3) 3 /\ cut path3 2 = 2%nat /\ maximum_cut path3 2.
Proof. exact path_case. Qed.

(** C74.  The Hamiltonian of numpartition_qaoa is the square of the difference of the sums of the two groups; *)
Theorem C74_cost : forall nums, exists e, partition_hamiltonian nums = Ok (VExpr e) /\ same_op (expr_op e) (diag_op (partition_cost nums)).
Proof. exact partition_cost_ok. Qed.
Print Assumptions C74_cost.
(** it needs the qubits up to the last number that matters: one that is not 0, if it is not alone. *)
Theorem C74_width : forall nums n, of_bits n (partition_cost nums) <-> forall i, (n <= i)%nat -> idle nums i.
Proof. exact partition_bits. Qed.
Print Assumptions C74_width.
(** If the mean cost is 0, all measured bits give groups with equal sums; if two numbers are not 0, the groups contain everything and the cost is the square of their difference. *)
Theorem C74_run : forall rng random powell seen h steps nums n m s verbose, reachable rng seen h -> simulated rng h (VCirc [] (Z.of_nat n) None) ->
  least (fun k => forall i, (k <= i)%nat -> idle nums i) n -> s = None \/ s = Some (non_sampling_sampler rng) ->
  exists v h1 ps l, numpartition_qaoa rng random powell h steps nums m s = (Ok v, h1) /\ qaoa_result rng h h1 v (minimizer_or random powell m) steps n (partition_cost nums) verbose ps l /\
    0 <= mean_cost (partition_cost nums) l /\
    (mean_cost (partition_cost nums) l = 0 -> Forall (fun op => total (fst (groups nums (fst op))) = total (snd (groups nums (fst op)))) l) /\
    ((exists i j, i <> j /\ nth i nums 0 <> 0 /\ nth j nums 0 <> 0) ->
      Forall (fun op => partition_cost nums (number (fst op)) = (total (fst (groups nums (fst op))) - total (snd (groups nums (fst op)))) ^ 2 /\
        total (fst (groups nums (fst op))) + total (snd (groups nums (fst op))) = total nums) l).
Proof. exact partition_run. Qed.
Print Assumptions C74_run.
(** A number alone has no qubit: it is in neither group. *)
Theorem C74_single_refuted : forall rng random powell steps m, exists v h1 ps l, numpartition_qaoa rng random powell (empty_heap 0) steps [5] m None = (Ok v, h1) /\
  qaoa_result rng (empty_heap 0) h1 v (minimizer_or random powell m) steps 0 (partition_cost [5]) false ps l /\ Forall (fun op => groups [5] (fst op) = ([], [])) l.
Proof. exact single_case. Qed.
Print Assumptions C74_single_refuted.
Example C74_case : least (fun k => forall i, (k <= i)%nat -> idle [1; 2; 3] i) 3 /\ partition_cost [1; 2; 3] (number [0; 0; 1]%nat) = 0 /\ groups [1; 2; 3] [0; 0; 1]%nat = ([1; 2], [3]) /\
  partition_cost [1; 2; 3] (number [1; 0; 0]%nat) = 16.
Proof. exact thirds_case. Qed.

(** C75.  The number of bits that factoring_qaoa takes is the least one, at least 1, for values up to the square root. *)
Theorem C75_bits : forall n, exists m, get_nbit n = Ok m /\ bits_for n m.
Proof. exact get_nbit_ok. Qed.
Print Assumptions C75_bits.
(** The Hamiltonian is the square of the difference of the number and the product of two odd numbers, whose digits are the bits; *)
Theorem C75_cost : forall num n1 n2, exists e, factoring_hamiltonian num n1 n2 = Ok (VExpr e) /\ same_op (expr_op e) (diag_op (factor_cost num n1 n2)).
Proof. exact factoring_cost. Qed.
Print Assumptions C75_cost.
(** bitseparator reads the same two numbers from measured bits and refuses lists of another length. *)
Theorem C75_separator : forall n1 n2 o, Forall is_bit o -> List.length o = (n1 + n2)%nat -> bitseparator n1 n2 o = Ok (odd_part (number o) 0 n1, odd_part (number o) n1 n2).
Proof. exact separator_ok. Qed.
Print Assumptions C75_separator.
Theorem C75_length : forall n1 n2 o, List.length o <> (n1 + n2)%nat -> bitseparator n1 n2 o = Err AssertionError.
Proof. exact separator_refused. Qed.
Print Assumptions C75_length.
(** All bits are qubits of the Hamiltonian, except for the number 2. *)
Theorem C75_width : forall num n1 n, of_bits n (factor_cost num n1 (S n1)) <-> (n1 + S n1 <= n)%nat \/ (num = 2 /\ n1 = 0)%nat.
Proof. exact factor_bits. Qed.
Print Assumptions C75_width.
(** The cost 0 means factors, for numbers above 3 both above 1 (so for these numbers a cost 0 proves that they are composite). *)
Theorem C75_zero : forall num n1 n2 x, factor_cost num n1 n2 x = 0 <-> num = (odd_part x 0 n1 * odd_part x n1 n2)%nat.
Proof. exact factor_zero. Qed.
Print Assumptions C75_zero.
Theorem C75_proper : forall num m x, bits_for (Nat.sqrt num) m -> (3 < num)%nat -> factor_cost num (m - 1) m x = 0 -> (1 < odd_part x 0 (m - 1) /\ 1 < odd_part x (m - 1) m)%nat.
Proof. exact factor_proper. Qed.
Print Assumptions C75_proper.
(** A product of two odd numbers has a state of cost 0 if the larger one has at most one digit more than the bits. *)
Theorem C75_exists_partial : forall a b m, let num := ((1 + 2 * a) * (1 + 2 * b))%nat in bits_for (Nat.sqrt num) m -> (a <= b)%nat -> (b < 2 ^ m)%nat ->
  let x := (a + 2 ^ (m - 1) * b)%nat in (x < 2 ^ (m - 1 + m))%nat /\ odd_part x 0 (m - 1) = (1 + 2 * a)%nat /\ odd_part x (m - 1) m = (1 + 2 * b)%nat /\ factor_cost num (m - 1) m x = 0.
Proof. exact factor_exists. Qed.
Print Assumptions C75_exists_partial.
(** Not every odd composite number has one: 69 = 3 * 23. *)
Theorem C75_odd_refuted : bits_for (Nat.sqrt 69) 3 /\ 69%nat = (3 * 23)%nat /\ forall x, factor_cost 69 2 3 x <> 0.
Proof. exact case69. Qed.
Print Assumptions C75_odd_refuted.
(** Even numbers never have one. *)
Theorem C75_even_refuted : forall k n1 n2 x, factor_cost (2 * k) n1 n2 x <> 0.
Proof. exact even_case. Qed.
Print Assumptions C75_even_refuted.
Theorem C75_run : forall rng random powell seen h steps num m b s verbose, reachable rng seen h -> bits_for (Nat.sqrt num) b ->
  simulated rng h (VCirc [] (Z.of_nat (b - 1 + b)) None) -> num <> 2%nat -> s = None \/ s = Some (non_sampling_sampler rng) ->
  exists v sep h1 ps l, factoring_qaoa rng random powell h steps num m s = (Ok (v, sep), h1) /\
    qaoa_result rng h h1 v (minimizer_or random powell m) steps (b - 1 + b) (factor_cost num (b - 1) b) verbose ps l /\
    0 <= mean_cost (factor_cost num (b - 1) b) l /\
    Forall (fun op => exists p q, sep (fst op) = Ok (p, q) /\ factor_cost num (b - 1) b (number (fst op)) = (INR num - INR p * INR q) ^ 2 /\
      (Nat.Odd p /\ p < 2 ^ b /\ Nat.Odd q /\ q < 2 ^ S b)%nat /\
      (mean_cost (factor_cost num (b - 1) b) l = 0 -> (num = p * q /\ (3 < num -> 1 < p /\ 1 < q))%nat)) l.
Proof. exact factoring_run. Qed.
Print Assumptions C75_run.
(** For the number 2 the Hamiltonian is constant and has no qubits, and bitseparator refuses what is measured. *)
Theorem C75_two_refuted : forall rng random powell steps m, exists v sep h1 ps l, factoring_qaoa rng random powell (empty_heap 0) steps 2 m None = (Ok (v, sep), h1) /\
  qaoa_result rng (empty_heap 0) h1 v (minimizer_or random powell m) steps 0 (factor_cost 2 0 1) false ps l /\ Forall (fun op => sep (fst op) = Err AssertionError) l.
Proof. exact two_case. Qed.
Print Assumptions C75_two_refuted.
(** A mean cost of 0 can be reached: for the number 3 with one step. *)
Theorem C75_reached : forall rng random powell, exists v sep h1 l, factoring_qaoa rng random powell (empty_heap 0) 1 3 (Some answer_3) None = (Ok (v, sep), h1) /\
  qaoa_result rng (empty_heap 0) h1 v answer_3 1 1 (factor_cost 3 0 1) false [1 / 2; 1 / 16] l /\ mean_cost (factor_cost 3 0 1) l = 0 /\ Forall (fun op => sep (fst op) = Ok (1, 3)%nat) l.
Proof. exact reached3. Qed.
Print Assumptions C75_reached.
Example C75_case : bits_for (Nat.sqrt 15) 2 /\ factor_cost 15 1 2 (number [1; 0; 1]%nat) = 0 /\ bitseparator 1 2 [1; 0; 1]%nat = Ok (3, 5)%nat /\ factor_cost 15 1 2 (number [1; 1; 1]%nat) = 36.
Proof. exact fifteen_case. Qed.
