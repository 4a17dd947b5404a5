(** Property theorems: Opt.qaoa and Opt.sa (C78). *)
From Coq Require Import List Arith ZArith Reals.
Import ListNotations.
From Verif Require Import Base Cplx Bits ModelTargets ModelGate ModelNumpy ModelCircuit ModelPauli ModelPauliMatrix ModelVqe ModelVqeLoop ModelWq ModelOpt ModelOptQaoa
  SpecTargets SpecQuantum SpecCircuit SpecMeasure SpecRun SpecAPI SpecPauli SpecPauliMatrix SpecVqe SpecVqeLoop SpecDemo SpecWq SpecOpt SpecOptQaoa ProofOptQaoa.
Local Open Scope R_scope.

(** C78.  qaoa() of an Opt with a QUBO of at least one variable is never refused.  The default minimizer plays with the mean QUBO energies of the QAOA states; the probabilities of
    the result have the energy of the answer as mean QUBO energy; it is never below the least QUBO energy, and if it is the least one, all measured bits have it.
    [k]: as many qubits as needed for the last variable with a linear term or a coupling. *)
Theorem C78_qaoa : forall rng random powell seen h o step k, let n := attr_size (o_qubo o) in let Q := attr_mat (o_qubo o) in (0 < n)%nat -> reachable rng seen h ->
  least (covers n Q) k -> simulated rng h (VCirc [] (Z.of_nat k) None) ->
  exists ps asked r h2 l h3 r' e, let E := fun ps => mean_value k (bits_energy n Q) (qaoa_state k (expr_simplify e) None step (everywhere k mH (ket 0)) ps) in
    opt_qaoa rng random powell h o step = (Ok (ps, r), h2) /\ same_op (expr_op e) (diag_op (bits_energy n Q)) /\
    plays E (scipy_minimizer random powell (2 * step)%nat) ps asked /\ get_probs rng h2 r None None true = (Ok l, h3, r') /\
    mass l = 1 /\ Forall (fun op => List.length (fst op) = k /\ Forall is_bit (fst op) /\ 0 < snd op) l /\ mean_cost (bits_energy n Q) l = E ps /\
    (forall g, (forall x, g <= bits_energy n Q x) -> g <= E ps /\ (E ps = g -> Forall (fun op => bits_energy n Q (number (fst op)) = g) l)) /\
    (forall c' v', circuit_is h c' v' -> circuit_is h3 c' v').
Proof. exact qaoa_run. Qed.
Print Assumptions C78_qaoa.
(** There is always such a number of qubits. *)
Theorem C78_qubits : forall n Q, exists k, least (covers n Q) k /\ (k <= n)%nat.
Proof. exact least_covers. Qed.
Print Assumptions C78_qubits.
(** The energy depends on exactly the bits below it. *)
Theorem C78_depends : forall n Q k, of_bits k (bits_energy n Q) <-> covers n Q k.
Proof. exact energy_bits. Qed.
Print Assumptions C78_depends.
Example C78_case : forall rng, let o := opt_add opt_init 2 pair2 1 in let Q := attr_mat (o_qubo o) in
  reachable rng [] (empty_heap 0) /\ least (covers 2 Q) 2 /\ simulated rng (empty_heap 0) (VCirc [] 2 None) /\ (forall x, -1 <= bits_energy 2 Q x) /\ bits_energy 2 Q 1 = -1.
Proof. exact qaoa_case. Qed.
(** Without a QUBO it raises AttributeError. *)
Theorem C78_empty : forall rng random powell h o step, attr_size (o_qubo o) = 0%nat -> opt_qaoa rng random powell h o step = (Err AttributeError, h).
Proof. exact qaoa_empty. Qed.
Print Assumptions C78_empty.
(** There may be fewer bits than variables in the answers, as for [[1, 0], [0, 0]]. *)
Theorem C78_shorter_refuted : forall rng random powell step, exists ps r h2 l h3 r', let o := opt_add opt_init 2 loose 1 in attr_size (o_qubo o) = 2%nat /\
  opt_qaoa rng random powell (empty_heap 0) o step = (Ok (ps, r), h2) /\ get_probs rng h2 r None None true = (Ok l, h3, r') /\ l <> [] /\ Forall (fun op => List.length (fst op) = 1%nat) l.
Proof. exact qaoa_loose. Qed.
Print Assumptions C78_shorter_refuted.
(** sa() anneals down to the temperature 0.02: it ends, and the last energies are the QUBO energies of the answers. *)
Theorem C78_sa : forall choices sites draws fuel n Q Ts r ite shots fast o, (forall k, (sites k < n)%nat) -> opt_sa choices sites draws fuel n Q Ts r ite shots fast = Some o ->
  exists l, anneals n (objective n Q) draws sites choices Ts (2 / 100) (if fast then 3 / 4 else r) (if fast then 100%nat else ite) shots 0 0 0 l /\
    match o with Single E b => shots = 1%nat /\ l = [(E, b)] | Several Es bs => shots <> 1%nat /\ Es = map fst l /\ bs = map snd l end.
Proof. exact sa_cooled. Qed.
Print Assumptions C78_sa.
Theorem C78_sa_last : forall choices sites draws fuel n Q Ts r ite shots fast o, (forall k, (sites k < n)%nat) -> upper_triangular n Q ->
  opt_sa choices sites draws fuel n Q Ts r ite shots fast = Some o ->
  let good := fun E b => List.length b = n /\ Forall (fun z => z = 0%Z \/ z = 1%Z) b /\ last E 0 = qubo_energy n Q (fun i => IZR (nth i b 0%Z)) in
  match o with
  | Single E b => shots = 1%nat /\ good E b
  | Several Es bs => shots <> 1%nat /\ List.length Es = shots /\ Forall2 good Es bs
  end.
Proof. exact sa_last. Qed.
Print Assumptions C78_sa_last.
Theorem C78_sa_ends : forall choices sites draws n Q Ts r ite shots fast, 0 <= r < 1 -> exists fuel, opt_sa choices sites draws fuel n Q Ts r ite shots fast <> None.
Proof. exact sa_ends. Qed.
Print Assumptions C78_sa_ends.
