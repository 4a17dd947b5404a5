(** Property theorems: QUBO matrices and annealing (C44 to C47).  [n] is the size of a matrix, a function of row and column. *)
From Coq Require Import List ZArith Reals.
Import ListNotations.
From Verif Require Import Base Cplx Bits SpecQuantum ModelPauli SpecPauli ModelWq SpecWq ProofWq.
Local Open Scope R_scope.

(** C44.  wq.pauli(Q) multiplies the amplitude of each basis state by its QUBO energy x^T Q x, *)
Theorem C44_energy : forall n Q, same_op (val_op (wq_pauli n Q)) (diag_op (fun x => qubo_energy n Q (bit_value x))).
Proof. exact pauli_energy. Qed.
Print Assumptions C44_energy.
(** and qubo_bit(i) by x_i. *)
Theorem C44_bit : forall i, same_op (val_op (qubo_bit i)) (diag_op (fun x => bit_value x i)).
Proof. exact qubo_bit_op. Qed.
Print Assumptions C44_bit.
(** the state 01 with [[1,2],[3,4]] *)
Example C44_case : qubo_energy 2 (fun i j => INR (2 * i + j + 1)) (bit_value 3) = 10 /\ qubo_energy 2 (fun i j => INR (2 * i + j + 1)) (bit_value 2) = 4.
Proof. exact pauli_case. Qed.

(** C45.  The Ising energy, as the loop of Ei computes it, plus the offset is the QUBO energy. *)
Theorem C45_energy : forall n Q q, upper_triangular n Q -> spins n q ->
  Ei n q (fst (qi n Q)) + snd (qi n Q) = qubo_energy n Q (fun i => bit_of (q i)).
Proof. exact qi_energy. Qed.
Print Assumptions C45_energy.
Theorem C45_Ei : forall n q J, Ei n q J = ising_energy n J q.
Proof. exact Ei_energy. Qed.
Print Assumptions C45_Ei.
(** qi() ignores what is below the diagonal, *)
Theorem C45_upper : forall n Q q, spins n q -> Ei n q (fst (qi n Q)) + snd (qi n Q) = qubo_energy n (upper_part Q) (fun i => bit_of (q i)).
Proof. exact objective_energy. Qed.
Print Assumptions C45_upper.
(** which wq.pauli does not: for other matrices the two disagree. *)
Theorem C45_lower_refuted : exists n Q q, spins n q /\ Ei n q (fst (qi n Q)) + snd (qi n Q) <> qubo_energy n Q (fun i => bit_of (q i)).
Proof. exact lower_ignored. Qed.
Print Assumptions C45_lower_refuted.
Example C45_case : upper_triangular 3 (upper_part (fun i j => INR (i + j))) /\ spins 3 (fun i => if Nat.even i then 1 else -1).
Proof. exact upper_case. Qed.

(** C46.  The change of energy is that of turning spin x; *)
Theorem C46_change : forall n J q x, (x < n)%nat ->
  change n (reJ J) q x = ising_energy n J (flipped (real_spins q) x) - ising_energy n J (real_spins q).
Proof. exact change_difference. Qed.
Print Assumptions C46_change.
Theorem C46_change_qubo : forall n Q q x, spins n (real_spins q) -> (x < n)%nat ->
  change n (reJ (fst (qi n Q))) q x = difference (objective n Q) (real_spins q) x.
Proof. exact objective_change. Qed.
Print Assumptions C46_change_qubo.
(** for every stream of start values, sites and draws, a run is an annealing of the energy, with the energies of the visited states and the bits of
    the last state as results. *)
Theorem C46_run : forall choices sites draws fuel n Q Ts r ite shots fast target o, (forall k, (sites k < n)%nat) ->
  opt_run choices sites draws fuel n Q Ts r ite shots fast target = Some o ->
  exists l, anneals n (objective n Q) draws sites choices Ts target (if fast then 3 / 4 else r) (if fast then 100%nat else ite) shots 0 0 0 l /\
    match o with Single E b => shots = 1%nat /\ l = [(E, b)] | Several Es bs => shots <> 1%nat /\ Es = map fst l /\ bs = map snd l end.
Proof. exact run_anneals. Qed.
Print Assumptions C46_run.
(** The last energy of each run is the QUBO energy of its bits. *)
Theorem C46_last : forall choices sites draws fuel n Q Ts r ite shots fast target o, (forall k, (sites k < n)%nat) -> upper_triangular n Q ->
  opt_run choices sites draws fuel n Q Ts r ite shots fast target = Some o ->
  let good := fun E b => length b = n /\ Forall (fun z => z = 0%Z \/ z = 1%Z) b /\ last E 0 = qubo_energy n Q (fun i => IZR (nth i b 0%Z)) in
  match o with
  | Single E b => shots = 1%nat /\ good E b
  | Several Es bs => shots <> 1%nat /\ length Es = shots /\ Forall2 good Es bs
  end.
Proof. exact run_last. Qed.
Print Assumptions C46_last.
(** Every run with a rate below one and a positive target temperature ends. *)
Theorem C46_ends : forall choices sites draws n Q Ts r ite shots fast target, 0 < target -> 0 <= r < 1 ->
  exists fuel, opt_run choices sites draws fuel n Q Ts r ite shots fast target <> None.
Proof. exact run_ends. Qed.
Print Assumptions C46_ends.
(** Entries below the diagonal are not part of the recorded energies. *)
Theorem C46_lower_refuted : forall choices sites draws, (forall k, choices k = true) ->
  exists Q E, opt_run choices sites draws 1 2 Q 0 1 0 1 false 1 = Some (Single [E] [1%Z; 1%Z]) /\
    E <> qubo_energy 2 Q (fun i => IZR (nth i [1%Z; 1%Z] 0%Z)).
Proof. exact run_lower_ex. Qed.
Print Assumptions C46_lower_refuted.
(** two shots on three spins with the default temperatures *)
Example C46_case : exists fuel o, opt_run Nat.even (fun k => k mod 3)%nat (fun k => / INR (k + 2)) fuel 3 (upper_part (fun i j => INR (i + j))) 5 (19 / 20) 1000 2 false (2 / 100) = Some o.
Proof. exact run_case. Qed.

(** C47.  sel: the energies, *)
Theorem C47_sel_energy : forall n k arr m x, bits n x -> sel n k arr = Ok m ->
  qubo_energy n m x = (ones n x - IZR k) * (ones n x - IZR k) - IZR k * IZR k - / 2 * chosen_ones n arr x.
Proof. exact sel_energy. Qed.
Print Assumptions C47_sel_energy.
(** minimal exactly on the vectors with K ones; *)
Theorem C47_sel : forall n k m, (0 <= k <= Z.of_nat n)%Z -> sel n k [] = Ok m ->
  forall x, bits n x -> (minimal n (qubo_energy n m) x <-> ones n x = IZR k).
Proof. exact sel_minimal_plain. Qed.
Print Assumptions C47_sel.
(** with a third argument, of distinct positions: exactly on those with K ones and, among these, the most ones at the positions given. *)
Theorem C47_sel_positions : forall n k arr m, (0 <= k <= Z.of_nat n)%Z -> NoDup (map (position n) arr) -> sel n k arr = Ok m ->
  forall x, bits n x -> (minimal n (qubo_energy n m) x <-> ones n x = IZR k /\ forall y, bits n y -> ones n y = IZR k -> chosen_ones n arr y <= chosen_ones n arr x).
Proof. exact sel_minimal. Qed.
Print Assumptions C47_sel_positions.
Theorem C47_sel_answers : forall n k arr, (Forall (in_range n) arr -> exists m, sel n k arr = Ok m) /\ (~ Forall (in_range n) arr -> sel n k arr = Err IndexError).
Proof. exact sel_answers. Qed.
Print Assumptions C47_sel_answers.
(** A position given several times breaks it, *)
Theorem C47_sel_duplicates_refuted : exists n k arr m x, (0 <= k <= Z.of_nat n)%Z /\ Forall (in_range n) arr /\ sel n k arr = Ok m /\
  minimal n (qubo_energy n m) x /\ ones n x <> IZR k.
Proof. exact sel_duplicates. Qed.
Print Assumptions C47_sel_duplicates_refuted.
(** and so does K > N. *)
Theorem C47_sel_too_many_refuted : exists n k m x, (Z.of_nat n < k)%Z /\ sel n k [] = Ok m /\ minimal n (qubo_energy n m) x /\ ones n x <> IZR k.
Proof. exact sel_too_many. Qed.
Print Assumptions C47_sel_too_many_refuted.
(** sqr *)
Theorem C47_sqr : forall n a x, qubo_energy n (sqr a) x = dot n a x * dot n a x.
Proof. exact sqr_energy. Qed.
Print Assumptions C47_sqr.
(** mul is right for proportional vectors (missing: all others), *)
Theorem C47_mul_partial : forall n a b x, (forall i j, (i < j < n)%nat -> a i * b j = a j * b i) -> qubo_energy n (mul a b) x = dot n a x * dot n b x.
Proof. exact mul_proportional. Qed.
Print Assumptions C47_mul_partial.
(** and wrong by the asymmetric part for others. *)
Theorem C47_mul_energy : forall n a b x,
  qubo_energy n (mul a b) x = dot n a x * dot n b x - total n (fun i => total n (fun j => if (i <? j)%nat then (a j * b i - a i * b j) * x i * x j else 0)).
Proof. exact mul_energy_eq. Qed.
Print Assumptions C47_mul_energy.
Theorem C47_mul_refuted : exists n a b x, bits n x /\ qubo_energy n (mul a b) x <> dot n a x * dot n b x.
Proof. exact mul_refuted. Qed.
Print Assumptions C47_mul_refuted.
(** net counts the pairs with both ends set, if no pair is given twice (in either direction); the pairs of the argument are sorted in place. *)
Theorem C47_net : forall n l, Forall (natural n) l -> ForallOrdPairs (fun p q => ~ same_pair p q) l ->
  exists m l', net n l = Ok (m, l') /\ Forall2 (fun p q => same_pair p q /\ (fst q <= snd q)%Z) l l' /\ forall x, qubo_energy n m x = connected l x.
Proof. exact net_counts. Qed.
Print Assumptions C47_net.
Theorem C47_net_refused : forall n l, ~ Forall (fun p => in_range n (fst p) /\ in_range n (snd p)) l -> net n l = Err IndexError.
Proof. exact net_err. Qed.
Print Assumptions C47_net_refused.
(** A pair given twice counts once, and the caller's list changes. *)
Theorem C47_net_refuted : exists n l m l' x, Forall (natural n) l /\ bits n x /\ net n l = Ok (m, l') /\ qubo_energy n m x <> connected l x /\ l' <> l.
Proof. exact net_duplicates. Qed.
Print Assumptions C47_net_refuted.
Example C47_case : NoDup (map (position 5) [0; -3]%Z) /\ Forall (in_range 5) [0; -3]%Z /\
  Forall (natural 4) [(0, 1); (2, 1)]%Z /\ ForallOrdPairs (fun p q => ~ same_pair p q) [(0, 1); (2, 1)]%Z.
Proof. exact builders_case. Qed.
