(** Property theorems: the object Opt: quantum annealing, sums of QUBOs, problems for an annealing machine (C58 to C60). *)
From Coq Require Import List Arith ZArith Reals.
Import ListNotations.
From Verif Require Import Base Cplx ModelWq ModelOpt SpecWq SpecOpt ProofWq ProofOpt ProofDwave ProofOptEx.
Local Open Scope R_scope.

(** C58.  The coupling of neighbouring slices is that of a path integral: up to a factor, its weights are the matrix elements of exp(a X), that is cosh a
    for equal and sinh a for different spins, with a = G / (P T); *)
Theorem C58_bond : forall T P G, 0 < T -> (0 < P)%nat -> 0 < G -> let a := G / (INR P * T) in exists C, 0 < C /\
  forall s s', (s = 1 \/ s = -1) -> (s' = 1 \/ s' = -1) -> (if Req_EM_T s s' then cosh a else sinh a) = C * exp (bond T P G * (s * s') / T).
Proof. exact bond_weight. Qed.
Print Assumptions C58_bond.
(** the change that a proposal is judged by is the difference of the path's energies; *)
Theorem C58_change : forall n Q T P G q y x, 0 < T -> 0 < G -> (2 <= P)%nat -> (y < P)%nat -> (x < n)%nat -> all_spins n P (real_slices q) ->
  sqa_change n (reJ (fst (qi n Q))) T P G q y x = difference_at (path_energy n P (objective n Q) T) G (real_slices q) y x.
Proof. exact sqa_change_objective. Qed.
Print Assumptions C58_change.
(** for all random numbers, sqa() is an annealing of the path's energy with falling field; the answer are the spins of the last state; the values of
    [recorded] are appended to E. *)
Theorem C58_run : forall choices sites slots draws fuel o Gs Gf T r tro ite ans o', let n := attr_size (o_qubo o) in let Q := attr_mat (o_qubo o) in
  is_not_empty_list (o_qubo o) = true -> (forall k, (sites k < n)%nat) -> (forall k, (slots k < tro)%nat) -> (2 <= tro)%nat -> 0 < T -> 0 < Gs -> 0 <= Gf ->
  opt_sqa choices sites slots draws o fuel Gs Gf T r tro ite = Some (ans, o') ->
  exists q l, ans = Ok q /\
    fields n tro (path_energy n tro (objective n Q) T) draws sites slots T Gf r ite Gs (chosen_slices choices n) 0 0 l /\
    real_slices q = last (map snd l) (chosen_slices choices n) /\ all_spins n tro (real_slices q) /\
    o_E o' = o_E o ++ map (recorded n tro (objective n Q) T) ((Gs, chosen_slices choices n) :: l) /\ o_qubo o' = o_qubo o.
Proof. exact sqa_run. Qed.
Print Assumptions C58_run.
Theorem C58_ends : forall choices sites slots draws o Gs Gf T r tro ite, 0 < Gf -> 0 <= r < 1 ->
  exists fuel, opt_sqa choices sites slots draws o fuel Gs Gf T r tro ite <> None.
Proof. exact sqa_ends. Qed.
Print Assumptions C58_ends.
(** The energies of E are not those of the path: the coupling has the wrong sign, *)
Theorem C58_recorded : forall n P energy T G q, recorded n P energy T (G, q) = path_energy n P energy T G q + 2 * (bond T P G * agreement n P q).
Proof. exact recorded_path. Qed.
Print Assumptions C58_recorded.
Theorem C58_recorded_refuted : forall choices sites slots draws, (forall k, choices k = true) ->
  exists o ans o' E, let n := attr_size (o_qubo o) in
    is_not_empty_list (o_qubo o) = true /\ opt_sqa choices sites slots draws o 1 1 2 1 (1 / 2) 2 1 = Some (ans, o') /\ o_E o' = [E] /\
    E <> path_energy n 2 (objective n (attr_mat (o_qubo o))) 1 1 (chosen_slices choices n).
Proof. exact record_wrong. Qed.
Print Assumptions C58_recorded_refuted.
(** and one slice is coupled with itself. *)
Theorem C58_one_slice_refuted : exists n Q T G q, 0 < T /\ 0 < G /\ all_spins n 1 (real_slices q) /\
  sqa_change n (reJ (fst (qi n Q))) T 1 G q 0 0 <> difference_at (path_energy n 1 (objective n Q) T) G (real_slices q) 0 0.
Proof. exact one_slice_wrong. Qed.
Print Assumptions C58_one_slice_refuted.
(** the default attributes, two spins *)
Example C58_case : exists fuel q o', opt_sqa Nat.even (fun k => k mod 2)%nat (fun k => k mod 8)%nat (fun k => / INR (k + 2)) (opt2 1 2 3) fuel 10 (1 / 50) (1 / 50) (19 / 20) 8 1000 = Some (Ok q, o').
Proof. exact sqa_case. Qed.

(** C59.  Adding QUBOs of one size, to an empty Opt or one with a QUBO of that size, adds up their energies with their factors. *)
Theorem C59_sum : forall n l, (0 < n)%nat -> l <> [] ->
  exists m, o_qubo (fold_left (fun o p => opt_add o n (fst p) (snd p)) l opt_init) = AArray n m /\ (forall i j, m i j = weighted_sum l i j) /\
    forall x, qubo_energy n m x = Rsum (fun p => snd p * qubo_energy n (fst p) x) l.
Proof. exact add_all_init. Qed.
Print Assumptions C59_sum.
Theorem C59_more : forall n l o, attr_size (o_qubo o) = n -> let o' := fold_left (fun o p => opt_add o n (fst p) (snd p)) l o in
  attr_size (o_qubo o') = n /\
  (forall i j, attr_mat (o_qubo o') i j = attr_mat (o_qubo o) i j + weighted_sum l i j) /\
  (forall x, qubo_energy n (attr_mat (o_qubo o')) x = qubo_energy n (attr_mat (o_qubo o)) x + Rsum (fun p => snd p * qubo_energy n (fst p) x) l) /\
  (l <> [] -> o_qubo o' = AArray n (attr_mat (o_qubo o'))) /\
  o_size o' = o_size o /\ o_J o' = o_J o /\ o_ep o' = o_ep o /\ o_E o' = o_E o.
Proof. exact add_all_same. Qed.
Print Assumptions C59_more.
(** A run after that ends with the sum of the energies of its bits. *)
Theorem C59_run : forall choices sites draws fuel n l Ts r ite target ans o', (2 <= n)%nat -> l <> [] -> (forall k, (sites k < n)%nat) ->
  Forall (fun p => upper_triangular n (fst p)) l ->
  opt_run1 choices sites draws (fold_left (fun o p => opt_add o n (fst p) (snd p)) l opt_init) fuel Ts r ite target = Some (ans, o') ->
  exists b, ans = Ok b /\ length b = n /\ Forall (fun z => z = 0%Z \/ z = 1%Z) b /\
    last (o_E o') 0 = Rsum (fun p => snd p * qubo_energy n (fst p) (fun i => IZR (nth i b 0%Z))) l.
Proof. exact add_run. Qed.
Print Assumptions C59_run.
(** QUBOs of another size are ignored without an error; *)
Theorem C59_size_refuted : exists a b x, bits 3 x /\ opt_add (opt_add opt_init 2 a 1) 3 b 1 = opt_add opt_init 2 a 1 /\ qubo_energy 3 b x <> 0.
Proof. exact add_ignored. Qed.
Print Assumptions C59_size_refuted.
Theorem C59_ignored : forall o n m M, attr_size (o_qubo o) <> n -> attr_size (o_qubo o) <> 0%nat -> opt_add o n m M = o.
Proof. exact add_mismatch. Qed.
Print Assumptions C59_ignored.
(** after an empty one every other is; *)
Theorem C59_empty_refuted : forall n m M, (0 < n)%nat -> o_qubo (opt_add (opt_add opt_init 0 zeros 1) n m M) = AArray 0 (madd zeros (mtimes 1 zeros)).
Proof. exact add_after_empty. Qed.
Print Assumptions C59_empty_refuted.
(** and run() does not see a sum of size one: it raises, *)
Theorem C59_single_refuted : forall choices sites draws fuel v Ts r ite target, target < Ts -> (0 < ite)%nat ->
  exists o', opt_run1 choices sites draws (opt_add opt_init 1 (fun _ _ => v) 1) fuel Ts r ite target = Some (Err ValueError, o').
Proof. exact add_single. Qed.
Print Assumptions C59_single_refuted.
(** or answers for the QUBO of the run before. *)
Theorem C59_stale_refuted : forall choices sites draws Q v Ts r ite target, Ts <= target ->
  exists b1 o1 b2 o2, opt_run1 choices sites draws (with_qubo opt_init (AList 2 Q)) 1 Ts r ite target = Some (Ok b1, o1) /\
    opt_run1 choices sites draws (with_qubo o1 (AArray 1 (fun _ _ => v))) 1 Ts r ite target = Some (Ok b2, o2) /\ b2 = b1 /\ length b2 = 2%nat /\ o_E o2 = o_E o1.
Proof. exact stale. Qed.
Print Assumptions C59_stale_refuted.
Example C59_case : Forall (fun p => upper_triangular 2 (fst p)) [(mat2 1 2 3, 1); (mat2 0 (-1) 4, 5)] /\
  exists fuel b o', opt_run1 Nat.even (fun k => k mod 2)%nat (fun k => / INR (k + 2))
    (fold_left (fun o p => opt_add o 2 (fst p) (snd p)) [(mat2 1 2 3, 1); (mat2 0 (-1) 4, 5)] opt_init) fuel 5 (19 / 20) 1000 (1 / 50) = Some (Ok b, o').
Proof. exact add_case. Qed.

(** C60.  With a perfect machine that has the nodes 0 .. n-1 and a coupler for every coupling, listed once and from the lower to the higher node, dw()
    answers bits of least energy. *)
Theorem C60_minimal : forall o sv, let n := attr_size (o_qubo o) in let Q := attr_mat (o_qubo o) in
  is_not_empty_list (o_qubo o) = true -> suitable n Q (nodes sv) (edges sv) -> perfect n (sample_ising sv) ->
  length (opt_dw o sv) = n /\ minimal n (qubo_energy n (upper_part Q)) (fun i => IZR (nth i (opt_dw o sv) 0%Z)).
Proof. exact dw_minimal. Qed.
Print Assumptions C60_minimal.
(** Without the coupler, or with it listed the other way, the coupling is dropped; *)
Theorem C60_coupler_refuted : forall nodes edges sample, filter (fun i => (i <? 2)%nat) nodes = [0; 1]%nat -> (forall i j, In (i, j) edges -> ~ (i < 2 /\ j < 2)%nat \/ (j < i)%nat) ->
  perfect 2 sample -> ~ minimal 2 (qubo_energy 2 (mat2 (-1) 3 (-1))) (fun i => IZR (nth i (opt_dw (opt2 (-1) 3 (-1)) (Solver nodes edges sample)) 0%Z)).
Proof. exact no_edge. Qed.
Print Assumptions C60_coupler_refuted.
(** without a node, the biases of later nodes are sent for earlier ones. *)
Theorem C60_node_refuted : forall ns sample, filter (fun i => (i <? 2)%nat) ns = [1]%nat -> perfect 2 sample ->
  ~ minimal 2 (qubo_energy 2 (mat2 (-1) 0 1)) (fun i => IZR (nth i (opt_dw (opt2 (-1) 0 1) (Solver ns [] sample)) 0%Z)).
Proof. exact no_node. Qed.
Print Assumptions C60_node_refuted.
(** There are perfect machines and suitable problems. *)
Theorem C60_exists : forall n, perfect n (try_all n).
Proof. exact try_all_perfect. Qed.
Print Assumptions C60_exists.
Example C60_case : suitable 2 (mat2 (-1) 3 (-1)) [0; 1; 5]%nat [(0, 5); (0, 1); (5, 1)]%nat.
Proof. exact suitable_case. Qed.
