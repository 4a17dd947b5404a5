(** Property theorems: the probability law of quantum annealing (C94) *)
From Coq Require Import List Arith ZArith Reals.
Import ListNotations.
From Verif Require Import Base Cplx Bits SpecQuantum SpecMeasure SpecLaw SpecWq SpecOpt SpecAnneal SpecSqa ModelWq ModelOpt ProofAnneal ProofAnnealLimit ProofSqa ProofTrotter.
Local Open Scope R_scope.

(** C94.  For every stream of start values, of places proposed and of draws there is exactly one history of opt.sqa() that they allow, and its last configuration is the
    answer: the chain is that of the energy of a path, with the fields G, G r, G r^2, ... *)
Theorem C94_run : forall choices sites slots draws fuel o Gs Gf T r tro ite ans o', let n := attr_size (o_qubo o) in let Q := attr_mat (o_qubo o) in
  is_not_empty_list (o_qubo o) = true -> (forall k, (sites k < n)%nat) -> (forall k, (slots k < tro)%nat) -> (2 <= tro)%nat -> 0 < T -> 0 <= Gf -> draws_ok draws ->
  opt_sqa choices sites slots draws o fuel Gs Gf T r tro ite = Some (ans, o') ->
  let fs := field_phases n tro (objective n Q) T ite (temperatures fuel Gf r Gs) in
  exists q hs ivs, ans = Ok q /\ map fst hs = map (fun k => slots k * n + sites k)%nat (seq 0 (length fs)) /\
    phase_box fs hs (start_spins choices (tro * n) 0) = Some ivs /\ in_box ivs draws 0 /\
    (forall p i, (p < tro)%nat -> (i < n)%nat -> IZR (q p i) = slice_spin n (path hs (start_spins choices (tro * n) 0)) p i) /\
    (forall hs' ivs', map fst hs' = map (fun k => slots k * n + sites k)%nat (seq 0 (length fs)) ->
       phase_box fs hs' (start_spins choices (tro * n) 0) = Some ivs' -> in_box ivs' draws 0 -> hs' = hs).
Proof. exact sqa_runs. Qed.
Print Assumptions C94_run.
(** The histories have the probabilities of the Markov chain, *)
Theorem C94_history : forall m fs b c, Forall (fun f => 0 < snd f) fs -> In b (values m) ->
  phase_moves m fs b c = Rsum (fun hs => phase_weight m fs hs b * is (path hs b) c) (histories m (length fs)).
Proof. exact phase_law. Qed.
Print Assumptions C94_history.
Theorem C94_history_total : forall m fs b, (0 < m)%nat -> Forall (fun f => 0 < snd f) fs -> In b (values m) ->
  Rsum (fun hs => phase_weight m fs hs b) (histories m (length fs)) = 1.
Proof. exact phase_history_total. Qed.
Print Assumptions C94_history_total.
Theorem C94_positive : forall n P energy T k Gs, 0 < T -> Forall (fun f => 0 < snd f) (field_phases n P energy T k Gs).
Proof. exact phases_positive. Qed.
Print Assumptions C94_positive.
Theorem C94_total : forall m fs, (0 < m)%nat -> Rsum (phase_chance m fs) (values m) = 1.
Proof. exact chance_total. Qed.
Print Assumptions C94_total.
(** With enough proposals for each field, the answer follows Boltzmann's law of the path at the last field, for every QUBO, the constant ones included: *)
Theorem C94_last : forall n P Q T, (0 < n)%nat -> (2 <= P)%nat -> 0 < T -> forall l G eps, 0 < G -> 0 < eps -> exists k0, forall k, (k0 <= k)%nat ->
  forall c, In c (values (P * n)) ->
  Rabs (phase_chance (P * n) (field_phases n P (objective n Q) T k (l ++ [G])) c - boltzmann (P * n) (slices_energy n P (objective n Q) T G) T c) < eps.
Proof. exact last_field. Qed.
Print Assumptions C94_last.
(** this law is that of Trotter's formula: the product of the elements of exp(-E/(P T)) exp((G/(P T)) sum X) around the ring of slices, divided by the trace of its power, *)
Theorem C94_trotter : forall n P Q T G, (0 < P)%nat -> 0 < T -> 0 < G -> forall b, In b (values (P * n)) ->
  boltzmann (P * n) (slices_energy n P (objective n Q) T G) T b =
  ring_product (trotter n P (objective n Q) T G) (map (slice n b) (seq 0 P)) / ctrace n (cpower n (trotter n P (objective n Q) T G) P).
Proof. exact trotter_law. Qed.
Print Assumptions C94_trotter.
(** so a slice has the probabilities of the diagonal of the Trotter approximation of the thermal state. *)
Theorem C94_slice : forall n P Q T G, (0 < P)%nat -> 0 < T -> 0 < G -> forall c, In c (values n) ->
  Rsum (fun b => boltzmann (P * n) (slices_energy n P (objective n Q) T G) T b * is (slice n b 0) c) (values (P * n)) =
  cpower n (trotter n P (objective n Q) T G) P c c / ctrace n (cpower n (trotter n P (objective n Q) T G) P).
Proof. exact trotter_slice. Qed.
Print Assumptions C94_slice.
(** [hops a] is exp(a sum X): it is 1 at 0, the products are those of exponentials, and the derivative at 0 is sum X. *)
Theorem C94_hops_zero : forall n b c, In b (values n) -> In c (values n) -> hops 0 b c = is b c.
Proof. exact hops_zero. Qed.
Print Assumptions C94_hops_zero.
Theorem C94_hops_add : forall n x y b c, In b (values n) -> In c (values n) -> cmul n (hops x) (hops y) b c = hops (x + y) b c.
Proof. exact hops_add. Qed.
Print Assumptions C94_hops_add.
Theorem C94_hops_derivative : forall n b c, In b (values n) -> In c (values n) -> derivable_pt_lim (fun a => hops a b c) 0 (field_matrix n b c).
Proof. exact hops_deriv. Qed.
Print Assumptions C94_hops_derivative.
(** the default attributes *)
Example C94_case : exists o fuel q o', attr_size (o_qubo o) = 2%nat /\ is_not_empty_list (o_qubo o) = true /\ (forall k, (k mod 2 < 2)%nat) /\ (forall k, (k mod 8 < 8)%nat) /\
  draws_ok (fun k => / INR (k + 2)) /\
  opt_sqa Nat.even (fun k => k mod 2)%nat (fun k => k mod 8)%nat (fun k => / INR (k + 2)) o fuel 10 (1 / 50) (1 / 50) (19 / 20) 8 1000 = Some (Ok q, o').
Proof. exact default_case. Qed.
(** two slices of one spin with energies 0 and 1, P T = 2, G = 2 *)
Example C94_slices_case : ring_product (trotter 1 2 (objective 1 one) 1 2) [[true]; [false]] = exp (- (1) / 2) * sinh 1 * sinh 1.
Proof. exact two_slices. Qed.
