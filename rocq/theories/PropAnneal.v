(** Property theorems: the probability law of simulated annealing (C93) *)
From Coq Require Import List Arith ZArith Reals.
Import ListNotations.
From Verif Require Import Cplx Bits SpecQuantum SpecMeasure SpecLaw SpecWq SpecAnneal ModelWq ProofAnneal ProofAnnealConv ProofAnnealRun ProofAnnealLimit.
Local Open Scope R_scope.

(** C93.  For every stream of start values, of spins proposed and of draws there is exactly one history of the runs that they allow, and the answers of opt.run() are
    the last configurations of these histories. *)
Theorem C93_run : forall choices sites draws fuel n Q Ts r ite shots fast target o, (forall k, (sites k < n)%nat) -> draws_ok draws ->
  opt_run choices sites draws fuel n Q Ts r ite shots fast target = Some o ->
  let ts := proposal_temperatures (if fast then 100%nat else ite) (temperatures fuel target (if fast then 3 / 4 else r) Ts) in
  exists ps, runs n (fun b => objective n Q (spin b)) ts choices sites draws shots 0 0 0 ps /\
    match o with Single _ b => [b] | Several _ bs => bs end = map (fun p => bit_list (run_answer p)) ps /\
    forall ps', runs n (fun b => objective n Q (spin b)) ts choices sites draws shots 0 0 0 ps' -> ps' = ps.
Proof. exact opt_run_runs. Qed.
Print Assumptions C93_run.
(** The probability of the histories from [b] to [c], with independent and uniform proposals and draws, is that of Metropolis' Markov chain; *)
Theorem C93_history : forall n E ts b c, Forall (fun T => 0 < T) ts -> In b (values n) ->
  moves n E ts b c = Rsum (fun hs => history_weight n E ts hs b * is (path hs b) c) (histories n (length ts)).
Proof. exact history_law. Qed.
Print Assumptions C93_history.
Theorem C93_history_total : forall n E ts b, (0 < n)%nat -> Forall (fun T => 0 < T) ts -> In b (values n) ->
  Rsum (fun hs => history_weight n E ts hs b) (histories n (length ts)) = 1.
Proof. exact history_total. Qed.
Print Assumptions C93_history_total.
(** that of any answers of several runs is the product of the probabilities of each of them, *)
Theorem C93_answers : forall n E ts cs, Forall (fun T => 0 < T) ts ->
  Rsum (fun l => runs_weight n E ts l * same_answers l cs) (sequences (length cs) (all_runs n (length ts))) = fold_right (fun c v => answer_chance n E ts c * v) 1 cs.
Proof. exact answers_law. Qed.
Print Assumptions C93_answers.
Theorem C93_total : forall n E ts, (0 < n)%nat -> Rsum (answer_chance n E ts) (values n) = 1.
Proof. exact answer_total. Qed.
Print Assumptions C93_total.
(** for temperatures that are positive whenever the target is not negative. *)
Theorem C93_positive : forall fuel target r T k, 0 <= target -> Forall (fun t => 0 < t) (proposal_temperatures k (temperatures fuel target r T)).
Proof. exact temps_positive. Qed.
Print Assumptions C93_positive.
(** The chain is reversible with respect to Boltzmann's law, *)
Theorem C93_balance : forall n E T b c, boltzmann n E T b * move n E T b c = boltzmann n E T c * move n E T c b.
Proof. exact boltzmann_balance. Qed.
Print Assumptions C93_balance.
(** so proposals at one temperature leave it as it is, *)
Theorem C93_stationary : forall n E, (0 < n)%nat -> forall T k c, In c (values n) -> Rsum (fun b => boltzmann n E T b * moves n E (repeat T k) b c) (values n) = boltzmann n E T c.
Proof. exact boltzmann_sweep. Qed.
Print Assumptions C93_stationary.
(** and enough of them lead to it from everywhere, unless all configurations have the same energy: *)
Theorem C93_converges : forall n E T, (0 < n)%nat -> 0 < T -> (exists b x, In b (values n) /\ (x < n)%nat /\ rise E b x <> 0) ->
  forall eps, 0 < eps -> exists k0, forall k, (k0 <= k)%nat -> forall b c, In b (values n) -> In c (values n) -> Rabs (moves n E (repeat T k) b c - boltzmann n E T c) < eps.
Proof. exact converges. Qed.
Print Assumptions C93_converges.
(** then every proposal is accepted, and the parity of the number of proposals decides. *)
Theorem C93_constant_refuted : exists n E T, (0 < n)%nat /\ 0 < T /\
  ~ (forall eps, 0 < eps -> exists k0, forall k, (k0 <= k)%nat -> forall b c, In b (values n) -> In c (values n) -> Rabs (moves n E (repeat T k) b c - boltzmann n E T c) < eps).
Proof. exact constant_alternates. Qed.
Print Assumptions C93_constant_refuted.
(** With enough proposals for each temperature, whatever the earlier ones are, the answer follows Boltzmann's law of the last temperature, *)
Theorem C93_last : forall n E, (0 < n)%nat -> (exists b x, In b (values n) /\ (x < n)%nat /\ rise E b x <> 0) ->
  forall l T eps, 0 < T -> 0 < eps -> exists k0, forall k, (k0 <= k)%nat -> forall c, In c (values n) ->
  Rabs (answer_chance n E (proposal_temperatures k (l ++ [T])) c - boltzmann n E T c) < eps.
Proof. exact near_boltzmann. Qed.
Print Assumptions C93_last.
(** and is [g] or more above the energy of any configuration, the best included, with a probability of at most 2^n exp(-g/T) and as little more as wanted. *)
Theorem C93_ground : forall n E, (0 < n)%nat -> (exists b x, In b (values n) /\ (x < n)%nat /\ rise E b x <> 0) ->
  forall l T g m eps, 0 < T -> 0 < eps -> In m (values n) -> exists k0, forall k, (k0 <= k)%nat ->
  Rsum (fun b => if Rle_dec (E m + g) (E b) then answer_chance n E (proposal_temperatures k (l ++ [T])) b else 0) (values n) <= 2 ^ n * exp (- g / T) + eps.
Proof. exact slow_ground. Qed.
Print Assumptions C93_ground.
(** one spin with energies 0 and 1: two runs of two proposals at temperature 2, and the probability of the better answer after one *)
Example C93_case : let E := fun b => objective 1 one (spin b) in
  (exists b x, In b (values 1) /\ (x < 1)%nat /\ rise E b x <> 0) /\
  runs 1 E [2; 2] (fun c => (c =? 0)%nat) (fun _ => 0%nat) (fun _ => 9 / 10) 2 0 0 0 [([true], [(0, true); (0, false)]%nat); ([false], [(0, false); (0, false)]%nat)] /\
  turn_box E [2; 2] [(0, true); (0, false)]%nat [true] = Some [(exp (- (1) / 2), 1)] /\
  answer_chance 1 E [2] [false] = 1 - / 2 * exp (- (1) / 2).
Proof. exact one_case. Qed.
Example C93_temperatures : temperatures 3 1 (1 / 2) 3 = [3; 3 * (1 / 2)].
Proof. exact schedule_case. Qed.
