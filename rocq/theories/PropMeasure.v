(** Properties C17 to C21 and C53: measurement, reset, shots, arguments of run, global phase. *)
From Coq Require Import List Arith ZArith String Reals.
Import ListNotations.
From Verif Require Import Base Cplx Bits ModelTargets ModelGate ModelNumpy SpecTargets SpecQuantum SpecCircuit SpecMeasure
  ProofMeasure ProofBorn ProofCache ProofPhase ProofWhole ProofExamples.
Local Open Scope R_scope.

(** C17.  [measure] on the numpy backend measures the qubits that its target denotes, one after the other ... *)
Theorem C17_measure_gate : forall rng n tg l w ctx, draws_ok rng -> denotes (Z.of_nat n) tg l -> Forall (inside n) l ->
  norm2 n (w_psi w) = 1 -> shows n ctx w ->
  exists ctx', np_run_single rng recursion_limit (GMeasure tg) ctx = SOk ctx' /\ shows n ctx' (each (measure1 rng n) l w).
Proof. exact measure_gate. Qed.
Print Assumptions C17_measure_gate.

(** ... where for each qubit 0 is recorded exactly when the draw is below the total probability of the indices with bit 0,
    the norm that is divided by is positive, the state is projected and normalised. *)
Theorem C17_measure_one : forall rng n t w, draws_ok rng -> norm2 n (w_psi w) = 1 ->
  let p0 := Rsum (fun x => if bit x t then 0 else Cnorm2 (w_psi w x)) (seq 0 (2 ^ n)) in
  let w' := measure1 rng n t w in
  exists b : bool, (b = false <-> rng (w_pos w) < p0) /\
    w_bits w' t = (if b then 1 else 0)%nat /\ (forall q, q <> t -> w_bits w' q = w_bits w q) /\
    w_pos w' = S (w_pos w) /\ 0 < prob n t b (w_psi w) /\
    (forall x, w_psi w' x = if Bool.eqb (bit x t) b then (RtoC (/ sqrt (prob n t b (w_psi w))) * w_psi w x)%C else C0) /\
    norm2 n (w_psi w') = 1.
Proof. exact measure_one. Qed.
Print Assumptions C17_measure_one.

(** Measuring again gives the same outcome for every draw and leaves the state alone. *)
Theorem C17_measure_twice : forall rng, draws_ok rng -> forall n t w, norm2 n (w_psi w) = 1 ->
  let w1 := measure1 rng n t w in let w2 := measure1 rng n t w1 in
  w_psi w2 = w_psi w1 /\ (forall q, w_bits w2 q = w_bits w1 q).
Proof. exact measure_twice. Qed.
Print Assumptions C17_measure_twice.

Example C17_case : norm2 1 ex_psi = 1 /\ prob 1 0 true ex_psi = 1 / 2 /\ draws_ok (fun i => if Nat.even i then 0 else 1 / 2).
Proof. exact (conj ex_psi_norm (conj (proj1 ex_psi_prob) ex_draws)). Qed.

(** C18.  When every qubit is measured once, in any order, the draws that give the bits of [k] form a box of volume |psi_k|^2:
    for independent uniform draws this is the probability of [k]. *)
Theorem C18_born_rule : forall n l psi k, all_qubits n l -> norm2 n psi = 1 -> (k < 2 ^ n)%nat ->
  exists ivs, List.length ivs = n /\
    (forall iv, In iv ivs -> 0 <= fst iv /\ snd iv <= 1 /\ fst iv <= snd iv) /\
    volume ivs = Cnorm2 (psi k) /\
    forall rng bits pos, draws_ok rng ->
      ((forall t, (t < n)%nat -> w_bits (each (measure1 rng n) (map Z.of_nat l) (World psi bits pos)) t = b2n (bit k t)) <->
       (forall i, (i < n)%nat -> in_interval (nth i ivs (0, 0)) (rng (pos + i)%nat))).
Proof. exact born_rule. Qed.
Print Assumptions C18_born_rule.

(** The same for any part of the register. *)
Theorem C18_born_marginal : forall n l s psi, NoDup l -> norm2 n psi = 1 ->
  exists ivs, List.length ivs = List.length l /\
    (forall iv, In iv ivs -> 0 <= fst iv /\ snd iv <= 1 /\ fst iv <= snd iv) /\
    volume ivs = norm2 n (project_all l s psi) /\
    forall rng bits pos, draws_ok rng ->
      ((forall t, In t l -> w_bits (each (measure1 rng n) (map Z.of_nat l) (World psi bits pos)) t = b2n (s t)) <->
       (forall i, (i < List.length l)%nat -> in_interval (nth i ivs (0, 0)) (rng (pos + i)%nat))).
Proof. exact born_list. Qed.
Print Assumptions C18_born_marginal.

Example C18_case : norm2 1 ex_psi = 1 /\ Cnorm2 (ex_psi 1%nat) = 1 / 2.
Proof. exact (conj ex_psi_norm (proj2 ex_psi_prob)). Qed.

(** C19.  [reset] resets the qubits of its target one after the other ... *)
Theorem C19_reset_gate : forall rng n tg l w ctx, draws_ok rng -> denotes (Z.of_nat n) tg l -> Forall (inside n) l ->
  norm2 n (w_psi w) = 1 -> shows n ctx w ->
  exists ctx', np_run_single rng recursion_limit (GReset tg) ctx = SOk ctx' /\ shows n ctx' (each (reset1 rng n) l w).
Proof. exact reset_gate. Qed.
Print Assumptions C19_reset_gate.

(** ... after which the bit is 0 in every index of non-zero amplitude, the norm is 1, and measuring gives 0 for every draw. *)
Theorem C19_reset : forall rng, draws_ok rng -> forall n t w, (t < n)%nat -> norm2 n (w_psi w) = 1 ->
  let w1 := reset1 rng n t w in
  (forall x, bit x t = true -> w_psi w1 x = C0) /\ norm2 n (w_psi w1) = 1 /\ outcome rng n t w1 = false.
Proof. exact reset_zero. Qed.
Print Assumptions C19_reset.

Example C19_case : norm2 1 ex_psi = 1 /\ prob 1 0 true ex_psi = 1 / 2.
Proof. exact (conj ex_psi_norm (proj1 ex_psi_prob)). Qed.

(** C20.  The counts add up to the number of shots, no key is listed twice, the count of a key is the number of shots that
    recorded it, and keys have one digit for each qubit. *)
Theorem C20_counts : forall rng n gs N pos b, draws_ok rng -> (0 < n)%nat -> valid n gs ->
  cache_ok n gs (clear_cache_if_invalid b n) ->
  exists c ws b' p, np_run rng b gs n (RunArgs (Some (Z.of_nat N)) None false) pos = (Ok (RShots c), b', p) /\
    shots rng n gs pos ws /\ List.length ws = N /\ total c = N /\ NoDup (map fst c) /\
    (forall k, lookup c k = count_occ (list_eq_dec Nat.eq_dec) (map (outcomes n) ws) k) /\
    (forall k, In k (map fst c) <-> In k (map (outcomes n) ws)) /\
    (forall k, In k (map fst c) -> List.length k = n /\ Forall (fun d => d = 0 \/ d = 1)%nat k).
Proof. exact run_counts. Qed.
Print Assumptions C20_counts.

(** A circuit without qubits counts nothing. *)
Theorem C20_counts_refuted : exists gs rng, valid 0 gs /\ draws_ok rng /\
  fst (fst (np_run rng new_backend gs 0 (RunArgs (Some 5%Z) None false) 0)) = Ok (RShots []).
Proof. exact run_counts_empty. Qed.
Print Assumptions C20_counts_refuted.

Example C20_case : valid 3 ex_measured /\ cache_ok 3 ex_measured (clear_cache_if_invalid new_backend 3).
Proof. exact (conj ex_measured_valid (new_cache_ok 3 ex_measured)). Qed.

(** C21.  The result has the kind that [returns] names, or, without it, counts exactly if [shots] was given. *)
Theorem C21_kind : forall rng b gs n pos s r ig v b' p,
  np_run rng b gs n (RunArgs s r ig) pos = (Ok v, b', p) -> kind v = wanted s r /\ known_returns (wanted s r).
Proof. exact run_kind. Qed.
Print Assumptions C21_kind.

(** Unknown values are refused before anything is run: neither the backend nor the random stream changes. *)
Theorem C21_unknown : forall rng b gs n pos s r ig, ~ known_returns r ->
  np_run rng b gs n (RunArgs s (Some r) ig) pos = (Err ValueError, b, pos).
Proof. exact run_unknown. Qed.
Print Assumptions C21_unknown.

(** The number of shots: as given, else 1024 if counts are wanted, else 1. *)
Theorem C21_shots : forall s r ig N ret ig', parse_run_args (RunArgs s r ig) = Ok (N, ret, ig') ->
  N = shots_wanted s r /\ ret = wanted s r /\ ig' = ig.
Proof. exact parse_shots. Qed.
Print Assumptions C21_shots.

Example C21_case : wanted None None = "statevector"%string /\ wanted (Some 3%Z) None = "shots"%string /\
  shots_wanted None (Some "shots"%string) = 1024%Z /\ kind (RShots []) = "shots"%string.
Proof. exact (conj eq_refl (conj eq_refl (conj eq_refl eq_refl))). Qed.

(** C53.  The vector is multiplied by one unit complex number ... *)
Theorem C53_factor : forall v, exists u, Cnorm2 u = 1 /\ ignore_global_phase v = map (fun x => (x * u)%C) v.
Proof. exact phase_factor. Qed.
Print Assumptions C53_factor.

(** ... such that the first entry above the threshold becomes its modulus. *)
Theorem C53_first_entry : forall a q b, Forall small a -> threshold < Cabs q ->
  nth (List.length a) (ignore_global_phase (a ++ q :: b)) C0 = RtoC (Cabs q).
Proof. exact phase_first. Qed.
Print Assumptions C53_first_entry.

Theorem C53_idempotent : forall v, ignore_global_phase (ignore_global_phase v) = ignore_global_phase v.
Proof. exact phase_idem. Qed.
Print Assumptions C53_idempotent.

(** Vectors equal up to a phase get equal results if some entry exceeds the threshold ... *)
Theorem C53_canonical_partial : forall v u, Cnorm2 u = 1 -> ~ Forall small v ->
  ignore_global_phase (map (fun x => (x * u)%C) v) = ignore_global_phase v.
Proof. exact phase_same. Qed.
Print Assumptions C53_canonical_partial.

(** ... so for every normalised state of at most 46 qubits ... *)
Theorem C53_canonical_states : forall n v u, Cnorm2 u = 1 -> (n <= 46)%nat -> List.length v = (2 ^ n)%nat -> Rsum Cnorm2 v = 1 ->
  ignore_global_phase (map (fun x => (x * u)%C) v) = ignore_global_phase v.
Proof. exact phase_same_normalised. Qed.
Print Assumptions C53_canonical_states.

(** ... but not in general. *)
Theorem C53_canonical_refuted : exists v u, Cnorm2 u = 1 /\ v <> [] /\ nth 0 v C0 <> C0 /\
  ignore_global_phase (map (fun x => (x * u)%C) v) <> ignore_global_phase v.
Proof. exact phase_tiny. Qed.
Print Assumptions C53_canonical_refuted.

Example C53_case : ~ Forall small [C0; Ci].
Proof. exact ex_not_small. Qed.
