(** Properties C69 to C71: the backend qgate. *)
From Coq Require Import String List Arith ZArith Bool Reals.
Import ListNotations.
From Verif Require Import Base Cplx Bits ModelTargets ModelGate ModelQgate SpecTargets SpecQuantum SpecCircuit SpecMeasure SpecRun SpecQasm SpecQasmRun SpecIbmq SpecQgate ProofQgate ProofQgateRun ProofQgatePool ProofQgateEx.
Local Open Scope nat_scope.

(** C69: the operators handed to qgate *)
Theorem C69_operators : forall n gs apps, circuit_apps n gs apps -> Forall convertible gs ->
  exists ops, convert_operators n gs = Ok ops /\ map (@Some qop) ops = map qop_of apps.
Proof. exact convert_apps. Qed.
Print Assumptions C69_operators.

Theorem C69_executes : forall M phase, usual M phase -> forall rng n gs apps, circuit_apps n gs apps -> Forall convertible gs -> Forall (fun g => ~ controlled_u g) gs ->
  exists ops, convert_operators n gs = Ok ops /\
    forall w w1, exec rng n gs w w1 -> exists u, qops_exec M rng n ops w u /\ same_world u w1 /\ forall u', qops_exec M rng n ops w u' -> u' = u.
Proof. exact convert_exec. Qed.
Print Assumptions C69_executes.

Theorem C69_controlled_u : forall M phase, usual M phase -> forall c q theta phi lambd, c <> q ->
  ((exists f, Cnorm2 f = 1%R /\ forall psi, qgate_op M TU [theta; phi; lambd] false [c] q psi = scl f (sem2 (KCU3 theta phi lambd) c q psi)) <-> phase theta phi lambd = C1).
Proof. exact cu3_iff. Qed.
Print Assumptions C69_controlled_u.

Theorem C69_controlled_u2 : forall M phase, usual M phase -> forall c q phi lambd, c <> q ->
  ((exists f, Cnorm2 f = 1%R /\ forall psi, qgate_op M TU2 [phi; lambd] false [c] q psi = scl f (sem2 (KCU2 phi lambd) c q psi)) <-> phase (PI / 2)%R phi lambd = C1).
Proof. exact cu2_iff. Qed.
Print Assumptions C69_controlled_u2.

Theorem C69_unknown : forall n gs apps g rest, circuit_apps n gs apps -> Forall convertible gs -> unknown g ->
  convert_operators n (gs ++ g :: rest) = Err AssertionError.
Proof. exact convert_unknown. Qed.
Print Assumptions C69_unknown.

Theorem C69_swap_tuples_refuted : exists n gs apps, circuit_apps n gs apps /\ convert_operators n gs = Err TypeError.
Proof. exact swap_tuples. Qed.
Print Assumptions C69_swap_tuples_refuted.

Theorem C69_swap_same_refuted : exists n tg ops, qubit_pairs tg (Z.of_nat n) = Err ValueError /\ convert_operators n [GTwo KSwap tg] = Ok ops.
Proof. exact swap_same. Qed.
Print Assumptions C69_swap_same_refuted.

Example C69_example : circuit_apps 2 bell bell_apps /\ Forall convertible bell /\ Forall (fun g => ~ controlled_u g) bell /\
  convert_operators 2 bell = Ok bell_ops /\ (exists M phase, usual M phase) /\
  convert_operators 2 [GOne KH (TInt 0); GTwo KCY (TTuple [TInt 0; TInt 1])] = Err AssertionError.
Proof. exact bell_example. Qed.

(** C70: whole runs *)
Theorem C70_vector : forall Q n gs (a : qg_args Q) M rng pos, simulates Q M rng pos n -> runtime_known (qa_runtime Q a) ->
  forall phase apps, usual M phase -> circuit_apps n gs apps -> Forall convertible gs -> Forall (fun g => ~ controlled_u g) gs ->
  asked (qa_returns Q a) (qa_shots Q a) "statevector" -> forall w, exec rng n gs (start pos) w ->
  exists k, Cnorm2 k = 1%R /\ qgate_run Q gs n a = Ok (QVec (arr n (scl k (w_psi w)))).
Proof. exact run_vector. Qed.
Print Assumptions C70_vector.

Theorem C70_shots : forall Q n gs (a : qg_args Q) M rng pos, simulates Q M rng pos n -> runtime_known (qa_runtime Q a) ->
  forall phase apps, usual M phase -> circuit_apps n gs apps -> Forall convertible gs -> Forall (fun g => ~ controlled_u g) gs ->
  0 < n -> asked (qa_returns Q a) (qa_shots Q a) "shots" -> forall N qs, default 0%Z (qa_shots Q a) = Z.of_nat N -> ascending qs -> (forall q, In q qs <-> measures apps q) ->
  exists d ws, qgate_run Q gs n a = Ok (QHist d) /\ shots rng n (measured_last gs qs) pos ws /\ List.length ws = N /\ tallies string_dec d (map (shot_text n) ws).
Proof. exact run_shots. Qed.
Print Assumptions C70_shots.

Theorem C70_measured_once : forall Q n (a : qg_args Q) M rng pos, simulates Q M rng pos n -> runtime_known (qa_runtime Q a) ->
  forall phase pre apps tg l, usual M phase -> circuit_apps n pre apps -> Forall convertible pre -> Forall (fun g => ~ controlled_u g) pre -> Forall unmeasured pre ->
  denotes (Z.of_nat n) tg l -> Forall (inside n) l -> ascending (map Z.to_nat l) ->
  0 < n -> asked (qa_returns Q a) (qa_shots Q a) "shots" -> forall N, default 0%Z (qa_shots Q a) = Z.of_nat N ->
  exists d ws, qgate_run Q (pre ++ [GMeasure tg]) n a = Ok (QHist d) /\ shots rng n (pre ++ [GMeasure tg]) pos ws /\ List.length ws = N /\ tallies string_dec d (map (shot_text n) ws).
Proof. exact run_once. Qed.
Print Assumptions C70_measured_once.

Theorem C70_both : forall Q n gs (a : qg_args Q) M rng pos, simulates Q M rng pos n -> runtime_known (qa_runtime Q a) ->
  forall phase apps, usual M phase -> circuit_apps n gs apps -> Forall convertible gs -> Forall (fun g => ~ controlled_u g) gs ->
  0 < n -> asked (qa_returns Q a) (qa_shots Q a) "statevector_and_shots" -> (forall z, qa_shots Q a = Some z -> (z <= 1)%Z) -> forall w, exec rng n gs (start pos) w ->
  exists k, Cnorm2 k = 1%R /\ qgate_run Q gs n a = Ok (QBoth (arr n (scl k (w_psi w))) [(shot_text n w, 1)]).
Proof. exact run_both. Qed.
Print Assumptions C70_both.

Theorem C70_runtime : forall Q n gs (a : qg_args Q), ~ runtime_known (qa_runtime Q a) -> qgate_run Q gs n a = Err RuntimeError.
Proof. exact run_unknown_runtime. Qed.
Print Assumptions C70_runtime.

Theorem C70_convert : forall Q n gs (a : qg_args Q) M rng pos, simulates Q M rng pos n -> runtime_known (qa_runtime Q a) ->
  forall s e, asked (qa_returns Q a) (qa_shots Q a) s -> convert_operators n gs = Err e -> qgate_run Q gs n a = Err e.
Proof. exact run_convert_error. Qed.
Print Assumptions C70_convert.

Theorem C70_returns : forall Q n gs (a : qg_args Q) M rng pos, simulates Q M rng pos n -> runtime_known (qa_runtime Q a) ->
  forall s ops, asked (qa_returns Q a) (qa_shots Q a) s -> convert_operators n gs = Ok ops ->
  ~ In s ["statevector"; "shots"; "statevector_and_shots"]%string \/ (s = "statevector_and_shots"%string /\ exists z, qa_shots Q a = Some z /\ (1 < z)%Z) ->
  qgate_run Q gs n a = Err RuntimeError.
Proof. exact run_returns_error. Qed.
Print Assumptions C70_returns.

Theorem C70_measured_early_refuted : exists n gs apps, circuit_apps n gs apps /\ Forall convertible gs /\
  forall Q M phase rng pos, usual M phase -> simulates Q M rng pos n -> draws_ok rng -> forall N ws, 0 < N -> shots rng n gs pos ws -> List.length ws = N ->
  exists d, qgate_run Q gs n (QgArgs Q None None None (Some (Z.of_nat N)) None) = Ok (QHist d) /\ ~ tallies string_dec d (map (shot_text n) ws).
Proof. exact measured_early. Qed.
Print Assumptions C70_measured_early_refuted.

Example C70_example : forall rng, exists Q M phase, usual M phase /\ (forall n, simulates Q M rng 0 n) /\
  circuit_apps 2 bell bell_apps /\ Forall convertible bell /\ Forall (fun g => ~ controlled_u g) bell /\
  asked None (Some 5%Z) "shots" /\ asked (Some "statevector_and_shots"%string) (Some 1%Z) "statevector_and_shots" /\ asked None None "statevector" /\
  ascending [0; 1] /\ (forall q, In q [0; 1] <-> measures bell_apps q) /\ format_bits 3 4 = "100"%string /\ format_bits 0 0 = "0"%string.
Proof. exact run_example. Qed.

(** C71: the sampling pool *)
Theorem C71_pool : forall rng, draws_ok rng -> forall n qs psi lanes, NoDup qs -> norm2 n psi = 1%R -> ascending lanes -> forall N pos, exists us obs,
  pool_sample rng N (List.length qs) (map (marginal n qs psi) (seq 0 (2 ^ List.length qs))) lanes pos = (Ok obs, pos + N * List.length qs)%nat /\
  pool_shots rng n psi qs pos us /\ List.length us = N /\
  Forall2 (fun w v => forall j, Z.testbit v (Z.of_nat j) = if existsb (Nat.eqb j) lanes then false else match nth_error qs (j - lanes_below lanes j) with Some q => negb (w_bits w q =? 0) | None => false end) us obs /\
  Forall (fun w => 0 < marginal n qs psi (Z.to_nat (places qs w)))%R us.
Proof. exact pool_sample_ok. Qed.
Print Assumptions C71_pool.

Theorem C71_lanes : forall lanes, ascending lanes -> lanes <> [] -> exists masks, shift_masks lanes = Ok masks /\
  forall v j, Z.testbit (shift_value masks v) (Z.of_nat j) = if existsb (Nat.eqb j) lanes then false else Z.testbit v (Z.of_nat (j - lanes_below lanes j)).
Proof. exact shift_ok. Qed.
Print Assumptions C71_lanes.

Example C71_example : draws_ok (fun _ => (/ 2)%R) /\ NoDup [0] /\ norm2 1 (ket 1) = 1%R /\ ascending [1; 3] /\
  shift_masks [1; 3] = Ok [1; 4; -16]%Z /\ shift_value [1; 4; -16]%Z 7 = 21%Z /\ lanes_below [1; 3] 4 = 2.
Proof. exact pool_example. Qed.
