(** Property theorems: the OpenQASM text of a circuit, executed with measurements and resets, does what the circuit does (C66).
    [exec], [shots] execute circuits and [body_exec], [prog_shots] programs, with the same random numbers. *)
From Coq Require Import String List Arith ZArith Bool Reals.
Import ListNotations.
From Verif Require Import Base Cplx Bits ModelTargets ModelGate ModelNumpy ModelBackend ModelQasm SpecTargets SpecQuantum SpecCircuit SpecMeasure SpecRun SpecQasm SpecQasmRun
  ProofBackend ProofCache ProofBorn ProofQasm ProofQasmProps ProofQasmRun ProofIbmqEx.
Local Open Scope nat_scope.

(** C66.  From every state the program has exactly one execution: the same outcomes in the classical register, the same random numbers used and the same
    state up to a global phase.  Missing for the full claim: cu2 (C29_cu2_refuted). *)
Theorem C66_run_partial : forall rng show read n gs apps, circuit_apps n gs apps -> Forall is_method gs -> Forall not_cu2 gs ->
  Forall (legible show read) (flat_map stmt_params (flat_map block apps)) ->
  exists text body, qasm_run show gs n true = Ok text /\ read_program read text = Some (Prog n n body) /\
    forall w w1, exec rng n gs w w1 -> exists u, body_exec rng n body w u /\ same_world u w1 /\ forall u', body_exec rng n body w u' -> u' = u.
Proof. exact text_exec. Qed.
Print Assumptions C66_run_partial.
(** Consecutive shots. *)
Theorem C66_shots_partial : forall rng show read n gs apps, circuit_apps n gs apps -> Forall is_method gs -> Forall not_cu2 gs ->
  Forall (legible show read) (flat_map stmt_params (flat_map block apps)) ->
  exists text p, qasm_run show gs n true = Ok text /\ read_program read text = Some p /\ p_qreg p = n /\ p_creg p = n /\
    forall pos ws, shots rng n gs pos ws -> exists us, prog_shots rng p pos us /\ Forall2 same_world us ws.
Proof. exact text_shots. Qed.
Print Assumptions C66_shots_partial.
(** The counts of the numpy backend are the counts of the classical registers of the program. *)
Theorem C66_counts_partial : forall rng show read n gs apps N pos b, draws_ok rng -> 0 < n -> circuit_apps n gs apps -> Forall is_method gs -> Forall not_cu2 gs ->
  Forall (legible show read) (flat_map stmt_params (flat_map block apps)) -> cache_ok n gs (clear_cache_if_invalid b n) ->
  exists text p c us b' pos', qasm_run show gs n true = Ok text /\ read_program read text = Some p /\ prog_shots rng p pos us /\ List.length us = N /\
    np_run rng b gs n (RunArgs (Some (Z.of_nat N)) None false) pos = (Ok (RShots c), b', pos') /\
    forall k, lookup c k = count_occ (list_eq_dec Nat.eq_dec) (map (outcomes n) us) k.
Proof. exact text_counts. Qed.
Print Assumptions C66_counts_partial.
Example C66_case : circuit_apps 2 run_gates run_apps /\ Forall is_method run_gates /\ Forall not_cu2 run_gates /\
  Forall (legible show_ex read_ex) (flat_map stmt_params (flat_map block run_apps)).
Proof. exact run_case. Qed.
