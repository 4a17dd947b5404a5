(** Property theorems: the backend ibmq (C67) and the sampler get_qiskit_sampler (C68).
    [Q] is any Qiskit; [executes Q read rng pos key b kw]: on the device [b] this Qiskit executes the programs it is given, and [key] is the text of a register. *)
From Coq Require Import String Ascii List Arith ZArith Bool Reals.
Import ListNotations.
From Verif Require Import Base Cplx Bits ModelTargets ModelGate ModelNumpy ModelBackend ModelCircuit ModelPauli ModelQasm ModelVqe ModelIbmq SpecTargets SpecQuantum SpecCircuit SpecMeasure
  SpecRun SpecAPI SpecPauli SpecVqe SpecQasm SpecQasmRun SpecIbmq ProofBackend ProofVqeEx ProofQasm ProofQasmProps ProofIbmq ProofIbmqCalls ProofIbmqVqe ProofIbmqText ProofIbmqEx.
Local Open Scope nat_scope.

(** C67.  With a device whose texts are c[n-1] ... c[0], the counter has every outcome of the shots once, qubit 0 first, with its number.
    Missing for the full claim: cu2, and devices with hexadecimal texts (refuted below). *)
Theorem C67_counts_partial : forall Q show read rng n gs apps, circuit_apps n gs apps -> Forall is_method gs -> Forall not_cu2 gs ->
  Forall (legible show read) (flat_map stmt_params (flat_map block apps)) -> 0 < n ->
  forall pos b kw N, executes Q read rng pos register_text b kw -> forall s, match s with Some z => z | None => 1024%Z end = Z.of_nat N ->
  forall back, back = Some b \/ (back = None /\ qk_aer Q "qasm_simulator" = Ok b) ->
  exists d ws cs, ibmq_run Q show gs n back s None kw = (Ok (QCounts Q d), cs) /\ shots rng n gs pos ws /\ List.length ws = N /\
    tallies string_dec d (map (shot_text n) ws) /\ list_sum (map snd d) = N.
Proof. exact ibmq_counts. Qed.
Print Assumptions C67_counts_partial.
(** Hexadecimal texts are reversed as if they were bits: every key ends in x0 and none is the text of an outcome. *)
Theorem C67_hex_refuted : forall Q show read rng n gs apps, circuit_apps n gs apps -> Forall is_method gs -> Forall not_cu2 gs ->
  Forall (legible show read) (flat_map stmt_params (flat_map block apps)) -> 0 < n ->
  forall pos b kw N, executes Q read rng pos register_hex b kw -> 0 < N ->
  exists d ws cs, ibmq_run Q show gs n (Some b) (Some (Z.of_nat N)) None kw = (Ok (QCounts Q d), cs) /\ shots rng n gs pos ws /\ List.length ws = N /\
    d <> [] /\ Forall (fun kv : string * nat => exists s, fst kv = (s ++ "x0")%string) d /\ forall (kv : string * nat) w, In kv d -> fst kv <> shot_text n w.
Proof. exact hex_keys. Qed.
Print Assumptions C67_hex_refuted.
(** What is asked of Qiskit, in order, and what is returned, for each value of returns; an exception is the exception of the last call. *)
Theorem C67_session : forall Q show gs n back s r kw text, qasm_run show gs n true = Ok text -> qk_import Q = None -> returns_known (named_returns r) ->
  forall x cs, ibmq_run Q show gs n back s r kw = (x, cs) ->
  match x with Ok o => session Q text back s kw (named_returns r) o cs | Err e => exists ev l, cs = (l ++ [ev])%list /\ raised Q e ev end.
Proof. exact ibmq_session. Qed.
Print Assumptions C67_session.
(** Nothing is asked of Qiskit if there is no text, if returns is not known, or if Qiskit cannot be imported. *)
Theorem C67_refused : forall Q show gs n back s r kw,
  (forall e, qasm_run show gs n true = Err e -> ibmq_run Q show gs n back s r kw = (Err e, [])) /\
  (forall text, qasm_run show gs n true = Ok text ->
    (~ returns_known (named_returns r) -> ibmq_run Q show gs n back s r kw = (Err ValueError, [])) /\
    (forall e, returns_known (named_returns r) -> named_returns r <> "_exception"%string -> qk_import Q = Some e ->
      ibmq_run Q show gs n back s r kw = (Err (if exn_eqb e ImportError then ImportError else ValueError), []))).
Proof. exact ibmq_refused. Qed.
Print Assumptions C67_refused.
(** returns="_exception", which the error text recommends, raises UnboundLocalError instead of returning the exception of the import. *)
Theorem C67_exception_refuted : forall Q show gs n back s kw text e, qasm_run show gs n true = Ok text -> qk_import Q = Some e ->
  ibmq_run Q show gs n back s (Some "_exception"%string) kw = (Err UnboundLocalError, []).
Proof. exact ibmq_exception. Qed.
Print Assumptions C67_exception_refuted.

(** C68.  On circuits without measurements the sampler measures the qubits [meas] of the circuit it is given and returns the relative frequencies of their
    outcomes in the order of [meas]; other circuits do not change.  Missing for the full claim: the cases refuted below, and cu2. *)
Theorem C68_sampler_partial : forall Q show read rng qrng seen h c v apps N meas b kw sh pos key, let n := Z.to_nat (v_n v) in
  reachable rng seen h -> circuit_is h c v -> circuit_apps n (v_gates v) apps -> Forall is_method (v_gates v) -> Forall not_cu2 (v_gates v) ->
  Forall unmeasured (v_gates v) -> Forall (legible show read) (flat_map stmt_params (flat_map block apps)) ->
  meas <> [] -> Forall (fun m => m < n) meas -> 0 < N -> sh = Some (Some (Z.of_nat N)) \/ (sh = None /\ Z.of_nat N = 1024%Z) ->
  executes Q read qrng pos key b kw -> key = register_text \/ (key = register_hex /\ Forall (fun m => m <= 100) meas) ->
  exists s d ws h', qiskit_sampler Q show rng (Some b) sh kw = Ok s /\ s h c (map Z.of_nat meas) = (Ok d, h') /\
    shots qrng n (v_gates v ++ [measure_gate_of meas]) pos ws /\ List.length ws = N /\ frequencies d (map (picked meas) ws) /\ mass d = 1%R /\
    reachable rng seen h' /\ h_default h' = h_default h /\ circuit_is h' c (VCirc (v_gates v ++ [measure_gate_of meas]) (v_n v) (v_default v)) /\
    (forall c' v', c' <> c -> circuit_is h c' v' -> circuit_is h' c' v').
Proof. exact sampler_ok. Qed.
Print Assumptions C68_sampler_partial.
(** Counts whose texts differ only in bits that are not asked for overwrite each other: of two shots one is lost. *)
Theorem C68_collide_refuted : exists d d', tallies string_dec d ["00"; "01"]%string /\ qk_reduce d [1%Z] = Ok d' /\
  list_sum (map snd d) = 2 /\ list_sum (map snd d') = 1.
Proof. exact collide. Qed.
Print Assumptions C68_collide_refuted.
(** The hexadecimal text of a register of 102 zeros has no bit 101. *)
Theorem C68_hex_refuted : forall w, (forall i, w_bits w i = 0) -> qk_reduce_bits (register_hex 102 w) [101%Z] = Err IndexError.
Proof. exact hex_short. Qed.
Print Assumptions C68_hex_refuted.
(** The energy of the Hamiltonian 1 is 1 with the exact sampler and 0 with every Qiskit sampler: no bits are asked for, so nothing is measured. *)
Theorem C68_identity_refuted : forall rng, exists h c h1, reachable rng [] h /\ circuit_is h c x0 /\
  get_energy rng h one c (non_sampling_sampler rng) = (Ok 1%R, h1) /\
  forall Q show b sh kw s, qiskit_sampler Q show rng b sh kw = Ok s -> exists h2, get_energy rng h one c s = (Ok 0%R, h2).
Proof. exact identity_case. Qed.
Print Assumptions C68_identity_refuted.
Theorem C68_import : forall Q show rng b sh kw e, qk_import Q = Some e -> qiskit_sampler Q show rng b sh kw = Err e.
Proof. exact sampler_import. Qed.
Print Assumptions C68_import.
(** Any text of decimal numerals is read from the right. *)
Theorem C68_text : forall bits vs meas, prefix "0x" bits = false -> Forall2 numeral (list_ascii_of_string bits) vs ->
  Forall (fun m => m < List.length vs) meas -> qk_reduce_bits bits (map Z.of_nat meas) = Ok (map (fun m => nth m (rev vs) 0) meas).
Proof. exact text_read. Qed.
Print Assumptions C68_text.
(** Any hexadecimal text, in lower or upper case, is read as the bits of its number. *)
Theorem C68_hex_text : forall text vs meas, text <> ""%string -> Forall2 hex_numeral (list_ascii_of_string text) vs -> Forall (fun m => m <= 100) meas ->
  qk_reduce_bits ("0x" ++ text) (map Z.of_nat meas) = Ok (map (fun m => if bit (hex_value vs) m then 1 else 0) meas).
Proof. exact hex_text_read. Qed.
Print Assumptions C68_hex_text.
(** A text with another character raises ValueError whatever bits are asked for: among them the texts "01 1" of circuits with several classical registers. *)
Theorem C68_text_error : forall bits meas, prefix "0x" bits = false -> Exists (fun c => forall v, ~ numeral c v) (list_ascii_of_string bits) ->
  qk_reduce_bits bits meas = Err ValueError.
Proof. exact bad_text. Qed.
Print Assumptions C68_text_error.
(** So does "0x" alone, and "0x" before a text with a printable character that is neither a hexadecimal numeral nor the separator "_". *)
Theorem C68_hex_error : forall text meas, text = ""%string \/
  Exists (fun c => 32 < nat_of_ascii c < 127 /\ c <> "_"%char /\ forall v, ~ hex_numeral c v) (list_ascii_of_string text) ->
  qk_reduce_bits ("0x" ++ text) meas = Err ValueError.
Proof. exact bad_hex. Qed.
Print Assumptions C68_hex_error.
Example C68_text_case : Forall2 numeral (list_ascii_of_string "0110") [0; 1; 1; 0] /\ Forall2 hex_numeral (list_ascii_of_string "2aF") [2; 10; 15] /\
  Exists (fun c => forall v, ~ numeral c v) (list_ascii_of_string "01 1") /\
  Exists (fun c => 32 < nat_of_ascii c < 127 /\ c <> "_"%char /\ forall v, ~ hex_numeral c v) (list_ascii_of_string "1g").
Proof. exact text_case. Qed.
(** There is a Qiskit that executes programs, whatever the texts of registers are. *)
Example C67_case : forall read rng pos key, executes (simulator read rng pos key) read rng pos key tt tt.
Proof. exact simulator_executes. Qed.
Example C68_case : circuit_apps 2 qasm_gates qasm_apps /\ (exists ops, circuit_ops 2 qasm_gates ops) /\ Forall is_method qasm_gates /\ Forall not_cu2 qasm_gates /\
  Forall (legible show_ex read_ex) (flat_map stmt_params (flat_map block qasm_apps)).
Proof. exact qasm_case. Qed.
Example C68_unmeasured : Forall unmeasured qasm_gates.
Proof. exact unmeasured_case. Qed.
