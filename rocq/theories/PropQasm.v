(** Property theorems: OpenQASM output (C29, C30).
    [show] prints angles; angles that the text contains must be printed as a word that is read back as the angle ([legible]). *)
From Coq Require Import String Ascii List Arith ZArith Bool Reals.
Import ListNotations.
From Verif Require Import Base Cplx Bits ModelTargets ModelGate ModelNumpy ModelBackend ModelQasm SpecTargets SpecQuantum SpecCircuit SpecQasm
  ProofBackend ProofQasmProps.
Local Open Scope list_scope.

(** C29.  The text is a program with registers of n qubits and n bits, and the statements of the applications of the gates, in order.
    Gates that OpenQASM has a name for are one statement on the qubits of the application; crx, cry, crz, rxx, ryy, rzz are several.
    Without cu2 all statements are defined operations on different qubits of the register.
    Missing for the full claim: cu2, negative indices beyond the register (both refuted below), one statement for the expanded gates. *)
Theorem C29_partial : forall show read n gs apps, circuit_apps n gs apps -> Forall is_method gs ->
  Forall (legible show read) (flat_map stmt_params (flat_map block apps)) ->
  (exists text, qasm_run show gs n true = Ok text /\ read_program read text = Some (Prog n n (flat_map block apps))) /\
  (exists text, qasm_run show gs n false = Ok text /\ read_body read text = Some (flat_map block apps)) /\
  Forall (fun a => (named a = true -> exists s, block a = [s] /\ stmt_qubits s = app_qubits a) /\
    block a <> [] /\ Forall (fun s => incl (stmt_qubits s) (app_qubits a)) (block a)) apps /\
  (Forall not_cu2 gs -> Forall (stmt_ok n) (flat_map block apps)).
Proof. exact text_read. Qed.
Print Assumptions C29_partial.
(** cu2 is neither in OpenQASM 2.0 nor in qelib1.inc. *)
Theorem C29_cu2_refuted : forall show read x y, legible show read x -> legible show read y ->
  circuit_ops 2 [cu2_gate x y] [sem2 (KCU2 x y) 0 1] /\ is_method (cu2_gate x y) /\
  exists text, qasm_run show [cu2_gate x y] 2 true = Ok text /\ read_program read text = Some (Prog 2 2 [SGate "cu2" [x; y] [0; 1]]) /\ qelib "cu2" [x; y] [0; 1] = None.
Proof. exact cu2_undefined. Qed.
Print Assumptions C29_cu2_refuted.
(** Circuit(2).x[-3] and Circuit(3).ccx[0, 1, -1] give q[-1], which is not OpenQASM. *)
Theorem C29_index_refuted : forall show read,
  (exists text, qasm_run show [GOne KX (TInt (-3))] 2 true = Ok text /\ read_program read text = None) /\
  (exists text, qasm_run show [GThree KCCX (TTuple [TInt 0; TInt 1; TInt (-1)])] 3 true = Ok text /\ read_program read text = None).
Proof. exact index_unreadable. Qed.
Print Assumptions C29_index_refuted.
(** Circuit(3).ccx[:1, 1:2:1, 2] writes the slices into the text, which is not OpenQASM. *)
Theorem C29_slice_refuted : forall show read, exists text,
  qasm_run show [GThree KCCX (TTuple [TSlice None (Some 1%Z) None; TSlice (Some 1%Z) (Some 2%Z) (Some 1%Z); TInt 2])] 3 false = Ok text /\
  text = "ccx q[slice(None, 1, None)],q[slice(1, 2, 1)],q[2];"%string /\ read_body read text = None.
Proof. exact slice_unreadable. Qed.
Print Assumptions C29_slice_refuted.

(** C30.  The operations of the text are the operator of the circuit up to a global phase.  Missing for the full claim: cu2, which has no meaning (C29_cu2_refuted). *)
Theorem C30_partial : forall show read n gs apps ops, circuit_apps n gs apps -> circuit_ops n gs ops -> Forall is_method gs -> Forall not_cu2 gs ->
  Forall (legible show read) (flat_map stmt_params (flat_map block apps)) ->
  exists text body us k, qasm_run show gs n true = Ok text /\ read_program read text = Some (Prog n n body) /\ body_ops body = Some us /\
    Cnorm2 k = 1%R /\ forall psi, apply_all us psi = scl k (apply_all ops psi).
Proof. exact text_operator. Qed.
Print Assumptions C30_partial.
(** every circuit with operators has a list of applications *)
Theorem C30_apps : forall n gs ops, circuit_ops n gs ops -> exists apps, circuit_apps n gs apps.
Proof. exact apps_exist. Qed.
Print Assumptions C30_apps.
Example C29_case : circuit_apps 2 qasm_gates qasm_apps /\ (exists ops, circuit_ops 2 qasm_gates ops) /\ Forall is_method qasm_gates /\ Forall not_cu2 qasm_gates /\
  Forall (legible show_ex read_ex) (flat_map stmt_params (flat_map block qasm_apps)).
Proof. exact qasm_case. Qed.
Example C29_cu2_case : legible show_ex read_ex 1.
Proof. exact legible_1. Qed.
