(** Specification of the execution of OpenQASM programs, with measurements and resets, with a given stream of random numbers. *)
From Coq Require Import String List Arith Bool Reals.
Import ListNotations.
From Verif Require Import Cplx Bits SpecQuantum SpecCircuit SpecMeasure SpecQasm.
Local Open Scope nat_scope.

Section Random.
Variable rng : nat -> R.

(** measure q[q] -> c[c]: the outcome is written to bit [c] of the classical register *)
Definition qmeasure (n q c : nat) (w : world) : world :=
  let b := outcome rng n q w in
  World (collapse n q b (w_psi w)) (update (w_bits w) c (if b then 1 else 0)) (S (w_pos w)).

(** statements of a program with [n] qubits; a gate that qelib1.inc does not define cannot be executed *)
Inductive stmt_exec (n : nat) : stmt -> world -> world -> Prop :=
| se_gate : forall name ps qs P w, qelib name ps qs = Some P ->
    stmt_exec n (SGate name ps qs) w (World (apply_all (map prim_op P) (w_psi w)) (w_bits w) (w_pos w))
| se_measure : forall q c w, stmt_exec n (SMeasure q c) w (qmeasure n q c w)
| se_reset : forall q w, stmt_exec n (SReset q) w (reset1 rng n q w).
Inductive body_exec (n : nat) : list stmt -> world -> world -> Prop :=
| be_nil : forall w, body_exec n [] w w
| be_cons : forall s l w w1 w2, stmt_exec n s w w1 -> body_exec n l w1 w2 -> body_exec n (s :: l) w w2.

(** consecutive shots of a program; qubits and bits are 0 at the beginning of a shot *)
Inductive prog_shots (p : prog) : nat -> list world -> Prop :=
| ps_nil : forall pos, prog_shots p pos []
| ps_cons : forall pos w ws, body_exec (p_qreg p) (p_body p) (start pos) w -> prog_shots p (w_pos w) ws -> prog_shots p pos (w :: ws).
End Random.

(** the same bits, the same number of random numbers, the same state up to a global phase *)
Definition same_world (w w' : world) : Prop :=
  w_bits w = w_bits w' /\ w_pos w = w_pos w' /\ exists k, Cnorm2 k = 1%R /\ w_psi w = scl k (w_psi w').
