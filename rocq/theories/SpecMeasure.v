(** Specification of measurement, reset and of whole runs with a given stream of random numbers. *)
From Coq Require Import List Arith ZArith Bool Reals.
Import ListNotations.
From Verif Require Import Cplx Bits ModelTargets ModelGate SpecTargets SpecQuantum SpecCircuit.
Local Open Scope R_scope.

(** the part of a state where qubit [t] has the value [b] *)
Definition project (t : nat) (b : bool) (psi : state) : state := fun x => if Bool.eqb (bit x t) b then psi x else C0.
(** probability of outcome [b] when qubit [t] is measured *)
Definition prob (n t : nat) (b : bool) (psi : state) : R := norm2 n (project t b psi).
(** state after outcome [b], normalised *)
Definition collapse (n t : nat) (b : bool) (psi : state) : state :=
  scl (RtoC (/ sqrt (prob n t b psi))) (project t b psi).

(** A state, the last recorded outcome of every qubit, and the number of random numbers used so far. *)
Record world : Type := World { w_psi : state; w_bits : nat -> nat; w_pos : nat }.

Definition update {A} (f : nat -> A) (k : nat) (v : A) : nat -> A := fun j => if j =? k then v else f j.

Section Random.
Variable rng : nat -> R.

(** the outcome is 0 when the number drawn is below the probability of 0 *)
Definition outcome (n t : nat) (w : world) : bool := negb (Rltb (rng (w_pos w)) (prob n t false (w_psi w))).

Definition measure1 (n t : nat) (w : world) : world :=
  let b := outcome n t w in
  World (collapse n t b (w_psi w)) (update (w_bits w) t (if b then 1 else 0)%nat) (S (w_pos w)).

(** measure without recording, then flip the qubit if it was 1 *)
Definition reset1 (n t : nat) (w : world) : world :=
  let b := outcome n t w in
  World (if b then ap1 mX t (collapse n t b (w_psi w)) else collapse n t b (w_psi w)) (w_bits w) (S (w_pos w)).

Definition each (step : nat -> world -> world) (l : list Z) (w : world) : world :=
  fold_left (fun w t => step (Z.to_nat t) w) l w.

(** execution of a gate call, of a list of gates *)
Inductive exec1 (n : nat) : gate -> world -> world -> Prop :=
| ex_ops : forall g ops w, gate_ops n g ops -> exec1 n g w (World (apply_all ops (w_psi w)) (w_bits w) (w_pos w))
| ex_measure : forall tg l w, denotes (Z.of_nat n) tg l -> Forall (inside n) l ->
    exec1 n (GMeasure tg) w (each (measure1 n) l w)
| ex_reset : forall tg l w, denotes (Z.of_nat n) tg l -> Forall (inside n) l ->
    exec1 n (GReset tg) w (each (reset1 n) l w).

Inductive exec (n : nat) : list gate -> world -> world -> Prop :=
| exec_nil : forall w, exec n [] w w
| exec_cons : forall g gs w w1 w2, exec1 n g w w1 -> exec n gs w1 w2 -> exec n (g :: gs) w w2.

(** one shot: from |0...0>, no outcome recorded *)
Definition start (pos : nat) : world := World (ket 0) (fun _ => 0%nat) pos.

(** [shots n gs pos ws]: consecutive shots, each going on in the random stream where the last one stopped *)
Inductive shots (n : nat) (gs : list gate) : nat -> list world -> Prop :=
| sh_nil : forall pos, shots n gs pos []
| sh_cons : forall pos w ws, exec n gs (start pos) w -> shots n gs (w_pos w) ws -> shots n gs pos (w :: ws).
End Random.

(** the recorded outcomes of qubits 0 ... n-1 *)
Definition outcomes (n : nat) (w : world) : list nat := map (w_bits w) (seq 0 n).

(** A gate call with targets that the simulator accepts: indices in the register, distinct qubits of a pair. *)
Definition valid_gate (n : nat) (g : gate) : Prop :=
  match g with
  | GMeasure tg | GReset tg => exists l, denotes (Z.of_nat n) tg l /\ Forall (inside n) l
  | _ => exists ops, gate_ops n g ops
  end.
Definition valid (n : nat) (gs : list gate) : Prop := Forall (valid_gate n) gs.

Definition draws_ok (rng : nat -> R) : Prop := forall i, 0 <= rng i < 1.
