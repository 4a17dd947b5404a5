(** Specification of quantum operations: textbook matrices acting on state vectors.
    A state vector is a function from basis indices to amplitudes; qubit [t] is bit [t] of the index.
    Nothing here refers to the model of the code, except for the names of the gates. *)
From Coq Require Import List Arith Bool Reals.
Import ListNotations.
From Verif Require Import Cplx Bits ModelGate.
Local Open Scope R_scope.

Definition state : Type := nat -> C.
Definition oper : Type := state -> state.

(** 2x2 matrices, by row and column *)
Definition mat2 : Type := bool -> bool -> C.
Definition mk2 (a b c d : C) : mat2 := fun r s =>
  match r, s with false, false => a | false, true => b | true, false => c | true, true => d end.
Definition mmul (A B : mat2) : mat2 := fun r s => (A r false * B false s + A r true * B true s)%C.
Definition mscale (k : C) (A : mat2) : mat2 := fun r s => (k * A r s)%C.
Definition madj (A : mat2) : mat2 := fun r s => Cconj (A s r).
Definition mI : mat2 := mk2 C1 C0 C0 C1.

(** matrix [M] applied to qubit [t] *)
Definition ap1 (M : mat2) (t : nat) : oper := fun psi x =>
  (M (bit x t) false * psi (setb x t false) + M (bit x t) true * psi (setb x t true))%C.
(** operation [U] controlled by qubit [c] *)
Definition ctl (c : nat) (U : oper) : oper := fun psi x => if bit x c then U psi x else psi x.
(** exchange of two qubits *)
Definition swp (a b : nat) : oper := fun psi x => psi (setb (setb x a (bit x b)) b (bit x a)).
(** multiplication by a number *)
Definition scl (k : C) : oper := fun psi x => (k * psi x)%C.
(** exp(-i theta/2 P (x) P) on qubits [a], [b], for an involution [P] *)
Definition rot2 (P : mat2) (theta : R) (a b : nat) : oper := fun psi x =>
  (RtoC (cos (theta / 2)) * psi x - Ci * RtoC (sin (theta / 2)) * ap1 P a (ap1 P b psi) x)%C.

Definition mX := mk2 C0 C1 C1 C0.
Definition mY := mk2 C0 (- Ci)%C Ci C0.
Definition mZ := mk2 C1 C0 C0 (- C1)%C.
Definition mH := mscale (RtoC (/ sqrt 2)) (mk2 C1 C1 C1 (- C1)%C).
(** diag(1, e^(i theta)) *)
Definition mPhase (theta : R) := mk2 C1 C0 C0 (cis theta).
Definition mRX (theta : R) := mk2 (RtoC (cos (theta / 2))) (- Ci * RtoC (sin (theta / 2)))%C
                                  (- Ci * RtoC (sin (theta / 2)))%C (RtoC (cos (theta / 2))).
Definition mRY (theta : R) := mk2 (RtoC (cos (theta / 2))) (RtoC (- sin (theta / 2)))
                                  (RtoC (sin (theta / 2))) (RtoC (cos (theta / 2))).
Definition mRZ (theta : R) := mk2 (cis (- (theta / 2))) C0 C0 (cis (theta / 2)).
(** OpenQASM 2.0: U(theta,phi,lambda) := Rz(phi) Ry(theta) Rz(lambda) *)
Definition mU3 (theta phi lambd : R) := mmul (mRZ phi) (mmul (mRY theta) (mRZ lambd)).

Definition mat1 (k : g1) : mat2 :=
  match k with
  | KI => mI | KX => mX | KY => mY | KZ => mZ | KH => mH
  | KT => mPhase (PI / 4) | KTdg => mPhase (- (PI / 4))
  | KS => mPhase (PI / 2) | KSdg => mPhase (- (PI / 2))
  | KRX t => mRX t | KRY t => mRY t | KRZ t => mRZ t | KPhase t => mPhase t
  | KU1 l => mRZ l
  | KU2 p l => mU3 (PI / 2) p l
  | KU3 t p l => mU3 t p l
  end.

Definition sem1 (k : g1) (t : nat) : oper := ap1 (mat1 k) t.

(** The controlled gates control their one qubit matrix.  cu1 is cphase up to the global phase e^(-i lambda/4)
    (its docstring says "as same as CPhase gate"). *)
Definition sem2 (k : g2) (c t : nat) : oper :=
  match k with
  | KCX => ctl c (ap1 mX t)
  | KCZ => ctl c (ap1 mZ t)
  | KCY => ctl c (ap1 mY t)
  | KCH => ctl c (ap1 mH t)
  | KCRX th => ctl c (ap1 (mRX th) t)
  | KCRY th => ctl c (ap1 (mRY th) t)
  | KCRZ th => ctl c (ap1 (mRZ th) t)
  | KCPhase th => ctl c (ap1 (mPhase th) t)
  | KRXX th => rot2 mX th c t
  | KRYY th => rot2 mY th c t
  | KRZZ th => rot2 mZ th c t
  | KSwap => swp c t
  | KCU1 l => fun psi => scl (cis (- (l / 4))) (ctl c (ap1 (mPhase l) t) psi)
  | KCU2 p l => ctl c (ap1 (mU3 (PI / 2) p l) t)
  | KCU3 th p l => ctl c (ap1 (mU3 th p l) t)
  end.

Definition sem3 (k : g3) (a b c : nat) : oper :=
  match k with
  | KCCX => ctl a (ctl b (ap1 mX c))
  | KCCZ => ctl a (ctl b (ap1 mZ c))
  | KCSwap => ctl a (swp b c)
  end.

(** the basis state |k> *)
Definition ket (k : nat) : state := fun x => if x =? k then C1 else C0.

(** total squared modulus of the amplitudes of an [n] qubit state, and inner product *)
Definition norm2 (n : nat) (psi : state) : R := Rsum (fun x => Cnorm2 (psi x)) (seq 0 (2 ^ n)).
Definition inner (n : nat) (phi psi : state) : C := Csum (fun x => (Cconj (phi x) * psi x)%C) (seq 0 (2 ^ n)).

(** the array of the amplitudes of an [n] qubit state *)
Definition arr (n : nat) (psi : state) : list C := map psi (seq 0 (2 ^ n)).
