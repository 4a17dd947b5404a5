(** Specification of matrices of circuits. *)
From Coq Require Import List Arith ZArith Bool Reals.
Import ListNotations.
From Verif Require Import Base Cplx Bits ModelTargets ModelGate SpecTargets SpecQuantum SpecCircuit ModelSympy.

(** [m] is the matrix of [U] on [n] qubits: 2^n rows of 2^n numbers, column [c] is the image of the basis state [c] *)
Definition is_matrix (n : nat) (U : oper) (m : list (list C)) : Prop :=
  length m = 2 ^ n /\ Forall (fun row => length row = 2 ^ n) m /\
  forall r c, r < 2 ^ n -> c < 2 ^ n -> nth c (nth r m []) C0 = U (ket c) r.

(** the same targets, without repetitions *)
Definition without_repetitions (l l' : list Z) : Prop := NoDup l' /\ forall z, In z l' <-> In z l.
(** gates whose matrix the sympy backend knows for one qubit *)
Definition direct (k : g1) : bool := match k with KI | KT | KTdg | KS | KSdg => false | _ => true end.
(** The operators of a gate call when a one qubit gate is applied once to each different target. *)
Inductive gate_ops_once (n : nat) : gate -> list oper -> Prop :=
| goo_one : forall k tg l l', direct k = true -> denotes (Z.of_nat n) tg l -> Forall (inside n) l -> without_repetitions l l' ->
    gate_ops_once n (GOne k tg) (map (fun t => sem1 k (Z.to_nat t)) l')
| goo_other : forall g o, gate_ops n g o -> (forall k tg, g = GOne k tg -> direct k = false) -> gate_ops_once n g o.
Inductive circuit_ops_once (n : nat) : list gate -> list oper -> Prop :=
| coo_nil : circuit_ops_once n [] []
| coo_cons : forall g gs o os, gate_ops_once n g o -> circuit_ops_once n gs os -> circuit_ops_once n (g :: gs) (o ++ os)
| coo_skip : forall g gs os, (exists tg, g = GMeasure tg \/ g = GReset tg) -> circuit_ops_once n gs os -> circuit_ops_once n (g :: gs) os.
(** no qubit is listed twice *)
Definition unrepeated (n : nat) (g : gate) : Prop := forall k tg l, g = GOne k tg -> direct k = true -> denotes (Z.of_nat n) tg l -> NoDup l.
