(** Specification of what a gate with targets, and a list of gates, does to a state vector. *)
From Coq Require Import List Arith ZArith Bool Reals.
Import ListNotations.
From Verif Require Import Base Cplx Bits ModelTargets ModelGate SpecTargets SpecQuantum.

(** operators applied one after the other, the first of the list first *)
Definition apply_all (ops : list oper) (psi : state) : state := fold_left (fun s U => U s) ops psi.

Definition inside (n : nat) (z : Z) : Prop := (0 <= z < Z.of_nat n)%Z.

(** The operators that a gate call stands for on a register of [n] qubits. *)
Inductive gate_ops (n : nat) : gate -> list oper -> Prop :=
| go_one : forall k tg l, denotes (Z.of_nat n) tg l -> Forall (inside n) l ->
    gate_ops n (GOne k tg) (map (fun t => sem1 k (Z.to_nat t)) l)
| go_two : forall k tg ps, denotes_pairs (Z.of_nat n) tg ps ->
    Forall (fun p => inside n (fst p) /\ inside n (snd p)) ps ->
    gate_ops n (GTwo k tg) (map (fun p => sem2 k (Z.to_nat (fst p)) (Z.to_nat (snd p))) ps)
| go_three : forall k a b c, inside n a -> inside n b -> inside n c -> a <> b -> a <> c -> b <> c ->
    gate_ops n (GThree k (TTuple [TInt a; TInt b; TInt c])) [sem3 k (Z.to_nat a) (Z.to_nat b) (Z.to_nat c)].

(** The operators of a list of gates, in order. *)
Inductive circuit_ops (n : nat) : list gate -> list oper -> Prop :=
| co_nil : circuit_ops n [] []
| co_cons : forall g gs o os, gate_ops n g o -> circuit_ops n gs os -> circuit_ops n (g :: gs) (o ++ os).
