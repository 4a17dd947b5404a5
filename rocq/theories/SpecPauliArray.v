(** Specification of the arrays of Pauli matrices. *)
From Coq Require Import String List Arith Bool Reals.
Import ListNotations.
From Verif Require Import Base Cplx Bits SpecQuantum ModelPauli SpecPauli ModelPauliMatrix SpecPauliMatrix ModelPauliArray.
Local Open Scope nat_scope.

(** the operator on one qubit that an object stands for *)
Definition letter_of (o : owner) : option letter := match o with Operator PId => None | Operator (PP (l, _)) | Ctor l => Some l end.
Definition one_qubit (l : option letter) : oper := match l with None => op_one | Some l => ap1 (lmat l) 0 end.
(** [x] is the 2 x 2 array of this operator *)
Definition array_of (l : option letter) (x : array) : Prop := matrix_of 1 (one_qubit l) (SDense 2 x).
(** The user writes to arrays they were given, and not to those of the module *)
Definition leaves_table (k : acall) : Prop := match k with Write a _ _ _ => ~ In a [0; 1; 2; 3] | _ => True end.
(** the arrays that were handed out *)
Definition given (rs : list (res aval)) (a : nat) : Prop := In (Ok (ANew a)) rs.
(** element [i], [j] of the product of two 2 x 2 arrays *)
Definition elem (x : array) (i j : nat) : C := nth j (nth i x []) C0.
Definition product (x y : array) (i j : nat) : C := (elem x i 0 * elem y 0 j + elem x i 1 * elem y 1 j)%C.
(** a 2 x 2 array has the element [i], [j] *)
Definition has_elem (x : array) (i j : nat) : Prop := exists row, nth_error x i = Some row /\ j < List.length row.
(** from [x] to [x'], the element [i], [j] has become [z] and the others are as before *)
Definition elem_set (x x' : array) (i j : nat) (z : C) : Prop :=
  elem x' i j = z /\ (forall i' j', ~ (i' = i /\ j' = j) -> elem x' i' j' = elem x i' j') /\ (forall i' j', has_elem x' i' j' <-> has_elem x i' j').
