(** C96: the property [matrix] of Pauli operators. *)
From Coq Require Import String List Arith Bool Reals Lia.
Import ListNotations.
From Verif Require Import Base Cplx Bits SpecQuantum ModelPauli SpecPauli ModelPauliMatrix SpecPauliMatrix ModelPauliArray SpecPauliArray ProofPauliArray.
Local Open Scope nat_scope.

(** C96: Whatever was asked before and whatever was written to the arrays that were given out, [matrix] gives the matrix of the operator, in an array that is
    neither one of those nor one of the module. *)
Theorem C96_right : forall ks rs m o, Forall leaves_table ks -> asteps table_arrays ks = (rs, m) ->
  exists a x m', astep m (GetMatrix o) = (Ok (ANew a), m') /\ ~ given rs a /\ ~ In a [0; 1; 2; 3] /\ nth_error m' a = Some x /\ array_of (letter_of o) x.
Proof. exact right_lemma. Qed.
Print Assumptions C96_right.

(** C96: An array changes only when it is written to: later answers and writes to other arrays leave it alone. *)
Theorem C96_kept : forall ks m rs m' b, asteps m ks = (rs, m') -> b < List.length m -> (forall i j z, ~ In (Write b i j z) ks) -> nth_error m' b = nth_error m b.
Proof. exact kept_lemma. Qed.
Print Assumptions C96_kept.

(** C96: Writing changes the element that is written and no other one; an element that is not there raises IndexError and changes nothing. *)
Theorem C96_write : forall m a x i j z, nth_error m a = Some x ->
  (has_elem x i j -> exists m' x', astep m (Write a i j z) = (Ok ADone, m') /\ nth_error m' a = Some x' /\ elem_set x x' i j z) /\
  (~ has_elem x i j -> astep m (Write a i j z) = (Err IndexError, m)).
Proof. exact write_lemma. Qed.
Print Assumptions C96_write.
Theorem C96_read : forall m a x i j, nth_error m a = Some x ->
  (has_elem x i j -> astep m (Read a i j) = (Ok (AElement (elem x i j)), m)) /\ (~ has_elem x i j -> astep m (Read a i j) = (Err IndexError, m)).
Proof. exact read_lemma. Qed.
Print Assumptions C96_read.

(** X.matrix; the array is overwritten; X[3].matrix; I.matrix; an element outside of the array *)
Example C96_case : let ks := [GetMatrix (Ctor LX); Write 4 0 0 Ci; GetMatrix (Operator (PP (LX, 3))); GetMatrix (Operator PId); Write 4 2 0 C1] in
  Forall leaves_table ks /\
  asteps table_arrays ks = ([Ok (ANew 4); Ok ADone; Ok (ANew 5); Ok (ANew 6); Err IndexError],
    (table_arrays ++ [[[Ci; C1]; [C1; C0]]; [[C0; C1]; [C1; C0]]; [[C1; C0]; [C0; C1]]])%list) /\ (forall i j z, ~ In (Write 5 i j z) ks).
Proof. split; [repeat constructor; cbn; lia|]. split; [reflexivity|]. intros i j z I. cbn in I. intuition discriminate. Qed.

(** C96: The array has the elements of to_matrix on one qubit, in every layout. *)
Theorem C96_to_matrix : forall l x sp, array_of l x -> exists sm,
  pauli_matrix (match l with None => PId | Some a => PP (a, 0) end) (Some 1) sp = Ok (sp, sm) /\ forall r c, r < 2 -> c < 2 -> entry sm r c = elem x r c.
Proof. exact matrix_agrees. Qed.
Print Assumptions C96_to_matrix.

(** C96: The table of products of Pauli operators is that of the products of these arrays. *)
Theorem C96_products : forall a b x y z, array_of (Some a) x -> array_of (Some b) y -> array_of (snd (mul_map a b)) z ->
  forall i j, i < 2 -> j < 2 -> product x y i j = (fst (mul_map a b) * elem z i j)%C.
Proof. exact product_lemma. Qed.
Print Assumptions C96_products.

Example C96_arrays_case : array_of (Some LY) [[C0; - Ci]; [Ci; C0]]%C /\ array_of (Some LX) [[C0; C1]; [C1; C0]] /\ array_of (snd (mul_map LX LY)) [[C1; C0]; [C0; - C1]]%C.
Proof.
  destruct (table_right (Some LY)) as (y & [= <-] & Y). destruct (table_right (Some LX)) as (x & [= <-] & X). destruct (table_right (Some LZ)) as (z & [= <-] & Z).
  exact (conj Y (conj X Z)).
Qed.
