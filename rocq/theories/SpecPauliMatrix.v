(** Specification of matrices: what the sparse layouts of scipy stand for, and the matrix of an operator. *)
From Coq Require Import List Arith Bool Reals.
Import ListNotations.
From Verif Require Import Base Cplx Bits SpecQuantum ModelPauli SpecPauli ModelPauliMatrix.
Local Open Scope nat_scope.

Definition at0 (l : list nat) (i : nat) : nat := nth i l 0.
(** Row and column [r], [c] of a stored matrix.  Compressed layouts list the entries of a column (csc) or row (csr) between two
    elements of [indptr]; repeated entries add up. *)
Definition entry (m : smat) (r c : nat) : C :=
  match m with
  | SDense _ rows => nth c (nth r rows []) C0
  | SCsc _ data inds ptr => Csum (fun k => if at0 inds k =? r then nth k data C0 else C0) (seq (at0 ptr c) (at0 ptr (S c) - at0 ptr c))
  | SCsr _ data inds ptr => Csum (fun k => if at0 inds k =? c then nth k data C0 else C0) (seq (at0 ptr r) (at0 ptr (S r) - at0 ptr r))
  | SCoo _ data rows cols => Csum (fun k => if (at0 rows k =? r) && (at0 cols k =? c) then nth k data C0 else C0) (seq 0 (length data))
  end.
Definition sdim (m : smat) : nat := match m with SDense d _ | SCsc d _ _ _ | SCsr d _ _ _ | SCoo d _ _ _ => d end.
Definition compressed_ok (dim : nat) (data : list C) (inds ptr : list nat) : Prop :=
  length inds = length data /\ length ptr = S dim /\ at0 ptr 0 = 0 /\ at0 ptr dim = length data /\
  (forall k, k < dim -> at0 ptr k <= at0 ptr (S k)) /\ Forall (fun i => i < dim) inds.
(** what scipy requires of the arrays of a matrix *)
Definition stored_ok (m : smat) : Prop :=
  match m with
  | SDense d rows => length rows = d /\ Forall (fun row => length row = d) rows
  | SCsc d data inds ptr | SCsr d data inds ptr => compressed_ok d data inds ptr
  | SCoo d data rows cols => length rows = length data /\ length cols = length data /\ Forall (fun i => i < d) rows /\ Forall (fun i => i < d) cols
  end.
(** [m] is the matrix of [U] on [n] qubits: column [c] is the image of the basis state [c] *)
Definition matrix_of (n : nat) (U : oper) (m : smat) : Prop :=
  sdim m = 2 ^ n /\ stored_ok m /\ forall r c, r < 2 ^ n -> c < 2 ^ n -> entry m r c = U (ket c) r.
