(** Model of the sparse matrices of Hamiltonians (blueqat/pauli.py) and of the energies computed with them (blueqat/vqe.py) in any arithmetic of real numbers, as
    ModelPauliMatrix and ModelVqe model them in exact arithmetic.
    The Hamiltonian is simplified already, as that of QaoaAnsatz (vqe.py:103); then [simplify] (pauli.py:878) gives the same terms: it multiplies coefficients by 1 and
    adds them to 0, which rounds nothing. *)
From Coq Require Import List Arith NArith ZArith Bool String Reals.
Import ListNotations.
From Verif Require Import Base Cplx Bits ModelTargets ModelGate ModelNumpy ModelNumba ModelPauli ModelPauliMatrix ModelVqe ModelFloat ModelFloatNumba ModelFloatRun ModelFloatVqe.
Local Open Scope nat_scope.

Section Arith.
Variable A : arith.

(** pauli.py:69-76, as in [kron_1d] *)
Definition fl_kron_1d (a b : list C) : list C := flat_map (fun x => map (fun y => fc_mul A x y) b) a.
(** pauli.py:79-90, as in [kron_rec] *)
Fixpoint fl_kron_rec (fuel : nat) (krons : list (list C)) (cumsum : list nat) (lo hi : nat) : res (list C) :=
  match fuel with
  | O => Err RecursionError
  | S f =>
      if hi <=? lo then Err Undefined
      else if hi - lo =? 1 then ModelPauliMatrix.get krons lo
      else if hi - lo =? 2 then let* a := ModelPauliMatrix.get krons lo in let* b := ModelPauliMatrix.get krons (lo + 1) in Ok (fl_kron_1d a b)
      else
        let* cl := ModelPauliMatrix.get cumsum lo in
        let* ch := ModelPauliMatrix.get cumsum (hi - 1) in
        let* mid := bisect_left (hi - lo) cumsum ((cl + ch) / 2) lo hi in
        if mid =? lo then
          let* a := ModelPauliMatrix.get krons lo in let* b := fl_kron_rec f krons cumsum (lo + 1) hi in Ok (fl_kron_1d a b)
        else let* a := fl_kron_rec f krons cumsum lo mid in let* b := fl_kron_rec f krons cumsum mid hi in Ok (fl_kron_1d a b)
  end.
(** pauli.py:109, as in [scale_at] *)
Definition fl_scale_at (k : nat) (c : C) (l : list (list C)) : list (list C) :=
  map (fun iv => if fst iv =? k then map (fun z => fc_mul A z c) (snd iv) else snd iv) (combine (seq 0 (List.length l)) l).
(** pauli.py:93-113, as in [term_data] *)
Definition fl_term_data (t : term) (n : nat) (rowmajor : bool) : res (list C) :=
  let* paulis := term_paulis (t_ops t) n in
  match flat_map (run_data rowmajor) (runs paulis) with
  | [] => Err ValueError
  | data =>
      let data := rev (fl_scale_at (argmin (map (@List.length C) data)) (t_coeff t) data) in
      fl_kron_rec (List.length data) data (cumsum_from 0 (map (@List.length C) data)) 0 (List.length data)
  end.
(** pauli.py:889-893, as in [group_data] *)
Definition fl_vadd (a b : list C) : list C := map (fun p => fc_add A (fst p) (snd p)) (combine a b).
Definition fl_group_data (g : list term) (n : nat) (rowmajor : bool) : res (list C) :=
  match g with
  | [] => Err IndexError
  | t :: r => let* d := fl_term_data t n rowmajor in for_list r (fun s acc => let* d := fl_term_data s n rowmajor in Ok (fl_vadd acc d)) d
  end.
(** pauli.py:867-901 with sparse="csc" and vqe.py:33-38, as in [expr_matrix] and [make_sparse] *)
Definition fl_make_sparse (ham : expr) : res smat :=
  let n := expr_qubits ham in
  if n =? 0 then Ok (SDense 1 [[fold_left (fun s t => fc_add A s (t_coeff t)) ham C0]])
  else
    let dim := 2 ^ n in
    let gs := groups (sort_by (fun a b => xy_mask (t_ops a) <=? xy_mask (t_ops b)) ham) in
    let ng := List.length gs in
    let* st := for_list (combine (seq 0 ng) gs) (fun ig st =>
        let* acc := fl_group_data (snd ig) n false in
        let* inds := put_slice (snd st) (fst ig) ng (indices dim (match snd ig with t :: _ => xy_mask (t_ops t) | [] => 0 end)) in
        let* vals := put_slice (fst st) (fst ig) ng acc in
        Ok (vals, inds)) (repeat None (ng * dim), repeat None (ng * dim)) in
    if ng =? 0 then Err ZeroDivisionError
    else
      let* vals := filled (fst st) in
      let* inds := filled (snd st) in
      Ok (SCsc dim vals inds (map (fun k => k * ng) (seq 0 (dim + 1)))).

(** [mat.dot(vec)], as in [csc_dot] *)
Fixpoint fl_add_at (l : carr) (i : nat) (z : C) : carr :=
  match l, i with
  | [], _ => []
  | x :: r, O => fc_add A x z :: r
  | x :: r, S k => x :: fl_add_at r k z
  end.
Definition fl_csc_dot (m : smat) (vec : carr) : res carr :=
  match m with
  | SCsc dim data inds indptr =>
      if negb (Nat.eqb (List.length vec) dim) then Err ValueError
      else Ok (fold_left (fun y j =>
             fold_left (fun y k => fl_add_at y (nth k inds 0) (fc_mul A (nth k data C0) (nth j vec C0)))
               (seq (nth j indptr 0) (nth (S j) indptr 0 - nth j indptr 0)) y)
             (seq 0 dim) (repeat C0 dim))
  | SDense dim rows =>
      if negb (Nat.eqb (List.length vec) dim) then Err ValueError
      else Ok (map (fun row => fold_left (fun s j => fc_add A s (fc_mul A (nth j row C0) (nth j vec C0))) (seq 0 dim) C0) rows)
  | _ => Err Undefined
  end.
(** [np.vdot] *)
Variable dot : carr -> carr -> C.
(** vqe.py:321-332, as in [sparse_expectation] *)
Definition fl_sparse_expectation (m : smat) (vec : carr) : res R := let* w := fl_csc_dot m vec in Ok (Cre (dot vec w)).
(** vqe.py:62-64 for the matrix of lines 33-38; [run gs] is what [circuit.run()] gives for the gates of the circuit *)
Definition fl_energy_sparse (run : list gate -> res carr) (gs : list gate) (ham : expr) : res R :=
  let* m := fl_make_sparse ham in let* v := run gs in fl_sparse_expectation m v.
End Arith.

(** [run()] of a circuit on [n] qubits, whose backend has the cache [b] *)
Definition np_state (A : arith) (norm : carr -> R) (glob : carr -> carr) (rng : nat -> R) (b : backend) (n pos : nat) (gs : list gate) : res carr :=
  state_of (fst (fst (fl_np_run A norm glob rng b gs n (RunArgs None None false) pos))).
Definition nb_state (c : compiled) (psum : carr -> R) (P : arith) (glob : carr -> carr) (rng : nat -> R) (b : backend) (n pos : nat) (gs : list gate) : res carr :=
  state_of (fst (fst (fb_run c psum P glob rng b gs n (NbArgs (RunArgs None None false) true) pos))).
