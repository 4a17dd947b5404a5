(** Model of the matrices of blueqat/pauli.py: _kron_1d, _kron_1d_rec, _term_to_dataarray, _term_to_indices, to_matrix. *)
From Coq Require Import List Arith ZArith Bool Reals.
Import ListNotations.
From Verif Require Import Base Cplx Bits ModelPauli.
Local Open Scope nat_scope.

(** _kron_1d (69-76): row [i] of the reshaped array is [a[i]], repeated, times [b]. *)
Definition kron_1d (a b : list C) : list C := flat_map (fun x => map (fun y => (x * y)%C) b) a.

(** bisect.bisect_left(a, x, lo, hi); the fuel bounds the turns of its loop, and [hi - lo] turns are enough *)
Fixpoint bisect_left (fuel : nat) (a : list nat) (x lo hi : nat) : res nat :=
  if lo <? hi then
    match fuel with
    | O => Err Undefined
    | S f =>
        let mid := (lo + hi) / 2 in
        match nth_error a mid with
        | None => Err IndexError
        | Some v => if v <? x then bisect_left f a x (S mid) hi else bisect_left f a x lo mid
        end
    end
  else Ok lo.

Definition get {A} (l : list A) (i : nat) : res A := match nth_error l i with Some a => Ok a | None => Err IndexError end.

(** _kron_1d_rec (79-90).  The fuel bounds the depth of the recursion.  [hi <= lo] does not occur. *)
Fixpoint kron_rec (fuel : nat) (krons : list (list C)) (cumsum : list nat) (lo hi : nat) : res (list C) :=
  match fuel with
  | O => Err RecursionError
  | S f =>
      if hi <=? lo then Err Undefined
      else if hi - lo =? 1 then get krons lo
      else if hi - lo =? 2 then let* a := get krons lo in let* b := get krons (lo + 1) in Ok (kron_1d a b)
      else
        let* cl := get cumsum lo in
        let* ch := get cumsum (hi - 1) in
        let* mid := bisect_left (hi - lo) cumsum ((cl + ch) / 2) lo hi in
        if mid =? lo then
          let* a := get krons lo in let* b := kron_rec f krons cumsum (lo + 1) hi in Ok (kron_1d a b)
        else let* a := kron_rec f krons cumsum lo mid in let* b := kron_rec f krons cumsum mid hi in Ok (kron_1d a b)
  end.
(** numpy.cumsum *)
Fixpoint cumsum_from (s : nat) (l : list nat) : list nat := match l with [] => [] | a :: r => (s + a) :: cumsum_from (s + a) r end.

(** paulis[i] = x *)
Fixpoint put {A} (l : list A) (i : nat) (x : A) : res (list A) :=
  match l, i with
  | [], _ => Err IndexError
  | _ :: r, O => Ok (x :: r)
  | a :: r, S j => let* r' := put r j x in Ok (a :: r')
  end.
(** itertools.groupby: the runs of equal elements, with their lengths *)
Definition same_letter (a b : option letter) : bool :=
  match a, b with None, None => true | Some x, Some y => letter_eqb x y | _, _ => false end.
Fixpoint runs (l : list (option letter)) : list (option letter * nat) :=
  match l with
  | [] => []
  | a :: r => match runs r with
              | (b, n) :: rs => if same_letter a b then (b, S n) :: rs else (a, 1) :: (b, n) :: rs
              | [] => [(a, 1)]
              end
  end.
(** the index of min(data_list, key=len): the first of the shortest *)
Fixpoint argmin (l : list nat) : nat :=
  match l with
  | [] | [_] => 0
  | a :: r => let k := argmin r in if nth k r 0 <? a then S k else 0
  end.
Definition scale_at (k : nat) (c : C) (l : list (list C)) : list (list C) :=
  map (fun iv => if fst iv =? k then map (fun z => (z * c)%C) (snd iv) else snd iv) (combine (seq 0 (length l)) l).
Definition run_data (rowmajor : bool) (r : option letter * nat) : list (list C) :=
  match fst r with
  | Some LY => repeat (if rowmajor then [- Ci; Ci]%C else [Ci; - Ci]%C) (snd r)
  | Some LZ => repeat [C1; - C1]%C (snd r)
  | _ => [repeat C1 (2 ^ snd r)]
  end.
(** _term_to_dataarray (93-113).  Each element of data_list is a separate array (y_mat is copied, 103), so multiplying one of them
    in place (109) leaves the others as they are. *)
Definition term_paulis (w : list pop) (n : nat) : res (list (option letter)) :=
  for_list w (fun o l => put l (snd o) (Some (fst o))) (repeat None n).
Definition term_data (t : term) (n : nat) (rowmajor : bool) : res (list C) :=
  let* paulis := term_paulis (t_ops t) n in
  match flat_map (run_data rowmajor) (runs paulis) with
  | [] => Err ValueError
  | data =>
      let data := rev (scale_at (argmin (map (@length C) data)) (t_coeff t) data) in
      kron_rec (length data) data (cumsum_from 0 (map (@length C) data)) 0 (length data)
  end.
(** _term_to_indices (116-124): the mask; [indices dim mask] is np.arange(dim) ^ mask *)
Definition xy_mask (w : list pop) : nat :=
  fold_left (fun s o => match fst o with LZ => s | _ => s + 2 ^ snd o end) w 0.
Definition indices (dim mask : nat) : list nat := map (fun i => Nat.lxor i mask) (seq 0 dim).

(** Matrices as scipy.sparse stores them, and the layouts of _sparse_types (29-37) *)
Inductive layout : Type := Lbsr | Lcoo | Lcsc | Lcsr | Ldia | Ldok | Llil.
Inductive smat : Type :=
| SDense (dim : nat) (rows : list (list C))
| SCsc (dim : nat) (data : list C) (inds indptr : list nat)
| SCsr (dim : nat) (data : list C) (inds indptr : list nat)
| SCoo (dim : nat) (data : list C) (rows cols : list nat).
(** The returned value: the layout into which a matrix is converted (None: an array), and that matrix.
    Simplification: scipy's conversions (toarray, the constructors of the layouts) and eliminate_zeros keep the entries;
    they are not modelled. *)
Definition mat_result : Type := (option layout * smat)%type.
Definition layout_is (a : option layout) (b : layout) : bool :=
  match a, b with Some Lcsc, Lcsc | Some Lcsr, Lcsr => true | _, _ => false end.

(** Term.to_matrix (618-643).  n_qubits is -1 (None here) or a number.
    Simplifications: [sparse] is None or a known layout (620-621 raises ValueError otherwise); n_qubits is not below -1. *)
Definition term_matrix (t : term) (n_qubits : option nat) (sparse : option layout) : res mat_result :=
  let n := match n_qubits with None => term_qubits t | Some n => n end in
  if n =? 0 then Ok (sparse, SDense 1 [[t_coeff t]])
  else
    let dim := 2 ^ n in
    let t := simplify t in
    let* data := term_data t n (layout_is sparse Lcsr) in
    let mask := xy_mask (t_ops t) in
    if layout_is sparse Lcsc then Ok (sparse, SCsc dim data (indices dim mask) (seq 0 (dim + 1)))
    else if layout_is sparse Lcsr then Ok (sparse, SCsr dim data (indices dim mask) (seq 0 (dim + 1)))
    else Ok (sparse, SCoo dim data (indices dim mask) (seq 0 dim)).
(** _PauliImpl.to_matrix (320-322) *)
Definition pauli_matrix (p : pauli) (n_qubits : option nat) (sparse : option layout) : res mat_result :=
  term_matrix (pauli_term p) n_qubits sparse.

(** groupby(sorted(terms, key=grpkey), key=grpkey): the groups *)
Fixpoint groups (l : list term) : list (list term) :=
  match l with
  | [] => []
  | a :: r => match groups r with
              | (b :: g) :: gs => if xy_mask (t_ops a) =? xy_mask (t_ops b) then (a :: b :: g) :: gs else [a] :: (b :: g) :: gs
              | gs => [a] :: gs
              end
  end.
(** a[start::step] = vs, for arrays of which some elements are not yet set *)
Fixpoint put_slice {A} (l : list (option A)) (start step : nat) (vs : list A) : res (list (option A)) :=
  match vs with
  | [] => Ok l
  | v :: r => let* l' := put l start (Some v) in put_slice l' (start + step) step r
  end.
(** reading an array of np.empty: undefined unless every element was set *)
Definition filled {A} (l : list (option A)) : res (list A) := map_res (fun o => match o with Some a => Ok a | None => Err Undefined end) l.
Definition vadd (a b : list C) : list C := map (fun p => (fst p + snd p)%C) (combine a b).
(** the sum of the data of a group (889-893) *)
Definition group_data (g : list term) (n : nat) (rowmajor : bool) : res (list C) :=
  match g with
  | [] => Err IndexError
  | t :: r => let* d := term_data t n rowmajor in for_list r (fun s acc => let* d := term_data s n rowmajor in Ok (vadd acc d)) d
  end.
(** Expr.to_matrix (867-901).  np.arange with step 0 (894-897, no terms) raises ZeroDivisionError.
    np.arange(0, n_vals + 1, n_groups) is [0, n_groups, 2 n_groups, ..., dim n_groups]. *)
Definition expr_matrix (e : expr) (n_qubits : option nat) (sparse : option layout) : res mat_result :=
  let n := match n_qubits with None => expr_qubits e | Some n => n end in
  if n =? 0 then Ok (sparse, SDense 1 [[fold_left (fun s t => (s + t_coeff t)%C) e C0]])
  else
    let dim := 2 ^ n in
    let rowmajor := layout_is sparse Lcsr in
    let gs := groups (sort_by (fun a b => xy_mask (t_ops a) <=? xy_mask (t_ops b)) (expr_simplify e)) in
    let ng := length gs in
    let* st := for_list (combine (seq 0 ng) gs) (fun ig st =>
        let* acc := group_data (snd ig) n rowmajor in
        let* inds := put_slice (snd st) (fst ig) ng (indices dim (match snd ig with t :: _ => xy_mask (t_ops t) | [] => 0 end)) in
        let* vals := put_slice (fst st) (fst ig) ng acc in
        Ok (vals, inds)) (repeat None (ng * dim), repeat None (ng * dim)) in
    if ng =? 0 then Err ZeroDivisionError
    else
      let* vals := filled (fst st) in
      let* inds := filled (snd st) in
      let indptr := map (fun k => k * ng) (seq 0 (dim + 1)) in
      if rowmajor then Ok (sparse, SCsr dim vals inds indptr) else Ok (sparse, SCsc dim vals inds indptr).
