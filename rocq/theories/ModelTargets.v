(** Model of the index handling in blueqat/gate.py (lines 635-704). *)
From Coq Require Import List Arith ZArith Bool Lia.
Import ListNotations.
From Verif Require Import Base.
Local Open Scope Z_scope.

(** What a user can put between the brackets of [circuit.x[...]].
    Simplification: the bounds of a slice are integers or absent (Python would also accept objects with
    [__index__]; bounds without it are not modelled).  [TOther] stands for any object that is neither a
    slice nor a tuple and has no [__index__] (float, str, None, list, ...). *)
Inductive target : Type :=
| TInt (z : Z)
| TSlice (start stop step : option Z)
| TTuple (l : list target)
| TOther.

(** Python's [slice(start, stop, step).indices(length)] as CPython computes it
    (Objects/sliceobject.c, _PySlice_GetLongIndices); used at gate.py:638. *)
Definition slice_indices (start stop step : option Z) (length : Z) : res (Z * Z * Z) :=
  let step := match step with None => 1 | Some s => s end in
  if step =? 0 then Err ValueError else
  let neg := step <? 0 in
  let lower := if neg then -1 else 0 in
  let upper := if neg then length - 1 else length in
  let adjust v := if v <? 0 then (let w := v + length in if w <? lower then lower else w)
                  else (if upper <? v then upper else v) in
  let start := match start with None => if neg then upper else lower | Some s => adjust s end in
  let stop := match stop with None => if neg then lower else upper | Some s => adjust s end in
  Ok (start, stop, step).

(** gate.py:640-647, the two [while] loops.  [fuel] bounds the number of iterations; the caller passes
    more than the loop can take (shown by the theorems on slices). *)
Fixpoint slice_loop_up (fuel : nat) (i stop step : Z) : list Z :=
  match fuel with
  | O => []
  | S f => if i <? stop then i :: slice_loop_up f (i + step) stop step else []
  end.

Fixpoint slice_loop_down (fuel : nat) (i stop step : Z) : list Z :=
  match fuel with
  | O => []
  | S f => if stop <? i then i :: slice_loop_down f (i + step) stop step else []
  end.

(** gate.py:635-655 [slicing_singlevalue], as a generator. *)
Definition slicing_singlevalue (arg : target) (length : Z) : gen Z :=
  match arg with
  | TSlice a b c =>
      match slice_indices a b c length with
      | Err e => Gen [] (Some e)
      | Ok (start, stop, step) =>
          if 0 <? step
          then Gen (slice_loop_up (Z.to_nat (stop - start)) start stop step) None
          else Gen (slice_loop_down (Z.to_nat (start - stop)) start stop step) None
      end
  | TInt i => Gen [if i <? 0 then i + length else i] None
  | TTuple _ | TOther => Gen [] (Some TypeError)
  end.

(** gate.py:658-664 [slicing]. *)
Definition slicing (args : target) (length : Z) : gen Z :=
  match args with
  | TTuple l => gen_concat (map (fun a => slicing_singlevalue a length) l)
  | _ => slicing_singlevalue args length
  end.

(** gate.py:677-679, the check of each pair. *)
Fixpoint all_differ (l : list (Z * Z)) : bool :=
  match l with
  | [] => true
  | (c, z) :: r => if c =? z then false else all_differ r
  end.

(** gate.py:667-680 [qubit_pairs]. *)
Definition qubit_pairs (args : target) (length : Z) : res (list (Z * Z)) :=
  match args with
  | TTuple [a; b] =>
      let* controls := gen_list (slicing a length) in
      let* targets := gen_list (slicing b length) in
      if negb (Nat.eqb (List.length controls) (List.length targets)) then Err ValueError
      else if all_differ (combine controls targets)
           then Ok (combine controls targets)
           else Err ValueError
  | _ => Err ValueError
  end.

(** gate.py:685-695 [_maximum_idx_single]. *)
Definition maximum_idx_single (idx : target) : res Z :=
  match idx with
  | TSlice a b _ =>
      let start := match a with None => -1 | Some s => s end in
      let stop := match b with None => 0 | Some s => s end in
      Ok (Z.max start (stop - 1))
  | TInt i => Ok i
  | TTuple _ | TOther => Err AttributeError
  end.

(** [max(iterable, default=-1)] of the generator expression in gate.py:697. *)
Definition max_default (l : list Z) : Z :=
  match l with
  | [] => -1
  | a :: r => fold_left Z.max r a
  end.

(** gate.py:683-699 [get_maximum_index]. *)
Definition get_maximum_index (indices : target) : res Z :=
  match indices with
  | TTuple l => let* ms := map_res maximum_idx_single l in Ok (max_default ms)
  | _ => maximum_idx_single indices
  end.
