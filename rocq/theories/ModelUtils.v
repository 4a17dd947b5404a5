(** Model of blueqat/utils.py: to_inttuple (18-39).
    Strings are lists of Unicode code points.  [digit] is Python's [int(b)] of a string of one character: a decimal digit of any script has a
    value, everything else raises ValueError.  Simplification: the keys of a dict or Counter are strings. *)
From Coq Require Import List Arith NArith ZArith Bool.
Import ListNotations.
From Verif Require Import Base.

Definition str : Type := list N.
Section Utils.
Variable digit : N -> option nat.
Variable value : Type.

Inductive arg : Type := AStr (s : str) | ACounter (d : list (str * value)) | ADict (d : list (str * value)) | AOther.
Inductive converted : Type := CTuple (t : list nat) | CCounter (d : list (list nat * value)) | CDict (d : list (list nat * value)).

(** [tuple(int(b) for b in s)] *)
Definition int_tuple (s : str) : res (list nat) := map_res (fun b => match digit b with Some d => Ok d | None => Err ValueError end) s.

Fixpoint tuple_eqb (a b : list nat) : bool :=
  match a, b with [], [] => true | x :: a, y :: b => (x =? y) && tuple_eqb a b | _, _ => false end.
(** [d[k] = v]: an existing key keeps its place *)
Fixpoint set_item (d : list (list nat * value)) (k : list nat) (v : value) : list (list nat * value) :=
  match d with [] => [(k, v)] | (k', v') :: r => if tuple_eqb k' k then (k', v) :: r else (k', v') :: set_item r k v end.
(** [{tuple(int(b) for b in k): v for k, v in d.items()}] *)
Fixpoint comprehension (acc : list (list nat * value)) (d : list (str * value)) : res (list (list nat * value)) :=
  match d with
  | [] => Ok acc
  | (k, v) :: r => let* t := int_tuple k in comprehension (set_item acc t v) r
  end.

Definition to_inttuple (a : arg) : res converted :=
  match a with
  | AStr s => let* t := int_tuple s in Ok (CTuple t)
  | ACounter d => let* e := comprehension [] d in Ok (CCounter e)
  | ADict d => let* e := comprehension [] d in Ok (CDict e)
  | AOther => Err ValueError
  end.
End Utils.
