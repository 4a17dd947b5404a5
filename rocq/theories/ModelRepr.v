(** Model of the printing of gates and circuits: Gate._str_args, _str_targets, __str__ (blueqat/gate.py:38-66) and Circuit.__repr__
    (blueqat/circuit.py:93-94).
    Simplifications: [show] stands for [str] of a parameter; a parameter is a number. *)
From Coq Require Import String Ascii List ZArith Bool Reals.
Import ListNotations.
From Verif Require Import Base ModelTargets ModelGate ModelQasm.
Local Open Scope string_scope.

(** gate.py:48-49: nothing for None, else [str(i.__index__())] *)
Definition bound_str (o : option Z) : string := match o with None => "" | Some z => dec z end.
(** gate.py:46-56 [_slice_to_str]; tuples and other objects have no [__index__] *)
Definition slice_to_str (t : target) : res string :=
  match t with
  | TSlice a b None => Ok (bound_str a ++ ":" ++ bound_str b)
  | TSlice a b (Some c) => Ok (bound_str a ++ ":" ++ bound_str b ++ ":" ++ dec c)
  | TInt z => Ok (dec z)
  | TTuple _ | TOther => Err AttributeError
  end.
(** gate.py:44-61 *)
Definition str_targets (t : target) : res string :=
  match t with
  | TTuple l => let* ss := map_res slice_to_str l in Ok ("[" ++ String.concat ", " ss ++ "]")
  | _ => let* s := slice_to_str t in Ok ("[" ++ s ++ "]")
  end.

Section Show.
Variable show : R -> string.
(** gate.py:38-42 *)
Definition str_args (ps : list R) : string := match ps with [] => "" | _ => "(" ++ String.concat ", " (map show ps) ++ ")" end.
(** gate.py:63-66 *)
Definition gate_str (g : gate) : res string := let* tg := str_targets (targets g) in Ok (lowername g ++ str_args (params g) ++ tg).
(** circuit.py:93-94 *)
Definition circuit_repr (n : Z) (gs : list gate) : res string :=
  let* ss := map_res gate_str gs in Ok ("Circuit(" ++ dec n ++ ")." ++ String.concat "." ss).
End Show.
