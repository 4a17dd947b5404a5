(** Model of the texts of operators in blueqat/pauli.py: _PauliImpl.__repr__ (302-305), Term.__repr__ (484-495), Expr.__repr__ (800-815).
    [show]: str of a coefficient. *)
From Coq Require Import String Ascii List Arith Bool Reals.
Import ListNotations.
From Verif Require Import Base Cplx ModelPauli.
Local Open Scope string_scope.

(** _PauliImpl.__repr__ (302-305) *)
Definition pauli_repr (p : pauli) : string := match p with PId => "I" | PP o => pop_repr o end.
Section Show.
Variable show : C -> string.
(** Term.__repr__ (484-495) *)
Definition term_repr (t : term) : string :=
  if Ceqb (t_coeff t) C0 then "0*I"
  else
    let s_coeff := if Ceqb (t_coeff t) (RtoC (-1)) then "-" else show (t_coeff t) ++ "*" in
    let s_ops := match t_ops t with [] => "I" | ops => String.concat "*" (map pop_repr ops) end in
    s_coeff ++ s_ops.
(** 804-814: what is appended for a further term; the text of a term is never empty *)
Definition further (t : term) : list string :=
  match term_repr t with
  | String "+" r => ["+"; r]
  | String "-" r => ["-"; r]
  | s => ["+"; s]
  end.
(** Expr.__repr__ (800-815) *)
Definition expr_repr (e : expr) : string :=
  match e with
  | [] => "0*I+0"
  | t :: r => String.concat " " (term_repr t :: flat_map further r)
  end.
Definition v_repr (v : pval) : string :=
  match v with VNum x => show (nval x) | VPauli p => pauli_repr p | VTerm t => term_repr t | VExpr e => expr_repr e end.
End Show.
