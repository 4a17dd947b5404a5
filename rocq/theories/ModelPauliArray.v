(** Model of the property [matrix] of Pauli operators (blueqat/pauli.py): the table _matrix (42-47), _PauliImpl.matrix (315-318), _PauliCtor.matrix (343-346)
    and _I.matrix (357-360).  numpy arrays are places in a memory, so that it can be seen who changes which array.
    Simplification: the user's only operation on an array is to write or read one element. *)
From Coq Require Import String List Arith Bool Reals.
Import ListNotations.
From Verif Require Import Base Cplx ModelPauli.
Local Open Scope nat_scope.

Definition array : Type := list (list C).
(** 42-47, when the module has been imported: the arrays at places 0 to 3, and the dictionary *)
Definition table_arrays : list array :=
  [[[C1; C0]; [C0; C1]]; [[C0; C1]; [C1; C0]]; [[C0; - Ci]; [Ci; C0]]%C; [[C1; C0]; [C0; - C1]]%C].
Definition table (key : string) : res nat :=
  if String.eqb key "I" then Ok 0 else if String.eqb key "X" then Ok 1 else if String.eqb key "Y" then Ok 2 else if String.eqb key "Z" then Ok 3 else Err KeyError.

(** The objects that have the property: I and X[n] (_PauliImpl), and X, Y, Z themselves (_PauliCtor) *)
Inductive owner : Type := Operator (p : pauli) | Ctor (l : letter).
(** the name of the classes of X[n], Y[n], Z[n] (324-331).  _PauliImpl.op (230-233) is its second letter, _PauliCtor takes the last letter. *)
Definition class_name (l : letter) : string := match l with LX => "_X" | LY => "_Y" | LZ => "_Z" end.
Definition second_letter (s : string) : string := substring 1 1 s.
Definition last_letter (s : string) : string := substring (String.length s - 1) 1 s.
Definition key_of (o : owner) : string :=
  match o with
  | Operator PId => "I"                                      (* 360 *)
  | Operator (PP (l, _)) => second_letter (class_name l)     (* 318 *)
  | Ctor l => last_letter (class_name l)                     (* 346 *)
  end.

Inductive acall : Type := GetMatrix (o : owner) | Write (a i j : nat) (z : C) | Read (a i j : nat).
Inductive aval : Type := ANew (a : nat) | ADone | AElement (z : C).
Fixpoint put_at {A} (l : list A) (i : nat) (x : A) : res (list A) :=
  match l, i with
  | [], _ => Err IndexError
  | _ :: r, O => Ok (x :: r)
  | a :: r, S j => let* r' := put_at r j x in Ok (a :: r')
  end.
Definition at_index {A} (l : list A) (i : nat) : res A := match nth_error l i with Some a => Ok a | None => Err IndexError end.
Definition astep (m : list array) (k : acall) : res aval * list array :=
  match k with
  | GetMatrix o =>                                           (* _matrix[...].copy() *)
      match table (key_of o) with
      | Err e => (Err e, m)
      | Ok a => match nth_error m a with
                | None => (Err Undefined, m)
                | Some x => (Ok (ANew (List.length m)), (m ++ [x])%list)
                end
      end
  | Write a i j z =>
      match (let* x := at_index m a in let* row := at_index x i in let* row' := put_at row j z in let* x' := put_at x i row' in put_at m a x') with
      | Err e => (Err e, m)
      | Ok m' => (Ok ADone, m')
      end
  | Read a i j => (let* x := at_index m a in let* row := at_index x i in let* z := at_index row j in Ok (AElement z), m)
  end.
Fixpoint asteps (m : list array) (ks : list acall) : list (res aval) * list array :=
  match ks with
  | [] => ([], m)
  | k :: ks => let (r, m) := astep m k in let (rs, m) := asteps m ks in (r :: rs, m)
  end.
