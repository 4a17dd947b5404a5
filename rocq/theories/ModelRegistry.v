(** Model of the registries of blueqat/circuit.py: GATE_SET (30-71), GLOBAL_MACROS (73), BACKENDS (75-82), BlueqatGlobalSetting (301-460)
    and the lookup of attributes of circuits.
    Simplifications: what is registered is a value of a type [item]; warnings and error texts are left out; making an instance of a backend
    ([backend()], 103) does not fail and is written as the item itself; a circuit is represented by its dictionary [_backends] only. *)
From Coq Require Import String List Bool.
Import ListNotations.
From Verif Require Import Base.
Local Open Scope string_scope.

Definition dict (A : Type) : Type := list (string * A).
Fixpoint d_get {A} (d : dict A) (k : string) : option A := match d with [] => None | (k', v) :: r => if String.eqb k k' then Some v else d_get r k end.
Definition d_in {A} (d : dict A) (k : string) : bool := match d_get d k with Some _ => true | None => false end.
Fixpoint d_set {A} (d : dict A) (k : string) (v : A) : dict A :=
  match d with [] => [(k, v)] | (k', v') :: r => if String.eqb k k' then (k, v) :: r else (k', v') :: d_set r k v end.
(** [del d[k]] *)
Fixpoint d_del {A} (d : dict A) (k : string) : dict A := match d with [] => [] | (k', v) :: r => if String.eqb k k' then r else (k', v) :: d_del r k end.

(** names defined in the body of class Circuit (85-266) *)
Definition class_names : list string :=
  ["__init__"; "__repr__"; "_Circuit__get_backend"; "_Circuit__backend_runner_wrapper"; "__getattr__"; "__add__"; "__iadd__"; "copy"; "dagger"; "run"; "make_cache";
   "to_qasm"; "to_unitary"; "set_default_backend"; "get_default_backend_name"].
(** attributes set by [__init__] (87-91) *)
Definition instance_names : list string := ["ops"; "_backends"; "_default_backend"; "n_qubits"].
Definition mem (s : string) (l : list string) : bool := existsb (String.eqb s) l.

Section Registry.
Variable item : Type.
(** names that classes inherit from [object], and those that only the class itself has (as "mro"): both depend on the version of Python *)
Variables object_name type_name : string -> bool.

(** [hasattr(Circuit, name)] *)
Definition class_has (name : string) : bool := mem name class_names || object_name name || type_name name.
Definition runs_with (name : string) : bool := prefix "run_with_" name.
(** [name[9:]] (118) *)
Definition after9 (name : string) : string := substring 9 (String.length name - 9) name.

Record registry : Type := Reg { r_gates : dict item; r_macros : dict item; r_backends : dict item; r_circuits : list (dict item) }.

Inductive call : Type :=
| RegGate (name : string) (i : item) (allow_overwrite : bool) | UnregGate (name : string)
| RegMacro (name : string) (i : item) (allow_overwrite : bool) | UnregMacro (name : string)
| RegBackend (name : string) (i : item) (allow_overwrite : bool) | UnregBackend (name : string)
| NewCircuit
| GetAttr (c : nat) (name : string)      (* the attribute [name] of circuit [c] *)
| RunWith (c : nat) (name : string).     (* the backend object that c.run(backend=name) uses *)

Inductive answer : Type := Done | Attribute | GateOf (i : item) | MacroOf (i : item) | RunnerOf (i : item) | BackendOf (i : item).

(** 317-331, the same in 362-376 *)
Definition name_free (r : registry) (name : string) (allow : bool) : res unit :=
  if class_has name && negb allow then Err ValueError else
  if runs_with name && negb allow then Err ValueError else
  if negb allow then if d_in (r_gates r) name then Err ValueError else if d_in (r_macros r) name then Err ValueError else Ok tt
  else Ok tt.

Definition set_nth {A} (l : list A) (n : nat) (a : A) : list A := firstn n l ++ match skipn n l with [] => [] | _ :: t => a :: t end.
(** Circuit.__get_backend (96-104) *)
Definition get_backend (r : registry) (c : nat) (name : string) : res (item * registry) :=
  let cache := nth c (r_circuits r) [] in
  match d_get cache name with
  | Some i => Ok (i, r)
  | None =>
      match d_get (r_backends r) name with
      | None => Err ValueError
      | Some i => Ok (i, Reg (r_gates r) (r_macros r) (r_backends r) (set_nth (r_circuits r) c (d_set cache name i)))
      end
  end.

Definition rstep (r : registry) (k : call) : res answer * registry :=
  match k with
  | RegGate name i allow =>                                                          (* 348-377 *)
      match name_free r name allow with
      | Err e => (Err e, r)
      | Ok _ => (Ok Done, Reg (d_set (r_gates r) name i) (r_macros r) (r_backends r) (r_circuits r))
      end
  | UnregGate name =>                                                                (* 379-391 *)
      if d_in (r_gates r) name then (Ok Done, Reg (d_del (r_gates r) name) (r_macros r) (r_backends r) (r_circuits r)) else (Err ValueError, r)
  | RegMacro name i allow =>                                                         (* 303-332 *)
      match name_free r name allow with
      | Err e => (Err e, r)
      | Ok _ => (Ok Done, Reg (r_gates r) (d_set (r_macros r) name i) (r_backends r) (r_circuits r))
      end
  | UnregMacro name =>                                                               (* 334-346 *)
      if d_in (r_macros r) name then (Ok Done, Reg (r_gates r) (d_del (r_macros r) name) (r_backends r) (r_circuits r)) else (Err ValueError, r)
  | RegBackend name i allow =>                                                       (* 393-416 *)
      if class_has ("run_with_" ++ name) && negb allow then (Err ValueError, r) else
      if negb allow && d_in (r_backends r) name then (Err ValueError, r) else
      (Ok Done, Reg (r_gates r) (r_macros r) (d_set (r_backends r) name i) (r_circuits r))
  | UnregBackend name =>                                                             (* 418-430; the test is for GATE_SET *)
      if d_in (r_gates r) name then
        if d_in (r_backends r) name then (Ok Done, Reg (r_gates r) (r_macros r) (d_del (r_backends r) name) (r_circuits r)) else (Err KeyError, r)
      else (Err ValueError, r)
  | NewCircuit => (Ok Done, Reg (r_gates r) (r_macros r) (r_backends r) (r_circuits r ++ [[]]))
  | GetAttr c name =>                                                                (* Python's lookup, then __getattr__ (112-122) *)
      if mem name class_names || object_name name || mem name instance_names then (Ok Attribute, r) else
      match d_get (r_gates r) name with
      | Some i => (Ok (GateOf i), r)
      | None =>
          match d_get (r_macros r) name with
          | Some i => (Ok (MacroOf i), r)
          | None =>
              if runs_with name then
                if d_in (r_backends r) (after9 name) then
                  match get_backend r c (after9 name) with Ok (i, r') => (Ok (RunnerOf i), r') | Err e => (Err e, r) end
                else (Err AttributeError, r)
              else (Err AttributeError, r)
          end
      end
  | RunWith c name => match get_backend r c name with Ok (i, r') => (Ok (BackendOf i), r') | Err e => (Err e, r) end   (* 214-215 *)
  end.

Fixpoint rsteps (r : registry) (ks : list call) : list (call * res answer) * registry :=
  match ks with
  | [] => ([], r)
  | k :: ks => let (a, r1) := rstep r k in let (l, r2) := rsteps r1 ks in ((k, a) :: l, r2)
  end.
End Registry.
