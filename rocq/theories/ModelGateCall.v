(** Model of the gate calls of class Circuit, [circuit.name(args, keywords)[targets]]: circuit.py:112-114 (__getattr__ for gates), _GateWrapper (269-288), and
    of the gate objects with all of their attributes: the methods __init__, dagger and __str__ of gate.py.
    An argument is a number or a tuple of numbers; keyword arguments are a dictionary in order of insertion.
    Simplifications: the attribute [target] and the text of a wrapper are left out; macros and runs (__getattr__) are in ModelRegistry. *)
From Coq Require Import String List Arith ZArith Bool Reals.
Import ListNotations.
From Verif Require Import Base Cplx ModelTargets ModelGate ModelBackend ModelQasm ModelRepr.
Local Open Scope string_scope.

Inductive arg : Type := ANum (x : R) | ATuple (l : list R).
Definition dict : Type := list (string * arg).
Fixpoint dict_get (d : dict) (k : string) : option arg :=
  match d with [] => None | (k', a) :: r => if String.eqb k k' then Some a else dict_get r k end.
Definition mem (k : string) (l : list string) : bool := existsb (String.eqb k) l.

(** The attribute [params]: the tuple that an own __init__ makes, or the object that was given for it *)
Inductive pars : Type := Own (l : list arg) | Given (a : arg).
(** A gate object: its class (by [lowername]), targets, params, the attributes theta, phi, lambd that it has, and kwargs *)
Record gobj : Type := GObj { o_class : string; o_targets : target; o_params : pars; o_attrs : dict; o_kwargs : dict }.

(** The classes with an own __init__(self, targets, ..., **kwargs) and the names of its parameters (gate.py:144, 156, 168, 188, 254, 270, 287, 348, 368, 388,
    408, 426, 448, 470, 509, 531, 548) *)
Definition own_init : list (string * list string) :=
  [("rx", ["theta"]); ("ry", ["theta"]); ("rz", ["theta"]); ("phase", ["theta"]);
   ("u1", ["lambd"]); ("u2", ["phi"; "lambd"]); ("u3", ["theta"; "phi"; "lambd"]);
   ("crx", ["theta"]); ("cry", ["theta"]); ("crz", ["theta"]); ("cphase", ["theta"]);
   ("rxx", ["theta"]); ("ryy", ["theta"]); ("rzz", ["theta"]);
   ("cu1", ["lambd"]); ("cu2", ["phi"; "lambd"]); ("cu3", ["theta"; "phi"; "lambd"])].
Fixpoint init_names (l : list (string * list string)) (cls : string) : option (list string) :=
  match l with [] => None | (k, ns) :: r => if String.eqb cls k then Some ns else init_names r cls end.

(** How Python binds a call [f(self, targets, *args, **kw)] to [def f(self, targets, p1, ..., pk, **kwargs)] *)
Fixpoint by_keyword (names : list string) (kw : dict) : res (list arg) :=
  match names with
  | [] => Ok []
  | p :: r => match dict_get kw p with
              | None => Err TypeError                                  (* missing argument *)
              | Some a => let* l := by_keyword r kw in Ok (a :: l)
              end
  end.
Definition bind_args (names : list string) (args : list arg) (kw : dict) : res (list arg * dict) :=
  if (List.length names <? List.length args)%nat then Err TypeError    (* too many arguments *)
  else if existsb (fun kv => mem (fst kv) ("self" :: "targets" :: firstn (List.length args) names)) kw then Err TypeError (* multiple values *)
  else let* rest := by_keyword (skipn (List.length args) names) kw in
       Ok ((args ++ rest)%list, filter (fun kv => negb (mem (fst kv) names)) kw).

(** The call of a gate class *)
Definition construct (cls : string) (tg : target) (args : list arg) (kw : dict) : res gobj :=
  match init_names own_init cls with
  | Some names =>
      let* (vals, rest) := bind_args names args kw in
      if mem "params" (map fst rest) then Err TypeError                (* super().__init__(targets, (...), **kwargs) *)
      else Ok (GObj cls tg (Own vals) (combine names vals) rest)
  | None =>                                                            (* gate.py:22: def __init__(self, targets, params=(), **kwargs) *)
      let kw' := match args, dict_get kw "params" with [], None => ("params", ATuple []) :: kw | _, _ => kw end in
      let* (vals, rest) := bind_args ["params"] args kw' in
      match vals with [p] => Ok (GObj cls tg (Given p) [] rest) | _ => Err TypeError end
  end.

(** [-x] *)
Definition neg_arg (a : arg) : res arg := match a with ANum x => Ok (ANum (- x)) | ATuple _ => Err TypeError end.
Definition attr (o : gobj) (name : string) : res arg := match dict_get (o_attrs o) name with Some a => Ok a | None => Err AttributeError end.
Definition neg_attr (o : gobj) (name : string) : res arg := let* a := attr o name in neg_arg a.
(** [self.params] as an argument *)
Definition params_arg (p : pars) : list arg := match p with Given a => [a] | Own _ => [] end.
(** The methods [dagger] (see ModelGate.gate_dagger for the lines).  A class that is its own adjoint returns [self]. *)
Definition object_dagger (o : gobj) : res gobj :=
  let cls := o_class o in
  if mem cls ["measure"; "reset"] then Err ValueError
  else if mem cls ["rx"; "ry"; "rz"; "phase"; "crx"; "cry"; "crz"; "cphase"; "rxx"; "ryy"; "rzz"] then
    let* t := neg_attr o "theta" in construct cls (o_targets o) [t] (o_kwargs o)
  else if mem cls ["u1"; "cu1"] then
    let* l := neg_attr o "lambd" in construct cls (o_targets o) [l] (o_kwargs o)
  else if mem cls ["u2"; "cu2"] then
    let* l := neg_attr o "lambd" in let* p := neg_attr o "phi" in
    construct (if String.eqb cls "u2" then "u3" else "cu3") (o_targets o) [ANum (- PI / 2); l; p] (o_kwargs o)
  else if mem cls ["u3"; "cu3"] then
    let* t := neg_attr o "theta" in let* l := neg_attr o "lambd" in let* p := neg_attr o "phi" in
    construct cls (o_targets o) [t; l; p] (o_kwargs o)
  else if String.eqb cls "t" then construct "tdg" (o_targets o) (params_arg (o_params o)) (o_kwargs o)      (* 205 *)
  else if String.eqb cls "tdg" then construct "t" (o_targets o) (params_arg (o_params o)) (o_kwargs o)      (* 216 *)
  else if String.eqb cls "s" then construct "sdg" (o_targets o) (params_arg (o_params o)) (o_kwargs o)      (* 227 *)
  else if String.eqb cls "sdg" then construct "s" (o_targets o) (params_arg (o_params o)) (o_kwargs o)      (* 238 *)
  else Ok o.

Section Show.
(** [str] of an argument *)
Variable show : arg -> string.
(** Gate._str_args (gate.py:38-42): nothing if params is false in a condition; a number cannot be iterated *)
Definition object_str_args (p : pars) : res string :=
  let join l := "(" ++ String.concat ", " (map show l) ++ ")" in
  match p with
  | Own [] | Given (ATuple []) => Ok ""
  | Own l => Ok (join l)
  | Given (ATuple l) => Ok (join (map ANum l))
  | Given (ANum x) => if Reqb x 0 then Ok "" else Err TypeError
  end.
(** Gate.__str__ (gate.py:63-66) *)
Definition object_str (o : gobj) : res string :=
  let* a := object_str_args (o_params o) in
  let* t := str_targets (o_targets o) in
  Ok (o_class o ++ a ++ t).
(** Circuit.__repr__ (circuit.py:93-94) *)
Definition object_repr (n : Z) (ops : list gobj) : res string :=
  let* ss := map_res object_str ops in Ok ("Circuit(" ++ dec n ++ ")." ++ String.concat "." ss).
End Show.

(** ** Circuits and wrappers *)
Record cobj : Type := CObj { k_ops : list gobj; k_n : Z }.
Record wrap : Type := Wrap { w_circ : nat; w_class : string; w_args : list arg; w_kwargs : dict }.
Record store : Type := Store { s_circs : list cobj; s_wraps : list wrap }.
Inductive gcall : Type :=
| GNew (n : Z)                                        (* Circuit(n) *)
| GAttr (c : nat) (name : string)                     (* c.name *)
| GCall (w : nat) (args : list arg) (kw : dict)       (* w(args, **kw) *)
| GItem (w : nat) (tg : target).                      (* w[tg] *)
Inductive gval : Type := VCircuit (c : nat) | VWrap (w : nat).
Definition set_nth {A} (l : list A) (i : nat) (a : A) : list A := (firstn i l ++ a :: skipn (S i) l)%list.
(** GATE_SET: the class of a name *)
Fixpoint class_of (l : list (string * string)) (name : string) : option string :=
  match l with [] => None | (k, cls) :: r => if String.eqb name k then Some cls else class_of r name end.

Definition gstep (s : store) (k : gcall) : res gval * store :=
  match k with
  | GNew n => (Ok (VCircuit (List.length (s_circs s))), Store (s_circs s ++ [CObj [] n]) (s_wraps s))       (* 87-91 *)
  | GAttr c name =>                                                                                         (* 112-114, 270-276 *)
      match nth_error (s_circs s) c, class_of gate_set name with
      | None, _ => (Err Undefined, s)
      | Some _, None => (Err AttributeError, s)
      | Some _, Some cls => (Ok (VWrap (List.length (s_wraps s))), Store (s_circs s) (s_wraps s ++ [Wrap c cls [] []]))
      end
  | GCall w args kw =>                                                                                      (* 278-281 *)
      match nth_error (s_wraps s) w with
      | None => (Err Undefined, s)
      | Some x => if mem "self" (map fst kw) then (Err TypeError, s)
                  else (Ok (VWrap w), Store (s_circs s) (set_nth (s_wraps s) w (Wrap (w_circ x) (w_class x) args kw)))
      end
  | GItem w tg =>                                                                                           (* 283-288 *)
      match nth_error (s_wraps s) w with
      | None => (Err Undefined, s)
      | Some x =>
          match nth_error (s_circs s) (w_circ x) with
          | None => (Err Undefined, s)
          | Some c =>
              match construct (w_class x) tg (w_args x) (w_kwargs x) with
              | Err e => (Err e, s)
              | Ok o =>
                  let ops := (k_ops c ++ [o])%list in
                  match get_maximum_index tg with
                  | Err e => (Err e, Store (set_nth (s_circs s) (w_circ x) (CObj ops (k_n c))) (s_wraps s))
                  | Ok i => (Ok (VCircuit (w_circ x)), Store (set_nth (s_circs s) (w_circ x) (CObj ops (Z.max (i + 1) (k_n c)))) (s_wraps s))
                  end
              end
          end
      end
  end.
Fixpoint gsteps (s : store) (ks : list gcall) : list (res gval) * store :=
  match ks with
  | [] => ([], s)
  | k :: ks => let (r, s) := gstep s k in let (rs, s) := gsteps s ks in (r :: rs, s)
  end.
