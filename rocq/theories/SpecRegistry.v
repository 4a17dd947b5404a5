(** Specification of registries by the history of calls and answers. *)
From Coq Require Import String List Bool.
Import ListNotations.
From Verif Require Import Base ModelRegistry.

(** attributes of every object and of every class in Python have names with "__" in front, and classes have "mro" *)
Definition python_names (object_name type_name : string -> bool) : Prop :=
  forall s, object_name s = true \/ type_name s = true -> prefix "__" s = true \/ s = "mro"%string.

Section Spec.
Variable item : Type.
Definition event : Type := call item * res (answer item).

(** what an event does to a gate, macro or backend name: nothing, registered, unregistered *)
Inductive effect : Type := Nothing | Registered (i : item) | Unregistered.
Definition gate_effect (name : string) (e : event) : effect :=
  match e with
  | (RegGate _ n i _, Ok _) => if String.eqb n name then Registered i else Nothing
  | (UnregGate _ n, Ok _) => if String.eqb n name then Unregistered else Nothing
  | _ => Nothing
  end.
Definition macro_effect (name : string) (e : event) : effect :=
  match e with
  | (RegMacro _ n i _, Ok _) => if String.eqb n name then Registered i else Nothing
  | (UnregMacro _ n, Ok _) => if String.eqb n name then Unregistered else Nothing
  | _ => Nothing
  end.
Definition backend_effect (name : string) (e : event) : effect :=
  match e with
  | (RegBackend _ n i _, Ok _) => if String.eqb n name then Registered i else Nothing
  | (UnregBackend _ n, Ok _) => if String.eqb n name then Unregistered else Nothing
  | _ => Nothing
  end.
(** what a name stands for after a history, starting from [init]: the last effect counts *)
Fixpoint latest (eff : event -> effect) (init : option item) (l : list event) : option item :=
  match l with
  | [] => init
  | e :: r => latest eff (match eff e with Nothing => init | Registered i => Some i | Unregistered => None end) r
  end.
(** circuit [c] has used the backend [name] *)
Definition used (c : nat) (name : string) (e : event) : Prop :=
  match e with
  | (RunWith _ c' n, Ok _) => c' = c /\ n = name
  | (GetAttr _ c' n, Ok (RunnerOf _ _)) => c' = c /\ n = ("run_with_" ++ name)%string
  | _ => False
  end.

Definition unique {A} (d : dict A) : Prop := NoDup (map fst d).
Definition proper (r : registry item) : Prop := unique (r_gates _ r) /\ unique (r_macros _ r) /\ unique (r_backends _ r).
(** the backend object of that name that a circuit holds already *)
Definition held (r : registry item) (c : nat) (name : string) : option item := d_get (nth c (r_circuits _ r) []) name.
(** a registration without allow_overwrite *)
Definition plain_registration (k : call item) : bool := match k with RegGate _ _ _ false | RegMacro _ _ _ false | RegBackend _ _ _ false => true | _ => false end.
End Spec.
(** names of attributes that every circuit has *)
Definition is_attribute (object_name : string -> bool) (name : string) : bool := mem name class_names || object_name name || mem name instance_names.

