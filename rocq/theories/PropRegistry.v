(** Property theorems: registries of gates, macros and backends (C49).
    [object_name] and [type_name] are the attribute names that Python itself gives objects and classes. *)
From Coq Require Import String List Bool.
Import ListNotations.
From Verif Require Import Base ModelRegistry SpecRegistry ProofRegistry.
Local Open Scope string_scope.

(** C49.  Between registration and unregistration.  After any calls, a name that is not an attribute already stands for the gate that the
    history of successful calls says, else for the macro; and a circuit that has not used the backend yet gets the backend that the history says. *)
Theorem C49_lookup_partial : forall item object_name type_name ks (r : registry item) l r' name c,
  proper item r -> rsteps item object_name type_name r ks = (l, r') -> is_attribute object_name name = false -> runs_with name = false ->
  fst (rstep item object_name type_name r' (GetAttr item c name)) =
    match latest item (gate_effect item name) (d_get (r_gates _ r) name) l with
    | Some i => Ok (GateOf item i)
    | None => match latest item (macro_effect item name) (d_get (r_macros _ r) name) l with Some i => Ok (MacroOf item i) | None => Err AttributeError end
    end.
Proof. exact lookup_now. Qed.
Print Assumptions C49_lookup_partial.
Theorem C49_backend_partial : forall item object_name type_name ks (r : registry item) l r' name c,
  proper item r -> rsteps item object_name type_name r ks = (l, r') -> held item r c name = None -> Forall (fun e => ~ used item c name e) l ->
  fst (rstep item object_name type_name r' (RunWith item c name)) =
    match latest item (backend_effect item name) (d_get (r_backends _ r) name) l with Some i => Ok (BackendOf item i) | None => Err ValueError end.
Proof. exact backend_now. Qed.
Print Assumptions C49_backend_partial.
Theorem C49_runner_partial : forall item object_name type_name ks (r : registry item) l r' name c,
  proper item r -> rsteps item object_name type_name r ks = (l, r') -> held item r c name = None -> Forall (fun e => ~ used item c name e) l ->
  is_attribute object_name ("run_with_" ++ name) = false -> d_get (r_gates _ r') ("run_with_" ++ name) = None -> d_get (r_macros _ r') ("run_with_" ++ name) = None ->
  fst (rstep item object_name type_name r' (GetAttr item c ("run_with_" ++ name))) =
    match latest item (backend_effect item name) (d_get (r_backends _ r) name) l with Some i => Ok (RunnerOf item i) | None => Err AttributeError end.
Proof. exact runner_now. Qed.
Print Assumptions C49_runner_partial.
(** Tables stay proper, and are what the history says. *)
Theorem C49_tables : forall item object_name type_name ks (r : registry item) l r', proper item r -> rsteps item object_name type_name r ks = (l, r') -> proper item r' /\
  (forall name, d_get (r_gates _ r') name = latest item (gate_effect item name) (d_get (r_gates _ r) name) l) /\
  (forall name, d_get (r_macros _ r') name = latest item (macro_effect item name) (d_get (r_macros _ r) name) l) /\
  (forall name, d_get (r_backends _ r') name = latest item (backend_effect item name) (d_get (r_backends _ r) name) l).
Proof. exact steps_tables. Qed.
Print Assumptions C49_tables.
Example C49_history_case : proper string start /\ exists l r, rsteps string (fun s => prefix "__" s) (fun s => String.eqb s "mro") start history = (l, r) /\
  map snd l = [Ok (Done string); Ok (Done string); Err ValueError; Err ValueError; Ok (Done string); Ok (Done string); Ok (Done string); Err ValueError] /\
  is_attribute (fun s => prefix "__" s) "mine" = false /\ runs_with "mine" = false /\
  latest string (gate_effect string "mine") (d_get (r_gates string start) "mine") l = Some "D" /\ latest string (gate_effect string "x") (d_get (r_gates string start) "x") l = None /\
  held string start 0 "sim" = None /\ Forall (fun e => ~ used string 0 "sim" e) l /\ latest string (backend_effect string "sim") None l = Some "E" /\
  is_attribute (fun s => prefix "__" s) "run_with_sim" = false /\ d_get (r_gates string r) "run_with_sim" = None /\ d_get (r_macros string r) "run_with_sim" = None.
Proof. exact (conj start_proper history_case). Qed.

(** Nothing is replaced without allow_overwrite, and calls that raise change nothing. *)
Theorem C49_nothing_replaced : forall item object_name type_name (r : registry item) k a r', plain_registration item k = true -> rstep item object_name type_name r k = (a, r') ->
  forall n v, (d_get (r_gates _ r) n = Some v -> d_get (r_gates _ r') n = Some v) /\ (d_get (r_macros _ r) n = Some v -> d_get (r_macros _ r') n = Some v) /\
  (d_get (r_backends _ r) n = Some v -> d_get (r_backends _ r') n = Some v).
Proof. exact nothing_replaced. Qed.
Print Assumptions C49_nothing_replaced.
Theorem C49_errors : forall item object_name type_name (r : registry item) k e r', rstep item object_name type_name r k = (Err e, r') -> r' = r.
Proof. exact errors_change_nothing. Qed.
Print Assumptions C49_errors.
(** A name that stands for something on circuits cannot be registered as gate or macro, a backend name that works cannot be registered as backend. *)
Theorem C49_refused : forall item object_name type_name (r : registry item) name i,
  (forall c x, fst (rstep item object_name type_name r (GetAttr item c name)) = Ok x -> mem name instance_names = false ->
     rstep item object_name type_name r (RegGate item name i false) = (Err ValueError, r) /\ rstep item object_name type_name r (RegMacro item name i false) = (Err ValueError, r)) /\
  (forall c x, held item r c name = None -> fst (rstep item object_name type_name r (RunWith item c name)) = Ok x ->
     rstep item object_name type_name r (RegBackend item name i false) = (Err ValueError, r)).
Proof. exact plain_refused. Qed.
Print Assumptions C49_refused.
(** What has been registered without allow_overwrite is what the name stands for. *)
Theorem C49_resolves_partial : forall item object_name type_name (r : registry item) name i r' c,
  (rstep item object_name type_name r (RegGate item name i false) = (Ok (Done item), r') -> mem name instance_names = false ->
     fst (rstep item object_name type_name r' (GetAttr item c name)) = Ok (GateOf item i)) /\
  (rstep item object_name type_name r (RegMacro item name i false) = (Ok (Done item), r') -> mem name instance_names = false ->
     fst (rstep item object_name type_name r' (GetAttr item c name)) = Ok (MacroOf item i)) /\
  (forall allow, rstep item object_name type_name r (RegBackend item name i allow) = (Ok (Done item), r') -> held item r c name = None ->
     fst (rstep item object_name type_name r' (RunWith item c name)) = Ok (BackendOf item i)).
Proof. exact resolves. Qed.
Print Assumptions C49_resolves_partial.
(** Gates and macros can be unregistered exactly when in use. *)
Theorem C49_unregister : forall item object_name type_name (r : registry item) name, proper item r ->
  (d_get (r_gates _ r) name <> None -> exists r', rstep item object_name type_name r (UnregGate item name) = (Ok (Done item), r') /\ d_get (r_gates _ r') name = None) /\
  (d_get (r_gates _ r) name = None -> rstep item object_name type_name r (UnregGate item name) = (Err ValueError, r)) /\
  (d_get (r_macros _ r) name <> None -> exists r', rstep item object_name type_name r (UnregMacro item name) = (Ok (Done item), r') /\ d_get (r_macros _ r') name = None) /\
  (d_get (r_macros _ r) name = None -> rstep item object_name type_name r (UnregMacro item name) = (Err ValueError, r)).
Proof. exact unregister_iff. Qed.
Print Assumptions C49_unregister.
Example C49_registering_case : rstep string (fun s => prefix "__" s) (fun s => String.eqb s "mro") start (RegGate string "mine" "A" false) =
    (Ok (Done string), snd (rstep string (fun s => prefix "__" s) (fun s => String.eqb s "mro") start (RegGate string "mine" "A" false))) /\
  rstep string (fun s => prefix "__" s) (fun s => String.eqb s "mro") start (RegMacro string "mine" "A" false) =
    (Ok (Done string), snd (rstep string (fun s => prefix "__" s) (fun s => String.eqb s "mro") start (RegMacro string "mine" "A" false))) /\
  rstep string (fun s => prefix "__" s) (fun s => String.eqb s "mro") start (RegBackend string "mine" "A" false) =
    (Ok (Done string), snd (rstep string (fun s => prefix "__" s) (fun s => String.eqb s "mro") start (RegBackend string "mine" "A" false))) /\
  mem "mine" instance_names = false /\
  fst (rstep string (fun s => prefix "__" s) (fun s => String.eqb s "mro") start (GetAttr string 0 "x")) = Ok (GateOf string "x") /\ mem "x" instance_names = false.
Proof. exact registering_case. Qed.

(** unregister_backend looks for the name among the gates: a backend cannot be unregistered, unless a gate has its name. *)
Theorem C49_unregister_backend : forall item object_name type_name (r : registry item) name,
  (d_get (r_gates _ r) name = None -> rstep item object_name type_name r (UnregBackend item name) = (Err ValueError, r)) /\
  (d_get (r_gates _ r) name <> None -> d_get (r_backends _ r) name = None -> rstep item object_name type_name r (UnregBackend item name) = (Err KeyError, r)).
Proof. exact unregister_backend. Qed.
Print Assumptions C49_unregister_backend.
Theorem C49_unregister_refuted : forall object_name type_name, python_names object_name type_name ->
  rstep string object_name type_name start (UnregBackend string "numpy") = (Err ValueError, start) /\
  (forall i, exists r, rstep string object_name type_name start (RegBackend string "mine" i false) = (Ok (Done string), r) /\
     rstep string object_name type_name r (UnregBackend string "mine") = (Err ValueError, r)) /\
  rstep string object_name type_name start (UnregBackend string "x") = (Err KeyError, start).
Proof. exact backend_stuck. Qed.
Print Assumptions C49_unregister_refuted.
(** register_gate('ops', G) is accepted, but c.ops stays the list of operations. *)
Theorem C49_attribute_refuted : forall object_name type_name, python_names object_name type_name -> forall i, exists r,
  rstep string object_name type_name start (RegGate string "ops" i false) = (Ok (Done string), r) /\
  fst (rstep string object_name type_name r (GetAttr string 0 "ops")) = Ok (Attribute string).
Proof. exact gate_of_attribute. Qed.
Print Assumptions C49_attribute_refuted.
(** register_macro('x', f, allow_overwrite=True) is accepted, but c.x stays the gate. *)
Theorem C49_macro_refuted : forall object_name type_name, python_names object_name type_name -> forall i, exists r,
  rstep string object_name type_name start (RegMacro string "x" i true) = (Ok (Done string), r) /\
  fst (rstep string object_name type_name r (GetAttr string 0 "x")) = Ok (GateOf string "x").
Proof. exact macro_hidden. Qed.
Print Assumptions C49_macro_refuted.
(** A circuit that has run keeps its backend object when the name is registered anew, and when it is unregistered. *)
Theorem C49_kept_refuted : forall object_name type_name, python_names object_name type_name -> forall i j, i <> j -> exists l r,
  rsteps string object_name type_name start [NewCircuit string; RegBackend string "mine" i false; RunWith string 0 "mine"; RegBackend string "mine" j true] = (l, r) /\
  Forall (fun e => exists a, snd e = Ok a) l /\ fst (rstep string object_name type_name r (RunWith string 0 "mine")) = Ok (BackendOf string i).
Proof. exact backend_kept. Qed.
Print Assumptions C49_kept_refuted.
Theorem C49_unregistered_refuted : forall object_name type_name, python_names object_name type_name -> forall i, exists l r,
  rsteps string object_name type_name start [NewCircuit string; RegBackend string "x" i false; RunWith string 0 "x"; UnregBackend string "x"] = (l, r) /\
  Forall (fun e => exists a, snd e = Ok a) l /\ fst (rstep string object_name type_name r (RunWith string 0 "x")) = Ok (BackendOf string i).
Proof. exact backend_unregistered. Qed.
Print Assumptions C49_unregistered_refuted.
Example C49_names_case : python_names (fun s => prefix "__" s) (fun s => String.eqb s "mro").
Proof. exact names_case. Qed.
