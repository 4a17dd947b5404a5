(** Model of blueqat/backends/backendbase.py: dispatch on gate names and fallbacks, and the tables of names. *)
From Coq Require Import List Arith ZArith Bool String Reals.
Import ListNotations.
From Verif Require Import Base Cplx ModelTargets ModelGate.
Local Open Scope string_scope.

(** The methods [gate_*] that each backend class has.
    numpy_backend.py:136-434 *)
Definition numpy_names : list string :=
  ["x"; "y"; "z"; "h"; "rx"; "ry"; "rz"; "phase"; "t"; "s"; "cz"; "cx"; "crx"; "cry"; "crz"; "cphase"; "ccz"; "ccx";
   "u1"; "u3"; "measure"; "reset"].
(** _numba_backend_impl.py:444-642 *)
Definition numba_names : list string :=
  ["x"; "y"; "z"; "h"; "t"; "tdg"; "s"; "sdg"; "cz"; "cx"; "rx"; "ry"; "rz"; "phase"; "crx"; "cry"; "crz"; "cphase";
   "ccz"; "ccx"; "u1"; "u3"; "measure"; "reset"].
(** sympy_backend.py:100-107, 125-127, 142-143, 157-158 *)
Definition sympy_names : list string :=
  ["x"; "y"; "z"; "h"; "rx"; "ry"; "rz"; "phase"; "u1"; "u2"; "u3"; "cx"; "cz"; "measure"; "reset"].
(** qasm_output_backend.py:47-132 *)
Definition qasm_names : list string :=
  ["x"; "y"; "z"; "h"; "t"; "s"; "cz"; "cx"; "cy"; "ch"; "swap"; "rx"; "ry"; "rz"; "i"; "u1"; "u2"; "u3"; "phase";
   "cu1"; "cu2"; "cu3"; "cphase"; "ccx"; "cswap"; "measure"; "reset"].

(** backendbase.py:86-93 [_get_action], [_has_action] *)
Definition has_action (names : list string) (g : gate) : bool := existsb (String.eqb (lowername g)) names.

(** backendbase.py:95-103 [_resolve_fallback].  [fuel] bounds the nesting, as Python's recursion limit does. *)
Fixpoint resolve (names : list string) (fuel : nat) (g : gate) (n_qubits : Z) : res (list gate) :=
  if has_action names g then Ok [g] else
  match fuel with
  | O => Err RecursionError
  | S f => let* gs := fallback g n_qubits in
           let* ls := map_res (fun g' => resolve names f g' n_qubits) gs in
           Ok (List.concat ls)
  end.
Definition resolve_fallback (names : list string) (fuel : nat) (gates : list gate) (n_qubits : Z) : res (list gate) :=
  let* ls := map_res (fun g => resolve names fuel g n_qubits) gates in Ok (List.concat ls).

(** backendbase.py:45-53 [_run_gates]; [act g] is the bound method for [g], which changes the context or raises. *)
Fixpoint run_gate {S : Type} (names : list string) (act : gate -> S -> res S) (fuel : nat) (g : gate) (n_qubits : Z)
    (s : S) : res S :=
  if has_action names g then act g s else
  match fuel with
  | O => Err RecursionError
  | Datatypes.S f => let* gs := fallback g n_qubits in for_list gs (fun g' => run_gate names act f g' n_qubits) s
  end.
Definition run_gates {S : Type} (names : list string) (act : gate -> S -> res S) (fuel : nat) (gates : list gate)
    (n_qubits : Z) (s : S) : res S :=
  for_list gates (fun g => run_gate names act fuel g n_qubits) s.

(** circuit.py:30-71 [GATE_SET]: names of circuit methods, and the class that each creates (by its [lowername]). *)
Definition gate_set : list (string * string) :=
  [("i", "i"); ("x", "x"); ("y", "y"); ("z", "z"); ("h", "h"); ("t", "t"); ("tdg", "tdg"); ("s", "s"); ("sdg", "sdg");
   ("cz", "cz"); ("cx", "cx"); ("cnot", "cx"); ("cy", "cy"); ("ch", "ch"); ("rx", "rx"); ("ry", "ry"); ("rz", "rz");
   ("r", "phase"); ("phase", "phase"); ("crx", "crx"); ("cry", "cry"); ("crz", "crz"); ("cr", "cphase");
   ("cphase", "cphase"); ("u1", "u1"); ("u2", "u2"); ("u3", "u3"); ("cu1", "cu1"); ("cu2", "cu2"); ("cu3", "cu3");
   ("swap", "swap"); ("rxx", "rxx"); ("ryy", "ryy"); ("rzz", "rzz"); ("ccx", "ccx"); ("toffoli", "ccx");
   ("cswap", "cswap"); ("reset", "reset"); ("measure", "measure"); ("m", "measure")].
