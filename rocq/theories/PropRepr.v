(** C51: the text of a circuit can be evaluated back.
    [show] prints parameters, [read] reads numbers; a parameter is printed as a number that is read back as the parameter ([printable]). *)
From Coq Require Import String List ZArith Reals.
Import ListNotations.
From Verif Require Import Base ModelTargets ModelGate ModelNumba ModelCircuit ModelRepr SpecTargets SpecAPI SpecRepr ProofCircuitEx ProofQasmProps ProofRepr.
Local Open Scope string_scope.

(** C51.  repr(c) is an expression; evaluated, it makes a new circuit with the gates (class, parameters, targets) and the width of c.
    Partial: not for the empty circuit, a target that is an empty tuple, and CCZ, which has no method (see C51_only); a target that is a tuple of one
    is read back as its element ([as_written], see C51_same_qubits). *)
Theorem C51_repr_partial : forall show read rng seen h c v, reachable rng seen h -> circuit_is h c v -> expressible (v_gates v) ->
  Forall (printable show read) (flat_map params (v_gates v)) ->
  exists text, circuit_repr show (v_n v) (v_gates v) = Ok text /\ (exists h', evaluates read rng text h h') /\
    forall h', evaluates read rng text h h' -> circuit_is h' (List.length (h_circs h)) (VCirc (map as_written (v_gates v)) (v_n v) None).
Proof. exact (fun show read rng => repr_back rng show read). Qed.
Print Assumptions C51_repr_partial.

(** C51.  Without tuples of one the gates are the same. *)
Theorem C51_exact_partial : forall show read rng seen h c v, reachable rng seen h -> circuit_is h c v -> expressible (v_gates v) ->
  Forall (printable show read) (flat_map params (v_gates v)) -> Forall (fun g => forall t, targets g <> TTuple [t]) (v_gates v) ->
  exists text, circuit_repr show (v_n v) (v_gates v) = Ok text /\ (exists h', evaluates read rng text h h') /\
    forall h', evaluates read rng text h h' -> circuit_is h' (List.length (h_circs h)) (VCirc (v_gates v) (v_n v) None).
Proof. exact repr_exact. Qed.
Print Assumptions C51_exact_partial.

(** Circuit().rz(1.0)[0, -2::-1].cx[0, 3].m[:] *)
Example C51_case : exists h, (exists seen, reachable r0 seen h) /\ circuit_is h 0 repr_v /\ expressible (v_gates repr_v) /\
  Forall (printable show_ex read_ex) (flat_map params (v_gates repr_v)) /\ Forall (fun g => forall t, targets g <> TTuple [t]) (v_gates repr_v) /\
  circuit_repr show_ex (v_n repr_v) (v_gates repr_v) = Ok "Circuit(4).rz(1.0)[0, -2::-1].cx[0, 3].measure[:]".
Proof. exact repr_case. Qed.

(** C51.  A tuple of one names the same qubits, and the same pairs, as its element. *)
Theorem C51_same_qubits : forall n t, flat t -> (forall l, denotes n (unwrap t) l <-> denotes n t l) /\
  forall ps, denotes_pairs n (unwrap t) ps <-> denotes_pairs n t ps.
Proof. exact (fun n t F => conj (fun l => unwrap_denotes n t l F) (fun ps => unwrap_pairs n t ps F)). Qed.
Print Assumptions C51_same_qubits.

(** C51.  The text of every other circuit cannot be evaluated. *)
Theorem C51_only : forall rng show read n gs text h, Forall (printable show read) (flat_map params gs) -> ~ expressible gs ->
  circuit_repr show n gs = Ok text -> forall h', ~ evaluates read rng text h h'.
Proof. exact repr_not. Qed.
Print Assumptions C51_only.

(** the empty circuit, a single gate on an empty tuple, a single CCZ *)
Example C51_only_cases : ~ expressible [] /\ (forall g, targets g = TTuple [] -> ~ expressible [g]) /\ forall tg, ~ expressible [GThree KCCZ tg].
Proof. exact unexpressible. Qed.

(** C51.  repr raises (AttributeError) exactly if a gate has a target that is neither an integer, a slice nor a tuple of those. *)
Theorem C51_raises : forall show n gs e, circuit_repr show n gs = Err e <-> e = AttributeError /\ Exists (fun g => ~ flat (targets g)) gs.
Proof. exact repr_raises. Qed.
Print Assumptions C51_raises.

(** C51.  A program can reach such a circuit: the gate call that is refused has appended the gate. *)
Theorem C51_raises_refuted : forall show, exists h v, (exists seen, reachable r0 seen h) /\ circuit_is h 0 v /\
  circuit_repr show (v_n v) (v_gates v) = Err AttributeError.
Proof. exact nested_raises. Qed.
Print Assumptions C51_raises_refuted.

(** C51.  The text of the empty circuit is no expression. *)
Theorem C51_empty_refuted : forall show read n, exists text, circuit_repr show n [] = Ok text /\ read_circuit read text = None.
Proof. exact repr_empty. Qed.
Print Assumptions C51_empty_refuted.

(** C51.  x[(3,)] is printed as x[3]: the targets read back are not the same. *)
Theorem C51_tuple_refuted : forall show read, exists text, circuit_repr show 4 [GOne KX (TTuple [TInt 3])] = Ok text /\
  read_circuit read text = Some (4%nat, [("x", [], TInt 3)]) /\ TInt 3 <> TTuple [TInt 3].
Proof. exact tuple_of_one. Qed.
Print Assumptions C51_tuple_refuted.
