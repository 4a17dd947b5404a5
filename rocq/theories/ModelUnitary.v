(** Model of circuit_to_unitary of blueqat/experimental/utils.py.
    Simplifications: positional arguments of [run] are left out; what backends other than the simulators return is not modelled. *)
From Coq Require Import List Arith ZArith Bool String Reals.
Import ListNotations.
From Verif Require Import Base Cplx ModelTargets ModelGate ModelNumpy ModelNumba ModelCircuit.

Section Random.
Variable rng : nat -> R.

(** line 26: [tuple(k for k in range(n_qubits) if (1 << k) & i)] *)
Definition bitmask (n i : nat) : list nat := filter (fun k => negb (Nat.eqb (Nat.land (2 ^ k) i) 0)) (seq 0 n).
(** lines 19-20: [ignore_global] is None if the caller does not give it; [shots] as given *)
Definition unitary_args (shots : option Z) (ignore_global : option bool) : nb_args :=
  NbArgs (RunArgs shots (Some "statevector"%string) (match ignore_global with Some b => b | None => false end)) true.

(** lines 26-31: the state vector for the basis state [i] *)
Definition unitary_column (h : heap) (circ : nat) (n i : nat) (s : sel) (a : nb_args) : res carr * heap :=
  match step rng h (ONew 0) with
  | (Ok (OutCirc c), h) =>
      match (match bitmask n i with
             | [] => (Ok (OutCirc c), h)
             | ks => step rng h (OGate c (GOne KX (TTuple (map (fun k => TInt (Z.of_nat k)) ks))))
             end) with
      | (Err e, h) => (Err e, h)
      | (Ok _, h) =>
          match step rng h (OIAdd c circ) with
          | (Err e, h) => (Err e, h)
          | (Ok _, h) =>
              match step rng h (ORun c s a) with
              | (Ok (OutRun (RState v)), h) => (Ok v, h)
              | (Ok _, h) => (Err Undefined, h)
              | (Err e, h) => (Err e, h)
              end
          end
      end
  | (Ok _, h) => (Err Undefined, h)
  | (Err e, h) => (Err e, h)
  end.
(** lines 25-31 *)
Fixpoint unitary_columns (h : heap) (circ : nat) (n : nat) (is : list nat) (s : sel) (a : nb_args) : res (list carr) * heap :=
  match is with
  | [] => (Ok [], h)
  | i :: r =>
      match unitary_column h circ n i s a with
      | (Err e, h) => (Err e, h)
      | (Ok v, h) => match unitary_columns h circ n r s a with
                     | (Err e, h) => (Err e, h)
                     | (Ok vs, h) => (Ok (v :: vs), h)
                     end
      end
  end.
(** line 32: [np.array(vecs).T], where all vectors have the length of the first *)
Definition transposed (vecs : list carr) : list (list C) :=
  map (fun x => map (fun v => nth x v C0) vecs) (seq 0 (match vecs with [] => 0 | v :: _ => List.length v end)).
(** lines 18-32 *)
Definition circuit_to_unitary (h : heap) (circ : nat) (s : sel) (a : nb_args) : res (list (list C)) * heap :=
  match get (h_circs h) circ with
  | Err e => (Err e, h)
  | Ok x =>
      let n := Z.to_nat (c_n x) in
      if Z.eqb (c_n x) 0 then (Ok [[C1]], h)
      else match unitary_columns h circ n (seq 0 (2 ^ n)) s a with
           | (Err e, h) => (Err e, h)
           | (Ok vecs, h) => (Ok (transposed vecs), h)
           end
  end.
End Random.
