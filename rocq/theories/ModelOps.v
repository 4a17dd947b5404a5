(** Model of blueqat/experimental/operations.py: the class Ops (46-71) and its _GateWrapper (74-103).
    Python objects are places in a memory: tuples of gates, Ops objects, wrappers; the circuits are those of ModelCircuit.
    Simplifications: macros (GLOBAL_MACROS, empty at first, 44) and the texts (__repr__, __str__) are left out, as are keyword arguments. *)
From Coq Require Import List Arith ZArith Bool String Reals.
Import ListNotations.
From Verif Require Import Base Cplx ModelTargets ModelGate ModelNumpy ModelNumba ModelCircuit.
Local Open Scope Z_scope.

(** The gate classes by [lowername], and what calling the class with targets and positional arguments gives; another number of arguments is a
    TypeError (gate.py: the __init__ methods).  A class without an own __init__ takes one more argument (gate.py:22, [params=()]): the gate keeps it,
    and nothing that is modelled here reads it. *)
Definition no_par (f : target -> gate) (args : list R) (tg : target) : res gate := match args with [] | [_] => Ok (f tg) | _ => Err TypeError end.
Definition one_par (f : R -> target -> gate) (args : list R) (tg : target) : res gate := match args with [a] => Ok (f a tg) | _ => Err TypeError end.
Definition two_par (f : R -> R -> target -> gate) (args : list R) (tg : target) : res gate := match args with [a; b] => Ok (f a b tg) | _ => Err TypeError end.
Definition three_par (f : R -> R -> R -> target -> gate) (args : list R) (tg : target) : res gate :=
  match args with [a; b; c] => Ok (f a b c tg) | _ => Err TypeError end.
Definition gate_class : Type := list R -> target -> res gate.
Definition IGate := no_par (GOne KI).        Definition XGate := no_par (GOne KX).      Definition YGate := no_par (GOne KY).
Definition ZGate := no_par (GOne KZ).        Definition HGate := no_par (GOne KH).      Definition TGate := no_par (GOne KT).
Definition TDagGate := no_par (GOne KTdg).   Definition SGate := no_par (GOne KS).      Definition SDagGate := no_par (GOne KSdg).
Definition CZGate := no_par (GTwo KCZ).      Definition CXGate := no_par (GTwo KCX).    Definition CYGate := no_par (GTwo KCY).
Definition CHGate := no_par (GTwo KCH).      Definition SwapGate := no_par (GTwo KSwap). Definition ToffoliGate := no_par (GThree KCCX).
Definition RXGate := one_par (fun t => GOne (KRX t)).       Definition RYGate := one_par (fun t => GOne (KRY t)).
Definition RZGate := one_par (fun t => GOne (KRZ t)).       Definition PhaseGate := one_par (fun t => GOne (KPhase t)).
Definition CRXGate := one_par (fun t => GTwo (KCRX t)).     Definition CRYGate := one_par (fun t => GTwo (KCRY t)).
Definition CRZGate := one_par (fun t => GTwo (KCRZ t)).     Definition CPhaseGate := one_par (fun t => GTwo (KCPhase t)).
Definition U1Gate := one_par (fun l => GOne (KU1 l)).       Definition U2Gate := two_par (fun p l => GOne (KU2 p l)).
Definition U3Gate := three_par (fun t p l => GOne (KU3 t p l)).
Definition CU1Gate := one_par (fun l => GTwo (KCU1 l)).     Definition CU2Gate := two_par (fun p l => GTwo (KCU2 p l)).
Definition CU3Gate := three_par (fun t p l => GTwo (KCU3 t p l)).
Definition Measurement := no_par GMeasure.

(** 6-42; "rxx", "ryy", "rzz", "cswap" and "reset" of circuit.py are not there *)
Definition ops_gate_set : list (string * gate_class) :=
  [("i", IGate); ("x", XGate); ("y", YGate); ("z", ZGate); ("h", HGate); ("t", TGate); ("tdg", TDagGate); ("s", SGate); ("sdg", SDagGate);
   ("cz", CZGate); ("cx", CXGate); ("cnot", CXGate); ("cy", CYGate); ("ch", CHGate); ("rx", RXGate); ("ry", RYGate); ("rz", RZGate);
   ("r", PhaseGate); ("phase", PhaseGate); ("crx", CRXGate); ("cry", CRYGate); ("crz", CRZGate); ("cr", CPhaseGate); ("cphase", CPhaseGate);
   ("u1", U1Gate); ("u2", U2Gate); ("u3", U3Gate); ("cu1", CU1Gate); ("cu2", CU2Gate); ("cu3", CU3Gate); ("swap", SwapGate);
   ("ccx", ToffoliGate); ("toffoli", ToffoliGate); ("measure", Measurement); ("m", Measurement)]%string.

Record opsobj : Type := OpsObj { p_n : Z; p_ops : nat }.                                    (* n_qubits, place of the tuple *)
Record wrapper : Type := Wrapper { w_ops : nat; w_gate : gate_class; w_args : list R }.     (* 75-81 *)
Record memory : Type := Mem { m_tuples : list (list gate); m_objs : list opsobj; m_wraps : list wrapper; m_heap : heap }.

Inductive call : Type :=
| Create (n : Z)                              (* Ops(n) *)
| Attr (o : nat) (name : string)              (* o.name *)
| Call (w : nat) (args : list R)              (* w(args) *)
| Item (w : nat) (tg : target)                (* w[tg] *)
| Plus (a b : nat)                            (* a + b *)
| Dagger (o : nat)
| ToCircuit (o : nat)
| OnCircuits (k : op).                        (* any operation on circuits *)
Inductive value : Type := VOps (o : nat) | VWrapper (w : nat) | VCircuit (c : nat) | VOut (x : out).

Definition new_ops (m : memory) (n : Z) (gs : list gate) : res value * memory :=
  (Ok (VOps (List.length (m_objs m))),
   Mem (m_tuples m ++ [gs]) (m_objs m ++ [OpsObj n (List.length (m_tuples m))]) (m_wraps m) (m_heap m)).
Definition with_ops (m : memory) (o : nat) (f : Z -> list gate -> res value * memory) : res value * memory :=
  match get (m_objs m) o with
  | Err e => (Err e, m)
  | Ok x => match get (m_tuples m) (p_ops x) with Err e => (Err e, m) | Ok gs => f (p_n x) gs end
  end.

Section Random.
Variable rng : nat -> R.
Definition ostep (m : memory) (k : call) : res value * memory :=
  match k with
  | Create n => new_ops m n []                                                             (* 48-49 *)
  | Attr o name =>                                                                         (* 54-59 *)
      with_ops m o (fun _ _ =>
        match lookup ops_gate_set name with
        | None => (Err AttributeError, m)
        | Some g => (Ok (VWrapper (List.length (m_wraps m))), Mem (m_tuples m) (m_objs m) (m_wraps m ++ [Wrapper o g []]) (m_heap m))
        end)
  | Call w args =>                                                                         (* 83-86: the wrapper itself is changed *)
      match get (m_wraps m) w with
      | Err e => (Err e, m)
      | Ok x => (Ok (VWrapper w), Mem (m_tuples m) (m_objs m) (put (m_wraps m) w (Wrapper (w_ops x) (w_gate x) args)) (m_heap m))
      end
  | Item w tg =>                                                                           (* 88-92 *)
      match get (m_wraps m) w with
      | Err e => (Err e, m)
      | Ok x =>
          with_ops m (w_ops x) (fun n gs =>
            match get_maximum_index tg with
            | Err e => (Err e, m)
            | Ok i => match w_gate x (w_args x) tg with
                      | Err e => (Err e, m)
                      | Ok g => new_ops m (Z.max n (i + 1)) (gs ++ [g])
                      end
            end)
      end
  | Plus a b => with_ops m a (fun n gs => with_ops m b (fun n' gs' => new_ops m (Z.max n n') (gs ++ gs')))   (* 61-64 *)
  | Dagger o =>                                                                            (* 66-68 *)
      with_ops m o (fun n gs => match map_res gate_dagger (rev gs) with Err e => (Err e, m) | Ok gs' => new_ops m n gs' end)
  | ToCircuit o =>                                                                         (* 70-71, circuit.py:87-91 [ops or []] *)
      with_ops m o (fun n gs =>
        let (l, h) := alloc_list (m_heap m) gs in
        let (c, h) := alloc_circ h (Circ l n [] None) in (Ok (VCircuit c), Mem (m_tuples m) (m_objs m) (m_wraps m) h))
  | OnCircuits k => let (r, h) := step rng (m_heap m) k in (rmap VOut r, Mem (m_tuples m) (m_objs m) (m_wraps m) h)
  end.
Fixpoint osteps (m : memory) (ks : list call) : list (res value) * memory :=
  match ks with
  | [] => ([], m)
  | k :: ks => let (r, m) := ostep m k in let (rs, m) := osteps m ks in (r :: rs, m)
  end.
End Random.
Definition empty_memory (pos : nat) : memory := Mem [] [] [] (empty_heap pos).
