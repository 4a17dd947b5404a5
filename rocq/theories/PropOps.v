(** Property theorems: the experimental class Ops (C54).
    [is_ops m o n gs]: in memory [m] the object [o] has width [n] and gates [gs]; [builds name args tg g]: [g] is what the method of that name of
    class Circuit adds when called with the arguments: its parameters, or one unused argument if it has none. *)
From Coq Require Import List Arith ZArith Bool String Reals.
Import ListNotations.
From Verif Require Import Base ModelTargets ModelGate ModelCircuit ModelOps SpecAPI SpecOps ProofOps.

(** C54.  No program changes an existing object: attribute, call, item, sum, dagger, conversion, or anything done to circuits. *)
Theorem C54_unchanged : forall rng ks m rs m' o n gs, osteps rng m ks = (rs, m') -> is_ops m o n gs -> is_ops m' o n gs.
Proof. exact ops_unchanged. Qed.
Print Assumptions C54_unchanged.
(** What the methods return. *)
Theorem C54_create : forall rng m n, exists m', ostep rng m (Create n) = (Ok (VOps (List.length (m_objs m))), m') /\ is_ops m' (List.length (m_objs m)) n [].
Proof. exact create_step. Qed.
Print Assumptions C54_create.
Theorem C54_attribute : forall rng m o n gs name, is_ops m o n gs ->
  (ops_has name -> exists m', ostep rng m (Attr o name) = (Ok (VWrapper (List.length (m_wraps m))), m') /\ is_wrapper m' (List.length (m_wraps m)) o name []) /\
  (~ ops_has name -> ostep rng m (Attr o name) = (Err AttributeError, m)).
Proof. exact attr_step. Qed.
Print Assumptions C54_attribute.
Theorem C54_call : forall rng m w o name args0 args, is_wrapper m w o name args0 ->
  exists m', ostep rng m (ModelOps.Call w args) = (Ok (VWrapper w), m') /\ is_wrapper m' w o name args.
Proof. exact call_step. Qed.
Print Assumptions C54_call.
(** A gate is appended and the width grows to hold it; wrong arguments and nested tuples are refused. *)
Theorem C54_item : forall rng m w o name args tg n gs, is_wrapper m w o name args -> is_ops m o n gs -> (0 <= n)%Z ->
  (flat tg /\ exists g n' m', builds name args tg g /\ grown n tg n' /\ ostep rng m (Item w tg) = (Ok (VOps (List.length (m_objs m))), m') /\
     is_ops m' (List.length (m_objs m)) n' (gs ++ [g])) \/
  (flat tg /\ (forall g, ~ builds name args tg g) /\ ostep rng m (Item w tg) = (Err TypeError, m)) \/
  (~ flat tg /\ ostep rng m (Item w tg) = (Err AttributeError, m)).
Proof. exact item_step. Qed.
Print Assumptions C54_item.
Theorem C54_plus : forall rng m a b n gs n' gs', is_ops m a n gs -> is_ops m b n' gs' ->
  exists m', ostep rng m (Plus a b) = (Ok (VOps (List.length (m_objs m))), m') /\ is_ops m' (List.length (m_objs m)) (Z.max n n') (gs ++ gs').
Proof. exact plus_step. Qed.
Print Assumptions C54_plus.
(** dagger is that of circuits (compare C12_dagger). *)
Theorem C54_dagger : forall rng m o n gs, is_ops m o n gs ->
  (Forall (fun g => ~ irreversible g) gs /\ exists gs' m', ostep rng m (Dagger o) = (Ok (VOps (List.length (m_objs m))), m') /\ reversed gs gs' /\
     is_ops m' (List.length (m_objs m)) n gs') \/
  (Exists irreversible gs /\ ostep rng m (Dagger o) = (Err ValueError, m)).
Proof. exact odagger_step. Qed.
Print Assumptions C54_dagger.
Theorem C54_to_circuit : forall rng m o n gs, is_ops m o n gs -> exists m',
  ostep rng m (ToCircuit o) = (Ok (VCircuit (List.length (h_circs (m_heap m)))), m') /\
  circuit_is (m_heap m') (List.length (h_circs (m_heap m))) (VCirc gs n None) /\ (forall c v, circuit_is (m_heap m) c v -> circuit_is (m_heap m') c v).
Proof. exact circuit_step. Qed.
Print Assumptions C54_to_circuit.
(** Gate calls that succeed one after the other on a new Ops(n) make the gates and the width that they make on a new Circuit(n). *)
Theorem C54_same : forall rng l m n rs m' h, osteps rng m (Create (Z.of_nat n) :: chain (List.length (m_objs m)) (List.length (m_wraps m)) l) = (rs, m') -> all_ok rs ->
  exists gs n' cs h', Forall2 (fun x g => builds (fst (fst x)) (snd (fst x)) (snd x) g) l gs /\ is_ops m' (List.length (m_objs m) + List.length l) n' gs /\
    steps rng h (ONew n :: map (OGate (List.length (h_circs h))) gs) = (cs, h') /\ all_ok cs /\ circuit_is h' (List.length (h_circs h)) (VCirc gs n' None).
Proof. exact chain_new. Qed.
Print Assumptions C54_same.
Example C54_case : exists rs m', osteps (fun _ => 0%R) (empty_memory 0) ops_program = (rs, m') /\
  is_ops m' 1 3 [GOne (KRX 1) (TInt 2)] /\ is_ops m' 2 3 [GOne (KRX 1) (TInt 2); GMeasure (TInt 0)] /\ is_wrapper m' 2 1 "rx" [] /\
  circuit_is (m_heap m') 0 (VCirc [GOne (KRX 1) (TInt 2); GOne KX (TInt 7)] 8 None) /\
  skipn 7 rs = [Ok (VOps 3); Ok (VOps 4); Err ValueError; Ok (VCircuit 0); Ok (VOut (OutCirc 0)); Ok (VWrapper 2); Err TypeError; Err AttributeError].
Proof. exact program_case. Qed.
Example C54_chain_case : exists rs m', osteps (fun _ => 0%R) (empty_memory 0) (Create (Z.of_nat 1) ::
    chain 0 0 [("rx", [1%R], TInt 2%Z); ("cx", [], TTuple [TInt 0%Z; TSlice None None None]); ("u3", [1; 2; 3]%R, TSlice (Some 0%Z) (Some 5%Z) None)]%string) = (rs, m') /\ all_ok rs.
Proof. exact chain_case. Qed.
