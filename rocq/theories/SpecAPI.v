(** Specification of programs on circuits: circuits are values (gates, width, default backend), there are no caches and no
    shared objects, every run is that of a newly built circuit. *)
From Coq Require Import List Arith ZArith Bool String Reals.
Import ListNotations.
From Verif Require Import Base Cplx ModelTargets ModelGate ModelNumpy ModelNumba ModelCircuit SpecTargets SpecCircuit SpecMeasure SpecRun.
Local Open Scope Z_scope.

Record vcirc : Type := VCirc { v_gates : list gate; v_n : Z; v_default : option string }.
(** [vh_user]: backend objects that the program made itself *)
Record vheap : Type := VHeap { vh_circs : list vcirc; vh_user : list nat; vh_default : string; vh_pos : nat }.

Definition set_circ (s : vheap) (c : nat) (v : vcirc) : vheap :=
  VHeap (put (vh_circs s) c v) (vh_user s) (vh_default s) (vh_pos s).
Definition add_circ (s : vheap) (v : vcirc) : vheap := VHeap (vh_circs s ++ [v]) (vh_user s) (vh_default s) (vh_pos s).
Definition at_pos (s : vheap) (p : nat) : vheap := VHeap (vh_circs s) (vh_user s) (vh_default s) p.
Definition next (s : vheap) : nat := List.length (vh_circs s).

(** ** Width of a register *)
(** An integer needs the register to have that qubit; a slice needs it to have its bounds. *)
Definition holds1 (w : Z) (t : target) : Prop :=
  match t with
  | TInt z => z < w
  | TSlice a b _ => (forall s, a = Some s -> s < w) /\ (forall e, b = Some e -> e <= w)
  | _ => True
  end.
Definition holds (w : Z) (t : target) : Prop := match t with TTuple l => Forall (holds1 w) l | _ => holds1 w t end.

(** an integer, a slice, or a tuple of those *)
Definition flat1 (t : target) : Prop := match t with TInt _ | TSlice _ _ _ => True | _ => False end.
Definition flat (t : target) : Prop := match t with TTuple l => Forall flat1 l | _ => flat1 t end.

(** [w] is the least width from [n] on that holds [t] *)
Definition grown (n : Z) (t : target) (w : Z) : Prop := n <= w /\ holds w t /\ forall w', n <= w' -> holds w' t -> w <= w'.

(** ** The gates of [dagger] *)
Definition irreversible (g : gate) : Prop := match g with GMeasure _ | GReset _ => True | _ => False end.
(** every gate is replaced by its dagger, in reverse order; measurement and reset are left out *)
Inductive reversed : list gate -> list gate -> Prop :=
| rv_nil : reversed [] []
| rv_gate : forall g g' gs r, gate_dagger g = Ok g' -> reversed gs r -> reversed (g :: gs) (r ++ [g'])
| rv_drop : forall g gs r, irreversible g -> reversed gs r -> reversed (g :: gs) r.

(** the names of the backends, as documented *)
Definition kind_of (name : string) (k : bkind) : Prop :=
  (name = "numpy" /\ k = BNumpy \/ name = "numba" /\ k = BNumba \/ name = "qasm_output" /\ k = BOther "qasm_output" \/
   name = "ibmq" /\ k = BOther "ibmq" \/ name = "sympy_unitary" /\ k = BOther "sympy_unitary" \/ name = "qgate" /\ k = BOther "qgate")%string.
Definition known (name : string) : Prop := exists k, kind_of name k.

Definition sel_name (s : vheap) (v : vcirc) (o : option string) : string :=
  match o with Some x => x | None => match v_default v with Some d => d | None => vh_default s end end.

(** [r] is the outcome [r0] of a run; contexts returned by returns="_inner_ctx" are compared without scratch space *)
Definition same_out (r : res out) (r0 : res run_result) : Prop :=
  match r, r0 with
  | Ok (OutRun a), Ok b => result_same a b
  | Err a, Err b => a = b
  | _, _ => False
  end.
Definition finished_like (r : res out) (r0 : res run_result) : Prop :=
  match r, r0 with
  | Ok OutNone, Ok _ => True
  | Err a, Err b => a = b
  | _, _ => False
  end.

Section Random.
Variable rng : nat -> R.

(** what numba promises: the circuit is valid and fits, the stream consists of numbers from 0 to 1 *)
Definition numba_ok (v : vcirc) (a : nb_args) : Prop :=
  draws_ok rng /\ v_n v <= 64 /\ valid (Z.to_nat (v_n v)) (v_gates v) /\ a_returns (na_args a) <> Some "_inner_ctx"%string.

(** [fresh k v a pos same r p]: the outcome [r] and the stream position [p] of a run on a new backend of class [k] *)
Inductive fresh (v : vcirc) (a : nb_args) (pos : nat) (same : res out -> res run_result -> Prop) : bkind -> res out -> nat -> Prop :=
| fr_numpy : forall r r0 b p, np_run rng new_backend (v_gates v) (Z.to_nat (v_n v)) (na_args a) pos = (r0, b, p) ->
    same r r0 -> fresh v a pos same BNumpy r p
| fr_numba : forall r r1 r0 b p0 p, nb_run rng new_backend (v_gates v) (Z.to_nat (v_n v)) a pos = (r0, b, p0) ->
    same r r1 -> (numba_ok v a -> r1 = r0 /\ p = p0) -> fresh v a pos same BNumba r p.

Inductive vstep (s : vheap) : op -> res out -> vheap -> Prop :=
| vs_new : forall n, vstep s (ONew n) (Ok (OutCirc (next s))) (add_circ s (VCirc [] (Z.of_nat n) None))
| vs_gate : forall c g v w, nth_error (vh_circs s) c = Some v -> flat (targets g) -> grown (v_n v) (targets g) w ->
    vstep s (OGate c g) (Ok (OutCirc c)) (set_circ s c (VCirc (v_gates v ++ [g]) w (v_default v)))
(** a refused gate call has nevertheless appended the gate *)
| vs_gate_refused : forall c g v, nth_error (vh_circs s) c = Some v -> ~ flat (targets g) ->
    vstep s (OGate c g) (Err AttributeError) (set_circ s c (VCirc (v_gates v ++ [g]) (v_n v) (v_default v)))
| vs_iadd : forall a b va vb, nth_error (vh_circs s) a = Some va -> nth_error (vh_circs s) b = Some vb ->
    vstep s (OIAdd a b) (Ok (OutCirc a)) (set_circ s a (VCirc (v_gates va ++ v_gates vb) (Z.max (v_n va) (v_n vb)) (v_default va)))
| vs_add : forall a b va vb, nth_error (vh_circs s) a = Some va -> nth_error (vh_circs s) b = Some vb ->
    vstep s (OAdd a b) (Ok (OutCirc (next s)))
      (add_circ s (VCirc (v_gates va ++ v_gates vb) (Z.max (v_n va) (v_n vb)) (v_default va)))
| vs_copy : forall c cb cd v, nth_error (vh_circs s) c = Some v ->
    vstep s (OCopy c cb cd) (Ok (OutCirc (next s))) (add_circ s (VCirc (v_gates v) (v_n v) (if cd then v_default v else None)))
| vs_dagger : forall c im cd v gs, nth_error (vh_circs s) c = Some v -> (im = false -> Forall (fun g => ~ irreversible g) (v_gates v)) ->
    reversed (v_gates v) gs ->
    vstep s (ODagger c im false cd) (Ok (OutCirc (next s))) (add_circ s (VCirc gs (v_n v) (if cd then v_default v else None)))
| vs_dagger_refused : forall c cd v, nth_error (vh_circs s) c = Some v -> Exists irreversible (v_gates v) ->
    vstep s (ODagger c false false cd) (Err ValueError) s
| vs_run : forall c o a v k r p, nth_error (vh_circs s) c = Some v -> kind_of (sel_name s v o) k ->
    fresh v a (vh_pos s) same_out k r p ->
    vstep s (ORun c (match o with Some x => SelName x | None => SelDefault end) a) r (at_pos s p)
| vs_run_other : forall c o a v k, nth_error (vh_circs s) c = Some v -> kind_of (sel_name s v o) (BOther k) ->
    vstep s (ORun c (match o with Some x => SelName x | None => SelDefault end) a) (Ok (OutOther k (v_gates v) (v_n v))) s
| vs_run_unknown : forall c o a v, nth_error (vh_circs s) c = Some v -> ~ known (sel_name s v o) ->
    vstep s (ORun c (match o with Some x => SelName x | None => SelDefault end) a) (Err ValueError) s
| vs_run_with : forall c x a r s', known x -> vstep s (ORun c (SelName x) a) r s' -> vstep s (ORunWith c x a) r s'
| vs_run_with_unknown : forall c x a, ~ known x -> vstep s (ORunWith c x a) (Err AttributeError) s
(** a backend object of the program: nothing is promised about the outcome of the run *)
| vs_run_obj : forall c o a v r p, nth_error (vh_circs s) c = Some v -> In o (vh_user s) ->
    match r with Ok (OutRun _) | Ok (OutOther _ _ _) | Err _ => True | _ => False end ->
    vstep s (ORun c (SelObj o) a) r (at_pos s p)
| vs_cache : forall c o v k r p, nth_error (vh_circs s) c = Some v -> kind_of (sel_name s v o) k ->
    fresh v (NbArgs no_args true) (vh_pos s) finished_like k r p -> vstep s (OMakeCache c o) r (at_pos s p)
| vs_cache_other : forall c o v k, nth_error (vh_circs s) c = Some v -> kind_of (sel_name s v o) (BOther k) ->
    vstep s (OMakeCache c o) (Ok OutNone) s
| vs_cache_unknown : forall c o v, nth_error (vh_circs s) c = Some v -> ~ known (sel_name s v o) ->
    vstep s (OMakeCache c o) (Err ValueError) s
| vs_default : forall c x v, nth_error (vh_circs s) c = Some v -> known x ->
    vstep s (OSetDefault c (Some x)) (Ok OutNone) (set_circ s c (VCirc (v_gates v) (v_n v) (Some x)))
| vs_default_unknown : forall c x v, nth_error (vh_circs s) c = Some v -> ~ known x ->
    vstep s (OSetDefault c (Some x)) (Err ValueError) s
(** documented to go back to the global default, but refused *)
| vs_default_none : forall c v, nth_error (vh_circs s) c = Some v -> vstep s (OSetDefault c None) (Err ValueError) s
| vs_get_default : forall c v, nth_error (vh_circs s) c = Some v -> vstep s (OGetDefault c) (Ok (OutName (sel_name s v None))) s
| vs_global : forall x, known x ->
    vstep s (OGlobalDefault x) (Ok OutNone) (VHeap (vh_circs s) (vh_user s) x (vh_pos s))
| vs_global_unknown : forall x, ~ known x -> vstep s (OGlobalDefault x) (Err ValueError) s
| vs_global_name : vstep s OGlobalName (Ok (OutName (vh_default s))) s
| vs_backend : forall k o, vstep s (ONewBackend k) (Ok (OutObj o)) (VHeap (vh_circs s) (o :: vh_user s) (vh_default s) (vh_pos s))
(** variables that were never assigned *)
| vs_undefined : forall o c, In c (match o with
      | OGate c _ | OCopy c _ _ | ODagger c _ _ _ | ORun c _ _ | OMakeCache c _ | OSetDefault c _ | OGetDefault c => [c]
      | OIAdd a b | OAdd a b => [a; b]
      | ORunWith c _ _ => [c]
      | _ => [] end) -> nth_error (vh_circs s) c = None -> vstep s o (Err Undefined) s.

Inductive vsteps : vheap -> list op -> list (res out) -> vheap -> Prop :=
| vss_nil : forall s, vsteps s [] [] s
| vss_cons : forall s o r s1 os rs s2, vstep s o r s1 -> vsteps s1 os rs s2 -> vsteps s (o :: os) (r :: rs) s2.
End Random.

Definition vstart (pos : nat) : vheap := VHeap [] [] "numpy"%string pos.

(** ** Programs
    [proper seen os rs]: the program shares no operation list ([Circuit(n, c.ops)]), does not copy backends into a dagger,
    and runs only backend objects that it made ([seen]: the objects made so far). *)
Definition proper_op (seen : list nat) (o : op) : Prop :=
  match o with
  | ONewOps _ _ => False
  | ODagger _ _ cb _ => cb = false
  | ORun _ (SelObj x) _ => In x seen
  | _ => True
  end.
Fixpoint proper (seen : list nat) (os : list op) (rs : list (res out)) : Prop :=
  match os, rs with
  | o :: os, r :: rs => proper_op seen o /\ proper (match r with Ok (OutObj x) => x :: seen | _ => seen end) os rs
  | _, _ => True
  end.

(** ** Observing a heap *)
(** circuit [c] of the heap has the gates, width and default backend of [v] *)
Definition circuit_is (h : heap) (c : nat) (v : vcirc) : Prop :=
  exists x, nth_error (h_circs h) c = Some x /\ nth_error (h_lists h) (c_ops x) = Some (v_gates v) /\
    c_n x = v_n v /\ c_default x = v_default v.

(** heaps that proper programs reach, with the backend objects that the program made *)
Inductive reachable (rng : nat -> R) : list nat -> heap -> Prop :=
| reach_start : forall pos, reachable rng [] (empty_heap pos)
| reach_step : forall seen h o r h', reachable rng seen h -> proper_op seen o -> step rng h o = (r, h') ->
    reachable rng (match r with Ok (OutObj x) => x :: seen | _ => seen end) h'.

(** the circuit that an operation is meant to change *)
Definition modifies (o : op) (c : nat) : Prop :=
  match o with OGate a _ | OIAdd a _ | OSetDefault a _ => a = c | _ => False end.

(** two outcomes of runs; contexts returned by returns="_inner_ctx" are compared without scratch space *)
Definition same_res (r r' : res out) : Prop :=
  match r, r' with
  | Ok (OutRun a), Ok (OutRun b) => result_same a b
  | _, _ => r = r'
  end.

(** ** What the circuits of a program were asked to hold: the width given at the start and the targets *)
Definition demand : Type := (Z * list target)%type.
Definition demands_step (ds : list demand) (o : op) (r : res out) : list demand :=
  match o, r with
  | ONew n, Ok _ | ONewOps n _, Ok _ => ds ++ [(Z.of_nat n, [])]
  | OGate c g, Ok _ => match nth_error ds c with Some (m, ts) => put ds c (m, ts ++ [targets g]) | None => ds end
  | OIAdd a b, Ok _ => match nth_error ds a, nth_error ds b with
                       | Some (m, ts), Some (m', ts') => put ds a (Z.max m m', ts ++ ts')
                       | _, _ => ds
                       end
  | OAdd a b, Ok _ => match nth_error ds a, nth_error ds b with
                      | Some (m, ts), Some (m', ts') => ds ++ [(Z.max m m', ts ++ ts')]
                      | _, _ => ds
                      end
  | OCopy c _ _, Ok _ | ODagger c _ _ _, Ok _ => match nth_error ds c with Some d => ds ++ [d] | None => ds end
  | _, _ => ds
  end.
Fixpoint demands (ds : list demand) (os : list op) (rs : list (res out)) : list demand :=
  match os, rs with
  | o :: os, r :: rs => demands (demands_step ds o r) os rs
  | _, _ => ds
  end.
(** [w] is the least width for a demand *)
Definition least (d : demand) (w : Z) : Prop :=
  fst d <= w /\ Forall (holds w) (snd d) /\ forall w', fst d <= w' -> Forall (holds w') (snd d) -> w <= w'.

(** targets written with slices and non-negative integers only *)
Definition forward1 (t : target) : Prop := match t with TInt z => 0 <= z | _ => True end.
Definition forward (t : target) : Prop := match t with TTuple l => Forall forward1 l | _ => forward1 t end.

(** ** Calls whose parts can be done in any order
    A call of a two qubit gate may address several pairs.  Diagonal gates and rotations about XX, YY commute on any pairs;
    controlled gates commute if no control is a target; swaps if the pairs are the same or apart. *)
Definition separate (k : g2) (p q : Z * Z) : Prop :=
  match k with
  | KCZ | KCRZ _ | KCPhase _ | KCU1 _ | KRXX _ | KRYY _ | KRZZ _ => True
  | KSwap => p = q \/ (fst p <> fst q /\ fst p <> snd q /\ snd p <> fst q /\ snd p <> snd q)
  | _ => fst p <> snd q /\ snd p <> fst q
  end.
Definition separate_call (n : nat) (g : gate) : Prop :=
  match g with
  | GTwo k tg => forall ps, denotes_pairs (Z.of_nat n) tg ps -> forall p q, In p ps -> In q ps -> separate k p q
  | _ => True
  end.

(** ** Runs of one backend object on a growing list of gates *)
Section Object.
Variable rng : nat -> R.
Inductive grows_to : list gate -> backend -> Prop :=
| gt_new : grows_to [] new_backend
| gt_more : forall gs more b, grows_to gs b -> grows_to (gs ++ more) b
| gt_run : forall gs b n a pos r b' p, grows_to gs b -> np_run rng b gs n a pos = (r, b', p) -> grows_to gs b'.
End Object.
