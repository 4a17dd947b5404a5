(** Model of the class [Circuit] of blueqat/circuit.py: circuits, operation lists and backend objects are mutable Python
    objects, here places in a heap. *)
From Coq Require Import List Arith ZArith Bool String Reals.
Import ListNotations.
From Verif Require Import Base Cplx ModelTargets ModelGate ModelNumpy ModelNumba.
Local Open Scope Z_scope.

(** The class of a backend object.  numpy and numba keep a cache; the others keep nothing between runs.  Their runs are in
    ModelQasm (qasm_output), ModelSympy (sympy_unitary), ModelIbmq (ibmq) and ModelQgate (qgate). *)
Inductive bkind : Type := BNumpy | BNumba | BOther (name : string).
Record bobj : Type := BObj { o_kind : bkind; o_state : backend }.

(** circuit.py:75-83 *)
Definition backends_table : list (string * bkind) :=
  [("numpy", BNumpy); ("numba", BNumba); ("qasm_output", BOther "qasm_output"); ("ibmq", BOther "ibmq");
   ("sympy_unitary", BOther "sympy_unitary"); ("qgate", BOther "qgate")]%string.
Definition initial_default : string := "numpy".

Fixpoint lookup {A} (l : list (string * A)) (k : string) : option A :=
  match l with
  | [] => None
  | (k', v) :: r => if String.eqb k k' then Some v else lookup r k
  end.

(** The attributes of a [Circuit] (circuit.py:87-91): the places of its operation list and of its backend objects. *)
Record circ : Type := Circ { c_ops : nat; c_n : Z; c_backends : list (string * nat); c_default : option string }.

(** The heap; [h_default] is the global DEFAULT_BACKEND_NAME, [h_pos] the position in the stream of random numbers. *)
Record heap : Type := Heap {
  h_lists : list (list gate); h_objs : list bobj; h_circs : list circ; h_default : string; h_pos : nat }.
Definition empty_heap (pos : nat) : heap := Heap [] [] [] initial_default pos.

Fixpoint put {A} (l : list A) (i : nat) (v : A) : list A :=
  match l, i with
  | [], _ => []
  | _ :: r, O => v :: r
  | x :: r, S k => x :: put r k v
  end.

Definition alloc_list (h : heap) (ops : list gate) : nat * heap :=
  (List.length (h_lists h), Heap (h_lists h ++ [ops]) (h_objs h) (h_circs h) (h_default h) (h_pos h)).
Definition alloc_obj (h : heap) (b : bobj) : nat * heap :=
  (List.length (h_objs h), Heap (h_lists h) (h_objs h ++ [b]) (h_circs h) (h_default h) (h_pos h)).
Definition alloc_circ (h : heap) (c : circ) : nat * heap :=
  (List.length (h_circs h), Heap (h_lists h) (h_objs h) (h_circs h ++ [c]) (h_default h) (h_pos h)).
Definition put_list (h : heap) (i : nat) (ops : list gate) : heap :=
  Heap (put (h_lists h) i ops) (h_objs h) (h_circs h) (h_default h) (h_pos h).
Definition put_obj (h : heap) (i : nat) (b : bobj) : heap :=
  Heap (h_lists h) (put (h_objs h) i b) (h_circs h) (h_default h) (h_pos h).
Definition put_circ (h : heap) (i : nat) (c : circ) : heap :=
  Heap (h_lists h) (h_objs h) (put (h_circs h) i c) (h_default h) (h_pos h).
Definition set_pos (h : heap) (p : nat) : heap := Heap (h_lists h) (h_objs h) (h_circs h) (h_default h) p.
Definition set_global (h : heap) (d : string) : heap := Heap (h_lists h) (h_objs h) (h_circs h) d (h_pos h).

(** A place that does not exist: a program that uses a variable it never assigned.  Not reachable from operations that
    name existing circuits. *)
Definition get {A} (l : list A) (i : nat) : res A := match nth_error l i with Some x => Ok x | None => Err Undefined end.

(** What an operation gives back. *)
Inductive out : Type :=
| OutNone
| OutCirc (c : nat)
| OutObj (o : nat)
| OutName (s : string)
| OutRun (r : run_result)
| OutOther (name : string) (gates : list gate) (n : Z).   (* the call of a backend whose result is not modelled here *)

(** [backend] of [run]: None, a name, an object *)
Inductive sel : Type := SelDefault | SelName (s : string) | SelObj (o : nat).

(** Operations of a program on circuits. *)
Inductive op : Type :=
| ONew (n : nat)                                (* Circuit(n) *)
| ONewOps (n : nat) (c : nat)                   (* Circuit(n, c.ops) *)
| OGate (c : nat) (g : gate)                    (* c.name(params)[targets] *)
| OIAdd (a b : nat)                             (* a += b *)
| OAdd (a b : nat)                              (* a + b *)
| OCopy (c : nat) (copy_backends copy_default : bool)
| ODagger (c : nat) (ignore_measurement copy_backends copy_default : bool)
| ORun (c : nat) (s : sel) (a : nb_args)        (* c.run(..., backend=s) *)
| ORunWith (c : nat) (name : string) (a : nb_args)  (* c.run_with_<name>(...) *)
| OMakeCache (c : nat) (name : option string)
| OSetDefault (c : nat) (name : option string)  (* c.set_default_backend(name) *)
| OGetDefault (c : nat)
| OGlobalDefault (name : string)                (* BlueqatGlobalSetting.set_default_backend(name) *)
| OGlobalName                                   (* BlueqatGlobalSetting.get_default_backend_name() *)
| ONewBackend (k : bkind).                      (* NumPyBackend(), ... *)

Definition result (A : Type) : Type := res A * heap.
Definition ok {A} (a : A) (h : heap) : result A := (Ok a, h).
Definition err {A} (e : exn) (h : heap) : result A := (Err e, h).
Definition bind_h {A B} (r : result A) (f : A -> heap -> result B) : result B :=
  match r with (Ok a, h) => f a h | (Err e, h) => (Err e, h) end.

Definition get_circ (h : heap) (c : nat) (f : circ -> list gate -> result out) : result out :=
  match get (h_circs h) c with
  | Err e => err e h
  | Ok x => match get (h_lists h) (c_ops x) with Err e => err e h | Ok ops => f x ops end
  end.

(** circuit.py:96-104 [__get_backend] *)
Definition get_backend (c : nat) (x : circ) (name : string) (h : heap) : result nat :=
  match lookup (c_backends x) name with
  | Some o => ok o h
  | None =>
      match lookup backends_table name with
      | None => err ValueError h
      | Some k =>
          let (o, h) := alloc_obj h (BObj k new_backend) in
          ok o (put_circ h c (Circ (c_ops x) (c_n x) (c_backends x ++ [(name, o)]) (c_default x)))
      end
  end.

Section Random.
Variable rng : nat -> R.

(** [backend.run(ops, n_qubits, ...)] on the object at place [o].  NumPyBackend.run ignores [enable_cache]. *)
Definition call_run (h : heap) (o : nat) (ops : list gate) (n : Z) (a : nb_args) : result out :=
  match get (h_objs h) o with
  | Err e => err e h
  | Ok (BObj BNumpy b) =>
      let '(r, b', p) := np_run rng b ops (Z.to_nat n) (na_args a) (h_pos h) in
      (rmap OutRun r, set_pos (put_obj h o (BObj BNumpy b')) p)
  | Ok (BObj BNumba b) =>
      let '(r, b', p) := nb_run rng b ops (Z.to_nat n) a (h_pos h) in
      (rmap OutRun r, set_pos (put_obj h o (BObj BNumba b')) p)
  | Ok (BObj (BOther name) _) => ok (OutOther name ops n) h
  end.

(** [backend.make_cache(ops, n_qubits)]: numpy_backend.py:133-134, _numba_backend_impl.py:441-442,
    backendbase.py:74-79 *)
Definition call_make_cache (h : heap) (o : nat) (ops : list gate) (n : Z) : result out :=
  match get (h_objs h) o with
  | Err e => err e h
  | Ok (BObj (BOther _) _) => ok OutNone h
  | Ok _ => match call_run h o ops n (NbArgs no_args true) with
            | (Ok _, h) => ok OutNone h
            | (Err e, h) => err e h
            end
  end.

Definition default_name (h : heap) (x : circ) : string := match c_default x with None => h_default h | Some d => d end.

(** circuit.py:208-217 [run] *)
Definition do_run (h : heap) (c : nat) (s : sel) (a : nb_args) : result out :=
  get_circ h c (fun x ops =>
    match s with
    | SelObj o => call_run h o ops (c_n x) a
    | SelName name => bind_h (get_backend c x name h) (fun o h => call_run h o ops (c_n x) a)
    | SelDefault => bind_h (get_backend c x (default_name h x) h) (fun o h => call_run h o ops (c_n x) a)
    end).

(** lines 147-148 and 180-181: [{k: v.copy() for k, v in self._backends.items()}] *)
Fixpoint copy_backends_of (bs : list (string * nat)) (h : heap) : result (list (string * nat)) :=
  match bs with
  | [] => ok [] h
  | (k, o) :: r =>
      match get (h_objs h) o with
      | Err e => err e h
      | Ok b => let (o', h) := alloc_obj h b in
                bind_h (copy_backends_of r h) (fun r' h => ok ((k, o') :: r') h)
      end
  end.

(** circuit.py:138-159 [copy] *)
Definition do_copy (h : heap) (c : nat) (copy_backends copy_default : bool) : result out :=
  get_circ h c (fun x ops =>
    let (l, h) := alloc_list h ops in
    bind_h (if copy_backends then copy_backends_of (c_backends x) h else ok [] h) (fun bs h =>
      let (c', h) := alloc_circ h (Circ l (c_n x) bs (if copy_default then c_default x else None)) in
      ok (OutCirc c') h)).

(** circuit.py:170-177 *)
Fixpoint dagger_ops (gs : list gate) (ignore_measurement : bool) : res (list gate) :=
  match gs with
  | [] => Ok []
  | g :: r =>
      match gate_dagger g with
      | Ok g' => let* r' := dagger_ops r ignore_measurement in Ok (g' :: r')
      | Err ValueError => if ignore_measurement then dagger_ops r ignore_measurement else Err ValueError
      | Err e => Err e
      end
  end.

(** circuit.py:161-185 [dagger] *)
Definition do_dagger (h : heap) (c : nat) (ignore_measurement copy_backends copy_default : bool) : result out :=
  get_circ h c (fun x ops =>
    match dagger_ops (rev ops) ignore_measurement with
    | Err e => err e h
    | Ok ops' =>
        let (l, h) := alloc_list h ops' in
        bind_h (if copy_backends then copy_backends_of (c_backends x) h else ok [] h) (fun bs h =>
          let (c', h) := alloc_circ h (Circ l (c_n x) bs (if copy_default then c_default x else None)) in
          ok (OutCirc c') h)
    end).

(** circuit.py:131-136 [__iadd__]: the list of [a] is extended in place *)
Definition do_iadd (h : heap) (a b : nat) : result out :=
  get_circ h a (fun x ops => get_circ h b (fun y ops' =>
    let h := put_list h (c_ops x) (ops ++ ops') in
    ok (OutCirc a) (put_circ h a (Circ (c_ops x) (Z.max (c_n x) (c_n y)) (c_backends x) (c_default x))))).

Definition registered (name : string) : bool := match lookup backends_table name with Some _ => true | None => false end.

Definition step (h : heap) (o : op) : result out :=
  match o with
  | ONew n =>                                                          (* lines 87-91 *)
      let (l, h) := alloc_list h [] in
      let (c, h) := alloc_circ h (Circ l (Z.of_nat n) [] None) in ok (OutCirc c) h
  | ONewOps n c =>                                                     (* lines 87-91: [ops or []] *)
      get_circ h c (fun x ops =>
        match ops with
        | [] => let (l, h) := alloc_list h [] in
                let (c, h) := alloc_circ h (Circ l (Z.of_nat n) [] None) in ok (OutCirc c) h
        | _ => let (c, h) := alloc_circ h (Circ (c_ops x) (Z.of_nat n) [] None) in ok (OutCirc c) h
        end)
  | OGate c g =>                                                       (* lines 283-288 *)
      get_circ h c (fun x ops =>
        let h := put_list h (c_ops x) (ops ++ [g]) in
        match get_maximum_index (targets g) with
        | Err e => err e h
        | Ok m => ok (OutCirc c) (put_circ h c (Circ (c_ops x) (Z.max (m + 1) (c_n x)) (c_backends x) (c_default x)))
        end)
  | OIAdd a b => do_iadd h a b
  | OAdd a b =>                                                        (* lines 124-129 *)
      get_circ h b (fun _ _ =>
        bind_h (do_copy h a true true) (fun r h =>
          match r with OutCirc c => do_iadd h c b | _ => err Undefined h end))
  | OCopy c cb cd => do_copy h c cb cd
  | ODagger c im cb cd => do_dagger h c im cb cd
  | ORun c s a => do_run h c s a
  | ORunWith c name a =>                                               (* lines 106-110, 117-121 *)
      if registered name then do_run h c (SelName name) a else err AttributeError h
  | OMakeCache c name =>                                               (* lines 219-228 *)
      get_circ h c (fun x ops =>
        bind_h (get_backend c x (match name with Some s => s | None => default_name h x end) h)
               (fun o h => call_make_cache h o ops (c_n x)))
  | OSetDefault c name =>                                              (* lines 256-258 *)
      get_circ h c (fun x _ =>
        match name with
        | None => err ValueError h
        | Some s => if registered s
                    then ok OutNone (put_circ h c (Circ (c_ops x) (c_n x) (c_backends x) (Some s)))
                    else err ValueError h
        end)
  | OGetDefault c => get_circ h c (fun x _ => ok (OutName (default_name h x)) h)   (* lines 260-266 *)
  | OGlobalDefault name =>                                             (* lines 449-452 *)
      if registered name then ok OutNone (set_global h name) else err ValueError h
  | OGlobalName => ok (OutName (h_default h)) h                        (* line 460 *)
  | ONewBackend k => let (o, h) := alloc_obj h (BObj k new_backend) in ok (OutObj o) h
  end.

(** A program: operations one after the other; an exception is caught and the program goes on. *)
Fixpoint steps (h : heap) (os : list op) : list (res out) * heap :=
  match os with
  | [] => ([], h)
  | o :: r => let (x, h) := step h o in let (xs, h) := steps h r in (x :: xs, h)
  end.
End Random.
