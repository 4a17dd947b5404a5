(** Model of NumbaBackend (blueqat/backends/_numba_backend_impl.py) with arrays as mutable objects that have a dtype: an array is a place in a memory,
    names and attributes hold places, assignments to an array change the memory.
    Simplifications, besides those of ModelNumba: numbers are exact whatever the dtype; dtype is complex or complex64; an exception inside a gate that is no
    measurement leaves the array of the context as it was before the gate (nothing refers to it afterwards); Counter objects and lists are values
    (each run makes its own, lines 49, 59). *)
From Coq Require Import List Arith ZArith Bool String Reals.
Import ListNotations.
From Verif Require Import Base Cplx ModelTargets ModelGate ModelNumpy ModelNumba ModelCircuit ModelMemory.
Local Open Scope R_scope.

Inductive dtype : Type := Complex128 | Complex64.
Definition dtype_eqb (a b : dtype) : bool := match a, b with Complex128, Complex128 | Complex64, Complex64 => true | _, _ => false end.
Notation nmem := (list (dtype * carr)).
Definition arr (m : nmem) (l : nat) : dtype * carr := nth l m (Complex128, []).
(** changes the contents of an array *)
Definition fill (m : nmem) (l : nat) (v : carr) : nmem := put m l (fst (arr m l), v).
Definition alloc (m : nmem) (a : dtype * carr) : nat * nmem := (List.length m, m ++ [a]).

(** The context (42-66) with the place of its array *)
Record nctx : Type := NCtx { nx_n : nat; nx_q : nat; nx_save : bool; nx_shots : counter; nx_cregs : list nat; nx_pos : nat }.
(** what the attributes of a context hold *)
Definition nview (c : nctx) (m : nmem) : npctx := Ctx (nx_n c) (snd (arr m (nx_q c))) [] (nx_save c) (nx_shots c) (nx_cregs c) (nx_pos c).
(** lines 52-59: [np.copyto(self.qubits, cache)] or the array is filled *)
Definition nm_prepare (c : nctx) (cache : option nat) (m : nmem) : nctx * nmem :=
  (NCtx (nx_n c) (nx_q c) (nx_save c) (nx_shots c) (repeat 0%nat (nx_n c)) (nx_pos c),
   fill m (nx_q c) (match cache with Some l => snd (arr m l) | None => basis0 (nx_n c) end)).
(** lines 61-66 *)
Definition nm_store_shot (c : nctx) : nctx :=
  NCtx (nx_n c) (nx_q c) (nx_save c) (counter_incr (nx_shots c) (nx_cregs c)) (nx_cregs c) (nx_pos c).

Inductive nmres : Type := NMOk (c : nctx) (b : mback) (m : nmem) | NMErr (e : exn) (pos : nat) (b : mback) (m : nmem).

Section Random.
Variable rng : nat -> R.

(** gate_measure, gate_reset (612-642): [self.cache = ctx.qubits.copy()] is a new array; the array [qubits] is changed in place *)
Definition nm_collapse (step : nat -> Z -> carr * list nat * nat -> (carr * list nat * nat) * option exn) (tg : target) (c : nctx) (b : mback) (m : nmem) : nmres :=
  let (b, m) := if nx_save c then let (l, m) := alloc m (arr m (nx_q c)) in (MBack (Some l) (mb_idx b), m) else (b, m) in
  let g := slicing tg (Z.of_nat (nx_n c)) in
  let '((q, cr, pos), e) := loop_state (yields g) (step (nx_n c)) (snd (arr m (nx_q c)), nx_cregs c, nx_pos c) in
  let m := fill m (nx_q c) q in
  match e, raised g with
  | Some e, _ => NMErr e pos b m
  | None, Some e => NMErr e pos b m
  | None, None => NMOk (NCtx (nx_n c) (nx_q c) false (nx_shots c) cr pos) b m
  end.
(** the other methods gate_* (444-610): every kernel changes the array [qubits] in place *)
Definition nm_action (g : gate) (n : nat) : option (nctx -> mback -> nmem -> nmres) :=
  match g with
  | GMeasure tg => Some (nm_collapse (nb_step_measure rng) tg)
  | GReset tg => Some (nm_collapse (nb_step_reset rng) tg)
  | _ => match nb_unitary g n with
         | Some f => Some (fun c b m => match f (snd (arr m (nx_q c))) with
                                        | Ok a => NMOk c b (fill m (nx_q c) a)
                                        | Err e => NMErr e (nx_pos c) b m
                                        end)
         | None => None
         end
  end.

Fixpoint nm_run_list (f : gate -> nctx -> mback -> nmem -> nmres) (l : list gate) (c : nctx) (b : mback) (m : nmem) : nmres :=
  match l with
  | [] => NMOk c b m
  | g :: r => match f g c b m with NMOk c b m => nm_run_list f r c b m | NMErr e p b m => NMErr e p b m end
  end.
(** lines 414-421 *)
Fixpoint nm_run_single (fuel : nat) (g : gate) (c : nctx) (b : mback) (m : nmem) : nmres :=
  match nm_action g (nx_n c) with
  | Some act => act c b m
  | None =>
      match fuel with
      | O => NMErr RecursionError (nx_pos c) b m
      | S f => match fallback g (Z.of_nat (nx_n c)) with
               | Err e => NMErr e (nx_pos c) b m
               | Ok gs => nm_run_list (nm_run_single f) gs c b m
               end
      end
  end.
(** lines 426-429 *)
Fixpoint nm_run_gates (gates : list gate) (c : nctx) (b : mback) (m : nmem) (cache_idx : Z) : nmres * Z :=
  match gates with
  | [] => (NMOk c b m, cache_idx)
  | g :: r =>
      match nm_run_single recursion_limit g c b m with
      | NMErr e p b m => (NMErr e p b m, cache_idx)
      | NMOk c b m => nm_run_gates r c b m (if nx_save c then cache_idx + 1 else cache_idx)%Z
      end
  end.
(** lines 423-435; [self.cache = ctx.qubits.copy()] is a new array *)
Fixpoint nm_shots (shots : nat) (gates : list gate) (c : nctx) (b : mback) (m : nmem) : nmres :=
  match shots with
  | O => NMOk c b m
  | S k =>
      let (c, m) := nm_prepare c (mb_cache b) m in
      match nm_run_gates (skipn (Z.to_nat (mb_idx b + 1)) gates) c b m (mb_idx b) with
      | (NMErr e p b m, _) => NMErr e p b m
      | (NMOk c b m, cache_idx) =>
          let (b, m) := if (mb_idx b =? cache_idx)%Z then (b, m)
                        else if nx_save c then let (l, m) := alloc m (arr m (nx_q c)) in (MBack (Some l) cache_idx, m)
                        else (MBack (mb_cache b) cache_idx, m) in
          nm_shots k gates (match nx_cregs c with [] => c | _ => nm_store_shot c end) b m
      end
  end.

(** lines 375-385 *)
Definition nm_clear_cache_if_invalid (b : mback) (n : nat) (dt : dtype) (m : nmem) : mback :=
  match mb_cache b with
  | None => new_mback
  | Some l => if negb (Nat.eqb (List.length (snd (arr m l))) (2 ^ n)) then new_mback
              else if negb (dtype_eqb (fst (arr m l)) dt) then new_mback else b
  end.

(** what a run gives back: references to arrays *)
Inductive nmresult : Type := NState (l : nat) | NShots (c : counter) | NBoth (l : nat) (c : counter) | NInner (c : nctx).
(** lines 358-363 *)
Definition nm_return (returns : string) (c : nctx) : nmresult :=
  if String.eqb returns "statevector" then NState (nx_q c)
  else if String.eqb returns "shots" then NShots (nx_shots c)
  else if String.eqb returns "statevector_and_shots" then NBoth (nx_q c) (nx_shots c)
  else NInner c.
(** lines 387-439 [NumbaBackend.run]; [_ignore_global] multiplies the array in place *)
Definition nm_run (b : mback) (gates : list gate) (n : nat) (dt : dtype) (a : nb_args) (pos : nat) (m : nmem) : res nmresult * mback * nat * nmem :=
  match parse_run_args (na_args a) with
  | Err e => (Err e, b, pos, m)
  | Ok (shots, returns, ignore_global) =>
      let b := if na_enable_cache a then nm_clear_cache_if_invalid b n dt m else new_mback in
      let (q, m) := alloc m (dt, zeros n) in
      match nm_shots (Z.to_nat shots) gates (NCtx n q (na_enable_cache a) [] [] pos) b m with
      | NMErr e p b m => (Err e, b, p, m)
      | NMOk c b m =>
          let m := if ignore_global then fill m (nx_q c) (ignore_global_phase (snd (arr m (nx_q c)))) else m in
          (Ok (nm_return returns c), b, nx_pos c, m)
      end
  end.

(** ** Programs on backend objects *)
Record nmstate : Type := NSt { t_mem : nmem; t_backs : list mback; t_pos : nat }.
Inductive nmop : Type :=
| BNew                                                                  (* NumbaBackend() *)
| BCopy (i : nat)                                                       (* backend.copy(): copy.deepcopy (backendbase.py:25-31) *)
| BRun (i : nat) (gs : list gate) (n : nat) (dt : dtype) (a : nb_args)  (* backend.run(gs, n, dtype=dt, ...) *)
| BWrite (l : nat) (v : carr).                                          (* the program changes the array at place l in place *)
Inductive nmanswer : Type := BDone | BGot (r : nmresult).

Definition nm_step (s : nmstate) (o : nmop) : res nmanswer * nmstate :=
  match o with
  | BNew => (Ok BDone, NSt (t_mem s) (t_backs s ++ [new_mback]) (t_pos s))
  | BCopy i =>
      match get (t_backs s) i with
      | Err e => (Err e, s)
      | Ok b => match mb_cache b with
                | None => (Ok BDone, NSt (t_mem s) (t_backs s ++ [b]) (t_pos s))
                | Some l => let (l', m) := alloc (t_mem s) (arr (t_mem s) l) in
                            (Ok BDone, NSt m (t_backs s ++ [MBack (Some l') (mb_idx b)]) (t_pos s))
                end
      end
  | BRun i gs n dt a =>
      match get (t_backs s) i with
      | Err e => (Err e, s)
      | Ok b => let '(r, b', p, m) := nm_run b gs n dt a (t_pos s) (t_mem s) in (rmap BGot r, NSt m (put (t_backs s) i b') p)
      end
  | BWrite l v => (Ok BDone, NSt (fill (t_mem s) l v) (t_backs s) (t_pos s))
  end.
Fixpoint nm_steps (s : nmstate) (os : list nmop) : list (res nmanswer) * nmstate :=
  match os with
  | [] => ([], s)
  | o :: r => let (x, s) := nm_step s o in let (xs, s) := nm_steps s r in (x :: xs, s)
  end.
End Random.
Definition nm_start (pos : nat) : nmstate := NSt [] [] pos.
