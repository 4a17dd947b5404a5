(** Model of NumPyBackend (blueqat/backends/numpy_backend.py) with arrays as mutable objects: an array is a place in a memory, names and attributes
    hold places, assignments to an array change the memory.
    Simplifications, besides those of ModelNumpy: an exception inside a gate leaves the arrays of the context as they were before the gate (nothing refers
    to them afterwards); Counter objects and lists are values (each run makes its own, numpy_backend.py:38, 48). *)
From Coq Require Import List Arith ZArith Bool String Reals.
Import ListNotations.
From Verif Require Import Base Cplx ModelTargets ModelGate ModelNumpy ModelCircuit.
Local Open Scope R_scope.

Notation mem := (list carr).
Definition rd (m : mem) (l : nat) : carr := nth l m [].
Definition wr (m : mem) (l : nat) (v : carr) : mem := put m l v.
(** a new array *)
Definition new_array (m : mem) (v : carr) : nat * mem := (List.length m, m ++ [v]).

(** The places [ctx.qubits] and [ctx.qubits_buf], and the memory. *)
Notation places := (nat * nat * mem)%type.
(** the bodies of the loops of gate_x, gate_y, gate_h, gate_rx, gate_ry, gate_cx, gate_crx, gate_cry, gate_u3 write the array [newq] and exchange the names
    (as in lines 141-146) *)
Definition exchange (f : bufs -> res bufs) (s : places) : res places :=
  let '(q, b, m) := s in let* (x, _) := f (rd m q, rd m b) in Ok (b, q, wr m b x).
(** those of gate_z, gate_rz, gate_phase, gate_t, gate_s, gate_cz, gate_crz, gate_cphase, gate_ccz, gate_u1 change the array [qubits] in place (as in line 171) *)
Definition in_place (f : bufs -> res bufs) (s : places) : res places :=
  let '(q, b, m) := s in let* (x, _) := f (rd m q, rd m b) in Ok (q, b, wr m q x).

Definition mloop1 (how : (bufs -> res bufs) -> places -> res places) (n : nat) (tg : target) (f : nat -> Z -> bufs -> res bufs) (s : places) : res places :=
  for_gen (slicing tg (Z.of_nat n)) (fun t => how (f n t)) s.
Definition mloop2 (how : (bufs -> res bufs) -> places -> res places) (n : nat) (tg : target) (f : nat -> Z * Z -> bufs -> res bufs) (s : places) : res places :=
  let* ps := qubit_pairs tg (Z.of_nat n) in for_list ps (fun p => how (f n p)) s.
Definition mem_h (n : nat) (tg : target) (s : places) : res places := mloop1 exchange n tg step_h s.
(** lines 370-375 *)
Definition mem_ccx (n : nat) (tg : target) (s : places) : res places :=
  let* (_, _, t) := unpack3 tg in
  let* s := mem_h n t s in
  let* s := in_place (np_ccz n tg) s in
  mem_h n t s.

(** the methods gate_x ... gate_u3 (136-414) except gate_measure and gate_reset *)
Definition mem_unitary (g : gate) (n : nat) : option (places -> res places) :=
  match g with
  | GOne KX tg => Some (mloop1 exchange n tg step_x)
  | GOne KY tg => Some (mloop1 exchange n tg step_y)
  | GOne KZ tg => Some (mloop1 in_place n tg (step_diag1 (- C1)%C))
  | GOne KH tg => Some (mem_h n tg)
  | GOne (KRX theta) tg =>
      let halftheta := theta * (1/2) in
      let a00 := RtoC (cos halftheta) in
      let a01 := (- Ci * RtoC (sin halftheta))%C in
      Some (mloop1 exchange n tg (step_mat a00 a01 a01 a00))
  | GOne (KRY theta) tg =>
      let halftheta := theta * (1/2) in
      let a00 := RtoC (cos halftheta) in
      let a10 := RtoC (sin halftheta) in
      let a01 := (- a10)%C in
      Some (mloop1 exchange n tg (step_mat a00 a01 a10 a00))
  | GOne (KRZ theta) tg =>
      let halftheta := theta * (1/2) in
      Some (mloop1 in_place n tg (step_diag01 (cos halftheta, - sin halftheta) (cos halftheta, sin halftheta)))
  | GOne (KPhase theta) tg => Some (mloop1 in_place n tg (step_diag1 (cos theta, sin theta)))
  | GOne KT tg => Some (mloop1 in_place n tg (step_diag1 (1 / sqrt 2, 1 / sqrt 2)))
  | GOne KS tg => Some (mloop1 in_place n tg (step_diag1 Ci))
  | GOne (KU1 lambd) tg =>
      let halflambda := lambd * (1/2) in
      Some (mloop1 in_place n tg (step_diag01 (cos halflambda, - sin halflambda) (cos halflambda, sin halflambda)))
  | GOne (KU3 theta phi lambd) tg =>
      let globalphase : C := (cos ((- phi - lambd) * (1/2)), sin ((- phi - lambd) * (1/2))) in
      let a00 := (RtoC (cos (theta * (1/2))) * globalphase)%C in
      let a11 := (a00 * (cos (phi + lambd), sin (phi + lambd)))%C in
      let a := (RtoC (sin (theta * (1/2))) * globalphase)%C in
      let a01 := (a * (cos lambd, sin lambd))%C in
      let a10 := (a * (cos phi, sin phi))%C in
      Some (mloop1 exchange n tg (step_u3 a00 a01 a10 a11))
  | GTwo KCZ tg => Some (mloop2 in_place n tg (step_cdiag1 (- C1)%C))
  | GTwo KCX tg => Some (mloop2 exchange n tg step_cx)
  | GTwo (KCRX theta) tg =>
      let halftheta := theta * (1/2) in
      let a00 := RtoC (cos halftheta) in
      let a01 := (- Ci * RtoC (sin halftheta))%C in
      Some (mloop2 exchange n tg (step_cmat a00 a01 a01 a00))
  | GTwo (KCRY theta) tg =>
      let halftheta := theta * (1/2) in
      let a00 := RtoC (cos halftheta) in
      let a10 := RtoC (sin halftheta) in
      let a01 := (- a10)%C in
      Some (mloop2 exchange n tg (step_cmat a00 a01 a10 a00))
  | GTwo (KCRZ theta) tg =>
      let halftheta := theta * (1/2) in
      Some (mloop2 in_place n tg (step_cdiag01 (cos halftheta, - sin halftheta) (cos halftheta, sin halftheta)))
  | GTwo (KCPhase theta) tg => Some (mloop2 in_place n tg (step_cdiag1 (cos theta, sin theta)))
  | GThree KCCZ tg => Some (in_place (np_ccz n tg))
  | GThree KCCX tg => Some (mem_ccx n tg)
  | _ => None
  end.

(** The context (29-55), with the places of its arrays. *)
Record mctx : Type := MCtx { mc_n : nat; mc_q : nat; mc_b : nat; mc_save : bool; mc_shots : counter; mc_cregs : list nat; mc_pos : nat }.
(** what the attributes of a context hold *)
Definition view (c : mctx) (m : mem) : npctx := Ctx (mc_n c) (rd m (mc_q c)) (rd m (mc_b c)) (mc_save c) (mc_shots c) (mc_cregs c) (mc_pos c).

(** lines 32-39: two new arrays *)
Definition new_mctx (n pos : nat) (m : mem) : mctx * mem :=
  let (q, m) := new_array m (zeros n) in
  let (b, m) := new_array m (zeros n) in
  (MCtx n q b true [] [] pos, m).
(** lines 41-48: the array [self.qubits] is filled; [np.copyto(self.qubits, cache)] *)
Definition mprepare (c : mctx) (cache : option nat) (m : mem) : mctx * mem :=
  (MCtx (mc_n c) (mc_q c) (mc_b c) (mc_save c) (mc_shots c) (repeat 0%nat (mc_n c)) (mc_pos c),
   match cache with Some l => wr m (mc_q c) (rd m l) | None => wr m (mc_q c) (basis0 (mc_n c)) end).
(** lines 50-55 *)
Definition mstore_shot (c : mctx) : mctx :=
  MCtx (mc_n c) (mc_q c) (mc_b c) (mc_save c) (counter_incr (mc_shots c) (mc_cregs c)) (mc_cregs c) (mc_pos c).

Inductive mres : Type := MOk (c : mctx) (m : mem) | MErr (e : exn) (pos : nat) (m : mem).

(** The attributes of a backend object (68-70). *)
Record mback : Type := MBack { mb_cache : option nat; mb_idx : Z }.
Definition new_mback : mback := MBack None (-1).

Section Random.
Variable rng : nat -> R.

(** gate_measure, gate_reset (416-450): the array [qubits] is changed in place *)
Definition mem_collapse (step : nat -> Z -> carr * list nat * nat -> (carr * list nat * nat) * option exn) (tg : target) (c : mctx) (m : mem) : mres :=
  match np_collapse step tg (view c m) with
  | SErr e p => MErr e p m
  | SOk x => MOk (MCtx (mc_n c) (mc_q c) (mc_b c) (x_save x) (mc_shots c) (x_cregs x) (x_pos x)) (wr m (mc_q c) (x_qubits x))
  end.
Definition mem_action (g : gate) (n : nat) : option (mctx -> mem -> mres) :=
  match g with
  | GMeasure tg => Some (mem_collapse (step_measure rng) tg)
  | GReset tg => Some (mem_collapse (step_reset rng) tg)
  | _ => match mem_unitary g n with
         | Some f => Some (fun c m => match f (mc_q c, mc_b c, m) with
                                      | Ok (q, b, m) => MOk (MCtx (mc_n c) q b (mc_save c) (mc_shots c) (mc_cregs c) (mc_pos c)) m
                                      | Err e => MErr e (mc_pos c) m
                                      end)
         | None => None
         end
  end.

Fixpoint mrun_list (f : gate -> mctx -> mem -> mres) (l : list gate) (c : mctx) (m : mem) : mres :=
  match l with
  | [] => MOk c m
  | g :: r => match f g c m with MOk c m => mrun_list f r c m | MErr e p m => MErr e p m end
  end.
(** lines 110-117 *)
Fixpoint mrun_single (fuel : nat) (g : gate) (c : mctx) (m : mem) : mres :=
  match mem_action g (mc_n c) with
  | Some act => act c m
  | None =>
      match fuel with
      | O => MErr RecursionError (mc_pos c) m
      | S f => match fallback g (Z.of_nat (mc_n c)) with
               | Err e => MErr e (mc_pos c) m
               | Ok gs => mrun_list (mrun_single f) gs c m
               end
      end
  end.

(** lines 72-85 *)
Definition mclear_cache_if_invalid (b : mback) (n : nat) (m : mem) : mback :=
  match mb_cache b with
  | None => new_mback
  | Some l => if Nat.eqb (List.length (rd m l)) (2 ^ n) then b else new_mback
  end.
(** lines 121-125; [self.cache = ctx.qubits.copy()] is a new array *)
Fixpoint mrun_gates (gates : list gate) (c : mctx) (b : mback) (m : mem) : mres * mback :=
  match gates with
  | [] => (MOk c m, b)
  | g :: r =>
      match mrun_single recursion_limit g c m with
      | MErr e p m => (MErr e p m, b)
      | MOk c m =>
          if mc_save c
          then let (l, m) := new_array m (rd m (mc_q c)) in mrun_gates r c (MBack (Some l) (mb_idx b + 1)) m
          else mrun_gates r c b m
      end
  end.
(** lines 119-127 *)
Fixpoint mshots (shots : nat) (gates : list gate) (c : mctx) (b : mback) (m : mem) : mres * mback :=
  match shots with
  | O => (MOk c m, b)
  | S k =>
      let (c, m) := mprepare c (mb_cache b) m in
      match mrun_gates (skipn (Z.to_nat (mb_idx b + 1)) gates) c b m with
      | (MErr e p m, b) => (MErr e p m, b)
      | (MOk c m, b) => mshots k gates (match mc_cregs c with [] => c | _ => mstore_shot c end) b m
      end
  end.

(** what a run gives back: references to arrays *)
Inductive mresult : Type := MState (l : nat) | MShots (c : counter) | MBoth (l : nat) (c : counter) | MInner (c : mctx).
(** lines 60-65 *)
Definition mreturn (returns : string) (c : mctx) : mresult :=
  if String.eqb returns "statevector" then MState (mc_q c)
  else if String.eqb returns "shots" then MShots (mc_shots c)
  else if String.eqb returns "statevector_and_shots" then MBoth (mc_q c) (mc_shots c)
  else MInner c.
(** lines 87-131 [NumPyBackend.run]; [ignore_global_phase] (utils.py:41-55) multiplies the array in place *)
Definition mrun (b : mback) (gates : list gate) (n : nat) (a : run_args) (pos : nat) (m : mem) : res mresult * mback * nat * mem :=
  match parse_run_args a with
  | Err e => (Err e, b, pos, m)
  | Ok (shots, returns, ignore_global) =>
      let b := mclear_cache_if_invalid b n m in
      let (c, m) := new_mctx n pos m in
      match mshots (Z.to_nat shots) gates c b m with
      | (MErr e p m, b) => (Err e, b, p, m)
      | (MOk c m, b) =>
          let m := if ignore_global then wr m (mc_q c) (ignore_global_phase (rd m (mc_q c))) else m in
          (Ok (mreturn returns c), b, mc_pos c, m)
      end
  end.

(** ** Programs on backend objects *)
Record mstate : Type := MSt { s_mem : mem; s_backs : list mback; s_pos : nat }.
Inductive mop : Type :=
| HNew                                                     (* NumPyBackend() *)
| HCopy (i : nat)                                          (* backend.copy(): copy.deepcopy (backendbase.py:20-26) *)
| HRun (i : nat) (gs : list gate) (n : nat) (a : run_args) (* backend.run(gs, n, ...) *)
| HWrite (l : nat) (v : carr).                             (* the program changes the array at place l in place *)
Inductive manswer : Type := ADone | ARun (r : mresult).

Definition mstep (s : mstate) (o : mop) : res manswer * mstate :=
  match o with
  | HNew => (Ok ADone, MSt (s_mem s) (s_backs s ++ [new_mback]) (s_pos s))
  | HCopy i =>
      match get (s_backs s) i with
      | Err e => (Err e, s)
      | Ok b => match mb_cache b with
                | None => (Ok ADone, MSt (s_mem s) (s_backs s ++ [b]) (s_pos s))
                | Some l => let (l', m) := new_array (s_mem s) (rd (s_mem s) l) in
                            (Ok ADone, MSt m (s_backs s ++ [MBack (Some l') (mb_idx b)]) (s_pos s))
                end
      end
  | HRun i gs n a =>
      match get (s_backs s) i with
      | Err e => (Err e, s)
      | Ok b => let '(r, b', p, m) := mrun b gs n a (s_pos s) (s_mem s) in (rmap ARun r, MSt m (put (s_backs s) i b') p)
      end
  | HWrite l v => (Ok ADone, MSt (wr (s_mem s) l v) (s_backs s) (s_pos s))
  end.
Fixpoint msteps (s : mstate) (os : list mop) : list (res manswer) * mstate :=
  match os with
  | [] => ([], s)
  | o :: r => let (x, s) := mstep s o in let (xs, s) := msteps s r in (x :: xs, s)
  end.
End Random.
Definition mstart (pos : nat) : mstate := MSt [] [] pos.
