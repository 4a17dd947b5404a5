(** Model of blueqat/backends/qgate_backend.py.
    The program qgate is a record of arbitrary functions; the objects of a run that are handed to it are modelled.
    Simplifications: a register object (model.Qreg, model.Reference) is its position in the lists self.qregs, self.refs; kwargs are their values, [None] where absent;
    warnings and texts of exceptions are left out; int64 numbers are integers without bounds (obs has dtype np.int); assertions are on. *)
From Coq Require Import List Arith ZArith Bool String Ascii Reals.
Import ListNotations.
From Verif Require Import Base Cplx ModelTargets ModelGate ModelPauli ModelVqe.
Local Open Scope string_scope.

(** qgate.model.gate_type *)
Inductive gtype : Type := TID | TX | TY | TZ | TH | TT | TS | TRX | TRY | TRZ | TU1 | TU2 | TU | TSWAP.
(** QgateBackend.gatetypes (17-38): type, number of controls, number of targets *)
Definition gatetypes : list (string * (gtype * nat * nat)) :=
  [("i", (TID, 0, 1)); ("x", (TX, 0, 1)); ("y", (TY, 0, 1)); ("z", (TZ, 0, 1)); ("h", (TH, 0, 1)); ("t", (TT, 0, 1)); ("s", (TS, 0, 1));
   ("tdg", (TT, 0, 1)); ("sdg", (TS, 0, 1));
   ("cz", (TZ, 1, 1)); ("cx", (TX, 1, 1)); ("cnot", (TX, 1, 1));
   ("rx", (TRX, 0, 1)); ("ry", (TRY, 0, 1)); ("rz", (TRZ, 0, 1)); ("phase", (TU1, 0, 1));
   ("crx", (TRX, 1, 1)); ("cry", (TRY, 1, 1)); ("crz", (TRZ, 1, 1)); ("cphase", (TU1, 1, 1));
   ("u1", (TRZ, 0, 1)); ("u2", (TU2, 0, 1)); ("u3", (TU, 0, 1));
   ("cu1", (TU1, 1, 1)); ("cu2", (TU2, 1, 1)); ("cu3", (TU, 1, 1));
   ("swap", (TSWAP, 0, 2)); ("ccx", (TX, 2, 1))]%nat.
Fixpoint assoc {A} (k : string) (l : list (string * A)) : option A :=
  match l with [] => None | (k', a) :: r => if String.eqb k k' then Some a else assoc k r end.

(** The operators of qgate: model.Gate with adjoint flag, controls and register; model.MultiQubitGate; model.Measure. *)
Inductive qop : Type :=
| QGate (ty : gtype) (params : list R) (adjoint : bool) (ctrls : list nat) (q : nat)
| QMulti (ty : gtype) (params : list R) (a b : nat)
| QMeasure (ref q : nat).

Section Convert.
Variable n_qubits : nat.

(** [self.qregs[i]] *)
Definition reg (i : Z) : res nat := py_get (seq 0 n_qubits) i.
(** [self.qregs[t]] for a member of gate.targets.  A slice gives a list of registers, which qgate is then asked to take for a register: not modelled. *)
Definition reg_of (t : target) : res nat :=
  match t with
  | TInt i => reg i
  | TSlice _ _ _ => Err Undefined
  | TTuple _ | TOther => Err TypeError
  end.
(** for i in the generator: append(f(i)) *)
Definition for_gen {A} (g : gen Z) (f : Z -> res A) : res (list A) :=
  let* l := map_res f (yields g) in
  match raised g with Some e => Err e | None => Ok l end.

(** create_gates (157-165) *)
Definition create_gates (ty : gtype) (ps : list R) (tg : target) : res (list qop) :=
  for_gen (slicing tg (Z.of_nat n_qubits)) (fun i => let* q := reg i in Ok (QGate ty ps false [] q)).
(** qg.set_adjoint(True) *)
Definition set_adjoint (o : qop) : qop :=
  match o with QGate ty ps _ cs q => QGate ty ps true cs q | _ => o end.
(** convert_one_qubit_gate (101-137) *)
Definition convert_one_qubit_gate (g : gate) (ty : gtype) (controls : nat) : res (list qop) :=
  if (controls =? 0)%nat then
    match g with
    | GOne _ tg =>
        let* gates := create_gates ty (params g) tg in
        Ok (if String.eqb (substring 1 (String.length (lowername g)) (lowername g)) "dg" then map set_adjoint gates else gates)
    | _ => Err AssertionError
    end
  else
    match g with
    | GTwo _ tg =>
        let* ps := qubit_pairs tg (Z.of_nat n_qubits) in
        map_res (fun p : Z * Z => let* c := reg (fst p) in let* q := reg (snd p) in Ok (QGate ty (params g) false [c] q)) ps
    | GThree KCCX tg =>
        let* (c0, c1, t) := unpack3 tg in
        let* c0 := reg_of c0 in let* c1 := reg_of c1 in let* q := reg_of t in
        Ok [QGate ty (params g) false [c0; c1] q]
    | _ => Err RuntimeError (* no entry of the table gets here *)
    end.
(** [t0, t1 = gate.targets] *)
Definition unpack2 (tg : target) : res (target * target) :=
  match tg with
  | TTuple [a; b] => Ok (a, b)
  | TTuple _ => Err ValueError
  | _ => Err TypeError
  end.
(** convert_multi_qubit_gate (139-146) *)
Definition convert_multi_qubit_gate (g : gate) (ty : gtype) : res (list qop) :=
  let* (t0, t1) := unpack2 (targets g) in
  let* a := reg_of t0 in let* b := reg_of t1 in
  Ok [QMulti ty (params g) a b].
(** convert_measure (148-153) *)
Definition convert_measure (tg : target) : res (list qop) :=
  for_gen (slicing tg (Z.of_nat n_qubits)) (fun i => let* r := reg i in let* q := reg i in Ok (QMeasure r q)).
(** the body of the loop of convert_operators (88-98) *)
Definition convert_gate (g : gate) : res (list qop) :=
  match assoc (lowername g) gatetypes with
  | Some (ty, controls, tgs) => if (tgs =? 1)%nat then convert_one_qubit_gate g ty controls else convert_multi_qubit_gate g ty
  | None => if existsb (String.eqb (lowername g)) ["measure"; "m"] then convert_measure (targets g) else Err AssertionError
  end.
Definition convert_operators (gates : list gate) : res (list qop) :=
  for_list gates (fun g ops => let* l := convert_gate g in Ok (ops ++ l)%list) [].
End Convert.

(** What is used of qgate.  [qg_run] gives the simulator after sim.run(ops), [qg_hist] the histogram of a sampling pool for the registers, [qg_obs] sim.obs(refs).int. *)
Record qgate : Type := Qgate {
  qg_sim : Type; qg_prep : Type;
  qg_dynamic : qg_prep;
  qg_new : string -> qg_prep -> res qg_sim;
  qg_ordering : qg_sim -> nat -> res qg_sim;
  qg_run : qg_sim -> list qop -> res qg_sim;
  qg_states : qg_sim -> res (list C);
  qg_hist : qg_sim -> list nat -> bool -> Z -> res (list (Z * nat));
  qg_obs : qg_sim -> list nat -> res Z }.

(** ** Bits *)
(** [format(k, 'b')] of a positive number, highest digit first *)
Fixpoint pos_digits (p : positive) (acc : list ascii) : list ascii :=
  match p with
  | xH => "1"%char :: acc
  | xO r => pos_digits r ("0"%char :: acc)
  | xI r => pos_digits r ("1"%char :: acc)
  end.
(** [format(k, '0{}b'.format(width))]: padded with zeros behind the sign *)
Definition pad (width : nat) (l : list ascii) : list ascii := (repeat "0"%char (width - List.length l) ++ l)%list.
Definition format_bits (width : nat) (k : Z) : string :=
  string_of_list_ascii match k with
  | Z0 => pad width ["0"%char]
  | Zpos p => pad width (pos_digits p [])
  | Zneg p => "-"%char :: pad (width - 1) (pos_digits p [])
  end.
(** the inner loop of sample (208-212) *)
Definition permute (n : nat) (sampling_pos : list nat) (v : Z) : Z :=
  fold_left (fun permuted (e : nat * nat) => let (idx, pos) := e in
      if negb (Z.land v (Z.shiftl 1 (Z.of_nat idx)) =? 0)%Z then Z.lor permuted (Z.shiftl 1 (Z.of_nat n - 1 - Z.of_nat pos)) else permuted)
    (combine (seq 0 (List.length sampling_pos)) sampling_pos) 0%Z.

(** insertion into a sorted list without duplicates: list(set(l)) sorted by position *)
Fixpoint insert (q : nat) (l : list nat) : list nat :=
  match l with
  | [] => [q]
  | a :: r => if (q <? a)%nat then q :: l else if (q =? a)%nat then l else a :: insert q r
  end.
Definition sorted_set (l : list nat) : list nat := fold_left (fun acc q => insert q acc) l [].

(** What a run returns *)
Inductive qg_out : Type :=
| QVec (v : list C) | QHist (d : list (string * nat)) | QBoth (v : list C) (d : list (string * nat)).

Section Run.
Variable Q : qgate.

(** sample (181-214) *)
Definition measured_regs (ops : list qop) : list nat := flat_map (fun o => match o with QMeasure _ q => [q] | _ => [] end) ops.
Definition without_measure (ops : list qop) : list qop := filter (fun o => match o with QMeasure _ _ => false | _ => true end) ops.
Definition sample (n : nat) (sim : qg_sim Q) (ops : list qop) (shots : Z) (sampling_method : string) : res (list (string * nat)) :=
  let* sim := qg_run Q sim (without_measure ops) in
  let sampling_qregs := sorted_set (measured_regs ops) in
  let* hist := qg_hist Q sim sampling_qregs (String.eqb sampling_method "blueqat") shots in
  Ok (fold_left (fun d (e : Z * nat) => dset String.eqb d (format_bits n (permute n sampling_qregs (fst e))) (snd e)) hist []).
(** get_state_vector_and_sample (216-227) *)
Definition get_state_vector_and_sample (n : nat) (sim : qg_sim Q) (ops : list qop) : res (list C * list (string * nat)) :=
  let* sim := qg_run Q sim ops in
  let* v := qg_states Q sim in
  let* k := qg_obs Q sim (rev (seq 0 n)) in
  Ok (v, [(format_bits n k, 1%nat)]).

(** run (40-82) *)
Record qg_args : Type := QgArgs {
  qa_returns : option string; qa_sampling : option string; qa_prep : option (qg_prep Q); qa_shots : option Z; qa_runtime : option string }.
Definition default {A} (a : A) (o : option A) : A := match o with Some b => b | None => a end.
Definition qgate_run (gates : list gate) (n : nat) (args : qg_args) : res qg_out :=
  let r := default "" (qa_returns args) in
  let shots := default 0%Z (qa_shots args) in
  let r := if negb (shots =? 0)%Z && String.eqb r "" then "shots" else if String.eqb r "" then "statevector" else r in
  let runtime := default "cpu" (qa_runtime args) in
  let* sim := if existsb (String.eqb runtime) ["cuda"; "cpu"; "py"] then qg_new Q runtime (default (qg_dynamic Q) (qa_prep args)) else Err RuntimeError in
  let* sim := qg_ordering Q sim n in
  let* ops := convert_operators n gates in
  if String.eqb r "statevector" then
    let* sim := qg_run Q sim ops in let* v := qg_states Q sim in Ok (QVec v)
  else if String.eqb r "shots" then
    let* d := sample n sim ops shots (default "qgate" (qa_sampling args)) in Ok (QHist d)
  else if String.eqb r "statevector_and_shots" then
    if (1 <? shots)%Z then Err RuntimeError
    else let* (v, d) := get_state_vector_and_sample n sim ops in Ok (QBoth v d)
  else Err RuntimeError.
End Run.

(** ** BlueqatCompatibleSamplingPool (230-285) *)
(** the mask of the constructor (238-240) *)
Definition lanes_mask (empty_lanes : list nat) : Z := fold_left (fun m lane => Z.lor m (Z.shiftl 1 (Z.of_nat lane))) empty_lanes 0%Z.
(** [l[::2]], [l[1::2]] *)
Fixpoint evens {A} (l : list A) : list A := match l with a :: _ :: r => a :: evens r | l => l end.
Definition odds {A} (l : list A) : list A := match l with [] => [] | _ :: r => evens r end.

Section Pool.
Variable rng : nat -> R.
Local Open Scope R_scope.
(** the loop over the bits (248-258); [pos] counts the calls of random.random().
    Simplification: real numbers instead of floats. *)
(** [rnum < (a / b)] with numpy's division: x / 0 is inf for positive x, nan for 0, -inf for negative x *)
Definition below_ratio (rnum a b : R) : bool := if Rltb 0 b || Rltb b 0 then Rltb rnum (a / b) else Rltb 0 a.
Fixpoint pool_bits (k bitpos : nat) (redprob : list R) (p_all : R) (v : Z) (pos : nat) : Z * nat :=
  match k with
  | O => (v, pos)
  | S k =>
      let p_zero := Rsum (fun p => p) (evens redprob) in
      if below_ratio (rng pos) p_zero p_all then pool_bits k (S bitpos) (evens redprob) p_zero v (S pos)
      else pool_bits k (S bitpos) (odds redprob) (p_all - p_zero) (Z.lor v (Z.shiftl 1 (Z.of_nat bitpos))) (S pos)
  end.
(** one sample for each index of obs (244-260) *)
Fixpoint pool_samples (n_samples k : nat) (prob : list R) (pos : nat) : list Z * nat :=
  match n_samples with
  | O => ([], pos)
  | S m => let (v, pos) := pool_bits k 0 prob 1 0%Z pos in let (l, pos) := pool_samples m k prob pos in (v :: l, pos)
  end.

(** shift_for_empty_lanes (267-285); [bits[0]] and [bits[-1]] raise IndexError for an empty list *)
Definition lane_bit (lane : nat) : Z := Z.shiftl 1 (Z.of_nat lane).
Fixpoint between_masks (bits : list Z) : list Z :=
  match bits with
  | a :: (b :: _) as r => Z.land (b - 1)%Z (Z.lnot (a * 2 - 1)%Z) :: between_masks r
  | _ => []
  end.
Definition shift_masks (empty_lanes : list nat) : res (list Z) :=
  match map lane_bit empty_lanes with
  | [] => Err IndexError
  | (b0 :: _) as bits => Ok (((b0 - 1)%Z :: between_masks bits) ++ [Z.lnot (last bits 0%Z * 2 - 1)%Z])%list
  end.
Definition shift_value (masks : list Z) (v : Z) : Z :=
  fold_left (fun acc (e : nat * Z) => Z.lor acc (Z.land (Z.shiftl v (Z.of_nat (fst e))) (snd e))) (combine (seq 0 (List.length masks)) masks) 0%Z.
(** sample (242-265): the values that go to ObservationList *)
Definition pool_sample (n_samples k : nat) (prob : list R) (empty_lanes : list nat) (pos : nat) : res (list Z) * nat :=
  let (obs, pos) := pool_samples n_samples k prob pos in
  if (lanes_mask empty_lanes =? 0)%Z then (Ok obs, pos)
  else (let* masks := shift_masks empty_lanes in Ok (map (shift_value masks) obs), pos).
End Pool.
