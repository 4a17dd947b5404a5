(** Model of blueqat/vqe.py: distributions of measurement outcomes, samplers, energies, the circuits of QAOA and VqeResult.
    Minimizers and Vqe.run are in ModelVqeLoop. get_qiskit_sampler is in ModelIbmq. *)
From Coq Require Import List Arith ZArith Bool String Reals.
Import ListNotations.
From Verif Require Import Base Cplx ModelTargets ModelGate ModelNumpy ModelNumba ModelCircuit ModelPauli ModelPauliMatrix.
Local Open Scope R_scope.

(** A dictionary from tuples of outcomes to probabilities, in order of insertion *)
Definition dist : Type := list (list nat * R).
Definition key_eqb (a b : list nat) : bool := if list_eq_dec Nat.eq_dec a b then true else false.

(** ** expect (lines 213-232).  The variables [result], [i] of lines 215-216 and the function [to_mask] are not used there. *)
(** to_key (222-223) *)
Definition to_key (meas : list nat) (k : nat) : list nat :=
  map (fun i => if Nat.eqb (Nat.land k (Nat.shiftl 1 i)) 0 then 0%nat else 1%nat) meas.
(** line 225 *)
Definition meas_mask (meas : list nat) : nat := fold_left (fun acc v => Nat.lor acc (Nat.shiftl 1 v)) meas 0%nat.
(** [cnt[k] += p] of a defaultdict(float) *)
Definition add_prob (cnt : list (nat * R)) (k : nat) (p : R) : list (nat * R) :=
  dset Nat.eqb cnt k ((match dget Nat.eqb cnt k with Some q => q | None => 0 end) + p).
(** lines 227-231 *)
Definition count_probs (qubits : carr) (mask : nat) : list (nat * R) :=
  fold_left (fun cnt iv =>
      let p := Cre (snd iv) ^ 2 + Cim (snd iv) ^ 2 in
      if Reqb p 0 then cnt else add_prob cnt (Nat.land (fst iv) mask) p)
    (combine (seq 0 (List.length qubits)) qubits) [].
(** [1 << v] raises ValueError for negative v *)
Definition expect (qubits : carr) (meas : list Z) : res dist :=
  if existsb (fun v => v <? 0)%Z meas then Err ValueError
  else
    let meas := map Z.to_nat meas in
    Ok (fold_left (fun d kv => dset key_eqb d (to_key meas (fst kv)) (snd kv)) (count_probs qubits (meas_mask meas)) []).

(** ** Samplers: functions of a circuit and of the measured qubits *)
Definition sampler : Type := heap -> nat -> list Z -> res dist * heap.

Section Random.
Variable rng : nat -> R.

(** [circuit.run(returns="statevector")].  What the other backends return is not modelled. *)
Definition run_state (h : heap) (c : nat) (returns : option string) : res carr * heap :=
  match step rng h (ORun c SelDefault (NbArgs (RunArgs None returns false) true)) with
  | (Ok (OutRun (RState v)), h) => (Ok v, h)
  | (Ok _, h) => (Err Undefined, h)
  | (Err e, h) => (Err e, h)
  end.

(** non_sampling_sampler (234-238) *)
Definition non_sampling_sampler : sampler := fun h c meas =>
  match run_state h c (Some "statevector"%string) with
  | (Ok v, h) => (expect v meas, h)
  | (Err e, h) => (Err e, h)
  end.

(** [bits[m]] of a Python list *)
Definition py_get {A} (l : list A) (m : Z) : res A :=
  let i := (if m <? 0 then m + Z.of_nat (List.length l) else m)%Z in
  if (i <? 0)%Z then Err IndexError
  else match nth_error l (Z.to_nat i) with Some a => Ok a | None => Err IndexError end.
(** reduce_bits (246-248) *)
Definition reduce_bits (bits : list nat) (meas : list Z) : res (list nat) := map_res (py_get (rev bits)) meas.
(** line 253: the dictionary comprehension keeps the last value of a key *)
Definition reduce_counter (counter : ModelNumpy.counter) (meas : list Z) : res (list (list nat * nat)) :=
  for_list counter (fun kv d => let* k := reduce_bits (fst kv) meas in Ok (dset key_eqb d k (snd kv))) [].
(** get_measurement_sampler (240-256), with no run_options.  The division by [n_sample] is only executed if there are counts, so not
    by zero. *)
Definition measurement_sampler (n_sample : Z) : sampler := fun h c meas =>
  match step rng h (OGate c (GMeasure (TTuple (map TInt meas)))) with
  | (Err e, h) => (Err e, h)
  | (Ok _, h) =>
      match step rng h (ORun c SelDefault (NbArgs (RunArgs (Some n_sample) (Some "shots"%string) false) true)) with
      | (Ok (OutRun (RShots counter)), h) =>
          (let* counts := reduce_counter counter meas in
           Ok (map (fun kv : list nat * nat => (fst kv, INR (snd kv) / IZR n_sample)) counts), h)
      | (Ok _, h) => (Err Undefined, h)
      | (Err e, h) => (Err e, h)
      end
  end.

(** get_state_vector_sampler (258-266); [multinomial n probs] are the counts that np.random.multinomial draws.  An empty dictionary
    cannot be unpacked (line 263). *)
Definition state_vector_sampler (multinomial : nat -> list R -> list nat) (n_sample : nat) : sampler := fun h c meas =>
  match run_state h c (Some "statevector"%string) with
  | (Err e, h) => (Err e, h)
  | (Ok v, h) =>
      (let* e := expect v meas in
       match e with
       | [] => Err ValueError
       | _ => let dists := map (fun k => INR k / INR n_sample) (multinomial n_sample (map snd e)) in
              Ok (fold_left (fun d kv => dset key_eqb d (fst kv) (snd kv)) (combine (map fst e) dists) [])
       end, h)
  end.

(** ** Energies *)
(** A sequence of gate calls on a circuit *)
Fixpoint add_gates (h : heap) (c : nat) (gs : list gate) : res unit * heap :=
  match gs with
  | [] => (Ok tt, h)
  | g :: r => match step rng h (OGate c g) with
              | (Ok _, h) => add_gates h c r
              | (Err e, h) => (Err e, h)
              end
  end.
(** lines 49-53 *)
Definition basis_change (ops : list pop) : list gate :=
  flat_map (fun o : pop => match fst o with
    | LX => [GOne KH (TInt (Z.of_nat (snd o)))]
    | LY => [GOne (KRX (- PI / 2)) (TInt (Z.of_nat (snd o)))]
    | LZ => [] end) ops.
(** lines 55-59 *)
Definition add_measured (measured : dist) (coeff val : C) : C :=
  fold_left (fun val kv =>
    if Nat.eqb (fold_left Nat.add (fst kv) 0%nat mod 2) 0 then (val + RtoC (snd kv) * coeff)%C
    else (val - RtoC (snd kv) * coeff)%C) measured val.
(** AnsatzBase.get_energy (44-60); the Hamiltonian is an Expr (Term and Pauli operators cannot be iterated) *)
Fixpoint energy_terms (h : heap) (ham : expr) (c : nat) (s : sampler) (val : C) : res C * heap :=
  match ham with
  | [] => (Ok val, h)
  | meas :: r =>
      match step rng h (OCopy c true true) with
      | (Ok (OutCirc d), h) =>
          match add_gates h d (basis_change (t_ops meas)) with
          | (Err e, h) => (Err e, h)
          | (Ok _, h) =>
              match s h d (map (fun o => Z.of_nat (snd o)) (t_ops meas)) with
              | (Err e, h) => (Err e, h)
              | (Ok measured, h) => energy_terms h r c s (add_measured measured (t_coeff meas) val)
              end
          end
      | (Ok _, h) => (Err Undefined, h)
      | (Err e, h) => (Err e, h)
      end
  end.
Definition get_energy (h : heap) (ham : expr) (c : nat) (s : sampler) : res R * heap :=
  match energy_terms h ham c s C0 with
  | (Ok v, h) => (Ok (Cre v), h)
  | (Err e, h) => (Err e, h)
  end.

(** [mat.dot(vec)] of scipy: the products are added column by column (csc, what make_sparse builds); dimensions that do not agree
    raise ValueError.  Matrices of other layouts are not modelled. *)
Fixpoint add_at (l : carr) (i : nat) (z : C) : carr :=
  match l, i with
  | [], _ => []
  | x :: r, O => (x + z)%C :: r
  | x :: r, S k => x :: add_at r k z
  end.
Definition csc_dot (m : smat) (vec : carr) : res carr :=
  match m with
  | SCsc dim data inds indptr =>
      if negb (Nat.eqb (List.length vec) dim) then Err ValueError
      else Ok (fold_left (fun y j =>
             fold_left (fun y k => add_at y (nth k inds 0%nat) (nth k data C0 * nth j vec C0)%C)
               (seq (nth j indptr 0%nat) (nth (S j) indptr 0%nat - nth j indptr 0%nat)) y)
             (seq 0 dim) (repeat C0 dim))
  | SDense dim rows =>
      if negb (Nat.eqb (List.length vec) dim) then Err ValueError
      else Ok (map (fun row => Csum (fun j => nth j row C0 * nth j vec C0)%C (seq 0 dim)) rows)
  | _ => Err Undefined
  end.
(** np.vdot *)
Definition vdot (a b : carr) : C := Csum (fun p => Cconj (fst p) * snd p)%C (combine a b).
(** sparse_expectation (321-332) *)
Definition sparse_expectation (m : smat) (vec : carr) : res R :=
  let* w := csc_dot m vec in Ok (Cre (vdot vec w)).
(** AnsatzBase.make_sparse with its defaults (33-38) and get_energy_sparse (62-64) *)
Definition make_sparse (ham : expr) : res smat := let* m := expr_matrix ham None (Some Lcsc) in Ok (snd m).
Definition get_energy_sparse (h : heap) (m : smat) (c : nat) : res R * heap :=
  match run_state h c None with
  | (Ok v, h) => (sparse_expectation m v, h)
  | (Err e, h) => (Err e, h)
  end.

(** ** QAOA (84-137) *)
(** The attributes of a QaoaAnsatz: hamiltonian, step, n_qubits, init_circuit, mixer and the functions of the time evolutions *)
Record qaoa : Type := Qaoa {
  qa_ham : expr; qa_step : nat; qa_n : Z; qa_init : nat; qa_mixer : option (list term);
  qa_evos : list (R -> list gate); qa_mixer_evos : list (R -> list gate) }.
(** __init__ (86-117); [hamiltonian] as after to_expr().  A Circuit is true in a condition, an empty list of mixers is not. *)
Definition qaoa_new (h : heap) (ham : expr) (step_ : nat) (init : option nat) (mixer : option (list term)) : res qaoa * heap :=
  let ham := expr_simplify ham in
  if negb (is_all_terms_commutable ham) then (Err ValueError, h)
  else
    let n := Z.of_nat (expr_qubits ham) in
    let made : res (nat * Z) * heap :=
      match init with
      | Some c => match ModelCircuit.get (h_circs h) c with
                  | Err e => (Err e, h)
                  | Ok x => (Ok (c, if (n <? c_n x)%Z then c_n x else n), h)
                  end
      | None => match mixer with
                | Some (_ :: _) => (Err ValueError, h)
                | _ => match step rng h (ONew (expr_qubits ham)) with
                       | (Ok (OutCirc c), h) => match step rng h (OGate c (GOne KH (TSlice None None None))) with
                                                | (Ok _, h) => (Ok (c, n), h)
                                                | (Err e, h) => (Err e, h)
                                                end
                       | (Ok _, h) => (Err Undefined, h)
                       | (Err e, h) => (Err e, h)
                       end
                end
      end in
    match made with
    | (Err e, h) => (Err e, h)
    | (Ok (c, n), h) =>
        match step rng h (OMakeCache c None) with
        | (Err e, h) => (Err e, h)
        | (Ok _, h) =>
            (let* evos := map_res time_evolution ham in
             let* mixers := match mixer with Some ts => map_res time_evolution ts | None => Ok [] end in
             Ok (Qaoa ham step_ n c mixer evos mixers), h)
        end
    end.
(** get_circuit (123-137): the gates appended for the angles *)
Definition qaoa_step_gates (q : qaoa) (bg : R * R) : list gate :=
  let beta := fst bg * PI in
  let gamma := snd bg * (2 * PI) in
  flat_map (fun evo => evo gamma) (qa_evos q) ++
  match qa_mixer q with
  | None => [GOne (KRX beta) (TSlice None None None)]
  | Some _ => flat_map (fun evo => evo beta) (qa_mixer_evos q)
  end.
Definition qaoa_gates (q : qaoa) (params : list R) : list gate :=
  flat_map (qaoa_step_gates q) (combine (firstn (qa_step q) params) (skipn (qa_step q) params)).
Definition qaoa_circuit (h : heap) (q : qaoa) (params : list R) : res nat * heap :=
  match step rng h (OCopy (qa_init q) true true) with
  | (Ok (OutCirc c), h) =>
      match add_gates h c (qaoa_gates q params) with
      | (Ok _, h) => (Ok c, h)
      | (Err e, h) => (Err e, h)
      end
  | (Ok _, h) => (Err Undefined, h)
  | (Err e, h) => (Err e, h)
  end.

(** ** VqeResult (140-172)
    [vr_vqe]: the attribute [vqe], of which only its [sampler] is used; None is [vqe=None]. *)
Record vqeresult : Type := VqeResult { vr_vqe : option (option sampler); vr_circuit : nat; vr_probs : option dist }.
(** get_probs (157-172) *)
Definition get_probs (h : heap) (r : vqeresult) (s : option sampler) (rerun : option bool) (store : bool) : res dist * heap * vqeresult :=
  let rerun := match rerun with Some b => b | None => match s with Some _ => true | None => false end end in
  match vr_probs r, rerun with
  | Some p, false => (Ok p, h, r)
  | _, _ =>
      let s' := match s with Some f => Ok (Some f) | None => match vr_vqe r with Some o => Ok o | None => Err AttributeError end end in
      let computed : res dist * heap :=
        match s' with
        | Err e => (Err e, h)
        | Ok o =>
            match ModelCircuit.get (h_circs h) (vr_circuit r) with
            | Err e => (Err e, h)
            | Ok x =>
                match o with
                | None => match run_state h (vr_circuit r) (Some "statevector"%string) with
                          | (Ok v, h) => (expect v (map Z.of_nat (seq 0 (Z.to_nat (c_n x)))), h)
                          | (Err e, h) => (Err e, h)
                          end
                | Some f => f h (vr_circuit r) (map Z.of_nat (seq 0 (Z.to_nat (c_n x))))
                end
            end
        end in
      match computed with
      | (Ok p, h) => (Ok p, h, if store then VqeResult (vr_vqe r) (vr_circuit r) (Some p) else r)
      | (Err e, h) => (Err e, h, r)
      end
  end.
(** [l[:n]] *)
Definition py_upto {A} (l : list A) (n : Z) : list A :=
  firstn (Z.to_nat (if (n <? 0)%Z then n + Z.of_nat (List.length l) else n)) l.
(** most_common (147-148): sorted() with key [-prob] is stable *)
Definition most_common (h : heap) (r : vqeresult) (n : Z) : res dist * heap * vqeresult :=
  match get_probs h r None None true with
  | (Ok p, h, r) => (Ok (py_upto (sort_by (fun a b => negb (Rltb (- snd b) (- snd a))) p) n), h, r)
  | (Err e, h, r) => (Err e, h, r)
  end.
End Random.
