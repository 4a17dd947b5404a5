(** Model of [expect] and [AnsatzBase.get_energy] with the exact sampler (blueqat/vqe.py) in any arithmetic of real numbers, as ModelVqe models them in exact
    arithmetic and ModelFloatRun the runs of circuits.  A real number that meets a complex one is made a complex number first.  The terms of the Hamiltonian act on
    qubits of the circuit, so the width of the circuit does not change. *)
From Coq Require Import List Arith NArith ZArith Bool String Reals.
Import ListNotations.
From Verif Require Import Base Cplx ModelTargets ModelGate ModelNumpy ModelNumba ModelPauli ModelVqe ModelFloat ModelFloatNumba ModelFloatRun.
Local Open Scope R_scope.

Section Arith.
Variable A : arith.
(** [x ** 2] *)
Variable sq : R -> R.

(** [cnt[k] += p] of a defaultdict(float) *)
Definition fl_add_prob (cnt : list (nat * R)) (k : nat) (p : R) : list (nat * R) :=
  dset Nat.eqb cnt k (f_add A (match dget Nat.eqb cnt k with Some q => q | None => 0 end) p).
(** vqe.py:227-231, as in [count_probs] *)
Definition fl_count_probs (qubits : carr) (mask : nat) : list (nat * R) :=
  fold_left (fun cnt iv =>
      let p := f_add A (sq (Cre (snd iv))) (sq (Cim (snd iv))) in
      if Reqb p 0 then cnt else fl_add_prob cnt (Nat.land (fst iv) mask) p)
    (combine (seq 0 (List.length qubits)) qubits) [].
(** vqe.py:213-232, as in [expect] *)
Definition fl_expect (qubits : carr) (meas : list Z) : res ModelVqe.dist :=
  if existsb (fun v => v <? 0)%Z meas then Err ValueError
  else
    let meas := map Z.to_nat meas in
    Ok (fold_left (fun d kv => dset key_eqb d (to_key meas (fst kv)) (snd kv)) (fl_count_probs qubits (meas_mask meas)) []).

(** vqe.py:49-53, as in [basis_change] *)
Definition fl_basis_change (ops : list pop) : list gate :=
  flat_map (fun o : pop => match fst o with
    | LX => [GOne KH (TInt (Z.of_nat (snd o)))]
    | LY => [GOne (KRX (f_div A (- f_pi A) 2)) (TInt (Z.of_nat (snd o)))]
    | LZ => [] end) ops.
(** vqe.py:55-59, as in [add_measured] *)
Definition fl_add_measured (measured : ModelVqe.dist) (coeff val : C) : C :=
  fold_left (fun val kv =>
    if Nat.eqb (fold_left Nat.add (fst kv) 0%nat mod 2) 0 then fc_add A val (fc_mul A (RtoC (snd kv)) coeff)
    else fc_sub A val (fc_mul A (RtoC (snd kv)) coeff)) measured val.

(** what [run(returns="statevector")] of a copy of the circuit gives after more gates have been added *)
Variable run : list gate -> res carr.
(** vqe.py:44-60 with the sampler of lines 234-238, as in [energy_terms]; [gs] are the gates of the circuit *)
Fixpoint fl_energy_terms (gs : list gate) (ham : expr) (val : C) : res C :=
  match ham with
  | [] => Ok val
  | meas :: r =>
      let* v := run (gs ++ fl_basis_change (t_ops meas)) in
      let* measured := fl_expect v (map (fun o => Z.of_nat (snd o)) (t_ops meas)) in
      fl_energy_terms gs r (fl_add_measured measured (t_coeff meas) val)
  end.
Definition fl_energy (gs : list gate) (ham : expr) : res R := let* v := fl_energy_terms gs ham C0 in Ok (Cre v).
End Arith.

(** [run(returns="statevector")] of a copy of a circuit on [n] qubits, whose backend has the copy [b] of the cache *)
Definition state_of (r : res run_result) : res carr := match r with Ok (RState v) => Ok v | Ok _ => Err Undefined | Err e => Err e end.
Definition np_copy (A : arith) (norm : carr -> R) (glob : carr -> carr) (rng : nat -> R) (b : backend) (n pos : nat) (gs : list gate) : res carr :=
  state_of (fst (fst (fl_np_run A norm glob rng b gs n (RunArgs None (Some "statevector"%string) false) pos))).
Definition nb_copy (c : compiled) (psum : carr -> R) (P : arith) (glob : carr -> carr) (rng : nat -> R) (b : backend) (n pos : nat) (gs : list gate) : res carr :=
  state_of (fst (fst (fb_run c psum P glob rng b gs n (NbArgs (RunArgs None (Some "statevector"%string) false) true) pos))).
