(** Model of the gate methods of blueqat/backends/numpy_backend.py and of the fallbacks of blueqat/gate.py in any arithmetic of real numbers, as ModelNumpy
    and ModelGate model them in exact arithmetic.  A floating point number is the real number it stands for; an arithmetic gives the results of the operations.
    Complex numbers are pairs; products of complex numbers take four products, a difference and a sum, as in CPython and NumPy; a real factor is made a
    complex number first; the sign of a number changes without rounding.  Infinities, NaN and signed zeros are left out.
    Only runs of a new backend on circuits without measurement and reset are modelled, with the default arguments. *)
From Coq Require Import List Arith ZArith Bool String Reals.
Import ListNotations.
From Verif Require Import Base Cplx ModelTargets ModelGate ModelNumpy.
Local Open Scope R_scope.

Record arith : Type := Arith {
  f_add : R -> R -> R; f_sub : R -> R -> R; f_mul : R -> R -> R; f_div : R -> R -> R;
  f_sqrt : R -> R; f_cos : R -> R; f_sin : R -> R; f_pi : R }.
(** without rounding *)
Definition exact_arith : arith := Arith Rplus Rminus Rmult Rdiv sqrt cos sin PI.

Section Arith.
Variable A : arith.

Definition fc_add (z w : C) : C := (f_add A (fst z) (fst w), f_add A (snd z) (snd w)).
Definition fc_sub (z w : C) : C := (f_sub A (fst z) (fst w), f_sub A (snd z) (snd w)).
Definition fc_mul (z w : C) : C :=
  (f_sub A (f_mul A (fst z) (fst w)) (f_mul A (snd z) (snd w)), f_add A (f_mul A (fst z) (snd w)) (f_mul A (snd z) (fst w))).

(** [s * v], [v * s] *)
Definition fl_scale (s : C) (v : carr) : carr := map (fc_mul s) v.
Definition fl_scaled (v : carr) (s : C) : carr := map (fun x => fc_mul x s) v.
Definition fl_add := np_zip fc_add.
Definition fl_sub := np_zip fc_sub.
(** [a[m] *= s] *)
Definition fl_imul (a : carr) (m : list bool) (s : C) : res carr := np_put a m (fl_scaled (np_get a m) s).
(** [1 / np.sqrt(2)] *)
Definition fl_rsqrt2 : R := f_div A 1 (f_sqrt A 2).

(** numpy_backend.py:156-161 *)
Definition fl_y (n : nat) (target : Z) (s : bufs) : res bufs :=
  let (qubits, newq) := s in
  let* t0 := mask_eq0 n target in
  let* t1 := mask_ne0 n target in
  let* newq := np_put newq t0 (fl_scale (- Ci)%C (np_get qubits t1)) in
  let* newq := np_put newq t1 (fl_scale Ci (np_get qubits t0)) in
  Ok (newq, qubits).

(** numpy_backend.py:170-171, 245-246, 256-257, 264-265 *)
Definition fl_diag1 (a : C) (n : nat) (target : Z) (s : bufs) : res bufs :=
  let (qubits, newq) := s in
  let* t1 := mask_ne0 n target in
  let* qubits := fl_imul qubits t1 a in
  Ok (qubits, newq).

(** numpy_backend.py:179-185 *)
Definition fl_h (n : nat) (target : Z) (s : bufs) : res bufs :=
  let (qubits, newq) := s in
  let* t0 := mask_eq0 n target in
  let* t1 := mask_ne0 n target in
  let* v := fl_add (np_get qubits t0) (np_get qubits t1) in
  let* newq := np_put newq t0 v in
  let* v := fl_sub (np_get qubits t0) (np_get qubits t1) in
  let* newq := np_put newq t1 v in
  let newq := fl_scaled newq (RtoC fl_rsqrt2) in
  Ok (newq, qubits).

(** numpy_backend.py:198-203, 217-222 *)
Definition fl_mat (a00 a01 a10 a11 : C) (n : nat) (target : Z) (s : bufs) : res bufs :=
  let (qubits, newq) := s in
  let* t0 := mask_eq0 n target in
  let* t1 := mask_ne0 n target in
  let* v := fl_add (fl_scale a00 (np_get qubits t0)) (fl_scale a01 (np_get qubits t1)) in
  let* newq := np_put newq t0 v in
  let* v := fl_add (fl_scale a10 (np_get qubits t0)) (fl_scale a11 (np_get qubits t1)) in
  let* newq := np_put newq t1 v in
  Ok (newq, qubits).

(** numpy_backend.py:234-236, 384-386 *)
Definition fl_diag01 (a0 a1 : C) (n : nat) (target : Z) (s : bufs) : res bufs :=
  let (qubits, newq) := s in
  let* t0 := mask_eq0 n target in
  let* qubits := fl_imul qubits t0 a0 in
  let* t1 := mask_ne0 n target in
  let* qubits := fl_imul qubits t1 a1 in
  Ok (qubits, newq).

(** numpy_backend.py:403-411 *)
Definition fl_u3 (a00 a01 a10 a11 : C) (n : nat) (target : Z) (s : bufs) : res bufs :=
  let (qubits, newq) := s in
  let newq := qubits in
  let* t0 := mask_eq0 n target in
  let* t1 := mask_ne0 n target in
  let* newq := np_put newq t0 (fl_scaled (np_get qubits t0) a00) in
  let* v := fl_sub (np_get newq t0) (fl_scaled (np_get qubits t1) a01) in
  let* newq := np_put newq t0 v in
  let* newq := np_put newq t1 (fl_scaled (np_get qubits t0) a10) in
  let* v := fl_add (np_get newq t1) (fl_scaled (np_get qubits t1) a11) in
  let* newq := np_put newq t1 v in
  Ok (newq, qubits).

(** numpy_backend.py:301-308, 322-329 *)
Definition fl_cmat (a00 a01 a10 a11 : C) (n : nat) (ct : Z * Z) (s : bufs) : res bufs :=
  let (control, target) := ct in
  let (qubits, newq) := s in
  let newq := qubits in
  let* c1 := mask_ne0 n control in
  let* t0 := mask_eq0 n target in
  let* t1 := mask_ne0 n target in
  let c1t0 := mask_and t0 c1 in
  let c1t1 := mask_and t1 c1 in
  let* v := fl_add (fl_scale a00 (np_get qubits c1t0)) (fl_scale a01 (np_get qubits c1t1)) in
  let* newq := np_put newq c1t0 v in
  let* v := fl_add (fl_scale a10 (np_get qubits c1t0)) (fl_scale a11 (np_get qubits c1t1)) in
  let* newq := np_put newq c1t1 v in
  Ok (newq, qubits).

(** numpy_backend.py:272-273, 354-356 *)
Definition fl_cdiag1 (a : C) (n : nat) (ct : Z * Z) (s : bufs) : res bufs :=
  let (control, target) := ct in
  let (qubits, newq) := s in
  let* c1 := mask_ne0 n control in
  let* t1 := mask_ne0 n target in
  let* qubits := fl_imul qubits (mask_and c1 t1) a in
  Ok (qubits, newq).

(** numpy_backend.py:341-345 *)
Definition fl_cdiag01 (a0 a1 : C) (n : nat) (ct : Z * Z) (s : bufs) : res bufs :=
  let (control, target) := ct in
  let (qubits, newq) := s in
  let* c1 := mask_ne0 n control in
  let* t0 := mask_eq0 n target in
  let* t1 := mask_ne0 n target in
  let* qubits := fl_imul qubits (mask_and c1 t0) a0 in
  let* qubits := fl_imul qubits (mask_and c1 t1) a1 in
  Ok (qubits, newq).

(** numpy_backend.py:359-368 *)
Definition fl_ccz (n : nat) (tg : target) (s : bufs) : res bufs :=
  let* (c1, c2, t) := unpack3 tg in
  let (qubits, newq) := s in
  let* c1 := raw_index c1 in
  let* m1 := mask_ne0 n c1 in
  let* c2 := raw_index c2 in
  let* m2 := mask_ne0 n c2 in
  let* t := raw_index t in
  let* m3 := mask_ne0 n t in
  let* qubits := fl_imul qubits (mask_and (mask_and m1 m2) m3) (- C1)%C in
  Ok (qubits, newq).

(** numpy_backend.py:370-375 *)
Definition fl_ccx (n : nat) (tg : target) (s : bufs) : res bufs :=
  let* (c1, c2, t) := unpack3 tg in
  let* s := loop1 n t fl_h s in
  let* s := fl_ccz n tg s in
  loop1 n t fl_h s.

Definition fl_cis (x : R) : C := (f_cos A x, f_sin A x).
(** numpy_backend.py:136-414.  X and CX only copy. *)
Definition fl_unitary (g : gate) (n : nat) : option (bufs -> res bufs) :=
  match g with
  | GOne KX tg => Some (loop1 n tg step_x)
  | GOne KY tg => Some (loop1 n tg fl_y)
  | GOne KZ tg => Some (loop1 n tg (fl_diag1 (- C1)%C))
  | GOne KH tg => Some (loop1 n tg fl_h)
  | GOne (KRX theta) tg =>
      let halftheta := f_mul A theta (1/2) in
      let a00 := RtoC (f_cos A halftheta) in
      let a01 := fc_mul (- Ci)%C (RtoC (f_sin A halftheta)) in
      Some (loop1 n tg (fl_mat a00 a01 a01 a00))
  | GOne (KRY theta) tg =>
      let halftheta := f_mul A theta (1/2) in
      let a00 := RtoC (f_cos A halftheta) in
      let a10 := RtoC (f_sin A halftheta) in
      let a01 := (- a10)%C in
      Some (loop1 n tg (fl_mat a00 a01 a10 a00))
  | GOne (KRZ theta) tg =>
      let halftheta := f_mul A theta (1/2) in
      Some (loop1 n tg (fl_diag01 (Cconj (fl_cis halftheta)) (fl_cis halftheta)))
  | GOne (KPhase theta) tg => Some (loop1 n tg (fl_diag1 (fl_cis theta)))
  | GOne KT tg => Some (loop1 n tg (fl_diag1 (fl_rsqrt2, fl_rsqrt2)))
  | GOne KS tg => Some (loop1 n tg (fl_diag1 Ci))
  | GOne (KU1 lambd) tg =>
      let halflambda := f_mul A lambd (1/2) in
      Some (loop1 n tg (fl_diag01 (Cconj (fl_cis halflambda)) (fl_cis halflambda)))
  | GOne (KU3 theta phi lambd) tg =>
      let globalphase := fl_cis (f_mul A (f_sub A (- phi) lambd) (1/2)) in
      let a00 := fc_mul (RtoC (f_cos A (f_mul A theta (1/2)))) globalphase in
      let a11 := fc_mul a00 (fl_cis (f_add A phi lambd)) in
      let a := fc_mul (RtoC (f_sin A (f_mul A theta (1/2)))) globalphase in
      let a01 := fc_mul a (fl_cis lambd) in
      let a10 := fc_mul a (fl_cis phi) in
      Some (loop1 n tg (fl_u3 a00 a01 a10 a11))
  | GTwo KCZ tg => Some (loop2 n tg (fl_cdiag1 (- C1)%C))
  | GTwo KCX tg => Some (loop2 n tg step_cx)
  | GTwo (KCRX theta) tg =>
      let halftheta := f_mul A theta (1/2) in
      let a00 := RtoC (f_cos A halftheta) in
      let a01 := fc_mul (- Ci)%C (RtoC (f_sin A halftheta)) in
      Some (loop2 n tg (fl_cmat a00 a01 a01 a00))
  | GTwo (KCRY theta) tg =>
      let halftheta := f_mul A theta (1/2) in
      let a00 := RtoC (f_cos A halftheta) in
      let a10 := RtoC (f_sin A halftheta) in
      let a01 := (- a10)%C in
      Some (loop2 n tg (fl_cmat a00 a01 a10 a00))
  | GTwo (KCRZ theta) tg =>
      let halftheta := f_mul A theta (1/2) in
      Some (loop2 n tg (fl_cdiag01 (Cconj (fl_cis halftheta)) (fl_cis halftheta)))
  | GTwo (KCPhase theta) tg => Some (loop2 n tg (fl_cdiag1 (fl_cis theta)))
  | GThree KCCZ tg => Some (fl_ccz n tg)
  | GThree KCCX tg => Some (fl_ccx n tg)
  | _ => None
  end.

(** gate.py: the fallbacks that this backend uses, with their angles computed.  The citations are at [fallback1], [fallback2]. *)
Definition fl_fallback1 (k : g1) : option (Z -> list gate) :=
  match k with
  | KTdg => Some (fun t => [GOne (KPhase (f_div A (- f_pi A) 4)) (TInt t)])
  | KSdg => Some (fun t => [GOne (KPhase (f_div A (- f_pi A) 2)) (TInt t)])
  | KU2 phi lambd => Some (fun t => [GOne (KU3 (f_div A (f_pi A) 2) phi lambd) (TInt t)])
  | k => fallback1 k
  end.
Definition fl_fallback2 (k : g2) : option (Z -> Z -> list gate) :=
  match k with
  | KCH => Some (fun c t => [GOne (KRY (f_div A (f_pi A) 4)) (TInt t); GTwo KCX (pair_tg c t);
                             GOne (KRY (f_div A (- f_pi A) 4)) (TInt t)])
  | KRYY theta => Some (fun c t => [GOne (KRX (f_mul A (- f_pi A) (1/2))) (TInt c); GOne (KRX (f_mul A (- f_pi A) (1/2))) (TInt t);
                                    GTwo (KRZZ theta) (pair_tg c t);
                                    GOne (KRX (f_mul A (f_pi A) (1/2))) (TInt c); GOne (KRX (f_mul A (f_pi A) (1/2))) (TInt t)])
  | KCU1 lambd => Some (fun c t => [GOne (KU1 (f_div A lambd 2)) (TInt c); GTwo KCX (pair_tg c t);
                                    GOne (KU1 (f_div A (- lambd) 2)) (TInt t); GTwo KCX (pair_tg c t);
                                    GOne (KU1 (f_div A lambd 2)) (TInt t)])
  | KCU2 phi lambd => Some (fun c t => [GTwo (KCU3 (f_div A (f_pi A) 2) phi lambd) (pair_tg c t)])
  | KCU3 theta phi lambd =>
      Some (fun c t => [GOne (KU1 (f_div A (f_sub A lambd phi) 2)) (TInt t); GTwo KCX (pair_tg c t);
                        GOne (KU3 (f_div A (- theta) 2) 0 (f_div A (- f_add A phi lambd) 2)) (TInt t); GTwo KCX (pair_tg c t);
                        GOne (KU3 (f_div A theta 2) phi 0) (TInt t)])
  | k => fallback2 k
  end.
Definition fl_fallback (g : gate) (n_qubits : Z) : res (list gate) :=
  match g with
  | GOne KI _ => Ok []
  | GOne k tg =>
      match fl_fallback1 k with
      | None => Err NotImplementedError
      | Some f => let* ts := gen_list (slicing tg n_qubits) in Ok (flat_map f ts)
      end
  | GTwo k tg =>
      match fl_fallback2 k with
      | None => Err NotImplementedError
      | Some f => let* ps := qubit_pairs tg n_qubits in Ok (flat_map (fun p => f (fst p) (snd p)) ps)
      end
  | g => fallback g n_qubits
  end.

Fixpoint fl_list (f : gate -> bufs -> res bufs) (l : list gate) (s : bufs) : res bufs :=
  match l with [] => Ok s | g :: r => let* s := f g s in fl_list f r s end.
(** numpy_backend.py:110-117 *)
Fixpoint fl_single (fuel : nat) (n : nat) (g : gate) (s : bufs) : res bufs :=
  match fl_unitary g n with
  | Some f => f s
  | None =>
      match fuel with
      | O => Err RecursionError
      | S fuel => let* gs := fl_fallback g (Z.of_nat n) in fl_list (fl_single fuel n) gs s
      end
  end.
(** numpy_backend.py:87-131, for [run()] of a new backend on a circuit without measurement and reset *)
Definition fl_run (gs : list gate) (n : nat) : res carr :=
  let* s := fl_list (fl_single recursion_limit n) gs (basis0 n, zeros n) in Ok (fst s).
End Arith.
