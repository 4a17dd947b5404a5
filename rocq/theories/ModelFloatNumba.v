(** Model of the gate methods of blueqat/backends/_numba_backend_impl.py with rounding, as ModelNumba models them in exact arithmetic.
    The loops are compiled with [fastmath=True]: the compiler may contract products and sums, change their order and use other instructions for some of the
    iterations.  So what an assignment computes is a function of its operands and of the index that it writes, given by [compiled]; a difference is the sum
    with the number of the opposite sign, and signs change without rounding.  Transformations across assignments are left out.
    The methods themselves and the fallbacks are in Python's arithmetic, as in ModelFloat.  Infinities, NaN and signed zeros are left out.
    Only runs of a new backend on circuits without measurement and reset are modelled, with the default arguments. *)
From Coq Require Import List Arith NArith ZArith Bool String Reals.
Import ListNotations.
From Verif Require Import Base Cplx ModelTargets ModelGate ModelNumpy ModelNumba ModelFloat.
Local Open Scope R_scope.

Record compiled : Type := Compiled {
  c_arith : arith;                          (** of real numbers *)
  c_lit : R -> R;                           (** a decimal number in the program *)
  c_coef : C -> C -> C;                     (** [a * b] outside of the loop *)
  c_mul : N -> C -> C -> C;                 (** [q * f] *)
  c_lin : N -> C -> C -> C -> C -> C;       (** [a * t + b * u] *)
  c_had : N -> C -> C -> R -> C }.          (** [(t + u) * s] *)
(** without rounding *)
Definition exact_compiled : compiled :=
  Compiled exact_arith (fun _ => / sqrt 2) Cmul (fun _ => Cmul) (fun _ a t b u => a * t + b * u)%C (fun _ t u s => (t + u) * RtoC s)%C.

Section Compiled.
Variable c : compiled.
Let A := c_arith c.

(** [qubits[i] *= f] *)
Definition fk_scale_at (i : N) (f : C) : list instr := [Load 0 i; Store i (fun r => c_mul c i (r 0%nat) f)].
(** lines 98-103, 141-147 *)
Definition fk_diag (factor : C) (n target : N) : kernel := Kernel (half n) (fun i => fk_scale_at (idx1 target i) factor).
(** lines 117-125 *)
Definition fk_y (n target : N) : kernel := Kernel (half n) (fun i =>
  let i0 := idx0 target i in let i1 := idx1 target i in
  [Load 0 i0; Load 1 i1; Store i0 (fun r => c_mul c i0 (r 1%nat) (- Ci)%C); Store i1 (fun r => c_mul c i1 (r 0%nat) Ci)]).
(** lines 128-138 *)
Definition fk_h (n target : N) : kernel := Kernel (half n) (fun i =>
  let i0 := idx0 target i in let i1 := idx1 target i in
  let sqrt2_inv := c_lit c (7071067811865475 / 10000000000000000) in
  [Load 0 i0; Load 1 i1; Store i0 (fun r => c_had c i0 (r 0%nat) (r 1%nat) sqrt2_inv);
   Store i1 (fun r => c_had c i1 (r 0%nat) (- r 1%nat)%C sqrt2_inv)]).
(** the form of lines 165-213 *)
Definition fk_mat (a b c' d : C) (n target : N) : kernel := Kernel (half n) (fun i =>
  let i0 := idx0 target i in let i1 := idx1 target i in
  [Load 0 i0; Load 1 i1; Store i0 (fun r => c_lin c i0 a (r 0%nat) b (r 1%nat)); Store i1 (fun r => c_lin c i1 c' (r 0%nat) d (r 1%nat))]).
(** lines 150-162 *)
Definition fk_rz (ang : R) (n target : N) : kernel :=
  let ang := f_mul A ang (1/2) in
  let eit := fl_cis A ang in let eitstar := Cconj eit in
  Kernel (half n) (fun i =>
    let i0 := idx0 target i in let i1 := idx1 target i in
    [Load 0 i0; Load 1 i1] ++ fk_scale_at i0 eitstar ++ fk_scale_at i1 eit).
(** lines 165-177 *)
Definition fk_ry (ang : R) : N -> N -> kernel :=
  let ang := f_mul A ang (1/2) in
  fk_mat (RtoC (f_cos A ang)) (- RtoC (f_sin A ang))%C (RtoC (f_sin A ang)) (RtoC (f_cos A ang)).
(** lines 180-192 *)
Definition fk_rx (ang : R) : N -> N -> kernel :=
  let ang := f_mul A ang (1/2) in
  let nisin := c_coef c (RtoC (f_sin A ang)) (- Ci)%C in
  fk_mat (RtoC (f_cos A ang)) nisin nisin (RtoC (f_cos A ang)).
(** lines 195-213 *)
Definition fk_u3 (theta phi lambd : R) : N -> N -> kernel :=
  let theta := f_mul A theta (1/2) in
  let expadd := fl_cis A (f_mul A (f_add A phi lambd) (1/2)) in
  let expsub := fl_cis A (f_mul A (f_sub A phi lambd) (1/2)) in
  fk_mat (c_coef c (Cconj expadd) (RtoC (f_cos A theta))) (c_coef c (- Cconj expsub)%C (RtoC (f_sin A theta)))
         (c_coef c expsub (RtoC (f_sin A theta))) (c_coef c expadd (RtoC (f_cos A theta))).

(** lines 216-226 *)
Definition fk_cz (n : N) (ct : list N) : res kernel :=
  let all1 := or_bits ct in
  if (n <? N.of_nat (List.length ct))%N then Err Undefined else
  let n_loop := shl1 (n - N.of_nat (List.length ct)) in
  let* masks := create_masks ct in
  Ok (Kernel n_loop (fun i => fk_scale_at (N.lor (mult_shifted masks i) all1) (- C1)%C)).
Definition fk_cmat (a b c' d : C) (n : N) (ct : list N) : res kernel :=
  ctl_kernel n ct (fun i10 t_mask =>
    let i11 := N.lor i10 t_mask in
    [Load 0 i10; Load 1 i11; Store i10 (fun r => c_lin c i10 a (r 0%nat) b (r 1%nat)); Store i11 (fun r => c_lin c i11 c' (r 0%nat) d (r 1%nat))]).
(** lines 245-262 *)
Definition fk_crx (ang : R) : N -> list N -> res kernel :=
  let ang := f_mul A ang (1/2) in
  let nisin := c_coef c (RtoC (f_sin A ang)) (- Ci)%C in
  fk_cmat (RtoC (f_cos A ang)) nisin nisin (RtoC (f_cos A ang)).
(** lines 265-282 *)
Definition fk_cry (ang : R) : N -> list N -> res kernel :=
  let ang := f_mul A ang (1/2) in
  fk_cmat (RtoC (f_cos A ang)) (- RtoC (f_sin A ang))%C (RtoC (f_sin A ang)) (RtoC (f_cos A ang)).
(** lines 285-300 *)
Definition fk_crz (ang : R) (n : N) (ct : list N) : res kernel :=
  let ang := f_mul A ang (1/2) in
  let eit := fl_cis A ang in let eitstar := Cconj eit in
  ctl_kernel n ct (fun i10 t_mask => fk_scale_at i10 eitstar ++ fk_scale_at (N.lor i10 t_mask) eit).
(** lines 303-314 *)
Definition fk_cphase (ang : R) (n : N) (ct : list N) : res kernel :=
  ctl_kernel n ct (fun i10 t_mask => fk_scale_at (N.lor i10 t_mask) (fl_cis A ang)).

(** Python's arithmetic *)
Variable P : arith.

(** lines 444-609.  X and CX only copy. *)
Definition fn_unitary (g : gate) (n : nat) : option (carr -> res carr) :=
  match g with
  | GOne KX tg => Some (nb_loop1 n tg k_x)
  | GOne KY tg => Some (nb_loop1 n tg fk_y)
  | GOne KZ tg => Some (nb_loop1 n tg (fk_diag (- C1)%C))
  | GOne KH tg => Some (nb_loop1 n tg fk_h)
  | GOne KT tg => Some (nb_loop1 n tg (fk_diag (fl_cis P (f_mul P (1/4) (f_pi P)))))
  | GOne KTdg tg => Some (nb_loop1 n tg (fk_diag (fl_cis P (f_mul P (- (1/4)) (f_pi P)))))
  | GOne KS tg => Some (nb_loop1 n tg (fk_diag Ci))
  | GOne KSdg tg => Some (nb_loop1 n tg (fk_diag (- Ci)%C))
  | GOne (KRX theta) tg => Some (nb_loop1 n tg (fk_rx theta))
  | GOne (KRY theta) tg => Some (nb_loop1 n tg (fk_ry theta))
  | GOne (KRZ theta) tg => Some (nb_loop1 n tg (fk_rz theta))
  | GOne (KPhase theta) tg => Some (nb_loop1 n tg (fk_diag (fl_cis P theta)))
  | GOne (KU1 lambd) tg => Some (nb_loop1 n tg (fk_rz lambd))
  | GOne (KU3 theta phi lambd) tg => Some (nb_loop1 n tg (fk_u3 theta phi lambd))
  | GTwo KCZ tg => Some (nb_loop2 n tg fk_cz)
  | GTwo KCX tg => Some (nb_loop2 n tg k_cx)
  | GTwo (KCRX theta) tg => Some (nb_loop2 n tg (fk_crx theta))
  | GTwo (KCRY theta) tg => Some (nb_loop2 n tg (fk_cry theta))
  | GTwo (KCRZ theta) tg => Some (nb_loop2 n tg (fk_crz theta))
  | GTwo (KCPhase theta) tg => Some (nb_loop2 n tg (fk_cphase theta))
  | GThree KCCZ tg => Some (nb_raw n tg fk_cz)
  | GThree KCCX tg => Some (nb_raw n tg k_cx)
  | _ => None
  end.

(** lines 415-422 *)
Fixpoint fn_single (fuel : nat) (n : nat) (g : gate) (a : carr) : res carr :=
  match fn_unitary g n with
  | Some f => f a
  | None =>
      match fuel with
      | O => Err RecursionError
      | S fuel => let* gs := fl_fallback P g (Z.of_nat n) in for_list gs (fn_single fuel n) a
      end
  end.
(** lines 387-439, for [run()] of a new backend on a circuit without measurement and reset *)
Definition fn_run (gs : list gate) (n : nat) : res carr := for_list gs (fn_single recursion_limit n) (basis0 n).
End Compiled.

(** ** Compiled code
    one operation after the other *)
Definition plain_compiled (A : arith) (lit : R -> R) : compiled :=
  Compiled A lit (fc_mul A) (fun _ => fc_mul A) (fun _ a t b u => fc_add A (fc_mul A a t) (fc_mul A b u)) (fun _ t u s => fc_mul A (fc_add A t u) (RtoC s)).
(** with fused operations: [F a b c] rounds [a * b + c]; the factor of [(t + u) * s] is distributed *)
Definition fused_mul (A : arith) (F : R -> R -> R -> R) (z w : C) : C :=
  (F (fst z) (fst w) (- f_mul A (snd z) (snd w)), F (fst z) (snd w) (f_mul A (snd z) (fst w))).
Definition fused_add_mul (F : R -> R -> R -> R) (z w x : C) : C :=
  (F (- snd z) (snd w) (F (fst z) (fst w) (fst x)), F (snd z) (fst w) (F (fst z) (snd w) (snd x))).
Definition fused_compiled (A : arith) (F : R -> R -> R -> R) (lit : R -> R) : compiled :=
  Compiled A lit (fused_mul A F) (fun _ => fused_mul A F) (fun _ a t b u => fused_add_mul F b u (fused_mul A F a t))
    (fun _ t u s => (F (fst t) s (f_mul A (fst u) s), F (snd t) s (f_mul A (snd u) s))).
(** one kind of code for some of the indices, another for the rest *)
Definition mixed_compiled (p : N -> bool) (c d : compiled) : compiled :=
  Compiled (c_arith c) (c_lit c) (c_coef c) (fun i => c_mul (if p i then c else d) i) (fun i => c_lin (if p i then c else d) i) (fun i => c_had (if p i then c else d) i).
