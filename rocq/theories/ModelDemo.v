(** Model of the programs in /repo/examples: maxcut_qaoa.py (the function is the same in qaoa_via_ibmq.py and qaoa_via_qgate.py), numpartition_qaoa.py,
    factoring_qaoa.py.  Of their main programs only the groups that numpartition_qaoa.py prints are modelled. *)
From Coq Require Import List Arith ZArith Bool String Reals.
Import ListNotations.
From Verif Require Import Base Cplx ModelTargets ModelGate ModelNumpy ModelNumba ModelCircuit ModelPauli ModelPauliMatrix ModelVqe ModelVqeLoop.
Local Open Scope R_scope.

Section Examples.
Variable rng : nat -> R.
(** the default minimizer: random.random and scipy's method "Powell" with the options of the caller (see [scipy_minimizer]) *)
Variables (random : nat -> R) (powell : list R -> strategy).
Definition minimizer_or (m : option minimizer) : minimizer := match m with Some m => m | None => scipy_minimizer random powell end.
(** [vqe.Vqe(vqe.QaoaAnsatz(hamiltonian, n_step), minimizer, sampler)]; Vqe.__init__ replaces a missing minimizer (vqe.py:178-181) *)
Definition make_vqe (h : heap) (ham : pval) (n_step : nat) (m : option minimizer) (s : option sampler) : res vqe * heap :=
  match qaoa_new rng h (v_expr ham) n_step None None with
  | (Ok q, h) => (Ok (Vqe (ansatz_of q) (minimizer_or m) s), h)
  | (Err e, h) => (Err e, h)
  end.

(** ** maxcut_qaoa.py *)
(** lines 17-20.  Simplification: vertices are natural numbers. *)
Definition maxcut_hamiltonian (edges : list (nat * nat)) : pval :=
  fold_left (fun h e => v_add h (v_mul (VPauli (PP (LZ, fst e))) (VPauli (PP (LZ, snd e))))) edges (v_mul (VPauli PId) (VNum (NumR 0))).
(** maxcut_qaoa (3-22) *)
Definition maxcut_qaoa (h : heap) (n_step : nat) (edges : list (nat * nat)) (m : option minimizer) (s : option sampler) : res vqe * heap :=
  make_vqe h (maxcut_hamiltonian edges) n_step (Some (minimizer_or m)) (Some (match s with Some s => s | None => non_sampling_sampler rng end)).

(** ** numpartition_qaoa.py *)
(** lines 14-17; numbers are real and computed exactly *)
Definition partition_sum (nums : list R) : pval :=
  fold_left (fun h ix => v_add h (v_mul (VPauli (PP (LZ, fst ix))) (VNum (NumR (snd ix))))) (combine (seq 0 (List.length nums)) nums) (VExpr []).
Definition partition_hamiltonian (nums : list R) : res pval :=
  let* p := v_pow (partition_sum nums) 2 in Ok (VExpr (expr_simplify (v_expr p))).
(** numpartition_qaoa (7-19) *)
Definition numpartition_qaoa (h : heap) (n_step : nat) (nums : list R) (m : option minimizer) (s : option sampler) : res vqe * heap :=
  match partition_hamiltonian nums with
  | Ok ham => make_vqe h ham n_step m s
  | Err e => (Err e, h)
  end.
(** group0 and group1 (32-34), from the measured bits *)
Definition groups (nums : list R) (bits : list nat) : list R * list R :=
  (map fst (filter (fun ab : R * nat => (snd ab =? 0)%nat) (combine nums bits)), map fst (filter (fun ab : R * nat => (snd ab =? 1)%nat) (combine nums bits))).

(** ** factoring_qaoa.py *)
(** the loop of get_nbit (12-16); the fuel [n] is enough, as 2^n > n *)
Fixpoint nbit_loop (fuel m n : nat) : res nat :=
  if (2 ^ m <? n)%nat then match fuel with O => Err Undefined | S f => nbit_loop f (S m) n end else Ok m.
Definition get_nbit (n : nat) : res nat := nbit_loop n 1 n.
(** n1_bits and n2_bits (18-19).  Simplifications: [num] is a natural number (of a negative one num**0.5 is complex, and int raises TypeError);
    int(num**0.5) is the integer part of the exact square root (the floating-point root is another number for large [num]). *)
Definition n2_bits (num : nat) : res nat := get_nbit (Nat.sqrt num).
Definition n1_bits (num : nat) : res nat := let* n := get_nbit (Nat.sqrt num) in Ok (n - 1)%nat.
(** mk_expr (21-25) *)
Definition mk_expr (offset n : nat) : pval :=
  fold_left (fun e i => v_add e (v_mul (VNum (NumR (2 ^ (i + 1)))) (qubo_bit (i + offset)))) (seq 0 n) (VExpr (from_number C1)).
(** the loops of bitseparator (29-34, 35-40) *)
Definition bits_number (bits : list nat) : nat :=
  fst (fold_left (fun pm b => ((if (b =? 0)%nat then fst pm else fst pm + 2 ^ snd pm)%nat, S (snd pm))) bits (1, 1)%nat).
(** bitseparator (27-41) *)
Definition bitseparator (n1 n2 : nat) (bits : list nat) : res (nat * nat) :=
  if negb (List.length bits =? n1 + n2)%nat then Err AssertionError
  else Ok (bits_number (firstn n1 bits), bits_number (skipn n1 bits)).
(** line 43 *)
Definition factoring_hamiltonian (num n1 n2 : nat) : res pval :=
  v_pow (v_sub (VNum (NumR (INR num))) (v_mul (mk_expr 0 n1) (mk_expr n1 n2))) 2.
(** factoring_qaoa (4-44): the Vqe and the function bitseparator *)
Definition factoring_qaoa (h : heap) (n_step num : nat) (m : option minimizer) (s : option sampler) : res (vqe * (list nat -> res (nat * nat))) * heap :=
  match n1_bits num, n2_bits num with
  | Ok n1, Ok n2 =>
      match factoring_hamiltonian num n1 n2 with
      | Ok ham => match make_vqe h ham n_step m s with
                  | (Ok v, h) => (Ok (v, bitseparator n1 n2), h)
                  | (Err e, h) => (Err e, h)
                  end
      | Err e => (Err e, h)
      end
  | Err e, _ | _, Err e => (Err e, h)
  end.
End Examples.
