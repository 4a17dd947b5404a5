(** Specification of the loops of the numba backend. *)
From Coq Require Import List Arith NArith Bool Reals.
Import ListNotations.
From Verif Require Import Base Cplx ModelTargets ModelGate ModelNumpy ModelNumba.

(** [e] lists, for [i] below [cnt], every index below [2^n] whose bits [qs] are zero, each exactly once. *)
Definition visits_once (n : N) (qs : list N) (cnt : N) (e : N -> N) : Prop :=
  let l := map e (map N.of_nat (seq 0 (N.to_nat cnt))) in
  NoDup l /\ forall x, In x l <-> (x < 2 ^ n)%N /\ forall q, In q qs -> N.testbit x q = false.

(** ** Parallel execution
    Every iteration is a thread; a step executes the next read or write of any thread. *)
Definition thread : Type := list instr * (nat -> C).

Inductive pstep : carr * list thread -> res (carr * list thread) -> Prop :=
| ps_step : forall a before x rest regs after a' regs',
    exec_instr x (a, regs) = Ok (a', regs') ->
    pstep (a, before ++ (x :: rest, regs) :: after) (Ok (a', before ++ (rest, regs') :: after))
| ps_fail : forall a before x rest regs after e,
    exec_instr x (a, regs) = Err e -> pstep (a, before ++ (x :: rest, regs) :: after) (Err e).

Inductive psteps : carr * list thread -> res (carr * list thread) -> Prop :=
| pss_refl : forall s, psteps s (Ok s)
| pss_step : forall s s1 r, pstep s (Ok s1) -> psteps s1 r -> psteps s r
| pss_fail : forall s e, pstep s (Err e) -> psteps s (Err e).

Definition start_threads (k : kernel) : list thread := map (fun i => (k_body k i, no_regs)) (iterations k).
Definition finished (ts : list thread) : Prop := Forall (fun t => fst t = []) ts.

(** Every schedule of the loop ends after the same number of steps, without an access outside of the array, in the array
    that executing the iterations in order gives. *)
Definition race_free (k : kernel) (a : carr) : Prop :=
  exists a', run_kernel k a = Ok a' /\
    forall r, psteps (a, start_threads k) r ->
      exists a1 ts, r = Ok (a1, ts) /\ (finished ts -> a1 = a') /\ (~ finished ts -> exists s, pstep (a1, ts) (Ok s)).

(** The loops that the gates, [measure] and [reset] start on a register of [n] qubits. *)
Inductive loop_of (n : N) : kernel -> Prop :=
| lo_z : forall t, (t < n)%N -> loop_of n (k_z n t)
| lo_x : forall t, (t < n)%N -> loop_of n (k_x n t)
| lo_y : forall t, (t < n)%N -> loop_of n (k_y n t)
| lo_h : forall t, (t < n)%N -> loop_of n (k_h n t)
| lo_diag : forall t f, (t < n)%N -> loop_of n (k_diag f n t)
| lo_rz : forall t th, (t < n)%N -> loop_of n (k_rz th n t)
| lo_ry : forall t th, (t < n)%N -> loop_of n (k_ry th n t)
| lo_rx : forall t th, (t < n)%N -> loop_of n (k_rx th n t)
| lo_u3 : forall t th ph la, (t < n)%N -> loop_of n (k_u3 th ph la n t)
| lo_reduce0 : forall t s, (t < n)%N -> loop_of n (k_reduce0 s n t)
| lo_reduce1 : forall t s, (t < n)%N -> loop_of n (k_reduce1 s n t)
| lo_reset1 : forall t s, (t < n)%N -> loop_of n (k_reset1 s n t)
| lo_cz : forall ct k, ct <> [] -> NoDup ct -> Forall (fun q => q < n)%N ct -> k_cz n ct = Ok k -> loop_of n k
| lo_cx : forall ct k, ct <> [] -> NoDup ct -> Forall (fun q => q < n)%N ct -> k_cx n ct = Ok k -> loop_of n k
| lo_crx : forall ct th k, ct <> [] -> NoDup ct -> Forall (fun q => q < n)%N ct -> k_crx th n ct = Ok k -> loop_of n k
| lo_cry : forall ct th k, ct <> [] -> NoDup ct -> Forall (fun q => q < n)%N ct -> k_cry th n ct = Ok k -> loop_of n k
| lo_crz : forall ct th k, ct <> [] -> NoDup ct -> Forall (fun q => q < n)%N ct -> k_crz th n ct = Ok k -> loop_of n k
| lo_cphase : forall ct th k, ct <> [] -> NoDup ct -> Forall (fun q => q < n)%N ct -> k_cphase th n ct = Ok k -> loop_of n k.

(** A circuit that grows and is run again and again on one backend object: each call appends gates and runs. *)
Fixpoint session {A} (run : backend -> list gate -> A -> nat -> res run_result * backend * nat)
  (b : backend) (gs : list gate) (pos : nat) (calls : list (list gate * A)) : list (res run_result) * nat :=
  match calls with
  | [] => ([], pos)
  | (more, a) :: r =>
      let '(res, b', pos') := run b (gs ++ more) a pos in
      let (rs, p) := session run b' (gs ++ more) pos' r in (res :: rs, p)
  end.
