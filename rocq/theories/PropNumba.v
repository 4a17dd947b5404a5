(** Properties C24 to C26: index arithmetic and loops of the numba backend, agreement with the numpy backend. *)
From Coq Require Import List Arith NArith ZArith String Reals Permutation.
Import ListNotations.
From Verif Require Import Base Cplx Bits ModelTargets ModelGate ModelNumpy ModelNumba SpecTargets SpecQuantum SpecCircuit SpecMeasure
  SpecNumba ProofIndex ProofKernel ProofNumba ProofNumbaRun ProofNumbaProps ProofExamples.
Local Open Scope R_scope.

(** C24.  The loops over one target visit every index whose target bit is zero exactly once ... *)
Theorem C24_shifted : forall n t, (n <= 64)%N -> (t < n)%N -> visits_once n [t] (half n) (idx0 t).
Proof. exact shifted_visits. Qed.
Print Assumptions C24_shifted.

(** ... and those over controls and a target every index where all of their bits are zero. *)
Theorem C24_masks : forall n qs, (n <= 64)%N -> NoDup qs -> Forall (fun q => q < n)%N qs ->
  exists masks, create_masks qs = Ok masks /\ (N.of_nat (List.length qs) <= n)%N /\
    visits_once n qs (2 ^ (n - N.of_nat (List.length qs))) (mult_shifted masks).
Proof. exact mult_visits. Qed.
Print Assumptions C24_masks.

Example C24_case : visits_once 3 [2; 0]%N 2 (fun i => match create_masks [2; 0]%N with Ok m => mult_shifted m i | Err _ => 0%N end).
Proof. exact ex_visits. Qed.

(** C25.  Every schedule of the reads and writes of every loop gives the array of the sequential execution, without an
    access outside of the array and without getting stuck ... *)
Theorem C25_race_free : forall n k a, (n <= 64)%nat -> loop_of (N.of_nat n) k -> List.length a = (2 ^ n)%nat -> race_free k a.
Proof. exact loops_race_free. Qed.
Print Assumptions C25_race_free.

(** ... every schedule is finite ... *)
Theorem C25_finite : forall s s', pstep s (Ok s') ->
  list_sum (map (fun t : thread => List.length (fst t)) (snd s)) = S (list_sum (map (fun t : thread => List.length (fst t)) (snd s'))).
Proof. exact pstep_work. Qed.
Print Assumptions C25_finite.

(** ... the loops of controlled gates start for all distinct qubits of the register ... *)
Theorem C25_loops_start : forall n ct, (n <= 64)%nat -> ct <> [] -> NoDup ct -> Forall (fun q => q < N.of_nat n)%N ct ->
  is_ok (k_cz (N.of_nat n) ct) = true /\ is_ok (k_cx (N.of_nat n) ct) = true /\
  forall th, is_ok (k_crx th (N.of_nat n) ct) = true /\ is_ok (k_cry th (N.of_nat n) ct) = true /\
    is_ok (k_crz th (N.of_nat n) ct) = true /\ is_ok (k_cphase th (N.of_nat n) ct) = true.
Proof. exact loops_start. Qed.
Print Assumptions C25_loops_start.

(** ... and the reduction of [_p0calc] may be split into partial sums in any way. *)
Theorem C25_reduction : forall n t psi chunks, (n <= 64)%nat -> (t < N.of_nat n)%N ->
  Permutation (List.concat chunks) (map N.of_nat (seq 0 (N.to_nat (half (N.of_nat n))))) ->
  exists ps,
    map_res (fun its => for_list its (fun i p0 => let* v := load (arr n psi) (idx0 t i) in Ok (p0 + Cnorm2 v)) 0) chunks = Ok ps /\
    p0calc (arr n psi) t (N.of_nat n) = Ok (Rsum (fun x => x) ps).
Proof. exact reduction_any. Qed.
Print Assumptions C25_reduction.

Example C25_case : loop_of 3 (k_x 3 1) /\ exists k, k_cx 3 [2; 0]%N = Ok k /\ loop_of 3 k.
Proof. exact ex_loop. Qed.

(** C26.  Every gate call with valid targets does what its matrices say, as on the numpy backend (C06) ... *)
Theorem C26_gate : forall rng n g ops, (n <= 64)%nat -> gate_ops n g ops -> forall ctx b psi, x_n ctx = n -> x_qubits ctx = arr n psi ->
  nb_run_single rng recursion_limit g ctx b = NOk (set_bufs ctx (arr n (apply_all ops psi), x_buf ctx)) b.
Proof. exact nb_gate_runs. Qed.
Print Assumptions C26_gate.

(** ... a run returns the same on both, with and without measurements, for all draws, arguments and with the cache on or off ... *)
Theorem C26_run : forall rng n gs a c pos, (n <= 64)%nat -> draws_ok rng -> valid n gs ->
  a_returns a <> Some "_inner_ctx"%string ->
  exists r p b1 b2, nb_run rng new_backend gs n (NbArgs a c) pos = (r, b1, p) /\ np_run rng new_backend gs n a pos = (r, b2, p).
Proof. exact run_agree. Qed.
Print Assumptions C26_run.

(** ... and so does every sequence of runs of a growing circuit, where both go on from their caches. *)
Theorem C26_session : forall rng n calls pos, (n <= 64)%nat -> draws_ok rng ->
  Forall (fun c => valid n (fst c) /\ a_returns (na_args (snd c)) <> Some "_inner_ctx"%string) calls ->
  session (fun b gs a pos => nb_run rng b gs n a pos) new_backend [] pos calls =
  session (fun b gs a pos => np_run rng b gs n (na_args a) pos) new_backend [] pos calls.
Proof. exact session_agree_new. Qed.
Print Assumptions C26_session.

Example C26_case : Forall (fun c => valid 3 (fst c) /\ a_returns (na_args (snd c)) <> Some "_inner_ctx"%string)
  [(ex_gates, NbArgs no_args true); (ex_measured, NbArgs ex_args true); ([], NbArgs no_args false)].
Proof. exact ex_session. Qed.
