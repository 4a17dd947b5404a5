(** Properties of circuits as Python objects: building, copying, adding, inverting and running them, in any order.
    [step rng h o] is one operation of a program on the heap [h]; [reachable rng seen h]: [h] is the heap of some program
    (that does not share operation lists by Circuit(n, c.ops), nor copies backends into a dagger); [circuit_is h c v]: the
    circuit [c] has the gates, width and default backend of [v]. *)
From Coq Require Import List Arith ZArith Bool String Reals.
Import ListNotations.
From Verif Require Import Base Cplx Bits ModelTargets ModelGate ModelNumpy ModelNumba ModelCircuit ModelCrash SpecTargets SpecQuantum SpecCircuit
  SpecMeasure SpecRun SpecAPI SpecCrash ProofExamples ProofProgram ProofReach ProofInverse ProofCrash ProofCircuit ProofCircuitEx.
Local Open Scope nat_scope.

(** C04.  No operation makes a register smaller. *)
Theorem C04_never_shrinks : forall rng h o r h' c v, (exists seen, reachable rng seen h /\ proper_op seen o) -> step rng h o = (r, h') ->
  circuit_is h c v -> exists v', circuit_is h' c v' /\ (v_n v <= v_n v')%Z.
Proof. exact width_keeps. Qed.
Print Assumptions C04_never_shrinks.

(** After any program at all, the width of every circuit is the least one for the initial widths and targets that it was built from. *)
Theorem C04_least_width : forall rng pos os rs h, steps rng (empty_heap pos) os = (rs, h) ->
  List.length (demands [] os rs) = List.length (h_circs h) /\
  forall i x d, nth_error (h_circs h) i = Some x -> nth_error (demands [] os rs) i = Some d -> least d (c_n x).
Proof. exact program_least. Qed.
Print Assumptions C04_least_width.

(** Slices and non-negative indices of all gates address qubits inside the register, whatever was appended later. *)
Theorem C04_inside : forall rng seen h c v g, reachable rng seen h -> circuit_is h c v -> In g (v_gates v) -> flat (targets g) -> forward (targets g) ->
  (forall l, denotes (v_n v) (targets g) l -> Forall (fun z => 0 <= z < v_n v)%Z l) /\
  (forall ps, denotes_pairs (v_n v) (targets g) ps -> Forall (fun p => 0 <= fst p < v_n v /\ 0 <= snd p < v_n v)%Z ps).
Proof. exact gate_inside. Qed.
Print Assumptions C04_inside.

Example C04_case : (exists seen, reachable r0 seen ex_final) /\ circuit_is ex_final 3 ex_c /\
  nth_error (demands [] ex_program (fst (steps r0 (empty_heap 0) ex_program))) 3 =
  Some (0%Z, [TInt 1; TTuple [TInt 0; TInt 3]; TInt 1; TTuple [TInt 0; TInt 3]; TInt 1; TTuple [TInt 0; TInt 3]; TSlice None None None]).
Proof. exact (conj ex_reachable (conj ex_c_is ex_demand)). Qed.

(** C05.  A gate call is refused exactly if the target is not an integer, a slice or a flat tuple of those.  The width stays as it is, but the
    gate has been appended. *)
Theorem C05_refused_partial : forall rng h c v g r h', circuit_is h c v -> step rng h (OGate c g) = (r, h') ->
  ((exists e, r = Err e) <-> ~ flat (targets g)) /\
  ((exists e, r = Err e) -> r = Err AttributeError /\ h_circs h' = h_circs h /\ circuit_is h' c (VCirc (v_gates v ++ [g]) (v_n v) (v_default v))).
Proof. exact refused. Qed.
Print Assumptions C05_refused_partial.

(** So the full statement, that the gates are unchanged, is false. *)
Theorem C05_unchanged_refuted : exists h c g e h' v v', reachable r0 [] h /\ circuit_is h c v /\ step r0 h (OGate c g) = (Err e, h') /\
  circuit_is h' c v' /\ v' <> v.
Proof. exact refused_keeps_gate. Qed.
Print Assumptions C05_unchanged_refuted.

(** C11.  The gates of a circuit followed by those of its dagger return every state to itself, and the other way round, provided that no
    two qubit gate addresses interfering pairs in one call ([separate_call]). *)
Theorem C11_inverse_partial : forall rng n gs ops gs', circuit_ops n gs ops -> Forall (separate_call n) gs -> reversed gs gs' ->
  forall ctx psi, x_n ctx = n -> x_qubits ctx = arr n psi -> List.length (x_buf ctx) = (2 ^ n)%nat ->
  (exists ctx', run_list (np_run_single rng recursion_limit) (gs ++ gs') ctx = SOk ctx' /\ x_qubits ctx' = x_qubits ctx) /\
  (exists ctx', run_list (np_run_single rng recursion_limit) (gs' ++ gs) ctx = SOk ctx' /\ x_qubits ctx' = x_qubits ctx).
Proof. exact dagger_undoes. Qed.
Print Assumptions C11_inverse_partial.

(** In a program: (c + c.dagger()).run() is |0...0>. *)
Theorem C11_program_partial : forall rng seen h c v ops cd, reachable rng seen h -> circuit_is h c v -> circuit_ops (Z.to_nat (v_n v)) (v_gates v) ops ->
  Forall (separate_call (Z.to_nat (v_n v))) (v_gates v) ->
  exists d h1 e h2 h3, step rng h (ODagger c false false cd) = (Ok (OutCirc d), h1) /\ step rng h1 (OAdd c d) = (Ok (OutCirc e), h2) /\
    step rng h2 (ORun e (SelName "numpy") (NbArgs no_args true)) = (Ok (OutRun (RState (arr (Z.to_nat (v_n v)) (ket 0)))), h3).
Proof. exact dagger_program. Qed.
Print Assumptions C11_program_partial.

(** The proviso cannot be dropped: x[0].cx[0:2, 1:3]. *)
Theorem C11_overlapping_refuted : exists ops gs' v b, circuit_ops 3 ex_overlap ops /\ reversed ex_overlap gs' /\
  np_run r0 new_backend (ex_overlap ++ gs') 3 no_args 0 = (Ok (RState v), b, 0) /\ v <> arr 3 (ket 0).
Proof. exact overlap_not_inverse. Qed.
Print Assumptions C11_overlapping_refuted.

Example C11_case : (exists seen, reachable r0 seen ex_final) /\ circuit_is ex_final 3 ex_c /\
  circuit_ops 4 (v_gates ex_c) [sem1 KX 1; sem2 KCX 0 3; sem1 KX 1; sem2 KCX 0 3; sem2 KCX 0 3; sem1 KX 1] /\
  Forall (separate_call 4) (v_gates ex_c) /\
  separate_call 3 (GTwo KCX (TTuple [TTuple [TInt 0; TInt 1]; TTuple [TInt 2; TInt 2]])) /\
  separate_call 3 (GTwo (KRZZ 1) (TTuple [TSlice (Some 0%Z) (Some 2%Z) None; TSlice (Some 1%Z) (Some 3%Z) None])).
Proof. exact (conj ex_reachable (conj ex_c_is (conj ex_c_ops (conj ex_separate ex_separate_pairs)))). Qed.

(** C12.  dagger() raises ValueError exactly if there is a measurement or reset and they are not to be ignored; otherwise it makes a circuit of
    the daggers in reverse order, without measurements and resets; no other circuit changes. *)
Theorem C12_dagger : forall rng seen h c v im cb cd, reachable rng seen h -> circuit_is h c v ->
  (im = false /\ Exists irreversible (v_gates v) /\ step rng h (ODagger c im cb cd) = (Err ValueError, h)) \/
  ((im = false -> Forall (fun g => ~ irreversible g) (v_gates v)) /\
   exists gs h', step rng h (ODagger c im cb cd) = (Ok (OutCirc (List.length (h_circs h))), h') /\ reversed (v_gates v) gs /\
     circuit_is h' (List.length (h_circs h)) (VCirc gs (v_n v) (if cd then v_default v else None)) /\
     (forall c' v', circuit_is h c' v' -> circuit_is h' c' v')).
Proof. exact dagger_step. Qed.
Print Assumptions C12_dagger.

(** Taken twice, the gates have the same operators. *)
Theorem C12_twice : forall rng seen h c v cd cd', reachable rng seen h -> circuit_is h c v -> Forall (fun g => ~ irreversible g) (v_gates v) ->
  exists d h1 e h2 gs, step rng h (ODagger c false false cd) = (Ok (OutCirc d), h1) /\ step rng h1 (ODagger d false false cd') = (Ok (OutCirc e), h2) /\
    circuit_is h2 e (VCirc gs (v_n v) (if cd' then (if cd then v_default v else None) else None)) /\
    (forall n ops, circuit_ops n (v_gates v) ops -> circuit_ops n gs ops).
Proof. exact dagger_twice. Qed.
Print Assumptions C12_twice.

Example C12_case : (exists seen, reachable r0 seen ex_final) /\ circuit_is ex_final 0 ex_a /\ circuit_is ex_final 3 ex_c /\
  Exists irreversible (v_gates ex_a).
Proof. exact (conj ex_reachable (conj ex_a_is (conj ex_c_is ex_irreversible))). Qed.

(** C13.  Every program behaves as if circuits were plain values without caches, where each run is that of a new circuit (see [vstep]). *)
Theorem C13_history : forall rng pos os rs h, steps rng (empty_heap pos) os = (rs, h) -> proper [] os rs ->
  exists s, vsteps rng (vstart pos) os rs s /\ h_pos h = vh_pos s /\ h_default h = vh_default s /\
    (forall c v, circuit_is h c v <-> nth_error (vh_circs s) c = Some v).
Proof. exact program_values. Qed.
Print Assumptions C13_history.

(** In particular for a run with numpy, after any program, *)
Theorem C13_numpy : forall rng seen h c v a r h', reachable rng seen h -> circuit_is h c v ->
  step rng h (ORun c (SelName "numpy") a) = (r, h') ->
  exists r0 b, np_run rng new_backend (v_gates v) (Z.to_nat (v_n v)) (na_args a) (h_pos h) = (r0, b, h_pos h') /\ same_out r r0.
Proof. exact run_numpy_fresh. Qed.
Print Assumptions C13_numpy.

(** and with numba, for valid circuits. *)
Theorem C13_numba : forall rng seen h c v a r h', reachable rng seen h -> circuit_is h c v -> numba_ok rng v a ->
  step rng h (ORun c (SelName "numba") a) = (r, h') ->
  exists r0 b, nb_run rng new_backend (v_gates v) (Z.to_nat (v_n v)) a (h_pos h) = (r0, b, h_pos h') /\ same_out r r0.
Proof. exact run_numba_fresh. Qed.
Print Assumptions C13_numba.

Example C13_case : proper [] ex_program (fst (steps r0 (empty_heap 0) ex_program)) /\ numba_ok r0 ex_c plain /\
  (exists seen, reachable r0 seen ex_final) /\ circuit_is ex_final 3 ex_c.
Proof. exact (conj ex_steps_proper (conj ex_numba_ok (conj ex_reachable ex_c_is))). Qed.

(** C14.  Copies made with and without backends return the same. *)
Theorem C14_copy_numpy : forall rng seen h c v cd d1 h1 d2 h2 a r1 h1' r2 h2', reachable rng seen h -> circuit_is h c v ->
  step rng h (OCopy c true cd) = (Ok (OutCirc d1), h1) -> step rng h (OCopy c false cd) = (Ok (OutCirc d2), h2) ->
  step rng h1 (ORun d1 (SelName "numpy") a) = (r1, h1') -> step rng h2 (ORun d2 (SelName "numpy") a) = (r2, h2') ->
  same_res r1 r2 /\ h_pos h1' = h_pos h2'.
Proof. exact copies_run_numpy. Qed.
Print Assumptions C14_copy_numpy.
Theorem C14_copy_numba : forall rng seen h c v cd d1 h1 d2 h2 a r1 h1' r2 h2', reachable rng seen h -> circuit_is h c v -> numba_ok rng v a ->
  step rng h (OCopy c true cd) = (Ok (OutCirc d1), h1) -> step rng h (OCopy c false cd) = (Ok (OutCirc d2), h2) ->
  step rng h1 (ORun d1 (SelName "numba") a) = (r1, h1') -> step rng h2 (ORun d2 (SelName "numba") a) = (r2, h2') ->
  same_res r1 r2 /\ h_pos h1' = h_pos h2'.
Proof. exact copies_run_numba. Qed.
Print Assumptions C14_copy_numba.

(** dagger(copy_backends=True) is harmless only while the circuit has no backends; *)
Theorem C14_dagger_partial : forall rng h c im cd x, nth_error (h_circs h) c = Some x -> c_backends x = [] ->
  step rng h (ODagger c im true cd) = step rng h (ODagger c im false cd).
Proof. exact dagger_no_backends. Qed.
Print Assumptions C14_dagger_partial.
(** after a run, the dagger returns a wrong state. *)
Theorem C14_dagger_refuted : exists v w,
  last (fst (steps r0 (empty_heap 0) (ex_dagger true))) (Err Undefined) = Ok (OutRun (RState v)) /\
  last (fst (steps r0 (empty_heap 0) (ex_dagger false))) (Err Undefined) = Ok (OutRun (RState w)) /\ v <> w.
Proof. exact dagger_backends. Qed.
Print Assumptions C14_dagger_refuted.

Example C14_case : (exists seen, reachable r0 seen ex_final) /\ circuit_is ex_final 0 ex_a /\ circuit_is ex_final 3 ex_c /\ numba_ok r0 ex_c plain.
Proof. exact (conj ex_reachable (conj ex_a_is (conj ex_c_is ex_numba_ok))). Qed.

(** C15.  A backend object that a program makes returns the state of the circuit if it is used for one growing circuit only; *)
Theorem C15_growing_partial : forall rng gs b n a pos r b' p, grows_to rng gs b -> np_run rng b gs n a pos = (r, b', p) ->
  exists r0 b0, np_run rng new_backend gs n a pos = (r0, b0, p) /\ outcome_same r r0.
Proof. exact grows_fresh. Qed.
Print Assumptions C15_growing_partial.
(** shared with another circuit of the same width, it does not. *)
Theorem C15_shared_refuted : exists b p w,
  np_run r0 new_backend [X 0] 1 no_args 0 = (Ok (RState w), b, p) /\
  exists v b' v0 b0, np_run r0 b [GOne KI (TInt 0)] 1 no_args p = (Ok (RState v), b', p) /\
  np_run r0 new_backend [GOne KI (TInt 0)] 1 no_args p = (Ok (RState v0), b0, p) /\ v <> v0.
Proof. exact shared_backend. Qed.
Print Assumptions C15_shared_refuted.

Example C15_case : exists b, b <> new_backend /\ grows_to r0 [X 0; CX 0 1] b.
Proof. exact ex_grows. Qed.

(** C16.  Interrupted runs do not disturb later ones, unless the interrupt falls between the statements that update [cache] and [cache_idx]. *)
Theorem C16_numpy_partial : forall rng gs b n a pos r b' p, np_lives rng gs b -> np_run rng b gs n a pos = (r, b', p) ->
  exists r0 b0, np_run rng new_backend gs n a pos = (r0, b0, p) /\ outcome_same r r0.
Proof. exact np_lives_fresh. Qed.
Print Assumptions C16_numpy_partial.
Theorem C16_numba_partial : forall rng, draws_ok rng -> forall gs b n a pos r b' p, nb_lives rng gs b -> (n <= 64)%nat -> valid n gs ->
  a_returns (na_args a) <> Some "_inner_ctx"%string -> nb_run rng b gs n a pos = (r, b', p) ->
  exists b0, nb_run rng new_backend gs n a pos = (r, b0, p).
Proof. exact nb_lives_fresh. Qed.
Print Assumptions C16_numba_partial.

(** Inside these updates they do: numpy after [self.cache = ...], *)
Theorem C16_numpy_refuted : exists b b' v v0 b0, In (b, true) (np_points r0 new_backend [X 0] 1 no_args 0) /\
  np_run r0 b [X 0] 1 no_args 0 = (Ok (RState v), b', 0) /\ np_run r0 new_backend [X 0] 1 no_args 0 = (Ok (RState v0), b0, 0) /\ v <> v0.
Proof. exact interrupted_numpy. Qed.
Print Assumptions C16_numpy_refuted.
(** numba after [self.cache_idx = cache_idx] at the end of a shot, *)
Theorem C16_numba_refuted : exists b1 p1 w b b' v v0 b0, nb_run r0 new_backend [X 0] 1 plain 0 = (Ok (RState w), b1, p1) /\
  In (b, true) (nb_points r0 b1 [X 0; X 0] 1 plain p1) /\
  nb_run r0 b [X 0; X 0] 1 plain p1 = (Ok (RState v), b', p1) /\ nb_run r0 new_backend [X 0; X 0] 1 plain p1 = (Ok (RState v0), b0, p1) /\ v <> v0.
Proof. exact interrupted_numba. Qed.
Print Assumptions C16_numba_refuted.
(** and from a measurement to the end of the shot. *)
Theorem C16_numba_measure_refuted : exists b b' v v0 b0,
  In (b, true) (nb_points r0 new_backend ex_measure0 1 plain 0) /\
  nb_run r0 b ex_measure0 1 plain 0 = (Ok (RState v), b', 0) /\ nb_run r0 new_backend ex_measure0 1 plain 0 = (Ok (RState v0), b0, 0) /\ v <> v0.
Proof. exact interrupted_numba_measure. Qed.
Print Assumptions C16_numba_measure_refuted.

Example C16_case :
  (exists b v b', b <> new_backend /\ np_lives r0 [X 0; CX 0 1] b /\ np_run r0 b [X 0; CX 0 1] 2 no_args 0 = (Ok (RState v), b', 0)) /\
  (exists b, b <> new_backend /\ nb_lives r0 [X 0] b /\ valid 1 [X 0] /\ draws_ok r0).
Proof. exact (conj ex_np_lives ex_nb_lives). Qed.

(** C22.  Only a gate call on [c], [c += ...] and the setting of its default change circuit [c]; nothing done to a copy, a sum or a dagger does.
    (The results of its runs depend on its value only, by C13.) *)
Theorem C22_frame : forall rng seen h o r h' c v, reachable rng seen h -> proper_op seen o -> step rng h o = (r, h') -> ~ modifies o c ->
  circuit_is h c v -> circuit_is h' c v.
Proof. exact frame. Qed.
Print Assumptions C22_frame.

(** A circuit made by Circuit(n, c.ops), which [proper_op] excludes, shares the list of gates with [c]. *)
Theorem C22_shared_ops_refuted : exists v v' h', circuit_is ex_alias 0 v /\ step r0 ex_alias (OGate 1 (X 0)) = (Ok (OutCirc 1), h') /\
  ~ modifies (OGate 1 (X 0)) 0 /\ circuit_is h' 0 v' /\ v' <> v.
Proof. exact ops_shared. Qed.
Print Assumptions C22_shared_ops_refuted.

Example C22_case : (exists seen, reachable r0 seen ex_final) /\ circuit_is ex_final 0 ex_a /\ ~ modifies (OIAdd 1 0) 0.
Proof. exact (conj ex_reachable (conj ex_a_is (fun H => O_S 0 (eq_sym H)))). Qed.

(** C23.  (a + b) + c = a + (b + c) *)
Theorem C23_associative : forall rng seen h a b c va vb vc, reachable rng seen h -> circuit_is h a va -> circuit_is h b vb -> circuit_is h c vc ->
  exists ab h1 l h2 bc h3 r h4 v,
    step rng h (OAdd a b) = (Ok (OutCirc ab), h1) /\ step rng h1 (OAdd ab c) = (Ok (OutCirc l), h2) /\
    step rng h2 (OAdd b c) = (Ok (OutCirc bc), h3) /\ step rng h3 (OAdd a bc) = (Ok (OutCirc r), h4) /\
    circuit_is h4 l v /\ circuit_is h4 r v.
Proof. exact add_assoc. Qed.
Print Assumptions C23_associative.
(** An empty circuit is a unit (the default backend of the sum is that of its left operand). *)
Theorem C23_unit : forall rng seen h a va e ve, reachable rng seen h -> circuit_is h a va -> circuit_is h e ve -> v_gates ve = [] -> v_n ve = 0%Z ->
  exists l h1 r h2, step rng h (OAdd a e) = (Ok (OutCirc l), h1) /\ step rng h1 (OAdd e a) = (Ok (OutCirc r), h2) /\
    circuit_is h2 l va /\ circuit_is h2 r (VCirc (v_gates va) (v_n va) (v_default ve)).
Proof. exact add_unit. Qed.
Print Assumptions C23_unit.
(** a += b, also for a = b *)
Theorem C23_iadd : forall rng seen h a b va vb, reachable rng seen h -> circuit_is h a va -> circuit_is h b vb ->
  exists s h1 h2 v, step rng h (OAdd a b) = (Ok (OutCirc s), h1) /\ circuit_is h1 s v /\
    step rng h (OIAdd a b) = (Ok (OutCirc a), h2) /\ circuit_is h2 a v /\
    v_gates v = v_gates va ++ v_gates vb /\ v_n v = Z.max (v_n va) (v_n vb) /\ v_default v = v_default va.
Proof. exact iadd_is_add. Qed.
Print Assumptions C23_iadd.

Example C23_case : (exists seen, reachable r0 seen ex_final) /\ circuit_is ex_final 0 ex_a /\ circuit_is ex_final 3 ex_c.
Proof. exact (conj ex_reachable (conj ex_a_is ex_c_is)). Qed.

(** C50.  run() uses the default of the circuit if it is set, else the global one, and get_default_backend_name says so. *)
Theorem C50_selected : forall rng h c v a, circuit_is h c v ->
  step rng h (ORun c SelDefault a) =
  step rng h (ORun c (SelName (match v_default v with Some d => d | None => h_default h end)) a).
Proof. exact default_run. Qed.
Print Assumptions C50_selected.
Theorem C50_name : forall rng h c v, circuit_is h c v ->
  step rng h (OGetDefault c) = (Ok (OutName (match v_default v with Some d => d | None => h_default h end)), h).
Proof. exact default_name_of. Qed.
Print Assumptions C50_name.
(** Only registered names can be set or run. *)
Theorem C50_set : forall rng h c v name, circuit_is h c v ->
  (known name -> exists h', step rng h (OSetDefault c (Some name)) = (Ok OutNone, h') /\ circuit_is h' c (VCirc (v_gates v) (v_n v) (Some name))) /\
  (~ known name -> step rng h (OSetDefault c (Some name)) = (Err ValueError, h)).
Proof. exact default_set. Qed.
Print Assumptions C50_set.
Theorem C50_global : forall rng h name,
  (known name -> step rng h (OGlobalDefault name) = (Ok OutNone, set_global h name)) /\
  (~ known name -> step rng h (OGlobalDefault name) = (Err ValueError, h)).
Proof. exact global_set. Qed.
Print Assumptions C50_global.
Theorem C50_unknown : forall rng h c v name a, circuit_is h c v -> ~ known name ->
  (exists seen, reachable rng seen h) -> step rng h (ORun c (SelName name) a) = (Err ValueError, h).
Proof. exact run_unknown. Qed.
Print Assumptions C50_unknown.
(** Nothing else changes the settings; *)
Theorem C50_kept : forall rng h o r h' c v, (exists seen, reachable rng seen h /\ proper_op seen o) -> step rng h o = (r, h') -> circuit_is h c v ->
  (forall s, o <> OSetDefault c s) -> exists v', circuit_is h' c v' /\ v_default v' = v_default v /\ (v_n v <= v_n v')%Z.
Proof. exact step_keeps_default. Qed.
Print Assumptions C50_kept.
Theorem C50_global_kept : forall rng h o r h', step rng h o = (r, h') -> (forall name, o <> OGlobalDefault name) -> h_default h' = h_default h.
Proof. exact global_keep. Qed.
Print Assumptions C50_global_kept.
(** copies inherit the setting. *)
Theorem C50_copy : forall rng seen h c v cb cd, reachable rng seen h -> circuit_is h c v ->
  exists h', step rng h (OCopy c cb cd) = (Ok (OutCirc (List.length (h_circs h))), h') /\ reachable rng seen h' /\
    circuit_is h' (List.length (h_circs h)) (VCirc (v_gates v) (v_n v) (if cd then v_default v else None)) /\ h_pos h' = h_pos h.
Proof. exact copy_ok. Qed.
Print Assumptions C50_copy.
(** set_default_backend(None) is documented to return to the global default; it always raises ValueError. *)
Theorem C50_none_refuted : forall rng h c v, circuit_is h c v -> step rng h (OSetDefault c None) = (Err ValueError, h).
Proof. exact none_refused. Qed.
Print Assumptions C50_none_refuted.

Example C50_case : circuit_is ex_final 3 ex_c /\ v_default ex_c = Some "numba"%string /\ known "numba" /\ (exists seen, reachable r0 seen ex_final).
Proof. exact (conj ex_c_is (conj eq_refl (conj numba_known ex_reachable))). Qed.
