(** Vqe.run on the ansatz with the default circuit, and on an initial circuit that is too wide. *)
From Coq Require Import List Arith ZArith Bool String Reals Lia Lra.
Import ListNotations.
From Verif Require Import Base Cplx Bits ModelTargets ModelGate ModelNumpy ModelNumba ModelCircuit ModelPauli ModelPauliMatrix ModelVqe ModelVqeLoop
  SpecTargets SpecQuantum SpecCircuit SpecMeasure SpecRun SpecAPI SpecPauli SpecPauliMatrix SpecVqe SpecVqeLoop
  ProofTargets ProofArray ProofRun ProofUnitary ProofMeasure ProofBorn ProofWhole ProofNumbaProps ProofAPI ProofProgram ProofReach
  ProofPauli ProofPauliExpr ProofPauliComm ProofEvolution ProofPauliMatrix ProofPauliEx ProofVqe ProofVqeRun ProofVqeSparse ProofQaoa ProofVqeEx ProofVqeLoop.
Local Open Scope nat_scope.

Lemma plain_ready : forall rng seen h ham step_, let n := expr_qubits (expr_simplify ham) in reachable rng seen h ->
  simulated rng h (VCirc [] (Z.of_nat n) None) -> pairwise_commuting (expr_simplify ham) -> Forall (fun t => Cim (t_coeff t) = 0%R) (expr_simplify ham) ->
  let v := VCirc [GOne KH (TSlice None None None)] (Z.of_nat n) None in
  exists q h1, qaoa_new rng h ham step_ None None = (Ok q, h1) /\ reachable rng seen h1 /\ circuit_is h1 (qa_init q) v /\ simulated rng h1 v /\
    circuit_ops n (v_gates v) (map (fun q => sem1 KH q) (seq 0 n)) /\ h_default h1 = h_default h /\
    (forall c' v', circuit_is h c' v' -> circuit_is h1 c' v').
Proof.
  intros rng seen h ham step_ n Re Si Cm Im v. apply commuting_check in Cm.
  destruct (new_step rng seen h n Re) as [c [h1 [E1 [R1 [C1' [D1 [P1 K1]]]]]]].
  destruct (gate_step rng seen h1 c _ (GOne KH (TSlice None None None)) R1 C1') as [h2 [E2 [R2 [P2 [D2 [C2 K2]]]]]]; [apply (slice_small 0)|apply slice_small|].
  cbn [v_gates v_n v_default app] in C2.
  assert (Co : circuit_ops (Z.to_nat (v_n v)) (v_gates v) (map (fun q => sem1 KH q) (seq 0 n))) by (simpl; rewrite Nat2Z.id; apply gates_one, everywhere_ops).
  assert (Si2 : simulated rng h2 v) by (unfold simulated in *; simpl; rewrite D2, D1; auto).
  destruct (cache_step rng seen h2 c v _ R2 C2 Si2 Co) as [h3 [E3 [R3 [P3 [D3 K3]]]]].
  pose proof (simplified_suits ham (Z.of_nat n) Im (Z.le_refl _)) as Se.
  destruct (evos_ok (expr_simplify ham) (Z.of_nat n) (proj1 Se) (proj1 (proj2 Se))) as [evos [Ee _]].
  exists (Qaoa (expr_simplify ham) step_ (Z.of_nat n) c None evos []), h3. cbn [qa_init].
  split; [|split; [auto|split; [auto|split; [|split; [|split]]]]].
  - unfold qaoa_new. rewrite Cm. cbn [negb]. fold n. rewrite E1. rewrite E2. rewrite E3, Ee. auto.
  - unfold simulated in *. rewrite D3. auto.
  - simpl in Co. rewrite Nat2Z.id in Co. auto.
  - congruence.
  - intros c' v' H. destruct (K1 c' v' H) as [H1 N1]. apply K3, K2; auto.
Qed.
Lemma run_default : forall rng seen h ham step_ minim verbose, let e := expr_simplify ham in let n := expr_qubits e in reachable rng seen h ->
  simulated rng h (VCirc [] (Z.of_nat n) None) -> pairwise_commuting e -> Forall (fun t => Cim (t_coeff t) = 0%R) e ->
  let psi := qaoa_state n e None step_ (everywhere n mH (ket 0)) in let E := fun ps => Cre (expval n (expr_op e) (psi ps)) in
  exists q h1 ps asked m c h' gs ops', qaoa_new rng h ham step_ None None = (Ok q, h1) /\ plays E (minim (2 * step_)) ps asked /\ make_sparse e = Ok m /\
    vqe_run rng h1 (Vqe (ansatz_of q) minim None) verbose = (Ok (ps, VqeResult (Some None) c None), h', Ansatz q (Some m), if verbose then map (fun p => (p, E p)) asked else []) /\
    circuit_is h' c (VCirc gs (Z.of_nat n) None) /\ circuit_ops n gs ops' /\ apply_all ops' (ket 0) = psi ps /\
    reachable rng seen h' /\ h_default h' = h_default h /\ (forall c' v', circuit_is h c' v' -> circuit_is h' c' v') /\
    (forall g, below_spectrum n (expr_op e) g -> Forall (fun p => (g <= E p)%R) (ps :: asked)).
Proof.
  intros rng seen h ham step_ minim verbose e n Re Si Cm Im psi E.
  destruct (plain_ready rng seen h ham step_ Re Si Cm Im) as [q [h1 [Eq [R1 [C1' [S1 [Co [D1 K1]]]]]]]].
  set (v := VCirc [GOne KH (TSlice None None None)] (Z.of_nat n) None) in *.
  assert (N : Z.to_nat (v_n v) = n) by (simpl; apply Nat2Z.id).
  pose proof (run_sparse rng seen h h1 ham step_ None None q h1 v (map (fun q => sem1 KH q) (seq 0 n)) (ansatz_of q) minim verbose Eq R1 C1' S1) as H.
  cbv zeta in H. rewrite N in H. specialize (H Co eq_refl I eq_refl (or_introl eq_refl)). rewrite apply_everywhere in H.
  destruct H as [ps [asked [m [c [h' [gs [ops' [Pl [Em [Er [C2 [Co2 [Ap [R2 [D2 K2]]]]]]]]]]]]]]].
  exists q, h1, ps, asked, m, c, h', (v_gates v ++ gs), ops'. repeat (split; [solve [auto|congruence]|]).
  intros g B. apply Forall_forall. intros p _. unfold E, psi.
  pose proof (energy_bound n e None step_ _ _ g p (simplified_suits ham (Z.of_nat n) Im (Z.le_refl _)) I Co B) as Q. rewrite apply_everywhere in Q. exact Q.
Qed.

(** Z[0] with an initial circuit of two qubits *)
Lemma z0_simplified : expr_simplify z0 = z0.
Proof. unfold z0. rewrite simplify_single by (intro Z; injection Z as Z; lra). rewrite simplify_id; auto. simpl. repeat constructor. Qed.
Lemma z0_commutes : pairwise_commuting z0.
Proof. repeat constructor. Qed.
Lemma init_ready : forall rng seen h ham step_ c v ops, reachable rng seen h -> circuit_is h c v -> simulated rng h v ->
  circuit_ops (Z.to_nat (v_n v)) (v_gates v) ops -> pairwise_commuting (expr_simplify ham) -> Forall (fun t => Cim (t_coeff t) = 0%R) (expr_simplify ham) ->
  (Z.of_nat (expr_qubits (expr_simplify ham)) <= v_n v)%Z ->
  exists q h1, qaoa_new rng h ham step_ (Some c) None = (Ok q, h1) /\ qa_init q = c /\ reachable rng seen h1 /\ h_default h1 = h_default h /\
    (forall c' v', circuit_is h c' v' -> circuit_is h1 c' v').
Proof.
  intros rng seen h ham step_ c v ops Re Ci Si Co Cm Im Ln. apply commuting_check in Cm.
  pose proof (simplified_suits ham (v_n v) Im Ln) as Se.
  destruct (evos_ok (expr_simplify ham) (v_n v) (proj1 Se) (proj1 (proj2 Se))) as [evos [Ee _]].
  destruct (cache_step rng seen h c v ops Re Ci Si Co) as [h1 [E1 [R1 [P1 [D1 K1]]]]].
  exists (Qaoa (expr_simplify ham) step_ (v_n v) c None evos []), h1. split; [|split; [auto|split; auto]].
  unfold qaoa_new. rewrite Cm. cbn [negb]. destruct Ci as [x [Hx [Hg [Hn Hd]]]].
  unfold ModelCircuit.get. rewrite Hx. cbv iota. rewrite E1. rewrite Ee. cbn [bind].
  rewrite Hn. destruct (Z.ltb_spec (Z.of_nat (expr_qubits (expr_simplify ham))) (v_n v)); auto. replace (Z.of_nat (expr_qubits (expr_simplify ham))) with (v_n v) by lia. auto.
Qed.
(** a minimizer that asks once, at the origin, and answers it *)
Definition ask_once : minimizer := fun n => Evaluate (repeat 0%R n) (fun _ => Answer (repeat 0%R n)).
Lemma wide_case : forall rng step_, exists h h1 c q h2 a2 h3 r lines, reachable rng [] h /\ circuit_is h c x0 /\
  qaoa_new rng h z0 step_ (Some c) None = (Ok q, h1) /\
  vqe_run rng h1 (Vqe (ansatz_of q) ask_once None) true = (Err ValueError, h2, a2, []) /\
  vqe_run rng h1 (Vqe (ansatz_of q) ask_once (Some (non_sampling_sampler rng))) true = (Ok r, h3, ansatz_of q, lines) /\ List.length lines = 1.
Proof.
  intros rng step_. destruct (x0_prepared rng) as [h [c [Re [Ci [D P]]]]]. pose proof (numpy_simulated rng h x0 D eq_refl) as Si.
  destruct (init_ready rng [] h z0 step_ c x0 [sem1 KX 0] Re Ci Si x0_ops) as [q [h1 [Eq [Ec [R1 [D1 K1]]]]]].
  1: rewrite z0_simplified; apply z0_commutes. 1: rewrite z0_simplified; apply Forall_cons; auto. 1: rewrite z0_simplified; simpl; lia.
  assert (C1' : circuit_is h1 (qa_init q) x0) by (rewrite Ec; auto).
  assert (S1 : simulated rng h1 x0) by (apply numpy_simulated; [congruence|reflexivity]).
  destruct (run_wide rng [] h h1 z0 step_ (Some c) None q h1 x0 [sem1 KX 0] ask_once true (repeat 0%R (2 * step_)) (fun _ => Answer (repeat 0%R (2 * step_))) Eq R1 C1' S1 x0_ops) as [h2 [a2 [E2 _]]].
  1: rewrite z0_simplified; change (1 < 2); lia. 1: exact I. 1: reflexivity.
  destruct (run_exact rng [] h h1 z0 step_ (Some c) None q h1 x0 [sem1 KX 0] (ansatz_of q) ask_once true Eq R1 C1' S1 x0_ops) as [ps [asked [c' [h3 [gs [ops' [Pl [E3 _]]]]]]]].
  1: rewrite z0_simplified; change (1 <= 2); lia. 1: exact I. 1: reflexivity.
  exists h, h1, c, q, h2, a2, h3. eexists. eexists. repeat (split; [eassumption|]). inversion Pl as [|? ? ? ? Pl']; subst. inversion Pl'; subst. reflexivity.
Qed.
Lemma spectrum_case : below_spectrum 2 (expr_op zz) (-1).
Proof.
  intros psi N. unfold norm2, expval, inner, zz in *. simpl in *. unfold op_add, term_op, op_scl, op_mul, op_one. simpl. unfold ap1, mZ, mk2. simpl.
  unfold Cnorm2, C0, C1, Ci, Cadd, Cmul, Copp, Cconj, RtoC in *. simpl in *.
  change (setb (setb 0 0 false) 1 false) with 0. change (setb (setb 1 0 true) 1 false) with 1. change (setb (setb 2 0 false) 1 true) with 2.
  change (setb (setb 3 0 true) 1 true) with 3.
  destruct (psi 0) as [a0 b0], (psi 1) as [a1 b1], (psi 2) as [a2 b2], (psi 3) as [a3 b3]. simpl in *. ring_simplify. ring_simplify in N.
  pose proof (Rle_0_sqr a0). pose proof (Rle_0_sqr b0). pose proof (Rle_0_sqr a1). pose proof (Rle_0_sqr b1). pose proof (Rle_0_sqr a2). pose proof (Rle_0_sqr b2).
  pose proof (Rle_0_sqr a3). pose proof (Rle_0_sqr b3). unfold Rsqr in *. lra.
Qed.
Lemma start_point : forall random scipy n, exists l, scipy_minimizer random scipy n = scipy l /\ List.length l = n /\ forall i, i < n -> nth_error l i = Some (random i).
Proof.
  intros random scipy n. exists (map random (seq 0 n)). split; auto. split; [rewrite map_length, seq_length; auto|].
  intros i L. rewrite nth_error_map. replace (nth_error (seq 0 n) i) with (Some i); auto. symmetry. rewrite (nth_error_nth' _ 0) by (rewrite seq_length; auto). rewrite seq_nth; auto.
Qed.
Lemma play_once : forall E t, exists ps asked, plays E t ps asked /\ forall ps' asked', plays E t ps' asked' -> ps' = ps /\ asked' = asked.
Proof. intros E t. destruct (plays_total E t) as [ps [asked P]]. exists ps, asked. split; [exact P|exact (plays_fun E t ps asked P)]. Qed.
