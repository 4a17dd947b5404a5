(** Runs of the numba backend in rounded arithmetic *)
From Coq Require Import String List Arith NArith Nnat ZArith Bool Reals Lia Lra Psatz FunctionalExtensionality.
Import ListNotations.
From Verif Require Import Base Cplx Bits ModelTargets ModelGate ModelNumpy ModelNumba ModelFloat ModelFloatNumba SpecTargets SpecQuantum SpecCircuit SpecMeasure SpecNumba SpecFloat SpecFinite
  SpecFloatNumba ProofTargets ProofArray ProofNumpy ProofUnitary ProofPauli ProofRun ProofMeasure ProofCache ProofExamples ProofIndex ProofKernel ProofPair ProofNumba ProofNumbaRun
  ProofFloat ProofFloatOps ProofFloatKern ProofFloatCoef ProofFloatRun ProofFloatTop
  ProofFinite ProofFiniteKern ProofFiniteCoef ProofFiniteNative ProofFiniteRun ProofFiniteTop ProofFloatNumba ProofFloatNumba2 ProofFloatNumba3.
Local Open Scope R_scope.

(** ** Without rounding *)
Lemma fn_unitary_exact : forall g n, fn_unitary exact_compiled exact_arith g n = nb_unitary g n.
Proof.
  intros g n. destruct g as [k tg|k tg|k tg|tg|tg]; try reflexivity; destruct k; try reflexivity; cbn [fn_unitary nb_unitary].
  - change (fl_cis exact_arith (f_mul exact_arith (1 / 4) (f_pi exact_arith))) with (cis (1 / 4 * PI)). replace (1 / 4 * PI) with (PI / 4) by field. reflexivity.
  - change (fl_cis exact_arith (f_mul exact_arith (- (1 / 4)) (f_pi exact_arith))) with (cis (- (1 / 4) * PI)). replace (- (1 / 4) * PI) with (- (PI / 4)) by field. reflexivity.
Qed.
Definition nlift (ctx : npctx) (b : backend) (r : res carr) : nres := match r with Ok a => NOk (set_bufs ctx (a, x_buf ctx)) b | Err e => NErr e (x_pos ctx) b end.
Lemma nlift_list : forall (run : gate -> npctx -> backend -> nres) (f : gate -> carr -> res carr) b n gs ctx, x_n ctx = n ->
  (forall g ctx, In g gs -> x_n ctx = n -> run g ctx b = nlift ctx b (f g (x_qubits ctx))) ->
  nb_run_list run gs ctx b = nlift ctx b (for_list gs f (x_qubits ctx)).
Proof.
  intros run f b n. induction gs as [|g gs IH]; intros ctx Hn H; cbn [nb_run_list for_list].
  - unfold nlift. destruct ctx; reflexivity.
  - rewrite (H g ctx (or_introl eq_refl) Hn). destruct (f g (x_qubits ctx)) as [a|e]; cbn [nlift bind]; [|reflexivity].
    rewrite (IH (set_bufs ctx (a, x_buf ctx)) Hn (fun g' c' I => H g' c' (or_intror I))). cbn [set_bufs x_qubits fst]. destruct (for_list gs f a); reflexivity.
Qed.
Lemma fn_single_exact : forall rng fuel g ctx b, unitary g = true ->
  nb_run_single rng fuel g ctx b = nlift ctx b (fn_single exact_compiled exact_arith fuel (x_n ctx) g (x_qubits ctx)).
Proof.
  intros rng. assert (ACT : forall g n, unitary g = true -> nb_action rng g n = match nb_unitary g n with Some f => Some (fun ctx b => nlift ctx b (f (x_qubits ctx))) | None => None end).
  { intros g n U. unfold nb_action, nlift. destruct g; try discriminate U; destruct (nb_unitary _ n); reflexivity. }
  induction fuel as [|fuel IH]; intros g ctx b U; cbn [nb_run_single fn_single]; rewrite (ACT g _ U), fn_unitary_exact; destruct (nb_unitary g (x_n ctx)); try reflexivity.
  rewrite fallback_exact. destruct (fallback g (Z.of_nat (x_n ctx))) as [gs|e] eqn:E; [|reflexivity]. cbn [bind].
  apply fallback_unitary in E. rewrite forallb_forall in E. eapply nlift_list; [reflexivity|]. intros g' ctx' I En. rewrite IH by auto. rewrite En. reflexivity.
Qed.
Lemma nb_gates_exact : forall rng gs n ctx b i, forallb unitary gs = true -> x_n ctx = n ->
  fst (nb_run_gates rng gs ctx b i) = nlift ctx b (for_list gs (fn_single exact_compiled exact_arith recursion_limit n) (x_qubits ctx)).
Proof.
  intros rng gs n. induction gs as [|g gs IH]; intros ctx b i U Hn; cbn [nb_run_gates for_list].
  - unfold nlift. destruct ctx; reflexivity.
  - cbn [forallb] in U. apply andb_true_iff in U. destruct U as [U1 U2]. rewrite fn_single_exact, Hn by auto.
    destruct (fn_single _ _ _ n g (x_qubits ctx)) as [a|e]; cbn [nlift bind fst]; [|reflexivity]. rewrite IH by auto. cbn [set_bufs x_qubits fst]. destruct (for_list gs _ a); reflexivity.
Qed.
Lemma fn_exact_lemma : forall rng gs n ec pos, Forall no_collapse gs ->
  fst (fst (nb_run rng new_backend gs n (NbArgs no_args ec) pos)) = match fn_run exact_compiled exact_arith gs n with Ok v => Ok (RState v) | Err e => Err e end.
Proof.
  intros rng gs n ec pos H.
  assert (U : forallb unitary gs = true).
  { induction H as [|g gs Hg _ IH]; [reflexivity|]. cbn [forallb]. rewrite IH. destruct g; try reflexivity; destruct Hg. }
  unfold nb_run. cbn [na_args na_enable_cache]. unfold no_args. change (parse_run_args (RunArgs None None false)) with (Ok (1%Z, "statevector"%string, false)). cbv zeta.
  replace (if ec then clear_cache_if_invalid new_backend n else new_backend) with new_backend by (destruct ec; reflexivity).
  change (Z.to_nat 1) with 1%nat. cbn [nb_shots]. cbn [new_backend b_cache b_idx]. change (Z.to_nat (-1 + 1)) with 0%nat. cbn [skipn].
  pose proof (nb_gates_exact rng gs n (prepare (nb_new_ctx n ec pos) None) new_backend (-1)%Z U eq_refl) as R.
  change (x_qubits (prepare (nb_new_ctx n ec pos) None)) with (basis0 n) in R. unfold fn_run.
  destruct (nb_run_gates rng gs (prepare (nb_new_ctx n ec pos) None) new_backend (-1)%Z) as [sr b']. cbn [fst] in R. subst sr.
  destruct (for_list gs _ (basis0 n)) as [a|e]; cbn [nlift]; [|reflexivity]. destruct (x_cregs _); reflexivity.
Qed.

(** ** Errors of runs *)
Lemma fn_single_eq : forall c P n fuel g s, fn_single c P fuel n g s =
  match fn_unitary c P g n with
  | Some f => f s
  | None => match fuel with O => Err RecursionError | S fuel => let* gs := fl_fallback P g (Z.of_nat n) in for_list gs (fn_single c P fuel n) s end
  end.
Proof. intros. destruct fuel; reflexivity. Qed.
Lemma fn_native : forall c P u eta B M n, compiles c u eta B -> rounds_within P u eta B -> 0 < u -> eta <= u -> 3 <= M -> 128 * M <= B -> 1000 * u * M <= 1 -> 1 / 10 ^ 16 <= u -> (n <= 64)%nat ->
  forall N g ops f, M <= N <= 2 * M -> gate_ops n g ops -> angles_within N g -> fn_unitary c P g n = Some f ->
  nearly n (nb_rep n) (eta / u * sqrt (2 ^ n)) f (apply_all ops) (cost (130 * (u * N)) (weight g * List.length ops)).
Proof.
  intros c P u eta B M n HC HP Hu He HM HB Hs Hl Hn N g ops f HN H W E. assert (Hh : u * N <= 1 / 400) by nra. assert (PP : 0 <= 130 * (u * N)) by nra.
  assert (GP : 0 <= eta / u * sqrt (2 ^ n)) by (apply (gn_pos P u eta B N); auto; lra).
  destruct H as [kd tg l D F|kd tg ps D F|kd a b d Ha Hb Hd Hab Had Hbd]; rewrite ?map_length.
  - apply (nnative1 c P u eta B N) with (kd := kd) (tg := tg); auto; lra.
  - apply (nnative2 c P u eta B N) with (kd := kd) (tg := tg); auto; lra.
  - eapply nearly_cost_le with (a := 1%nat); auto; [|destruct kd; cbn; lia].
    eapply nearly_ext; [apply (nnative3 c P u eta B N) with (kd := kd) (a := a) (b := b) (d := d); auto; lra|reflexivity].
Qed.
Lemma fn_error_lemma : forall c P u eta B M n gs ops, compiles c u eta B -> rounds_within P u eta B -> 1 / 10 ^ 16 <= u -> eta <= u -> 3 <= M -> 128 * M <= B -> 1000 * u * M <= 1 ->
  (n <= 64)%nat -> circuit_ops n gs ops -> Forall (angles_within M) gs ->
  (1 + 300 * (u * M)) ^ (7 * List.length ops) * (1 + eta / u * sqrt (2 ^ n)) <= 4 ->
  exists phi, fn_run c P gs n = Ok (arr n phi) /\
    dist n phi (apply_all ops (ket 0)) <= ((1 + 300 * (u * M)) ^ (7 * List.length ops) - 1) * (1 + eta / u * sqrt (2 ^ n)).
Proof.
  intros c P u eta B M n gs ops HC HP Hl He HM HB Hs Hn HG HW HL. assert (Hu : 0 < u) by lra.
  assert (GP : 0 <= eta / u * sqrt (2 ^ n)) by (apply (gn_pos P u eta B M); auto; lra).
  destruct (circuit_nearly n (nb_rep n) (eta / u * sqrt (2 ^ n)) GP P u eta B M HP Hu He HM HB Hs (fun g => fn_unitary c P g n) (fun fuel => fn_single c P fuel n)
    (fn_single_eq c P n)) with (fuel := 98%nat) (gs := gs) (ops := ops) as [H _]; auto.
  - intros kd tg E. destruct kd; cbn in E; try discriminate; exact I.
  - intros kd tg E. destruct kd; cbn in E; try discriminate; exact I.
  - intros kd tg E. destruct kd; cbn in E; try discriminate; exact I.
  - apply (fn_native c P u eta B M n); auto.
  - destruct (H (basis0 n) (ket 0)) as [s [phi [E [-> D]]]].
    + apply arr_basis0.
    + rewrite norm_ket0. unfold cost. lra.
    + exists phi. split; [exact E|]. rewrite norm_ket0 in D. exact D.
Qed.
Lemma fn_linear_lemma : forall c P u eta B M n gs ops, compiles c u eta B -> rounds_within P u eta B -> 1 / 10 ^ 16 <= u -> eta <= u -> 3 <= M -> 128 * M <= B -> 1000 * u * M <= 1 ->
  (n <= 64)%nat -> circuit_ops n gs ops -> Forall (angles_within M) gs -> eta / u * sqrt (2 ^ n) <= 1 -> 4200 * u * M * INR (List.length ops) <= 1 ->
  exists phi, fn_run c P gs n = Ok (arr n phi) /\ dist n phi (apply_all ops (ket 0)) <= 4200 * u * M * INR (List.length ops) * (1 + eta / u * sqrt (2 ^ n)).
Proof.
  intros c P u eta B M n gs ops HC HP Hl He HM HB Hs Hn HG HW HE HL. assert (Hu : 0 < u) by lra.
  assert (GP : 0 <= eta / u * sqrt (2 ^ n)) by (apply (gn_pos P u eta B M); auto; lra).
  assert (K : 2 * INR (7 * List.length ops) * (300 * (u * M)) = 4200 * u * M * INR (List.length ops)) by (rewrite mult_INR; simpl INR; ring).
  assert (PP : 0 <= 300 * (u * M)) by nra.
  pose proof (pow_linear (300 * (u * M)) (7 * List.length ops) PP) as L. rewrite K in L. specialize (L HL).
  destruct (fn_error_lemma c P u eta B M n gs ops) as [phi [E D]]; auto.
  - assert (1 <= (1 + 300 * (u * M)) ^ (7 * List.length ops)) by (apply pow_R1_Rle; lra).
    apply Rle_trans with (2 * 2); [apply Rmult_le_compat; lra|lra].
  - exists phi. split; auto. eapply Rle_trans; [exact D|]. apply Rmult_le_compat_r; lra.
Qed.
