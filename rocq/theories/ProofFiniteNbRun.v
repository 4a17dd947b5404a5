(** Shots of the numba backend with measurements and resets, in arithmetic with underflow and overflow *)
From Coq Require Import String List Arith NArith Nnat ZArith Bool Reals Lia Lra Psatz FunctionalExtensionality.
Import ListNotations.
From Verif Require Import Base Cplx Bits ModelTargets ModelGate ModelNumpy ModelNumba ModelFloat ModelFloatMeasure ModelFloatNumba ModelFloatNumbaMeasure
  ProofFinite ProofFiniteCoef ProofFiniteKern ProofFiniteRun ProofFiniteTop SpecTargets SpecQuantum SpecCircuit SpecMeasure
  SpecNumba SpecLaw SpecFloat SpecFloatMeasure SpecFinite SpecFloatNumba SpecFiniteMeasure ProofTargets ProofArray ProofNumpy ProofUnitary ProofPauli ProofRun ProofMeasure ProofCache
  ProofIndex ProofKernel ProofPair ProofNumba ProofNumbaRun ProofFloat ProofFloatOps ProofFloatKern ProofFloatCoef ProofFloatRun ProofFloatTop ProofLaw ProofFloatMeas ProofFloatMeasRun
  ProofFloatNumba ProofFloatNumbaTop ProofFiniteShot ProofFiniteMeas ProofFiniteMeasRun ProofFiniteNbMeas.
Local Open Scope R_scope.

(** ** Without rounding *)
Lemma map_res_sum : forall (f : N -> res C) l p, for_list l (fun i p0 => let* v := f i in Ok (p0 + Cnorm2 v)) p =
  let* v := map_res f l in Ok (p + exact_norm2 v).
Proof.
  intros f l. induction l as [|i l IH]; intros p; cbn [for_list map_res].
  - cbn [bind]. unfold exact_norm2. simpl. f_equal. ring.
  - destruct (f i) as [v|e]; cbn [bind]; [|reflexivity]. rewrite IH. destruct (map_res f l) as [vs|e]; cbn [bind]; [|reflexivity].
    unfold exact_norm2. cbn [Rsum]. f_equal. unfold Cnorm2. ring.
Qed.
Lemma p0calc_exact : forall a t n, fn_p0calc exact_norm2 a t n = p0calc a t n.
Proof. intros. unfold fn_p0calc, p0calc. rewrite map_res_sum. destruct (map_res _ _); cbn [bind]; [|reflexivity]. f_equal. ring. Qed.
Lemma sqrt_inv_exact : forall x, fn_sqrt_inv exact_compiled x = sqrt_inv x.
Proof.
  intros x. unfold fn_sqrt_inv, sqrt_inv. cbn [c_arith exact_compiled f_sqrt f_div exact_arith]. destruct (Rltb x 0) eqn:L; [reflexivity|]. apply Rltb_false in L.
  assert (E : Reqb (sqrt x) 0 = Reqb x 0).
  { unfold Reqb. destruct (Req_EM_T (sqrt x) 0) as [Z|Z]; destruct (Req_EM_T x 0) as [Y|Y]; auto; exfalso; [apply Y, sqrt_eq_0; auto|apply Z; rewrite Y; apply sqrt_0]. }
  rewrite E. destruct (Reqb x 0); [reflexivity|]. f_equal. unfold Rdiv. ring.
Qed.
Lemma fn_measure_exact : forall rng n t s, fn_measure exact_compiled exact_norm2 rng n t s = nb_step_measure rng n t s.
Proof.
  intros rng n t [[a cr] pos]. unfold fn_measure, nb_step_measure. destruct (in_reg n t); [|reflexivity]. rewrite p0calc_exact. destruct (p0calc a (Z.to_N t) (N.of_nat n)) as [p|e]; cbn [bind]; [|reflexivity].
  change (f_sub (c_arith exact_compiled) 1 p) with (1 - p). rewrite !sqrt_inv_exact. reflexivity.
Qed.
Lemma fn_reset_exact : forall rng n t s, fn_reset exact_compiled exact_norm2 rng n t s = nb_step_reset rng n t s.
Proof.
  intros rng n t [[a cr] pos]. unfold fn_reset, nb_step_reset. destruct (in_reg n t); [|reflexivity]. rewrite p0calc_exact. destruct (p0calc a (Z.to_N t) (N.of_nat n)) as [p|e]; cbn [bind]; [|reflexivity].
  change (f_sub (c_arith exact_compiled) 1 p) with (1 - p). rewrite !sqrt_inv_exact. reflexivity.
Qed.
Definition view (ctx : npctx) : fnctx := (x_qubits ctx, x_cregs ctx, x_pos ctx).
Definition same_run (n : nat) (r : nres) (f : fnctx * option exn) : Prop :=
  match r with NOk ctx b => f = (view ctx, None) /\ x_n ctx = n | NErr e p b => exists a cr, f = ((a, cr, p), Some e) end.
Lemma collapse_same : forall step step' tg ctx b, (forall t s, step' t s = step (x_n ctx) t s) ->
  same_run (x_n ctx) (nb_collapse step tg ctx b) (fn_collapse step' tg (x_n ctx) (view ctx)).
Proof.
  intros step step' tg ctx b H. unfold nb_collapse, fn_collapse. cbv zeta. replace step' with (step (x_n ctx)) by (repeat (apply functional_extensionality; intro); symmetry; apply H).
  unfold view. unfold fnctx in *. destruct (loop_state _ _ _) as [[[q cr] pos] [e|]]; cbn [same_run]; eauto.
  destruct (raised (slicing tg (Z.of_nat (x_n ctx)))) as [e|]; cbn [same_run]; eauto.
Qed.
Lemma list_same : forall (f : gate -> npctx -> backend -> nres) (h : gate -> fnctx -> fnctx * option exn) n l, (forall g ctx b, x_n ctx = n -> same_run n (f g ctx b) (h g (view ctx))) ->
  forall ctx b, x_n ctx = n -> same_run n (nb_run_list f l ctx b) (fn_list h l (view ctx)).
Proof.
  intros f h n l H. induction l as [|g l IH]; intros ctx b E; cbn [nb_run_list fn_list].
  - cbn [same_run]. auto.
  - pose proof (H g ctx b E) as S1. destruct (f g ctx b) as [ctx' b'|e p b']; cbn [same_run] in S1.
    + destruct S1 as [-> E']. apply IH; auto.
    + destruct S1 as (a & cr & ->). cbn [same_run]. eauto.
Qed.
Lemma gate_same : forall rng n fuel g ctx b, x_n ctx = n -> same_run n (nb_run_single rng fuel g ctx b) (fn_gate exact_compiled exact_norm2 exact_arith rng fuel n g (view ctx)).
Proof.
  intros rng n. induction fuel as [|fuel IH]; intros g ctx b E; subst n.
  - destruct g as [k tg|k tg|k tg|tg|tg]; cbn [nb_run_single fn_gate]; unfold nb_action;
      try (apply collapse_same; intros t s; rewrite ?fn_measure_exact, ?fn_reset_exact; reflexivity);
      rewrite fn_unitary_exact; destruct (nb_unitary _ (x_n ctx)) as [f|]; unfold view; cbn [same_run]; eauto; destruct (f (x_qubits ctx)); cbn [same_run]; eauto.
  - destruct g as [k tg|k tg|k tg|tg|tg]; cbn [nb_run_single fn_gate]; unfold nb_action;
      try (apply collapse_same; intros t s; rewrite ?fn_measure_exact, ?fn_reset_exact; reflexivity);
      rewrite fn_unitary_exact; (destruct (nb_unitary _ (x_n ctx)) as [f|]; [unfold view; cbn [same_run]; eauto; destruct (f (x_qubits ctx)); cbn [same_run]; eauto|]);
      rewrite fallback_exact; (destruct (fallback _ (Z.of_nat (x_n ctx))) as [gs|e]; [|unfold view; cbn [same_run]; eauto]); apply list_same; auto.
Qed.
Lemma gates_same : forall rng n gs ctx b i, x_n ctx = n ->
  same_run n (fst (nb_run_gates rng gs ctx b i)) (fn_list (fn_gate exact_compiled exact_norm2 exact_arith rng recursion_limit n) gs (view ctx)).
Proof.
  intros rng n gs. induction gs as [|g gs IH]; intros ctx b i E; cbn [nb_run_gates fn_list].
  - cbn [fst same_run]. auto.
  - pose proof (gate_same rng n recursion_limit g ctx b E) as S1. destruct (nb_run_single rng recursion_limit g ctx b) as [ctx' b'|e p b']; cbn [same_run] in S1.
    + destruct S1 as [-> E']. apply IH; auto.
    + destruct S1 as (a & cr & ->). cbn [fst same_run]. eauto.
Qed.
Lemma fn_shot_exact : forall rng gs n ec pos,
  let r := nb_run rng new_backend gs n (NbArgs no_args ec) pos in
  (fst (fst r), snd r) = match fn_shot exact_compiled exact_norm2 exact_arith rng gs n pos with
    | ((a, _, p), None) => (Ok (RState a), p) | ((_, _, p), Some e) => (Err e, p) end.
Proof.
  intros rng gs n ec pos. cbv zeta.
  unfold nb_run. cbn [na_args na_enable_cache]. unfold no_args. change (parse_run_args (RunArgs None None false)) with (Ok (1%Z, "statevector"%string, false)). cbv zeta.
  replace (if ec then clear_cache_if_invalid new_backend n else new_backend) with new_backend by (destruct ec; reflexivity).
  change (Z.to_nat 1) with 1%nat. cbn [nb_shots]. cbn [new_backend b_cache b_idx]. change (Z.to_nat (-1 + 1)) with 0%nat. cbn [skipn].
  pose proof (gates_same rng n gs (prepare (nb_new_ctx n ec pos) None) new_backend (-1)%Z eq_refl) as R.
  change (view (prepare (nb_new_ctx n ec pos) None)) with (basis0 n, repeat 0%nat n, pos) in R. unfold fn_shot. fold new_backend.
  destruct (nb_run_gates rng gs (prepare (nb_new_ctx n ec pos) None) new_backend (-1)%Z) as [[ctx b'|e p b'] i]; cbn [fst same_run] in R.
  - destruct R as [-> _]. unfold view. cbn [fst snd]. destruct (x_cregs ctx); reflexivity.
  - destruct R as (a & cr & ->). reflexivity.
Qed.

(** ** Gates other than measurement and reset *)
Lemma fn_gate_unitary : forall c psum P rng n fuel g a a' cr pos, unitary g = true -> fn_single c P fuel n g a = Ok a' -> fn_gate c psum P rng fuel n g (a, cr, pos) = ((a', cr, pos), None).
Proof.
  intros c psum P rng n. induction fuel as [|fuel IH]; intros g a a' cr pos U H; rewrite fn_single_eq in H.
  - destruct g as [k tg|k tg|k tg|tg|tg]; try discriminate U; cbn [fn_gate]; (destruct (fn_unitary c P _ n); [rewrite H; reflexivity|discriminate H]).
  - assert (L : forall gs a a', forallb unitary gs = true -> for_list gs (fn_single c P fuel n) a = Ok a' -> fn_list (fn_gate c psum P rng fuel n) gs (a, cr, pos) = ((a', cr, pos), None)).
    { clear - IH. induction gs as [|g gs IHg]; intros a a' U H; cbn [for_list fn_list] in *; [injection H as ->; reflexivity|].
      cbn [forallb] in U. apply andb_true_iff in U. destruct U as [U1 U2]. destruct (fn_single c P fuel n g a) as [a1|e] eqn:E; cbn [bind] in H; [|discriminate].
      rewrite (IH g a a1 cr pos U1 E). apply IHg; auto. }
    destruct g as [k tg|k tg|k tg|tg|tg]; try discriminate U; cbn [fn_gate]; (destruct (fn_unitary c P _ n); [rewrite H; reflexivity|]);
      (destruct (fl_fallback P _ (Z.of_nat n)) as [gs|e] eqn:F; cbn [bind] in H; [|discriminate H]); apply L; auto; eapply fl_fallback_unitary; eauto.
Qed.

Section Run.
Variable c : compiled.
Variable P : arith.
Variables u eta B M : R.
Variable n : nat.
Variables w g : R.
Hypothesis HC : compiles c u eta B.
Hypothesis HS : scales c u eta.
Hypothesis HQ : divides_within (c_arith c) u eta B.
Hypothesis HP : rounds_within P u eta B.
Hypothesis HG : ranges u eta B M n g.
Hypothesis Hl : 1 / 10 ^ 16 <= u.
Hypothesis Hn : (n <= 64)%nat.
Variable psum : carr -> R.
Hypothesis HN : sums_within psum n w g.
Hypothesis Hw : u <= w <= 1 / 100.
Variable rng : nat -> R.
Hypothesis Hrng : draws_ok rng.
Variables (D T : nat) (Bf : state) (E : R).
Hypothesis HE : (cost (300 * (u * M)) T + 2 * w) * (1 + 2 * g) <= E.
Hypothesis HW : 0 < norm2 n Bf.
Hypothesis HD : 4 * (1 + INR D * INR D) * (7 * E) <= norm2 n Bf.
Variables (Rf : nat -> nat) (Pf : nat).
Notation todo := (stodo n u M g rng D T Bf E Rf Pf).

Lemma nb_gate_nearly : forall gt ops, gate_ops n gt ops -> angles_within M gt ->
  nearly n (nb_rep n) g (fn_single c P recursion_limit n gt) (apply_all ops) (cost (300 * (u * M)) (7 * List.length ops)).
Proof.
  intros gt ops G AW. destruct (ranges_more P u eta B M n g HP HG) as (U3 & E0 & E1 & MB & G0 & GP). destruct HG as (Hu & He & HB & HM & Hs & G1 & G2).
  assert (KP : 0 <= 300 * (u * M)) by (apply Rmult_le_pos; [lra|apply Rmult_le_pos; lra]).
  apply (nearly_gap _ n (nb_rep n) (eta / u * sqrt (2 ^ n))); auto; [apply cost_pos; auto|].
  change recursion_limit with (S (S 98)).
  apply (gate_nearly n (nb_rep n) (eta / u * sqrt (2 ^ n)) GP P u eta B M HP Hu E1 HM MB Hs (fun g => fn_unitary c P g n) (fun fuel => fn_single c P fuel n) (fn_single_eq c P n)); auto.
  - intros kd tg Z. destruct kd; cbn in Z; try discriminate; exact I.
  - intros kd tg Z. destruct kd; cbn in Z; try discriminate; exact I.
  - intros kd tg Z. destruct kd; cbn in Z; try discriminate; exact I.
  - apply (fn_native c P u eta B M n); auto.
Qed.
Lemma nb_gate_todo : forall gt e es phi bits pos, gate_events n gt e -> angles_within M gt -> Forall (event_ok n) es -> todo (e ++ es) phi bits pos ->
  exists phi' bits' pos', fn_gate c psum P rng recursion_limit n gt (arr n phi, map bits (seq 0 n), pos) = ((arr n phi', map bits' (seq 0 n), pos'), None) /\ todo es phi' bits' pos'.
Proof.
  intros gt e es phi bits pos G AW FE TD.
  destruct (ranges_more P u eta B M n g HP HG) as (U3 & E0 & E1 & MB & G0 & GP). pose proof HG as (Hu & He & HB & HM & Hs & G1 & G2).
  assert (V0 : 0 <= 2 * w) by lra.
  destruct G as [gt ops G|tg l Dn F|tg l Dn F].
  - assert (UG : unitary gt = true) by (destruct G; reflexivity).
    pose proof (stodo_range n u M g (2 * w) Hu HM (conj G0 G2) V0 rng D T Bf E HE HW HD Rf Pf ops es phi bits pos (good_gate _ _ _ G) FE TD) as RG.
    destruct (nb_gate_nearly gt ops G AW (arr n phi) phi eq_refl RG) as (s' & phi' & EQ & -> & DD).
    exists phi', bits, pos. split; [apply fn_gate_unitary; auto|].
    apply (stodo_ops n u M g (2 * w) Hu HM (conj G0 G2) V0 rng D T Bf E HE HW HD Rf Pf ops es phi bits pos (good_gate _ _ _ G) FE TD). exact DD.
  - change (fn_gate c psum P rng recursion_limit n (GMeasure tg) (arr n phi, map bits (seq 0 n), pos)) with (fn_collapse (fn_measure c psum rng n) tg n (arr n phi, map bits (seq 0 n), pos)).
    unfold fn_collapse. apply slicing_iff in Dn; [|lia]. rewrite Dn. cbn [yields raised].
    pose proof (fn_measure_collapses c u eta B (co_arith _ _ _ _ HC) HQ HS Hu U3 E0 He HB psum n Hn w g HN Hw G1 G2 rng) as CO.
    destruct (loop_stodo n u M g rng D T Bf E Rf Pf EMeasure (fn_measure c psum rng n)
      (measure_stodo n u M g (2 * w) Hu HM (conj G0 G2) V0 rng Hrng D T Bf E HE HW HD Rf Pf _ CO) (fun t H => H) l es phi bits pos F FE TD) as (phi' & bits' & pos' & E2 & T1).
    change fnctx with mctx in *. rewrite E2. exists phi', bits', pos'. split; auto.
  - change (fn_gate c psum P rng recursion_limit n (GReset tg) (arr n phi, map bits (seq 0 n), pos)) with (fn_collapse (fn_reset c psum rng n) tg n (arr n phi, map bits (seq 0 n), pos)).
    unfold fn_collapse. apply slicing_iff in Dn; [|lia]. rewrite Dn. cbn [yields raised].
    pose proof (fn_reset_collapses c u eta B (co_arith _ _ _ _ HC) HQ HS Hu U3 E0 He HB psum n Hn w g HN Hw G1 G2 rng) as CO.
    destruct (loop_stodo n u M g rng D T Bf E Rf Pf EReset (fn_reset c psum rng n)
      (reset_stodo n u M g (2 * w) Hu HM (conj G0 G2) V0 rng Hrng D T Bf E HE HW HD Rf Pf _ CO) (fun t H => H) l es phi bits pos F FE TD) as (phi' & bits' & pos' & E2 & T1).
    change fnctx with mctx in *. rewrite E2. exists phi', bits', pos'. split; auto.
Qed.
Lemma nb_circuit_todo : forall gs es, circuit_events n gs es -> Forall (angles_within M) gs -> forall phi bits pos, todo es phi bits pos ->
  exists phi' bits' pos', fn_list (fn_gate c psum P rng recursion_limit n) gs (arr n phi, map bits (seq 0 n), pos) = ((arr n phi', map bits' (seq 0 n), pos'), None) /\ todo [] phi' bits' pos'.
Proof.
  induction 1 as [|gt gs e es G C IH]; intros F phi bits pos TD.
  - exists phi, bits, pos. split; [reflexivity|]. auto.
  - inversion_clear F as [|? ? Fg Fs]. destruct (nb_gate_todo gt e es phi bits pos G Fg (circuit_events_ok _ _ _ C) TD) as (phi1 & bits1 & pos1 & E1 & T1).
    destruct (IH Fs phi1 bits1 pos1 T1) as (phi2 & bits2 & pos2 & E2 & T2).
    exists phi2, bits2, pos2. split; auto. cbn [fn_list]. rewrite E1. exact E2.
Qed.
End Run.

Lemma nb_clear_shot : forall c P u eta B M S w g rng n gs es s pos err, compiles c u eta B -> scales c u eta -> divides_within (c_arith c) u eta B -> rounds_within P u eta B ->
  ranges u eta B M n g -> 1 / 10 ^ 16 <= u -> (n <= 64)%nat ->
  sums_within S n w g -> u <= w <= 1 / 100 -> draws_ok rng -> circuit_events n gs es -> Forall (angles_within M) gs -> List.length s = draws es ->
  let W := SpecLaw.weight n es s in let d := INR (draws es) in
  shot_error u M g (2 * w) (List.length es) <= err -> 0 < W -> 28 * (1 + d * d) * err <= W ->
  in_box (box n es s (ket 0)) rng pos -> clear (14 * d * err) n es s (ket 0) rng pos ->
  exists phi, fn_shot c S P rng gs n pos = ((arr n phi, record n es s, (pos + draws es)%nat), None) /\
    dist n phi (scl (RtoC (/ sqrt W)) (branch es s (ket 0))) <= (14 * d + 2) * err / W.
Proof.
  intros c P u eta B M S w g rng n gs es s pos err HC HS HQ HP HG Hl Hn HN Hw Hr C F L W d HE PW HB IB AP.
  destruct (ranges_more P u eta B M n g HP HG) as (U3 & E0 & E1 & MB & G0 & GP). pose proof HG as (Hu & He & HB' & HM & Hs & G1 & G2).
  assert (V0 : 0 <= 2 * w) by lra.
  pose proof (start_todo u M g rng n es s pos err L IB AP) as TD.
  destruct (nb_circuit_todo c P u eta B M n w g HC HS HQ HP HG Hl Hn S HN Hw rng Hr _ _ _ err (start_E _ _ _ _ _ _ HE) PW (start_D n es s err HB) _ _ gs es C F _ _ pos TD)
    as (phi & bits & pos' & X1 & T1).
  destruct (end_todo u M g (2 * w) Hu HM (conj G0 G2) V0 rng n gs es s pos err C HE PW HB phi bits pos' T1) as (B1 & B2 & DD). subst bits pos'.
  exists phi. split; [|exact DD]. unfold fn_shot. rewrite arr_basis0.
  assert (G : forall k i, repeat 0%nat k = map (fun _ => 0%nat) (seq i k)) by (induction k; intros; simpl; f_equal; auto). rewrite (G n 0%nat). exact X1.
Qed.
Lemma nb_finite_shot : forall c P u eta B M S w g rng n gs es s pos err, compiles c u eta B -> scales c u eta -> divides_within (c_arith c) u eta B -> rounds_within P u eta B ->
  ranges u eta B M n g -> 1 / 10 ^ 16 <= u -> (n <= 64)%nat ->
  sums_within S n w g -> u <= w <= 1 / 100 -> draws_ok rng -> circuit_events n gs es -> Forall (angles_within M) gs -> List.length s = draws es ->
  let W := SpecLaw.weight n es s in let d := INR (draws es) in
  shot_error u M g (2 * w) (List.length es) <= err -> 0 < W -> 28 * (1 + d * d) * err <= W ->
  in_box (box n es s (ket 0)) rng pos -> apart (14 * d * err / W) (thresholds n es s (ket 0)) rng pos ->
  exists phi, fn_shot c S P rng gs n pos = ((arr n phi, record n es s, (pos + draws es)%nat), None) /\
    dist n phi (scl (RtoC (/ sqrt W)) (branch es s (ket 0))) <= (14 * d + 2) * err / W.
Proof.
  intros c P u eta B M S w g rng n gs es s pos err HC HS HQ HP HG Hl Hn HN Hw Hr C F L W d HE PW HB IB AP.
  destruct (ranges_more P u eta B M n g HP HG) as (U3 & E0 & E1 & MB & G0 & GP). pose proof HG as (Hu & He & HB' & HM & Hs & G1 & G2).
  apply (nb_clear_shot c P u eta B M S w g rng n gs es s pos err); auto. apply clear_apart; auto.
  - eapply circuit_events_ok; eauto.
  - apply Rmult_le_pos; [apply Rmult_le_pos; [lra|apply pos_INR]|]. eapply Rle_trans; [|exact HE]. apply shot_error_pos; lra.
Qed.
Lemma nb_finite_chance : forall c P u eta B M S w g n gs es s err, compiles c u eta B -> scales c u eta -> divides_within (c_arith c) u eta B -> rounds_within P u eta B ->
  ranges u eta B M n g -> 1 / 10 ^ 16 <= u -> (n <= 64)%nat ->
  sums_within S n w g -> u <= w <= 1 / 100 -> circuit_events n gs es -> Forall (angles_within M) gs -> List.length s = draws es ->
  let W := SpecLaw.weight n es s in let d := INR (draws es) in
  shot_error u M g (2 * w) (List.length es) <= err -> 0 < W -> 28 * (1 + d * d) * err <= W ->
  exists ivs, List.length ivs = draws es /\ W - 14 * (d * d) * err / W <= volume ivs /\
    forall rng pos, draws_ok rng -> in_box ivs rng pos -> exists a, fn_shot c S P rng gs n pos = ((a, record n es s, (pos + draws es)%nat), None).
Proof.
  intros c P u eta B M S w g n gs es s err HC HS HQ HP HG Hl Hn HN Hw C F L W d HE PW HB.
  destruct (ranges_more P u eta B M n g HP HG) as (U3 & E0 & E1 & MB & G0 & GP). pose proof HG as (Hu & He & HB' & HM & Hs & G1 & G2).
  apply (some_chance n gs es s err (fun rng pos => exists a, fn_shot c S P rng gs n pos = ((a, record n es s, (pos + draws es)%nat), None)) C L); auto.
  - eapply Rle_trans; [|exact HE]. apply shot_error_pos; lra.
  - intros rng pos Hr I1 I2.
    destruct (nb_finite_shot c P u eta B M S w g rng n gs es s pos err HC HS HQ HP HG Hl Hn HN Hw Hr C F L HE PW HB I1 I2) as (phi & X & _). exists (arr n phi). exact X.
Qed.
