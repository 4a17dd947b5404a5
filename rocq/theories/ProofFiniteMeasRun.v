(** Shots of the NumPy backend with measurements and resets, in arithmetic with underflow and overflow *)
From Coq Require Import List Arith ZArith Bool Reals Lia Lra Psatz FunctionalExtensionality.
Import ListNotations.
From Verif Require Import Base Cplx Bits ModelTargets ModelGate ModelNumpy ModelFloat ModelFloatMeasure ProofFinite ProofFiniteCoef ProofFiniteKern ProofFiniteRun ProofFiniteTop
  SpecTargets SpecQuantum SpecCircuit SpecMeasure SpecLaw SpecFloat SpecFinite SpecFloatMeasure SpecFiniteMeasure ProofTargets ProofArray ProofNumpy ProofUnitary ProofPauli ProofRun
  ProofMeasure ProofCache ProofFloat ProofFloatOps ProofFloatCoef ProofFloatRun ProofLaw ProofLawStat ProofFloatMeas ProofFloatMeasRun ProofFloatMeasTop ProofFiniteShot ProofFiniteMeas.
Local Open Scope R_scope.

(** ** Consequences of the ranges *)
Lemma ranges_more : forall A u eta B M n g, rounds_within A u eta B -> ranges u eta B M n g ->
  3000 * u <= 1 /\ 0 <= eta /\ eta <= u /\ 128 * M <= B /\ 0 <= g /\ 0 <= eta / u * sqrt (2 ^ n).
Proof.
  intros A u eta B M n g HR (Hu & He & HB & HM & Hs & G1 & G2). assert (U : 3000 * u <= 1) by nra.
  assert (I : 1000 * M <= / u). { apply Rmult_le_reg_r with u; auto. rewrite Rinv_l by lra. lra. }
  assert (MB : 128 * M <= B) by lra.
  assert (EP : 0 <= eta) by (apply (eta_pos A u eta B); auto; lra).
  assert (GP : 0 <= eta / u * sqrt (2 ^ n)). { apply Rmult_le_pos; [|apply sqrt_pos]. apply Rmult_le_pos; auto. left. apply Rinv_0_lt_compat. auto. }
  assert (u * u <= u) by nra. repeat split; lra.
Qed.
Lemma nearly_gap : forall X n (rep : X -> state -> Prop) g g' f U k, 0 <= k -> g <= g' -> nearly n rep g f U k -> nearly n rep g' f U k.
Proof.
  intros X n rep g g' f U k K L H s psi RP W. pose proof (norm_pos n psi). destruct (H s psi RP) as (s' & phi & E & R' & D); [nra|].
  exists s', phi. split; auto. split; auto. nra.
Qed.

(** margins *)
Lemma clear_apart : forall n es, Forall (event_ok n) es -> forall m s psi rng pos, List.length s = draws es -> 0 <= m -> 0 < norm2 n (branch es s psi) ->
  apart (m / norm2 n (branch es s psi)) (thresholds n es s psi) rng pos -> clear m n es s psi rng pos.
Proof.
  intros n es F m s psi rng pos L M0 PB. revert s psi pos L PB.
  assert (ONE : forall x y b c, 0 < c -> c <= b -> m / c <= Rabs (x - y) -> m <= Rabs (x - y) * b).
  { intros x y b c PC LE H. apply Rle_trans with (m / c * c); [right; field; lra|]. pose proof (Rabs_pos (x - y)). apply Rmult_le_compat; try lra.
    apply Rmult_le_pos; [lra|left; apply Rinv_0_lt_compat; auto]. }
  induction F as [|e es Fe F IH]; intros s psi pos L PB AP; [exact I|].
  assert (BN : norm2 n (branch (e :: es) s psi) <= norm2 n psi) by (apply branch_norm; apply Forall_cons; auto).
  destruct e as [U|t|t]; cbn [clear thresholds draws] in *.
  - apply IH; auto.
  - destruct s as [|b s]; [discriminate|]. injection L as L. apply apart_cons in AP. destruct AP as [A1 A2]. split; [eapply ONE; eauto|]. apply IH; auto.
  - destruct s as [|b s]; [discriminate|]. injection L as L. apply apart_cons in AP. destruct AP as [A1 A2]. split; [eapply ONE; eauto|]. apply IH; auto.
Qed.

(** ** The start and the end of a shot *)
Section Start.
Variables u M g v : R.
Hypothesis Hu : 0 < u.
Hypothesis HM : 3 <= M.
Hypothesis Hg : 0 <= g <= 1.
Hypothesis Hv : 0 <= v.
Variable rng : nat -> R.
Variables (n : nat) (gs : list gate) (es : list event) (s : list bool) (pos : nat) (err : R).
Hypothesis HC : circuit_events n gs es.
Hypothesis HL : List.length s = draws es.
Let W := SpecLaw.weight n es s.
Let d := INR (draws es).
Hypothesis HE : shot_error u M g v (List.length es) <= err.
Hypothesis HW : 0 < W.
Hypothesis HB : 28 * (1 + d * d) * err <= W.
Hypothesis HI : in_box (box n es s (ket 0)) rng pos.
Hypothesis HP : clear (14 * d * err) n es s (ket 0) rng pos.
Lemma start_E : (cost (300 * (u * M)) (7 * List.length es) + v) * (1 + 2 * g) <= err.
Proof. exact HE. Qed.
Lemma start_D : 4 * (1 + INR (draws es) * INR (draws es)) * (7 * err) <= norm2 n (branch es s (ket 0)).
Proof. unfold W, SpecLaw.weight, d in *. lra. Qed.
Lemma start_todo : stodo n u M g rng (draws es) (7 * List.length es) (branch es s (ket 0)) err (recorded es s (fun _ => 0%nat)) (pos + draws es) es (ket 0) (fun _ => 0%nat) pos.
Proof.
  assert (MU : smup (draws es) err = 14 * d * err) by (unfold smup, d; ring).
  exists s, (ket 0), 0%nat, 0%nat. rewrite MU. repeat (split; [solve [auto]|]). split; [rewrite ket_norm; lra|].
  exists 1. split; [lra|]. split.
  - unfold ct. pose proof (near_ket n (300 * (u * M))) as NK. unfold cost in NK. replace (cost (300 * (u * M)) 0 * (1 + 2 * g)) with ((1 + 300 * (u * M)) ^ 0 - 1); auto.
    unfold cost. simpl. ring.
  - rewrite ket_norm. replace (1 * 1 * 1 - 1) with 0 by ring. rewrite Rabs_R0. simpl INR. lra.
Qed.
Lemma start_W1 : W <= 1.
Proof. unfold W, SpecLaw.weight. rewrite <- (ket_norm n). apply branch_norm. eapply circuit_events_ok; eauto. Qed.
Lemma end_todo : forall phi bits pos', 
  stodo n u M g rng (draws es) (7 * List.length es) (branch es s (ket 0)) err (recorded es s (fun _ => 0%nat)) (pos + draws es) [] phi bits pos' ->
  bits = recorded es s (fun _ => 0%nat) /\ pos' = (pos + draws es)%nat /\ dist n phi (scl (RtoC (/ sqrt W)) (branch es s (ket 0))) <= (14 * d + 2) * err / W.
Proof.
  intros phi bits pos' H. exact (sfinal n u M g v Hu HM Hg Hv rng (draws es) (7 * List.length es) (branch es s (ket 0)) err start_E HW start_D _ _ phi bits pos' start_W1 H).
Qed.
End Start.

(** from shots to chances *)
Lemma some_chance : forall (n : nat) gs es s err (Q : (nat -> R) -> nat -> Prop), circuit_events n gs es -> List.length s = draws es ->
  let W := SpecLaw.weight n es s in let d := INR (draws es) in 0 <= err -> 0 < W ->
  (forall rng pos, draws_ok rng -> in_box (box n es s (ket 0)) rng pos -> apart (14 * d * err / W) (thresholds n es s (ket 0)) rng pos -> Q rng pos) ->
  exists ivs, List.length ivs = draws es /\ W - 14 * (d * d) * err / W <= volume ivs /\ forall rng pos, draws_ok rng -> in_box ivs rng pos -> Q rng pos.
Proof.
  intros n gs es s err Q C L W d EP PW HQ. assert (DP : 0 <= d) by apply pos_INR.
  assert (MP : 0 <= 14 * d * err / W). { apply Rmult_le_pos; [apply Rmult_le_pos; lra|left; apply Rinv_0_lt_compat; auto]. }
  destruct (margin_lemma n gs es s (14 * d * err / W) C L MP) as [V H]. exists (narrowed (14 * d * err / W) s (box n es s (ket 0))).
  destruct (law_box n gs es s C L) as (L1 & _). split; [|split].
  - rewrite <- L. assert (G : forall m s ivs, List.length s = List.length ivs -> List.length (narrowed m s ivs) = List.length s).
    { clear. intros m s. induction s as [|b s IH]; intros [|iv ivs] Q; try discriminate; auto. cbn [narrowed List.length]. f_equal. apply IH. injection Q as Q. exact Q. }
    apply G. congruence.
  - eapply Rle_trans; [|exact V]. right. fold d. fold W. field. lra.
  - intros rng pos Hr I. destruct (H rng pos I) as [I1 I2]. auto.
Qed.

(** ** The NumPy backend *)
Section Run.
Variable A : arith.
Variables u eta B M : R.
Variable n : nat.
Variables w g : R.
Hypothesis HR : rounds_within A u eta B.
Hypothesis HQ : divides_within A u eta B.
Hypothesis HG : ranges u eta B M n g.
Variable N : carr -> R.
Hypothesis HN : norms_within N n w g.
Hypothesis Hw : u <= w <= 1 / 100.
Variable rng : nat -> R.
Hypothesis Hrng : draws_ok rng.
Variables (D T : nat) (Bf : state) (E : R).
Hypothesis HE : (cost (300 * (u * M)) T + 6 * w) * (1 + 2 * g) <= E.
Hypothesis HW : 0 < norm2 n Bf.
Hypothesis HD : 4 * (1 + INR D * INR D) * (7 * E) <= norm2 n Bf.
Variables (Rf : nat -> nat) (Pf : nat).
Notation todo := (stodo n u M g rng D T Bf E Rf Pf).

Lemma np_gate_nearly : forall gt ops, gate_ops n gt ops -> angles_within M gt ->
  nearly n (np_rep n) g (fl_single A recursion_limit n gt) (apply_all ops) (cost (300 * (u * M)) (7 * List.length ops)).
Proof.
  intros gt ops G AW. destruct (ranges_more A u eta B M n g HR HG) as (U3 & E0 & E1 & MB & G0 & GP). destruct HG as (Hu & He & HB & HM & Hs & G1 & G2).
  assert (KP : 0 <= 300 * (u * M)) by (apply Rmult_le_pos; [lra|apply Rmult_le_pos; lra]).
  apply (nearly_gap _ n (np_rep n) (eta / u * sqrt (2 ^ n))); auto; [apply cost_pos; auto|].
  change recursion_limit with (S (S 98)).
  apply (gate_nearly n (np_rep n) (eta / u * sqrt (2 ^ n)) GP A u eta B M HR Hu E1 HM MB Hs (fun g => fl_unitary A g n) (fun fuel => fl_single A fuel n) (fl_single_eq A n)); auto.
  - intros kd tg Z. destruct kd; cbn in Z; try discriminate; exact I.
  - intros kd tg Z. destruct kd; cbn in Z; try discriminate; exact I.
  - intros kd tg Z. destruct kd; cbn in Z; try discriminate; exact I.
  - apply (np_native A u eta B M n); auto.
Qed.

Lemma np_gate_todo : forall gt e es phi bits pos ctx, gate_events n gt e -> angles_within M gt -> Forall (event_ok n) es -> todo (e ++ es) phi bits pos -> showing n ctx phi bits pos ->
  exists ctx' phi' bits' pos', fl_run_single A N rng recursion_limit gt ctx = SOk ctx' /\ todo es phi' bits' pos' /\ showing n ctx' phi' bits' pos'.
Proof.
  intros gt e es phi bits pos ctx G AW FE TD (S1 & S2 & S3 & S4 & S5).
  destruct (ranges_more A u eta B M n g HR HG) as (U3 & E0 & E1 & MB & G0 & GP). pose proof HG as (Hu & He & HB & HM & Hs & G1 & G2).
  assert (V0 : 0 <= 6 * w) by lra.
  destruct G as [gt ops G|tg l Dn F|tg l Dn F].
  - destruct (arr_exists n _ S3) as [beta Hb].
    assert (UG : unitary gt = true) by (destruct G; reflexivity).
    pose proof (stodo_range n u M g (6 * w) Hu HM (conj G0 G2) V0 rng D T Bf E HE HW HD Rf Pf ops es phi bits pos (good_gate _ _ _ G) FE TD) as RG.
    destruct (np_gate_nearly gt ops G AW (arr n phi, arr n beta) phi (ex_intro _ beta eq_refl) RG) as (s' & phi' & EQ & [beta' ->] & DD).
    rewrite fl_single_lift by auto. rewrite S1, S2, Hb, EQ. cbn [lift]. eexists _, phi', bits, pos. split; [reflexivity|]. split.
    + apply (stodo_ops n u M g (6 * w) Hu HM (conj G0 G2) V0 rng D T Bf E HE HW HD Rf Pf ops es phi bits pos (good_gate _ _ _ G) FE TD). exact DD.
    + repeat split; cbn [set_bufs x_n x_qubits x_buf x_cregs x_pos fst snd]; auto. apply arr_length.
  - assert (EQ : fl_run_single A N rng recursion_limit (GMeasure tg) ctx = np_collapse (fl_measure A N rng) tg ctx) by reflexivity.
    rewrite EQ. unfold np_collapse. rewrite S1, S2, S4, S5. apply slicing_iff in Dn; [|lia]. rewrite Dn. cbn [yields raised].
    pose proof (np_measure_collapses A u eta B HR HQ Hu U3 E0 He HB N n w g HN Hw G1 G2 rng) as CO.
    destruct (loop_stodo n u M g rng D T Bf E Rf Pf EMeasure (fl_measure A N rng n)
      (measure_stodo n u M g (6 * w) Hu HM (conj G0 G2) V0 rng Hrng D T Bf E HE HW HD Rf Pf _ CO) (fun t H => H) l es phi bits pos F FE TD) as (phi' & bits' & pos' & E2 & T1).
    unfold mctx in E2. rewrite E2. eexists _, phi', bits', pos'. split; [reflexivity|]. split; auto. repeat split; auto.
  - assert (EQ : fl_run_single A N rng recursion_limit (GReset tg) ctx = np_collapse (fl_reset A N rng) tg ctx) by reflexivity.
    rewrite EQ. unfold np_collapse. rewrite S1, S2, S4, S5. apply slicing_iff in Dn; [|lia]. rewrite Dn. cbn [yields raised].
    pose proof (np_reset_collapses A u eta B HR HQ Hu U3 E0 He HB N n w g HN Hw G1 G2 rng) as CO.
    destruct (loop_stodo n u M g rng D T Bf E Rf Pf EReset (fl_reset A N rng n)
      (reset_stodo n u M g (6 * w) Hu HM (conj G0 G2) V0 rng Hrng D T Bf E HE HW HD Rf Pf _ CO) (fun t H => H) l es phi bits pos F FE TD) as (phi' & bits' & pos' & E2 & T1).
    unfold mctx in E2. rewrite E2. eexists _, phi', bits', pos'. split; [reflexivity|]. split; auto. repeat split; auto.
Qed.
Lemma np_circuit_todo : forall gs es, circuit_events n gs es -> Forall (angles_within M) gs -> forall phi bits pos ctx, todo es phi bits pos -> showing n ctx phi bits pos ->
  exists ctx' phi' bits' pos', run_list (fl_run_single A N rng recursion_limit) gs ctx = SOk ctx' /\ todo [] phi' bits' pos' /\ showing n ctx' phi' bits' pos'.
Proof.
  induction 1 as [|gt gs e es G C IH]; intros F phi bits pos ctx TD SH.
  - exists ctx, phi, bits, pos. split; [reflexivity|]. auto.
  - inversion_clear F as [|? ? Fg Fs]. destruct (np_gate_todo gt e es phi bits pos ctx G Fg (circuit_events_ok _ _ _ C) TD SH) as (c1 & phi1 & bits1 & pos1 & E1 & T1 & S1).
    destruct (IH Fs phi1 bits1 pos1 c1 T1 S1) as (c2 & phi2 & bits2 & pos2 & E2 & T2 & S2).
    exists c2, phi2, bits2, pos2. split; auto. cbn [run_list]. rewrite E1. exact E2.
Qed.
End Run.

Lemma shot_error_pos : forall u M g v L, 0 < u -> 3 <= M -> 0 <= g -> 0 <= v -> 0 <= shot_error u M g v L.
Proof.
  intros. unfold shot_error. apply Rmult_le_pos; [|lra]. pose proof (cost_pos (300 * (u * M)) (7 * L)) as P. unfold cost in P.
  assert (0 <= 300 * (u * M)) by (apply Rmult_le_pos; [lra|apply Rmult_le_pos; lra]). specialize (P H3). lra.
Qed.
Lemma np_clear_shot : forall A u eta B M N w g rng n gs es s pos err, rounds_within A u eta B -> divides_within A u eta B -> ranges u eta B M n g ->
  norms_within N n w g -> u <= w <= 1 / 100 -> draws_ok rng -> circuit_events n gs es -> Forall (angles_within M) gs -> List.length s = draws es ->
  let W := SpecLaw.weight n es s in let d := INR (draws es) in
  shot_error u M g (6 * w) (List.length es) <= err -> 0 < W -> 28 * (1 + d * d) * err <= W ->
  in_box (box n es s (ket 0)) rng pos -> clear (14 * d * err) n es s (ket 0) rng pos ->
  exists ctx phi, fl_shot A N rng gs n pos = SOk ctx /\ x_qubits ctx = arr n phi /\ x_cregs ctx = record n es s /\ x_pos ctx = (pos + draws es)%nat /\
    dist n phi (scl (RtoC (/ sqrt W)) (branch es s (ket 0))) <= (14 * d + 2) * err / W.
Proof.
  intros A u eta B M N w g rng n gs es s pos err HR HQ HG HN Hw Hr C F L W d HE PW HB IB AP.
  destruct (ranges_more A u eta B M n g HR HG) as (U3 & E0 & E1 & MB & G0 & GP). pose proof HG as (Hu & He & HB' & HM & Hs & G1 & G2).
  assert (V0 : 0 <= 6 * w) by lra.
  pose proof (start_todo u M g rng n es s pos err L IB AP) as TD.
  destruct (np_circuit_todo A u eta B M n w g HR HQ HG N HN Hw rng Hr _ _ _ err (start_E _ _ _ _ _ _ HE) PW (start_D n es s err HB) _ _ gs es C F _ _ pos (prepare (new_ctx n pos) None) TD)
    as (ctx & phi & bits & pos' & X1 & T1 & S1 & S2 & S3 & S4 & S5).
  { repeat split; cbn [prepare new_ctx x_n x_qubits x_buf x_cregs x_pos]; auto.
    - apply arr_basis0.
    - unfold zeros. apply repeat_length.
    - assert (G : forall k i, repeat 0%nat k = map (fun _ => 0%nat) (seq i k)) by (induction k; intros; simpl; f_equal; auto). apply G. }
  destruct (end_todo u M g (6 * w) Hu HM (conj G0 G2) V0 rng n gs es s pos err C HE PW HB phi bits pos' T1) as (B1 & B2 & DD). subst bits pos'.
  exists ctx, phi. split; [exact X1|]. auto 6.
Qed.
Lemma np_finite_shot : forall A u eta B M N w g rng n gs es s pos err, rounds_within A u eta B -> divides_within A u eta B -> ranges u eta B M n g ->
  norms_within N n w g -> u <= w <= 1 / 100 -> draws_ok rng -> circuit_events n gs es -> Forall (angles_within M) gs -> List.length s = draws es ->
  let W := SpecLaw.weight n es s in let d := INR (draws es) in
  shot_error u M g (6 * w) (List.length es) <= err -> 0 < W -> 28 * (1 + d * d) * err <= W ->
  in_box (box n es s (ket 0)) rng pos -> apart (14 * d * err / W) (thresholds n es s (ket 0)) rng pos ->
  exists ctx phi, fl_shot A N rng gs n pos = SOk ctx /\ x_qubits ctx = arr n phi /\ x_cregs ctx = record n es s /\ x_pos ctx = (pos + draws es)%nat /\
    dist n phi (scl (RtoC (/ sqrt W)) (branch es s (ket 0))) <= (14 * d + 2) * err / W.
Proof.
  intros A u eta B M N w g rng n gs es s pos err HR HQ HG HN Hw Hr C F L W d HE PW HB IB AP.
  destruct (ranges_more A u eta B M n g HR HG) as (U3 & E0 & E1 & MB & G0 & GP). pose proof HG as (Hu & He & HB' & HM & Hs & G1 & G2).
  apply (np_clear_shot A u eta B M N w g rng n gs es s pos err); auto. apply clear_apart; auto.
  - eapply circuit_events_ok; eauto.
  - apply Rmult_le_pos; [apply Rmult_le_pos; [lra|apply pos_INR]|]. eapply Rle_trans; [|exact HE]. apply shot_error_pos; lra.
Qed.
Lemma np_finite_chance : forall A u eta B M N w g n gs es s err, rounds_within A u eta B -> divides_within A u eta B -> ranges u eta B M n g ->
  norms_within N n w g -> u <= w <= 1 / 100 -> circuit_events n gs es -> Forall (angles_within M) gs -> List.length s = draws es ->
  let W := SpecLaw.weight n es s in let d := INR (draws es) in
  shot_error u M g (6 * w) (List.length es) <= err -> 0 < W -> 28 * (1 + d * d) * err <= W ->
  exists ivs, List.length ivs = draws es /\ W - 14 * (d * d) * err / W <= volume ivs /\
    forall rng pos, draws_ok rng -> in_box ivs rng pos -> exists ctx, fl_shot A N rng gs n pos = SOk ctx /\ x_cregs ctx = record n es s.
Proof.
  intros A u eta B M N w g n gs es s err HR HQ HG HN Hw C F L W d HE PW HB.
  destruct (ranges_more A u eta B M n g HR HG) as (U3 & E0 & E1 & MB & G0 & GP). pose proof HG as (Hu & He & HB' & HM & Hs & G1 & G2).
  apply (some_chance n gs es s err (fun rng pos => exists ctx, fl_shot A N rng gs n pos = SOk ctx /\ x_cregs ctx = record n es s) C L); auto.
  - eapply Rle_trans; [|exact HE]. apply shot_error_pos; lra.
  - intros rng pos Hr I1 I2.
    destruct (np_finite_shot A u eta B M N w g rng n gs es s pos err HR HQ HG HN Hw Hr C F L HE PW HB I1 I2) as (ctx & phi & X & _ & Y & _). exists ctx. auto.
Qed.
