(** Rounded measurements: no rounding, norms, volumes, cases *)
From Coq Require Import String List Arith ZArith Bool Reals Lia Lra Psatz FunctionalExtensionality.
Import ListNotations.
From Verif Require Import Base Cplx Bits ModelTargets ModelGate ModelNumpy ModelFloat ModelFloatMeasure SpecTargets SpecQuantum SpecCircuit SpecMeasure SpecLaw SpecFloat
  SpecFloatMeasure ProofTargets ProofArray ProofNumpy ProofUnitary ProofPauli ProofRun ProofMeasure ProofCache ProofFloat ProofFloatOps ProofFloatRun ProofFloatTop ProofLaw ProofLawStat
  ProofFloatMeas ProofFloatMeasRun.
Local Open Scope R_scope.

(** ** Without rounding *)
Definition exact_norm_fun (v : carr) : R := sqrt (exact_norm2 v).
Lemma exact_norm2_pos : forall v, 0 <= exact_norm2 v.
Proof. intros. apply Rsum_nonneg. intros [a b] _. cbn [fst snd]. nra. Qed.
Lemma norm2_exact : forall v, fl_norm2 exact_arith exact_norm_fun v = np_norm2 v.
Proof. intros. unfold fl_norm2, exact_norm_fun. cbn [f_mul exact_arith]. rewrite sqrt_sqrt by apply exact_norm2_pos. reflexivity. Qed.
Lemma div_exact : forall s z, s <> 0 -> fl_div exact_arith s z = (z / RtoC s)%C.
Proof. intros s [a b] H. unfold fl_div. cbn [f_div f_add f_mul f_sub exact_arith fst snd]. apply C_ext; cunfold; field; auto. Qed.
Lemma div_exact_map : forall s l, s <> 0 -> map (fl_div exact_arith s) l = map (fun x => (x / RtoC s)%C) l.
Proof. intros. apply map_ext. intros. apply div_exact; auto. Qed.
Section Exact.
Variable rng : nat -> R.
Hypothesis Hrng : draws_ok rng.
Lemma sqrt_ne : forall x, 0 < x -> sqrt x <> 0. Proof. intros x H. apply Rgt_not_eq, sqrt_lt_R0; auto. Qed.
Lemma measure_exact : forall n t s, fl_measure exact_arith exact_norm_fun rng n t s = step_measure rng n t s.
Proof.
  intros n t [[q c] pos]. unfold fl_measure, step_measure. destruct (mask_eq0 n t) as [t0|]; auto. destruct (mask_ne0 n t) as [t1|]; auto.
  rewrite norm2_exact. cbv zeta. set (p := np_norm2 (np_get q t0)). pose proof (Hrng pos). change (f_sqrt exact_arith) with sqrt. change (f_sub exact_arith 1 p) with (1 - p).
  destruct (Rltb (rng pos) p) eqn:E; [apply Rltb_true in E|apply Rltb_false in E];
    (destruct (np_put_scalar q _ C0); cbn [bind]; [|reflexivity]; rewrite div_exact_map by (apply sqrt_ne; lra); reflexivity).
Qed.
Lemma reset_exact : forall n t s, fl_reset exact_arith exact_norm_fun rng n t s = step_reset rng n t s.
Proof.
  intros n t [[q c] pos]. unfold fl_reset, step_reset. destruct (mask_eq0 n t) as [t0|]; auto. destruct (mask_ne0 n t) as [t1|]; auto.
  rewrite norm2_exact. cbv zeta. set (p := np_norm2 (np_get q t0)). pose proof (Hrng pos). change (f_sqrt exact_arith) with sqrt. change (f_sub exact_arith 1 p) with (1 - p).
  destruct (Rltb (rng pos) p) eqn:E; [apply Rltb_true in E|apply Rltb_false in E].
  - destruct (np_put_scalar q _ C0); cbn [bind]; [|reflexivity]. rewrite div_exact_map by (apply sqrt_ne; lra). reflexivity.
  - destruct (np_put q _ _); cbn [bind]; [|reflexivity]. destruct (np_put_scalar _ _ C0); cbn [bind]; [|reflexivity]. rewrite div_exact_map by (apply sqrt_ne; lra). reflexivity.
Qed.
Lemma action_exact : forall g n, fl_action exact_arith exact_norm_fun rng g n = np_action rng g n.
Proof.
  intros g n. assert (M : fl_measure exact_arith exact_norm_fun rng = step_measure rng) by (repeat (apply functional_extensionality; intro); apply measure_exact).
  assert (R : fl_reset exact_arith exact_norm_fun rng = step_reset rng) by (repeat (apply functional_extensionality; intro); apply reset_exact).
  unfold fl_action, np_action. rewrite M, R. destruct g; try reflexivity; rewrite unitary_exact; reflexivity.
Qed.
Lemma run_list_ext : forall f g l c, (forall a c, f a c = g a c) -> run_list f l c = run_list g l c.
Proof. intros f g l c H. revert c. induction l as [|a l IH]; intros c; cbn [run_list]; [reflexivity|]. rewrite H. destruct (g a c); auto. Qed.
Lemma run_single_exact : forall fuel g ctx, fl_run_single exact_arith exact_norm_fun rng fuel g ctx = np_run_single rng fuel g ctx.
Proof.
  induction fuel as [|fuel IH]; intros g ctx; cbn [fl_run_single np_run_single]; rewrite action_exact; destruct (np_action rng g (x_n ctx)); auto.
  rewrite fallback_exact. destruct (fallback g (Z.of_nat (x_n ctx))); auto. apply run_list_ext. auto.
Qed.
End Exact.
Lemma shot_exact : forall rng gs n pos, draws_ok rng ->
  let r := np_run rng new_backend gs n no_args pos in
  (fst (fst r), snd r) = match fl_shot exact_arith (fun v => sqrt (exact_norm2 v)) rng gs n pos with
    | SOk ctx => (Ok (RState (x_qubits ctx)), x_pos ctx) | SErr e p => (Err e, p) end.
Proof.
  intros rng gs n pos Hr. cbv zeta. unfold fl_shot. rewrite (run_list_ext _ (np_run_single rng recursion_limit)) by (intros; apply run_single_exact; auto).
  unfold np_run, no_args. change (parse_run_args (RunArgs None None false)) with (Ok (1%Z, "statevector"%string, false)). cbv zeta. cbn [clear_cache_if_invalid new_backend b_cache].
  change (Z.to_nat 1) with 1%nat. cbn [np_shots]. cbn [new_backend b_cache b_idx]. change (Z.to_nat (-1 + 1)) with 0%nat. cbn [skipn].
  pose proof (run_gates_fst rng gs (prepare (new_ctx n pos) None) new_backend) as R.
  destruct (np_run_gates rng gs (prepare (new_ctx n pos) None) new_backend) as [sr b']. cbn [fst] in R. rewrite <- R.
  destruct sr as [ctx|e p]; [|reflexivity]. cbn [fst snd]. destruct (x_cregs ctx); reflexivity.
Qed.

(** ** The norm as a sum one after the other *)
Lemma exact_norms : forall n u, 0 <= u -> norms (fun v => sqrt (exact_norm2 v)) n u.
Proof. intros n u P v _. rewrite Rminus_eq_0, Rabs_R0. apply Rmult_le_pos; auto. apply sqrt_pos. Qed.
Section Seq.
Variable A : arith.
Variable u : R.
Hypothesis HR : rounds A u.
Hypothesis Hu : u <= 1.
Let up := u_pos A u HR.
Definition rp (m : nat) (a b : R) : Prop := 0 <= a /\ 0 <= b /\ Rabs (a - b) <= cost u m * b.
Lemma rp_le : forall m m' a b, rp m a b -> (m <= m')%nat -> rp m' a b.
Proof. intros m m' a b (P & Q & H) L. split; auto. split; auto. pose proof (cost_le u m m' up L). nra. Qed.
Lemma rp_round : forall m a b c, rp m b c -> Rabs (a - b) <= u * Rabs b -> rp (S m) a c.
Proof.
  intros m a b c (P & Q & H) L. rewrite (Rabs_pos_eq b) in L by auto. apply Rabs_le_inv in L as L'. split; [nra|]. split; auto.
  replace (S m) with (m + 1)%nat by lia. rewrite <- cost_add, cost_1. pose proof (cost_pos u m up). apply Rabs_le_inv in H as H'.
  eapply Rle_trans; [apply (ab_tri a b c); eauto|]. assert (u * b <= u * (c + cost u m * c)) by (apply Rmult_le_compat_l; lra). nra.
Qed.
Lemma rp_self : forall a, 0 <= a -> rp 0 a a.
Proof. intros a H. split; auto. split; auto. rewrite Rminus_eq_0, Rabs_R0. unfold cost. simpl. lra. Qed.
Lemma rp_plus : forall m a b c d, rp m a b -> rp m c d -> rp m (a + c) (b + d).
Proof. intros m a b c d (P & Q & H) (P' & Q' & H'). split; [lra|]. split; [lra|]. eapply Rle_trans; [apply ab_sum; eauto|]. lra. Qed.
Lemma rp_sqrt : forall m a b, rp m a b -> rp m (sqrt a) (sqrt b).
Proof.
  intros m a b (P & Q & H). pose proof (sqrt_pos a) as SA. pose proof (sqrt_pos b) as SB. split; auto. split; auto.
  destruct (Req_dec b 0) as [Z|NZ].
  { subst b. rewrite Rmult_0_r in H. assert (a - 0 = 0) by (apply abs_0; lra). replace a with 0 by lra. rewrite sqrt_0, Rminus_0_r, Rabs_R0. lra. }
  assert (PB : 0 < sqrt b) by (apply sqrt_lt_R0; lra). apply Rmult_le_reg_r with (sqrt b); auto.
  replace (cost u m * sqrt b * sqrt b) with (cost u m * b) by (rewrite <- (sqrt_sqrt b) at 1 by lra; ring).
  eapply Rle_trans; [|exact H]. replace (a - b) with ((sqrt a - sqrt b) * (sqrt a + sqrt b)).
  - rewrite Rabs_mult, (Rabs_pos_eq (sqrt a + sqrt b)) by lra. apply Rmult_le_compat_l; [apply Rabs_pos|lra].
  - replace ((sqrt a - sqrt b) * (sqrt a + sqrt b)) with (sqrt a * sqrt a - sqrt b * sqrt b) by ring. rewrite !sqrt_sqrt by lra. reflexivity.
Qed.
Lemma rp_term : forall z : C, rp 2 (f_add A (f_mul A (fst z) (fst z)) (f_mul A (snd z) (snd z))) (fst z * fst z + snd z * snd z).
Proof.
  intros [a b]. cbn [fst snd].
  assert (S1 : forall x, rp 1 (f_mul A x x) (x * x)) by (intros x; apply rp_round with (x * x); [apply rp_self; nra|apply (r_mul A u HR)]).
  apply rp_round with (f_mul A a a + f_mul A b b); [apply rp_plus; apply S1|apply (r_add A u HR)].
Qed.
Lemma rp_fold : forall v m s x, rp (m + 2) s x ->
  rp (m + List.length v + 2) (fold_left (fun s z => f_add A s (f_add A (f_mul A (fst z) (fst z)) (f_mul A (snd z) (snd z)))) v s) (x + exact_norm2 v).
Proof.
  induction v as [|z v IH]; intros m s x H.
  - cbn [fold_left List.length]. change (exact_norm2 []) with 0. rewrite Nat.add_0_r, Rplus_0_r. exact H.
  - cbn [fold_left List.length]. replace (m + S (List.length v) + 2)%nat with (S m + List.length v + 2)%nat by lia.
    replace (x + exact_norm2 (z :: v)) with (x + (fst z * fst z + snd z * snd z) + exact_norm2 v) by (unfold exact_norm2; simpl; ring).
    apply IH. change (S m + 2)%nat with (S (m + 2)). apply rp_round with (s + f_add A (f_mul A (fst z) (fst z)) (f_mul A (snd z) (snd z))); [|apply (r_add A u HR)].
    apply rp_plus; auto. apply (rp_le 2 (m + 2)); [apply rp_term|lia].
Qed.
Lemma seq_norms : forall n, norms (sequential_norm A) n ((1 + u) ^ (2 ^ n + 3) - 1).
Proof.
  intros n v L. unfold sequential_norm.
  pose proof (rp_fold v 0 0 0 (rp_le 0 2 0 0 (rp_self 0 ltac:(lra)) ltac:(lia))) as H. rewrite Rplus_0_l in H.
  set (s := fold_left (fun s z => f_add A s (f_add A (f_mul A (fst z) (fst z)) (f_mul A (snd z) (snd z)))) v 0) in *. apply rp_sqrt in H as Q. assert (Q2 : rp (S (0 + List.length v + 2)) (f_sqrt A s) (sqrt (exact_norm2 v))).
  { apply rp_round with (sqrt s); auto. rewrite (Rabs_pos_eq (sqrt s)) by apply sqrt_pos. apply (r_sqrt A u HR). apply H. }
  apply rp_le with (m' := (2 ^ n + 3)%nat) in Q2; [|lia]. apply Q2.
Qed.
End Seq.
Lemma rounds_le : forall A u v, rounds A u -> u <= v -> rounds A v.
Proof.
  intros A u v [H1 H2 H3 H4 H5 H6 H7 H8] L.
  assert (K : forall x y, 0 <= y -> x <= u * y -> x <= v * y) by (intros; nra).
  split; intros; try (apply K; [apply Rabs_pos|auto]).
  - apply K; [apply sqrt_pos|auto].
  - eapply Rle_trans; [apply H6|auto].
  - eapply Rle_trans; [apply H7|auto].
  - apply K; [left; apply PI_RGT_0|auto].
Qed.

(** ** How many draws are left *)
Lemma narrow_ok : forall n es, Forall (event_ok n) es -> forall mu s psi rng pos, 0 <= mu -> List.length s = draws es -> in_box (narrowed mu s (box n es s psi)) rng pos ->
  in_box (box n es s psi) rng pos /\ apart mu (thresholds n es s psi) rng pos.
Proof.
  intros n es F mu s psi rng pos P. revert s psi pos. induction F as [|e es E F IH]; intros s psi pos L H.
  - split; intros i I; cbn in I; lia.
  - assert (G : forall (b : bool) (s : list bool) (psi' : state) (t : nat), List.length s = draws es -> let q := prob n t false psi / norm2 n psi in let iv := (if b then (q, 1) else (0, q)) in
      in_box (narrow mu b iv :: narrowed mu s (box n es s psi')) rng pos ->
      in_box (iv :: box n es s psi') rng pos /\ apart mu (q :: thresholds n es s psi') rng pos).
    { intros b s' psi' t L' q iv H'. apply in_box_cons in H'. destruct H' as [H0 H1]. destruct (IH s' psi' (S pos) L' H1) as [I1 I2]. split.
      - apply in_box_cons. split; auto. unfold iv, narrow in *. destruct b; cbn [fst snd] in *; lra.
      - intros [|i] I; cbn [nth List.length] in *.
        + rewrite Nat.add_0_r. unfold iv, narrow in H0. destruct b; cbn [fst snd] in H0; [rewrite Rabs_pos_eq; lra|]. rewrite Rabs_left1; lra.
        + replace (pos + S i)%nat with (S pos + i)%nat by lia. apply I2. lia. }
    destruct e as [U|t|t]; cbn [draws box thresholds] in *; [apply IH; auto| |]; (destruct s as [|b s]; [discriminate|]; injection L as L; cbn [narrowed] in H; apply G; auto).
Qed.
Lemma narrow_volume : forall mu s ivs, 0 <= mu -> List.length s = List.length ivs -> Forall (fun iv => 0 <= fst iv /\ snd iv <= 1 /\ fst iv <= snd iv) ivs ->
  0 <= volume (narrowed mu s ivs) /\ 0 <= box_volume ivs <= 1 /\ box_volume ivs - INR (List.length ivs) * mu <= volume (narrowed mu s ivs).
Proof.
  intros mu s ivs P. revert s. induction ivs as [|iv ivs IH]; intros [|b s] L F; try discriminate; [cbn; lra|].
  injection L as L. inversion_clear F as [|? ? F0 F1]. destruct (IH s L F1) as (V0 & B0 & I). cbn [narrowed List.length]. rewrite S_INR.
  unfold volume, box_volume. cbn [fold_right]. fold (volume (narrowed mu s ivs)). fold (box_volume ivs). set (V := volume (narrowed mu s ivs)) in *. set (Q := box_volume ivs) in *.
  set (l := snd iv - fst iv). assert (Hl : 0 <= l <= 1) by (unfold l; lra).
  assert (EN : snd (narrow mu b iv) - fst (narrow mu b iv) = l - mu) by (unfold narrow, l; destruct b; cbn [fst snd]; ring). rewrite EN.
  assert (HA : 0 <= Rmax 0 (l - mu) <= 1 /\ l - mu <= Rmax 0 (l - mu)). { split; [split; [apply Rmax_l|apply Rmax_lub; lra]|apply Rmax_r]. }
  set (a := Rmax 0 (l - mu)) in *. destruct HA as [A1 A2]. split; [nra|]. split; [nra|]. pose proof (pos_INR (List.length ivs)).
  set (d := INR (List.length ivs)) in *. assert (0 <= d * mu) by (apply Rmult_le_pos; auto).
  assert (X1 : (l - a) * Q <= mu) by nra. assert (X2 : a * (Q - V) <= d * mu) by nra. lra.
Qed.
Lemma margin_lemma : forall n gs es s mu, circuit_events n gs es -> List.length s = draws es -> 0 <= mu ->
  weight n es s - INR (draws es) * mu <= volume (narrowed mu s (box n es s (ket 0))) /\
  forall rng pos, in_box (narrowed mu s (box n es s (ket 0))) rng pos -> in_box (box n es s (ket 0)) rng pos /\ apart mu (thresholds n es s (ket 0)) rng pos.
Proof.
  intros n gs es s mu C L P. destruct (law_box n gs es s C L) as (L1 & F & V). split.
  - destruct (narrow_volume mu s (box n es s (ket 0)) P ltac:(congruence) F) as (_ & _ & H). rewrite L1, V in H. exact H.
  - intros. apply narrow_ok; auto. eapply circuit_events_ok; eauto.
Qed.
Lemma chance_lemma : forall A u M N n gs es s, rounds A u -> 3 <= M -> 1000 * u * M <= 1 -> norms N n u ->
  circuit_events n gs es -> Forall (angles_within M) gs -> List.length s = draws es ->
  let W := weight n es s in let err := (1 + 256 * (u * M)) ^ (7 * List.length es) - 1 in let d := INR (draws es) in
  0 < W -> 28 * (d * d) * err <= W ->
  exists ivs, List.length ivs = draws es /\ W - 14 * (d * d) * err / W <= volume ivs /\
    forall rng pos, draws_ok rng -> in_box ivs rng pos ->
      exists ctx, fl_shot A N rng gs n pos = SOk ctx /\ x_cregs ctx = record n es s.
Proof.
  intros A u M N n gs es s HR HM Hs HN C F L W err d PW HB. pose proof (u_pos A u HR) as U.
  assert (EP : 0 <= err). { apply (cost_pos (256 * (u * M))). apply Rmult_le_pos; [lra|]. apply Rmult_le_pos; lra. }
  assert (DP : 0 <= d) by apply pos_INR.
  assert (MP : 0 <= 14 * d * err / W). { apply Rmult_le_pos; [apply Rmult_le_pos; lra|left; apply Rinv_0_lt_compat; auto]. }
  destruct (margin_lemma n gs es s (14 * d * err / W) C L MP) as [V H]. exists (narrowed (14 * d * err / W) s (box n es s (ket 0))).
  destruct (law_box n gs es s C L) as (L1 & _). split; [|split].
  - rewrite <- L. assert (G : forall m s ivs, List.length s = List.length ivs -> List.length (narrowed m s ivs) = List.length s).
    { clear. intros m s. induction s as [|b s IH]; intros [|iv ivs] Q; try discriminate; auto. cbn [narrowed List.length]. f_equal. apply IH. injection Q as Q. exact Q. }
    apply G. congruence.
  - eapply Rle_trans; [|exact V]. right. fold d. fold W. field. lra.
  - intros rng pos Hr I. destruct (H rng pos I) as [I1 I2].
    destruct (shot_lemma A u M N rng n gs es s pos HR HM Hs HN Hr C F L PW HB I1 I2) as (ctx & phi & E & _ & CR & _). exists ctx. auto.
Qed.
Lemma double_norm : forall n, (n <= 20)%nat -> norms (sequential_norm (binary_arith 53)) n (/ 2 ^ 31).
Proof.
  intros n L v LV. eapply Rle_trans; [apply (seq_norms (binary_arith 53) (/ 2 ^ 53) (binary_rounds 53) ltac:(rewrite pow53; lra) n v LV)|].
  apply Rmult_le_compat_r; [apply sqrt_pos|].
  assert (I : INR (2 ^ n + 3) <= 1048579).
  { rewrite plus_INR, pow_INR. change (INR 2) with 2. pose proof (Rle_pow 2 n 20 ltac:(lra) L) as P. replace (2 ^ 20) with 1048576 in P by (rewrite pow_IZR; reflexivity). simpl (INR 3). lra. }
  pose proof (pos_INR (2 ^ n + 3)) as IP. replace (2 ^ 31) with 2147483648 by (rewrite pow_IZR; reflexivity). rewrite pow53.
  eapply Rle_trans; [apply pow_linear; lra|]. lra.
Qed.
