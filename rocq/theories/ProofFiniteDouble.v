(** Shots in double precision *)
From Coq Require Import String List Arith NArith Nnat ZArith Bool Reals Lia Lra Psatz Permutation.
Import ListNotations.
From Verif Require Import Base Cplx Bits ModelTargets ModelGate ModelNumpy ModelNumba ModelFloat ModelFloatMeasure ModelFloatNumba ModelFloatNumbaMeasure
  ProofFiniteRun ProofFiniteTop SpecTargets SpecQuantum SpecCircuit SpecMeasure SpecLaw SpecFloat SpecFloatMeasure SpecFinite SpecFloatNumba SpecFiniteMeasure
  ProofLawStat ProofFloatTop ProofFloatMeas ProofFloatMeasRun ProofFloatMeasTop ProofFloatMeasCase ProofFloatNumba4 ProofFloatNumba5 ProofFiniteMeasRun ProofFiniteNbRun ProofFiniteSums.
Local Open Scope R_scope.

Notation DU := (/ 2 ^ 53).
Notation DE := (powerRZ 2 (-1075)).
Notation DB := (powerRZ 2 500).
Lemma du_pos : 0 < DU. Proof. rewrite pow53. lra. Qed.
Lemma de_pos : 0 <= DE <= 1.
Proof. split; [left; apply pz_pos|]. rewrite <- p0. apply pz_le. lia. Qed.
Lemma du_pz : DU = powerRZ 2 (-53). Proof. rewrite pow_powerRZ, <- powerRZ_neg'. reflexivity. Qed.
Lemma de_du : DE / DU = powerRZ 2 (-1022).
Proof. unfold Rdiv. rewrite Rinv_inv, pow_powerRZ, <- pz_add. reflexivity. Qed.
Lemma db_big : 8 / DU <= DB.
Proof. unfold Rdiv. rewrite Rinv_inv. replace 8 with (powerRZ 2 3) by (simpl; ring). rewrite pow_powerRZ, <- pz_add. apply pz_le. lia. Qed.

Lemma double_divides : forall over, divides_within (double_arith over) DU DE DB.
Proof.
  intros over a b Ha [Hb1 Hb2]. cbn [double_arith finite_arith f_div]. apply (dbl_round over).
  assert (BP : 0 < / DB) by (apply Rinv_0_lt_compat, pz_pos). assert (IB : / b <= DB) by (rewrite <- (Rinv_inv DB); apply Rinv_le_contravar; auto).
  assert (0 < / b) by (apply Rinv_0_lt_compat; lra). unfold Rdiv. rewrite Rabs_mult, (Rabs_pos_eq (/ b)) by lra.
  apply Rle_trans with (DB * DB); [apply Rmult_le_compat; auto; [apply Rabs_pos|lra]|]. rewrite <- pz_add. apply pz_le. lia.
Qed.
Lemma double_scales : forall over, scales (plain_compiled (double_arith over) (double_lit over)) DU DE /\
  scales (fused_compiled (double_arith over) (double_fma over) (double_lit over)) DU DE.
Proof.
  intros over. assert (U : 0 < DU <= 1 / 100) by (rewrite pow53; lra). assert (E : 0 <= DE <= DU) by (split; [apply de_pos|rewrite du_pz; apply pz_le; lia]).
  split; [apply (plain_scales _ _ _ DB (double_rounds over) U E db_big)|apply (fused_scales _ _ _ DB (double_rounds over) U E db_big); apply dbl_fuses].
Qed.
Lemma double_ranges : forall n, (n <= 64)%nat -> ranges DU DE DB 7 n (powerRZ 2 (-400)).
Proof.
  intros n Hn. split; [apply du_pos|]. split; [rewrite du_pz, <- pz_add; apply pz_le; lia|]. split.
  { rewrite Rinv_inv, pow_powerRZ. apply pz_le. lia. }
  split; [lra|]. split; [rewrite pow53; lra|]. split.
  - rewrite de_du. assert (S1 : sqrt (2 ^ n) <= powerRZ 2 100).
    { rewrite <- (sqrt_square (powerRZ 2 100)) by (left; apply pz_pos). apply sqrt_le_1_alt. rewrite <- pz_add, pow_powerRZ. apply pz_le. lia. }
    apply Rle_trans with (powerRZ 2 (-1022) * powerRZ 2 100); [apply Rmult_le_compat_l; auto; left; apply pz_pos|]. rewrite <- pz_add. apply pz_le. lia.
  - rewrite <- p0. apply pz_le. lia.
Qed.
Lemma tiny_400 : 0 <= powerRZ 2 (-400) <= 1 / 1024.
Proof. split; [left; apply pz_pos|]. apply Rle_trans with (powerRZ 2 (-10)); [apply pz_le; lia|]. change (-10)%Z with (- (10))%Z. rewrite powerRZ_neg'. simpl. lra. Qed.
Lemma double_shot_error : forall L v, (Z.of_nat L <= 1000000)%Z -> 0 <= v <= 6 * / 2 ^ 29 -> shot_error DU 7 (powerRZ 2 (-400)) v L <= 1 / 300000.
Proof.
  intros L v HL Hv. apply IZR_le in HL. rewrite <- INR_IZR_INZ in HL. pose proof (pos_INR L) as P. unfold shot_error.
  assert (G : powerRZ 2 (-400) <= 1 / 10000).
  { apply Rle_trans with (powerRZ 2 (-14)); [apply pz_le; lia|]. change (-14)%Z with (- (14))%Z. rewrite powerRZ_neg'. simpl. lra. }
  destruct tiny_400 as [G0 _]. set (g := powerRZ 2 (-400)) in *.
  assert (I7 : INR (7 * L) = 7 * INR L) by (rewrite mult_INR; simpl INR; ring).
  assert (Q : (1 + 300 * (DU * 7)) ^ (7 * L) - 1 <= 2 * (7 * INR L) * (300 * (DU * 7))) by (rewrite <- I7; apply pow_linear; rewrite ?I7, pow53; lra).
  assert (Q1 : 2 * (7 * INR L) * (300 * (DU * 7)) <= 327 / 100000000) by (rewrite pow53; lra).
  assert (V : 6 * / 2 ^ 29 <= 2 / 100000000) by (replace (2 ^ 29) with 536870912 by (rewrite pow_IZR; reflexivity); lra).
  set (t := (1 + 300 * (DU * 7)) ^ (7 * L)) in *. apply Rle_trans with ((329 / 100000000) * (1 + 2 * (1 / 10000))); [|lra].
  assert (T : 1 <= t) by (unfold t; apply pow_R1_Rle; rewrite pow53; lra).
  apply Rmult_le_compat; lra.
Qed.
Lemma wbound : DU <= / 2 ^ 29 <= 1 / 100.
Proof. rewrite pow53. replace (2 ^ 29) with 536870912 by (rewrite pow_IZR; reflexivity). lra. Qed.

Lemma double_np_shot : forall over N rng n gs es s pos, norms_within N n (/ 2 ^ 29) (powerRZ 2 (-400)) -> (n <= 64)%nat -> draws_ok rng ->
  circuit_events n gs es -> Forall (angles_within 7) gs -> (Z.of_nat (List.length es) <= 1000000)%Z -> List.length s = draws es ->
  let W := SpecLaw.weight n es s in let err := 1 / 300000 in let d := INR (draws es) in
  0 < W -> 28 * (1 + d * d) * err <= W -> in_box (box n es s (ket 0)) rng pos -> apart (14 * d * err / W) (thresholds n es s (ket 0)) rng pos ->
  exists ctx phi, fl_shot (double_arith over) N rng gs n pos = SOk ctx /\ x_qubits ctx = arr n phi /\ x_cregs ctx = record n es s /\ x_pos ctx = (pos + draws es)%nat /\
    dist n phi (scl (RtoC (/ sqrt W)) (branch es s (ket 0))) <= (14 * d + 2) * err / W.
Proof.
  intros over N rng n gs es s pos HN Hn Hr C F HL L W err d PW HB IB AP.
  apply (np_finite_shot (double_arith over) DU DE DB 7 N (/ 2 ^ 29) (powerRZ 2 (-400)) rng n gs es s pos err); auto using double_rounds, double_divides, double_ranges, wbound.
  apply double_shot_error; auto. pose proof wbound. pose proof du_pos. lra.
Qed.
Lemma double_np_chance : forall over N n gs es s, norms_within N n (/ 2 ^ 29) (powerRZ 2 (-400)) -> (n <= 64)%nat ->
  circuit_events n gs es -> Forall (angles_within 7) gs -> (Z.of_nat (List.length es) <= 1000000)%Z -> List.length s = draws es ->
  let W := SpecLaw.weight n es s in let err := 1 / 300000 in let d := INR (draws es) in
  0 < W -> 28 * (1 + d * d) * err <= W ->
  exists ivs, List.length ivs = draws es /\ W - 14 * (d * d) * err / W <= volume ivs /\
    forall rng pos, draws_ok rng -> in_box ivs rng pos -> exists ctx, fl_shot (double_arith over) N rng gs n pos = SOk ctx /\ x_cregs ctx = record n es s.
Proof.
  intros over N n gs es s HN Hn C F HL L W err d PW HB.
  apply (np_finite_chance (double_arith over) DU DE DB 7 N (/ 2 ^ 29) (powerRZ 2 (-400)) n gs es s err); auto using double_rounds, double_divides, double_ranges, wbound.
  apply double_shot_error; auto. pose proof wbound. pose proof du_pos. lra.
Qed.
Lemma double_nb_shot : forall c over S rng n gs es s pos, compiles c DU DE DB -> scales c DU DE -> divides_within (c_arith c) DU DE DB ->
  sums_within S n (/ 2 ^ 29) (powerRZ 2 (-400)) -> (n <= 64)%nat -> draws_ok rng ->
  circuit_events n gs es -> Forall (angles_within 7) gs -> (Z.of_nat (List.length es) <= 1000000)%Z -> List.length s = draws es ->
  let W := SpecLaw.weight n es s in let err := 1 / 300000 in let d := INR (draws es) in
  0 < W -> 28 * (1 + d * d) * err <= W -> in_box (box n es s (ket 0)) rng pos -> apart (14 * d * err / W) (thresholds n es s (ket 0)) rng pos ->
  exists phi, fn_shot c S (double_arith over) rng gs n pos = ((arr n phi, record n es s, (pos + draws es)%nat), None) /\
    dist n phi (scl (RtoC (/ sqrt W)) (branch es s (ket 0))) <= (14 * d + 2) * err / W.
Proof.
  intros c over S rng n gs es s pos HC HS HQ HN Hn Hr C F HL L W err d PW HB IB AP.
  apply (nb_finite_shot c (double_arith over) DU DE DB 7 S (/ 2 ^ 29) (powerRZ 2 (-400)) rng n gs es s pos err); auto using double_rounds, double_ranges, wbound.
  - rewrite pow53. lra.
  - apply double_shot_error; auto. pose proof wbound. pose proof du_pos. lra.
Qed.
Lemma double_nb_chance : forall c over S n gs es s, compiles c DU DE DB -> scales c DU DE -> divides_within (c_arith c) DU DE DB ->
  sums_within S n (/ 2 ^ 29) (powerRZ 2 (-400)) -> (n <= 64)%nat ->
  circuit_events n gs es -> Forall (angles_within 7) gs -> (Z.of_nat (List.length es) <= 1000000)%Z -> List.length s = draws es ->
  let W := SpecLaw.weight n es s in let err := 1 / 300000 in let d := INR (draws es) in
  0 < W -> 28 * (1 + d * d) * err <= W ->
  exists ivs, List.length ivs = draws es /\ W - 14 * (d * d) * err / W <= volume ivs /\
    forall rng pos, draws_ok rng -> in_box ivs rng pos -> exists a, fn_shot c S (double_arith over) rng gs n pos = ((a, record n es s, (pos + draws es)%nat), None).
Proof.
  intros c over S n gs es s HC HS HQ HN Hn C F HL L W err d PW HB.
  apply (nb_finite_chance c (double_arith over) DU DE DB 7 S (/ 2 ^ 29) (powerRZ 2 (-400)) n gs es s err); auto using double_rounds, double_ranges, wbound.
  - rewrite pow53. lra.
  - apply double_shot_error; auto. pose proof wbound. pose proof du_pos. lra.
Qed.

(** ** Sums of doubles, up to 20 qubits and 2^22 additions *)
Lemma pow20 : forall n, (n <= 20)%nat -> INR (2 ^ (n + 1)) <= 2097152.
Proof. intros n L. rewrite pow_INR. change (INR 2) with 2. pose proof (Rle_pow 2 (n + 1) 21 ltac:(lra) ltac:(lia)) as P. replace (2 ^ 21) with 2097152 in P by (rewrite pow_IZR; reflexivity). lra. Qed.
Lemma few_pow : forall K, INR K <= 4194304 -> (1 + DU) ^ (K + 2) - 1 <= / 2 ^ 29.
Proof.
  intros K H. pose proof (pos_INR K). assert (I : INR (K + 2) = INR K + 2) by (rewrite plus_INR; simpl; ring).
  replace (2 ^ 29) with 536870912 by (rewrite pow_IZR; reflexivity).
  eapply Rle_trans; [apply pow_linear; [left; apply du_pos|]|]; rewrite I, pow53; lra.
Qed.
Lemma pow_step : forall K, 1 <= (1 + DU) ^ (K + 1) <= (1 + DU) ^ (K + 2).
Proof. intros. pose proof du_pos. split; [apply pow_R1_Rle; lra|apply Rle_pow; [lra|lia]]. Qed.
Lemma some_nat : exists K, INR K = 4194304.
Proof. exists (Z.to_nat 4194304). rewrite INR_IZR_INZ, Z2Nat.id by lia. reflexivity. Qed.
Lemma le_some : forall k K, INR K = 4194304 -> (Z.of_nat k <= 4194304)%Z -> (k <= K)%nat.
Proof. intros k K E H. apply IZR_le in H. rewrite <- INR_IZR_INZ in H. apply INR_le. lra. Qed.
Lemma double_sums : forall S n, (n <= 20)%nat ->
  (forall v, (List.length v <= 2 ^ n)%nat -> exact_norm2 v <= 4 -> exists k, (Z.of_nat k <= 4194304)%Z /\ added DU DE k (parts v) (S v)) ->
  sums_within S n (/ 2 ^ 29) (powerRZ 2 (-400)).
Proof.
  intros S n Hn H. destruct some_nat as [K EK]. pose proof (few_pow K ltac:(lra)) as W. pose proof (pow_step K) as [P1 P2]. pose proof (pow20 n Hn) as P20. pose proof (pos_INR (2 ^ (n + 1))) as P0.
  destruct (within_weaker S S n ((1 + DU) ^ (K + 1) - 1) (INR (2 ^ (n + 1) + K) * (DE / DU)) (/ 2 ^ 29) (powerRZ 2 (-400))) as [X _].
  - lra.
  - rewrite de_du, plus_INR. split; [apply Rmult_le_pos; [lra|left; apply pz_pos]|].
    apply Rle_trans with (powerRZ 2 23 * powerRZ 2 (-1022)); [apply Rmult_le_compat_r; [left; apply pz_pos|]|rewrite <- pz_add; apply pz_le; lia].
    change 23%Z with (Z.of_nat 23). rewrite <- pow_powerRZ. replace (2 ^ 23) with 8388608 by (rewrite pow_IZR; reflexivity). lra.
  - apply X. apply (sums_lemma DU DE du_pos (proj1 de_pos) S n K). intros v L V. destruct (H v L V) as (k & Lk & AD). exists k. split; auto. eapply le_some; eauto.
Qed.
Lemma double_norms : forall N n, (n <= 20)%nat ->
  (forall v, (List.length v <= 2 ^ n)%nat -> exact_norm2 v <= 4 -> exists k, (Z.of_nat k <= 4194304)%Z /\ root_of_sum DU DE k v (N v)) ->
  norms_within N n (/ 2 ^ 29) (powerRZ 2 (-400)).
Proof.
  intros N n Hn H. destruct some_nat as [K EK]. pose proof (few_pow K ltac:(lra)) as W. pose proof (pow_step K) as [P1 P2]. pose proof (pow20 n Hn) as P20. pose proof (pos_INR (2 ^ (n + 1))) as P0.
  pose proof wbound as [_ WB].
  destruct (within_weaker N N n ((1 + DU) ^ (K + 2) - 1) (sqrt (INR (2 ^ (n + 1) + K) * DE) / DU) (/ 2 ^ 29) (powerRZ 2 (-400))) as [_ X].
  - lra.
  - split; [apply Rmult_le_pos; [apply sqrt_pos|rewrite Rinv_inv; left; apply pow_lt; lra]|].
    assert (S1 : sqrt (INR (2 ^ (n + 1) + K) * DE) <= powerRZ 2 (-500)).
    { rewrite <- (sqrt_square (powerRZ 2 (-500))) by (left; apply pz_pos). apply sqrt_le_1_alt. rewrite plus_INR.
      apply Rle_trans with (powerRZ 2 23 * DE); [apply Rmult_le_compat_r; [left; apply pz_pos|]|rewrite <- !pz_add; apply pz_le; lia].
      change 23%Z with (Z.of_nat 23). rewrite <- pow_powerRZ. replace (2 ^ 23) with 8388608 by (rewrite pow_IZR; reflexivity). lra. }
    unfold Rdiv. rewrite Rinv_inv. apply Rle_trans with (powerRZ 2 (-500) * 2 ^ 53); [apply Rmult_le_compat_r; [left; apply pow_lt; lra|auto]|].
    rewrite pow_powerRZ, <- pz_add. apply pz_le. lia.
  - apply X. apply (norms_lemma DU DE du_pos de_pos N n K); [lra|]. intros v L V. destruct (H v L V) as (k & Lk & AD). exists k. split; auto. eapply le_some; eauto.
Qed.
Lemma seq_hyps : forall n, (n <= 20)%nat -> (1 + DU) ^ (2 ^ (n + 1) + 1) <= 2 /\ INR (2 ^ (n + 2)) * (DE / DU) <= 1 /\ 16 <= DB.
Proof.
  intros n Hn. pose proof (pow20 n Hn) as P. split; [|split].
  - pose proof (few_pow (2 ^ (n + 1)) ltac:(lra)). pose proof (pow_step (2 ^ (n + 1))). pose proof wbound. lra.
  - rewrite de_du. assert (E : INR (2 ^ (n + 2)) = 2 * INR (2 ^ (n + 1))) by (rewrite !pow_INR, !pow_add; simpl; ring). rewrite E.
    apply Rle_trans with (powerRZ 2 23 * powerRZ 2 (-1022)); [apply Rmult_le_compat_r; [left; apply pz_pos|]|rewrite <- pz_add, <- p0; apply pz_le; lia].
    change 23%Z with (Z.of_nat 23). rewrite <- pow_powerRZ. replace (2 ^ 23) with 8388608 by (rewrite pow_IZR; reflexivity). lra.
  - apply Rle_trans with (powerRZ 2 4); [simpl; lra|apply pz_le; lia].
Qed.
Lemma few_parts : forall n (v : list C), (n <= 20)%nat -> (List.length v <= 2 ^ n)%nat -> (Z.of_nat (2 * List.length v) <= 4194304)%Z.
Proof.
  intros n v Hn L. pose proof (pow20 n Hn) as P. apply le_IZR. rewrite <- INR_IZR_INZ. apply Rle_trans with (INR (2 ^ (n + 1))); [|lra]. apply le_INR. rewrite Nat.pow_add_r. simpl. lia.
Qed.
Lemma double_seq_sum : forall over n, (n <= 20)%nat -> sums_within (sequential_sum (double_arith over)) n (/ 2 ^ 29) (powerRZ 2 (-400)).
Proof.
  intros over n Hn. destruct (seq_hyps n Hn) as (S1 & S2 & S3). apply double_sums; auto. intros v L V. exists (2 * List.length v)%nat. split; [eapply few_parts; eauto|].
  apply (seq_lemma _ DU DE DB (double_rounds over) du_pos (proj1 de_pos) S3 n S1 S2 v L V).
Qed.
Lemma finite_pos : forall over x, 0 <= x <= powerRZ 2 1023 -> 0 <= round_finite over 53 (-1074) 1023 x.
Proof.
  intros over x [X0 X1]. unfold round_finite. destruct (Rle_dec (Rabs x) (powerRZ 2 1023)) as [_|N]; [|rewrite Rabs_pos_eq in N by auto; contradiction].
  unfold round_above. destruct (Req_EM_T x 0); [lra|]. cbv zeta. set (s := powerRZ 2 _). assert (SP : 0 < s) by apply pz_pos. apply Rmult_le_pos; [|lra].
  apply IZR_le. assert (0 <= x / s) by (apply Rmult_le_pos; [auto|left; apply Rinv_0_lt_compat; auto]). pose proof (base_Int_part (x / s + 1 / 2)) as [_ I2].
  assert (-1 < Int_part (x / s + 1 / 2))%Z by (apply lt_IZR; lra). lia.
Qed.
Lemma seq_sum_pos : forall over n v, (n <= 20)%nat -> (List.length v <= 2 ^ n)%nat -> exact_norm2 v <= 4 -> 0 <= sequential_sum (double_arith over) v <= 9.
Proof.
  intros over n v Hn L V. destruct (seq_hyps n Hn) as (S1 & S2 & S3).
  assert (BG : 100 <= powerRZ 2 1023) by (apply Rle_trans with (powerRZ 2 10); [simpl; lra|apply pz_le; lia]).
  assert (SM : forall v, (List.length v <= 2 ^ n)%nat -> exact_norm2 v <= 4 -> Rabs (sequential_sum (double_arith over) v) <= 9) by (apply (seq_small _ DU DE DB (double_rounds over) du_pos (proj1 de_pos) S3 n S1 S2)).
  assert (NN : forall v, 0 <= exact_norm2 v) by (intros; rewrite <- squares_parts; apply squares_pos).
  assert (MP : forall x, x * x <= 4 -> 0 <= f_mul (double_arith over) x x <= 9).
  { intros x Hx. split; [apply (finite_pos over); split; [nra|lra]|]. pose proof (sq4 (powerRZ 2 500) S3 x Hx) as Q. pose proof (w_mul _ _ _ _ (double_rounds over) x x Q Q) as K. rewrite (Rabs_pos_eq (x * x)) in K by nra.
    apply Rabs_le_inv in K. pose proof de_pos. rewrite pow53 in K. lra. }
  revert L V. induction v as [|z v IH] using rev_ind; intros L V; [unfold sequential_sum; cbn [fold_left]; lra|].
  assert (EX : exact_norm2 (v ++ [z]) = exact_norm2 v + (fst z * fst z + snd z * snd z)) by (unfold exact_norm2; clear; induction v; cbn [Rsum app]; [ring|rewrite IHv; ring]).
  pose proof (SM _ L V) as SM1. apply Rabs_le_inv in SM1. split; [|lra]. rewrite EX in V. rewrite app_length in L. cbn [List.length] in L. pose proof (NN v). assert (0 <= fst z * fst z) by nra. assert (0 <= snd z * snd z) by nra.
  destruct (IH ltac:(lia) ltac:(lra)) as [I1 I2]. unfold sequential_sum. rewrite fold_left_app. cbn [fold_left]. fold (sequential_sum (double_arith over) v).
  set (s := sequential_sum (double_arith over) v) in *.
  assert (M1 := MP (fst z) ltac:(lra)). assert (M2 := MP (snd z) ltac:(lra)). set (p := f_mul (double_arith over) (fst z) (fst z)) in *. set (q := f_mul (double_arith over) (snd z) (snd z)) in *.
  assert (M3 : 0 <= f_add (double_arith over) p q <= 20).
  { split; [apply (finite_pos over); lra|]. assert (Q : forall x, 0 <= x <= 9 -> Rabs x <= DB) by (intros; rewrite Rabs_pos_eq; lra).
    pose proof (w_add _ _ _ _ (double_rounds over) p q (Q p M1) (Q q M2)) as K. rewrite (Rabs_pos_eq (p + q)) in K by lra. apply Rabs_le_inv in K. pose proof de_pos. rewrite pow53 in K. lra. }
  apply (finite_pos over (s + f_add (double_arith over) p q)). lra.
Qed.
Lemma double_seq_norm : forall over n, (n <= 20)%nat -> norms_within (sequential_norm (double_arith over)) n (/ 2 ^ 29) (powerRZ 2 (-400)).
Proof.
  intros over n Hn. destruct (seq_hyps n Hn) as (S1 & S2 & S3). apply double_norms; auto. intros v L V. exists (2 * List.length v)%nat. split; [eapply few_parts; eauto|].
  destruct (seq_sum_pos over n v Hn L V) as [P1 P2]. exists (sequential_sum (double_arith over) v). split; [apply (seq_lemma _ DU DE DB (double_rounds over) du_pos (proj1 de_pos) S3 n S1 S2 v L V)|].
  split; auto. apply (w_sqrt _ _ _ _ (double_rounds over)). lra.
Qed.

(** ** A shot on the numba backend that records an impossible value *)
Section Case.
Variable over : R -> R.
Notation dd := (round_finite over 53 (-1074) 1023).
Notation A := (double_arith over).
Lemma dd_0 : dd 0 = 0.
Proof.
  unfold round_finite. rewrite Rabs_R0. destruct (Rle_dec 0 (powerRZ 2 1023)) as [_|N]; [|exfalso; apply N; left; apply pz_pos]. unfold round_above. destruct (Req_EM_T 0 0); [reflexivity|contradiction].
Qed.
Lemma dd_rd : forall x, / 2 <= x < 2 -> dd x = round_to 53 x.
Proof.
  intros x [H1 H2]. unfold round_finite. assert (BG : 100 <= powerRZ 2 1023) by (apply Rle_trans with (powerRZ 2 10); [simpl; lra|apply pz_le; lia]).
  destruct (Rle_dec (Rabs x) (powerRZ 2 1023)) as [_|N]; [|exfalso; apply N; rewrite Rabs_pos_eq; lra].
  unfold round_above, round_to. destruct (Req_EM_T x 0) as [Z|N]; [lra|]. cbv zeta. pose proof (log2_bounds x N) as [C1 C2]. cbv zeta in C1, C2. set (k := Int_part (ln (Rabs x) / ln 2)) in *.
  rewrite Rabs_pos_eq in C1, C2 by lra. assert (K : (-1 < k + 1)%Z) by (apply pow_lt_exp; rewrite m1; lra). rewrite Z.max_r by lia. reflexivity.
Qed.
Lemma dmul : forall a b, fc_mul A (RtoC a) (RtoC b) = RtoC (dd (dd (a * b))).
Proof.
  intros. unfold fc_mul, RtoC. cbn [f_mul f_sub f_add double_arith finite_arith fst snd]. rewrite Rmult_0_l, Rmult_0_r, Rmult_0_l, dd_0, Rminus_0_r, Rplus_0_r, dd_0. reflexivity.
Qed.
Lemma dadd : forall a b, fc_add A (RtoC a) (RtoC b) = RtoC (dd (a + b)).
Proof. intros. unfold fc_add, RtoC. cbn [f_add double_arith finite_arith fst snd]. rewrite Rplus_0_l, dd_0. reflexivity. Qed.
Lemma dneg : forall a, (- RtoC a)%C = RtoC (- a).
Proof. intros. unfold RtoC. simpl. unfold Copp. simpl. f_equal. ring. Qed.
Lemma d_lit : double_lit over (7071067811865475 / 10000000000000000) = r2.
Proof. unfold double_lit. rewrite dd_rd by lra. unfold r2. apply rd_half; lra. Qed.
Notation c := (plain_compiled A (double_lit over)).
Lemma fn_h : forall (k : compiled) psum P rng fuel z0 z1 cr pos, fn_gate k psum P rng fuel 1 (GOne KH (TInt 0)) ([z0; z1], cr, pos) =
  (([c_had k 0 z0 z1 (c_lit k (7071067811865475 / 10000000000000000)); c_had k 1 z0 (- z1)%C (c_lit k (7071067811865475 / 10000000000000000))], cr, pos), None).
Proof. intros. destruct fuel; reflexivity. Qed.
Lemma fn_m : forall (k : compiled) psum rng z0 z1, Rltb (rng 0%nat) (psum [z0]) = false -> Rltb (f_sub (c_arith k) 1 (psum [z0])) 0 = false -> f_sqrt (c_arith k) (f_sub (c_arith k) 1 (psum [z0])) <> 0 ->
  exists s, fn_measure k psum rng 1 0 ([z0; z1], [0%nat], 0%nat) = (([C0; c_mul k 1 z1 (RtoC s)], [1%nat], 1%nat), None).
Proof.
  intros k psum rng z0 z1 H1 H2 H3. exists (f_div (c_arith k) 1 (f_sqrt (c_arith k) (f_sub (c_arith k) 1 (psum [z0])))). unfold fn_measure. change (in_reg 1 0) with true. cbv iota.
  change (fn_p0calc psum [z0; z1] (Z.to_N 0) (N.of_nat 1)) with (@Ok R (psum [z0])). cbn [bind]. rewrite H1. unfold fn_sqrt_inv. rewrite H2. unfold Reqb. destruct (Req_EM_T _ 0) as [Z|_]; [contradiction|]. reflexivity.
Qed.
Lemma dmul0 : forall s, fc_mul A (RtoC 0) (RtoC s) = C0.
Proof. intros. rewrite dmul, Rmult_0_l, !dd_0. reflexivity. Qed.
Lemma psum_case : sequential_sum A [RtoC a2] = q2.
Proof.
  unfold sequential_sum, RtoC. cbn [fold_left f_add f_mul double_arith finite_arith fst snd]. rewrite Rmult_0_l, dd_0, Rplus_0_r, Rplus_0_l.
  rewrite (dd_rd (a2 * a2)) by (unfold a2; lra). rewrite rd_aa. rewrite (dd_rd q2) by (unfold q2; lra). rewrite rd_q, (dd_rd q2) by (unfold q2; lra). apply rd_q.
Qed.
Lemma nb_impossible : exists rng a, draws_ok rng /\ (forall i, exists k, rng i = IZR k * powerRZ 2 (-53)) /\
  circuit_events 1 ex_hhm ex_hhm_events /\ SpecLaw.weight 1 ex_hhm_events [true] = 0 /\
  fn_shot c (sequential_sum A) A rng ex_hhm 1 0 = ((a, [1%nat], 1%nat), None) /\ a = [C0; C0].
Proof.
  set (rng := fun _ : nat => IZR 9007199254740991 * powerRZ 2 (-53)). exists rng, [C0; C0].
  assert (RV : IZR 9007199254740991 * powerRZ 2 (-53) = 9007199254740991 / 9007199254740992) by (rewrite p53; reflexivity).
  split; [intros i; unfold rng; rewrite RV; lra|]. split; [intros i; exists 9007199254740991%Z; reflexivity|]. split; [exact hhm_events|]. split; [exact hhm_weight|]. split; [|reflexivity].
  unfold fn_shot, ex_hhm. change (basis0 1) with [RtoC 1; RtoC 0]. change (repeat 0%nat 1) with [0%nat]. cbn [fn_list].
  rewrite fn_h. cbn [c_lit c_had plain_compiled]. rewrite d_lit, dneg, Ropp_0, !dadd, !dmul, !Rplus_0_r. rewrite (dd_rd 1) by lra. rewrite rd_1, Rmult_1_l. rewrite (dd_rd r2) by (unfold r2; lra). rewrite rd_r, (dd_rd r2) by (unfold r2; lra). rewrite rd_r.
  rewrite fn_h. cbn [c_lit c_had plain_compiled]. rewrite d_lit, dneg, !dadd, !dmul. rewrite Rplus_opp_r, !dd_0, Rmult_0_l, !dd_0.
  rewrite (dd_rd (r2 + r2)) by (unfold r2; lra). rewrite rd_2r. rewrite (dd_rd ((r2 + r2) * r2)) by (unfold r2; lra). rewrite rd_rr, (dd_rd a2) by (unfold a2; lra). rewrite rd_a.
  match goal with |- context [fn_gate ?a ?b ?c ?d ?f ?n (GMeasure ?t) ?x] => change (fn_gate a b c d f n (GMeasure t) x) with (fn_collapse (fn_measure a b d n) t n x) end.
  unfold fn_collapse. change (slicing (TInt 0) (Z.of_nat 1)) with (Gen [0%Z] None). cbn [yields raised loop_state].
  assert (SB : f_sub A 1 q2 = 4 / 9007199254740992).
  { cbn [f_sub double_arith finite_arith]. replace (1 - q2) with (IZR 4 * powerRZ 2 (-53)) by (rewrite p53; unfold q2; lra).
    unfold round_finite. destruct (Rle_dec _ _) as [_|N]; [rewrite above_fix by (simpl; lia); rewrite p53; reflexivity|].
    exfalso. apply N. rewrite Rabs_pos_eq by (rewrite p53; lra). apply Rle_trans with (powerRZ 2 0); [rewrite p0, p53; lra|apply pz_le; lia]. }
  destruct (fn_m c (sequential_sum A) rng (RtoC a2) (RtoC 0)) as [s E].
  - rewrite psum_case. destruct (Rltb (rng 0%nat) q2) eqn:E; auto. apply Rltb_true in E. unfold rng in E. rewrite RV in E. unfold q2 in E. lra.
  - rewrite psum_case. cbn [c_arith plain_compiled]. rewrite SB. destruct (Rltb (4 / 9007199254740992) 0) eqn:E; auto. apply Rltb_true in E. lra.
  - rewrite psum_case. cbn [c_arith plain_compiled]. rewrite SB. intros Z.
    pose proof (w_sqrt _ _ _ _ (double_rounds over) (4 / 9007199254740992)) as K. assert (L : 0 <= 4 / 9007199254740992 <= DB) by (split; [lra|]; apply Rle_trans with (powerRZ 2 0); [rewrite p0; lra|apply pz_le; lia]).
    specialize (K L). rewrite Z, Rminus_0_l, Rabs_Ropp, Rabs_pos_eq in K by apply sqrt_pos.
    assert (Q : 4 / 9007199254740992 <= sqrt (4 / 9007199254740992)).
    { rewrite <- (sqrt_square (4 / 9007199254740992)) at 1 by lra. apply sqrt_le_1_alt. lra. }
    assert (DL : DE <= 1 / 9007199254740992) by (apply Rle_trans with (powerRZ 2 (-53)); [apply pz_le; lia|rewrite p53; lra]). rewrite pow53 in K. set (x := sqrt (4 / 9007199254740992)) in *. lra.
  - unfold fnctx in *. rewrite E. cbn [c_mul plain_compiled]. rewrite dmul0. reflexivity.
Qed.
End Case.

(** ** A case of the theorems *)
Lemma double_case : let W := SpecLaw.weight 1 ex_events [true; true] in let err := 1 / 300000 in
  (1 <= 20)%nat /\ draws_ok ex_draws /\ circuit_events 1 ex_law ex_events /\ Forall (angles_within 7) ex_law /\ (Z.of_nat (List.length ex_events) <= 1000000)%Z /\ draws ex_events = 2%nat /\
  0 < W /\ 28 * (1 + 2 * 2) * err <= W /\ in_box (box 1 ex_events [true; true] (ket 0)) ex_draws 0 /\ apart (14 * 2 * err / W) (thresholds 1 ex_events [true; true] (ket 0)) ex_draws 0.
Proof.
  cbv zeta. destruct ex_weights as (_ & -> & _).
  split; [lia|]. split; [intros i; unfold ex_draws; lra|]. split; [exact ex_law_events|].
  split; [repeat (apply Forall_cons; [unfold angles_within; cbn; apply Forall_nil|]); apply Forall_nil|]. split; [simpl; lia|]. split; [reflexivity|]. split; [lra|]. split; [lra|].
  rewrite ex_box, ex_thresholds. split.
  - intros [|[|i]] L; cbn [List.length] in L; [| |lia]; unfold ex_draws; cbn [nth fst snd]; lra.
  - intros [|[|i]] L; cbn [List.length] in L; [| |lia]; unfold ex_draws; cbn [nth]; rewrite Rabs_pos_eq by lra; lra.
Qed.
