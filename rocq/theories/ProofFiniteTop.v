(** Runs of the numpy backend in arithmetic with underflow and overflow *)
From Coq Require Import String List Arith ZArith Bool Reals Lia Lra Psatz FunctionalExtensionality.
Import ListNotations.
From Verif Require Import Base Cplx Bits ModelTargets ModelGate ModelNumpy ModelFloat SpecTargets SpecQuantum SpecCircuit SpecFloat SpecFinite
  ProofTargets ProofArray ProofNumpy ProofUnitary ProofPauli ProofRun ProofMeasure ProofCache ProofExamples ProofFloat ProofFloatOps ProofFloatRun ProofFloatTop
  ProofFinite ProofFiniteKern ProofFiniteCoef ProofFiniteNative ProofFiniteRun.
Local Open Scope R_scope.

(** ** Errors of runs *)
Lemma fl_list_for : forall f l s, fl_list f l s = for_list l f s.
Proof. induction l as [|g l IH]; intros s; cbn [fl_list for_list]; [reflexivity|]. destruct (f g s); cbn [bind]; auto. Qed.
Lemma fl_single_eq : forall A n fuel g s, fl_single A fuel n g s =
  match fl_unitary A g n with
  | Some f => f s
  | None => match fuel with O => Err RecursionError | S fuel => let* gs := fl_fallback A g (Z.of_nat n) in for_list gs (fl_single A fuel n) s end
  end.
Proof.
  intros A n fuel g s. destruct fuel; cbn [fl_single]; destruct (fl_unitary A g n); try reflexivity.
  destruct (fl_fallback A g (Z.of_nat n)); cbn [bind]; [apply fl_list_for|reflexivity].
Qed.
Lemma np_native : forall A u eta B M n, rounds_within A u eta B -> 0 < u -> eta <= u -> 3 <= M -> 128 * M <= B -> 1000 * u * M <= 1 ->
  forall N g ops f, M <= N <= 2 * M -> gate_ops n g ops -> angles_within N g -> fl_unitary A g n = Some f ->
  nearly n (np_rep n) (eta / u * sqrt (2 ^ n)) f (apply_all ops) (cost (130 * (u * N)) (weight g * List.length ops)).
Proof.
  intros A u eta B M n HR Hu He HM HB Hs N g ops f HN H W E. assert (Hh : u * N <= 1 / 400) by nra. assert (P : 0 <= 130 * (u * N)) by nra.
  assert (GP : 0 <= eta / u * sqrt (2 ^ n)) by (apply (gn_pos A u eta B N); auto; lra).
  destruct H as [kd tg l D F|kd tg ps D F|kd a b c Ha Hb Hc Hab Hac Hbc]; rewrite ?map_length.
  - apply (wnative1 A u eta B N) with (kd := kd) (tg := tg); auto; lra.
  - apply (wnative2 A u eta B N) with (kd := kd) (tg := tg); auto; lra.
  - destruct kd; cbn [fl_unitary] in E; try discriminate; injection E; intros <-; clear E.
    + eapply nearly_ext; [apply (wnative_ccx A u eta B N) with (a := a) (b := b) (c := c); auto; lra|reflexivity].
    + eapply nearly_cost_le with (a := 1%nat); auto; [|cbn; lia].
      eapply nearly_ext; [apply (wnative_ccz A u eta B N) with (a := a) (b := b) (c := c); auto; lra|reflexivity].
Qed.

Lemma finite_error : forall A u eta B M n gs ops, rounds_within A u eta B -> 0 < u -> eta <= u -> 3 <= M -> 128 * M <= B -> 1000 * u * M <= 1 ->
  circuit_ops n gs ops -> Forall (angles_within M) gs ->
  (1 + 300 * (u * M)) ^ (7 * List.length ops) * (1 + eta / u * sqrt (2 ^ n)) <= 4 ->
  exists phi, fl_run A gs n = Ok (arr n phi) /\
    dist n phi (apply_all ops (ket 0)) <= ((1 + 300 * (u * M)) ^ (7 * List.length ops) - 1) * (1 + eta / u * sqrt (2 ^ n)).
Proof.
  intros A u eta B M n gs ops HR Hu He HM HB Hs HC HW HL.
  assert (GP : 0 <= eta / u * sqrt (2 ^ n)) by (apply (gn_pos A u eta B M); auto; lra).
  destruct (circuit_nearly n (np_rep n) (eta / u * sqrt (2 ^ n)) GP A u eta B M HR Hu He HM HB Hs (fun g => fl_unitary A g n) (fun fuel => fl_single A fuel n)
    (fl_single_eq A n)) with (fuel := 98%nat) (gs := gs) (ops := ops) as [H _]; auto.
  - intros kd tg E. destruct kd; cbn in E; try discriminate; exact I.
  - intros kd tg E. destruct kd; cbn in E; try discriminate; exact I.
  - intros kd tg E. destruct kd; cbn in E; try discriminate; exact I.
  - apply (np_native A u eta B M n); auto.
  - destruct (H (basis0 n, zeros n) (ket 0)) as [s [phi [E [[beta ->] D]]]].
    + exists (fun _ => C0). rewrite arr_basis0, zeros_arr. reflexivity.
    + rewrite norm_ket0. unfold cost. lra.
    + exists phi. split.
      * unfold fl_run. change recursion_limit with 100%nat. rewrite fl_list_for, E. reflexivity.
      * rewrite norm_ket0 in D. exact D.
Qed.

Lemma finite_linear : forall A u eta B M n gs ops, rounds_within A u eta B -> 0 < u -> eta <= u -> 3 <= M -> 128 * M <= B -> 1000 * u * M <= 1 ->
  circuit_ops n gs ops -> Forall (angles_within M) gs -> eta / u * sqrt (2 ^ n) <= 1 -> 4200 * u * M * INR (List.length ops) <= 1 ->
  exists phi, fl_run A gs n = Ok (arr n phi) /\ dist n phi (apply_all ops (ket 0)) <= 4200 * u * M * INR (List.length ops) * (1 + eta / u * sqrt (2 ^ n)).
Proof.
  intros A u eta B M n gs ops HR Hu He HM HB Hs HC HW HG HL.
  assert (GP : 0 <= eta / u * sqrt (2 ^ n)) by (apply (gn_pos A u eta B M); auto; lra).
  assert (K : 2 * INR (7 * List.length ops) * (300 * (u * M)) = 4200 * u * M * INR (List.length ops)) by (rewrite mult_INR; simpl INR; ring).
  assert (P : 0 <= 300 * (u * M)) by nra.
  pose proof (pow_linear (300 * (u * M)) (7 * List.length ops) P) as L. rewrite K in L. specialize (L HL).
  destruct (finite_error A u eta B M n gs ops) as [phi [E D]]; auto.
  - assert (1 <= (1 + 300 * (u * M)) ^ (7 * List.length ops)) by (apply pow_R1_Rle; lra).
    apply Rle_trans with (2 * 2); [apply Rmult_le_compat; lra|lra].
  - exists phi. split; auto. eapply Rle_trans; [exact D|]. apply Rmult_le_compat_r; lra.
Qed.

(** ** The numbers of a format *)
Lemma pz_pos : forall e, 0 < powerRZ 2 e. Proof. intros. apply powerRZ_lt. lra. Qed.
Lemma pz_le : forall a b, (a <= b)%Z -> powerRZ 2 a <= powerRZ 2 b.
Proof.
  intros a b L. rewrite !powerRZ_Rpower by lra. destruct (Z.eq_dec a b) as [->|N]; [lra|]. left. apply Rpower_lt; [lra|]. apply IZR_lt. lia.
Qed.
Lemma pz_add : forall a b, powerRZ 2 (a + b) = powerRZ 2 a * powerRZ 2 b. Proof. intros. apply powerRZ_add. lra. Qed.

Lemma above_err : forall p low x, Rabs (round_above p low x - x) <= / 2 ^ p * Rabs x \/ Rabs (round_above p low x - x) <= powerRZ 2 (low - 1).
Proof.
  intros p low x. unfold round_above. destruct (Req_EM_T x 0) as [->|N].
  { left. rewrite Rminus_0_r, Rabs_R0. lra. }
  cbv zeta. pose proof (log2_bounds x N) as [B _]. cbv zeta in B. set (e := Int_part (ln (Rabs x) / ln 2)) in *.
  set (z := Z.max low (e - Z.of_nat p + 1)). set (s := powerRZ 2 z).
  assert (SP : 0 < s) by apply pz_pos.
  assert (H : Rabs (IZR (Int_part (x / s + 1 / 2)) * s - x) <= s / 2).
  { pose proof (base_Int_part (x / s + 1 / 2)) as [I1 I2]. set (m := Int_part (x / s + 1 / 2)) in *.
    assert (Q : Rabs (IZR m - x / s) <= 1 / 2) by (apply Rabs_le; lra).
    replace (IZR m * s - x) with ((IZR m - x / s) * s) by (field; lra). rewrite Rabs_mult, (Rabs_pos_eq s) by lra. nra. }
  destruct (Z.max_spec low (e - Z.of_nat p + 1)) as [[_ Z1]|[_ Z1]].
  - left. eapply Rle_trans; [exact H|]. unfold s, z. rewrite Z1, unit_eq.
    replace (2 * / 2 ^ p * powerRZ 2 e / 2) with (/ 2 ^ p * powerRZ 2 e) by (field; apply pow_nonzero; lra).
    apply Rmult_le_compat_l; auto. left. apply Rinv_0_lt_compat, pow_lt. lra.
  - right. eapply Rle_trans; [exact H|]. unfold s, z. rewrite Z1. replace low with (low - 1 + 1)%Z at 1 by ring. rewrite pz_add.
    change (powerRZ 2 1) with (2 * 1). lra.
Qed.
Lemma above_digits : forall p low x, exists m e, round_above p low x = IZR m * powerRZ 2 e /\ (Z.abs m <= 2 ^ Z.of_nat p)%Z /\ (low <= e)%Z.
Proof.
  intros p low x. unfold round_above. destruct (Req_EM_T x 0) as [->|N].
  { exists 0%Z, low. split; [lra|]. split; [|lia]. simpl Z.abs. apply Z.pow_nonneg. lia. }
  cbv zeta. pose proof (log2_bounds x N) as [_ B]. cbv zeta in B. set (e := Int_part (ln (Rabs x) / ln 2)) in *.
  set (z := Z.max low (e - Z.of_nat p + 1)). set (s := powerRZ 2 z).
  exists (Int_part (x / s + 1 / 2)), z. split; [reflexivity|]. split; [|unfold z; lia].
  assert (SP : 0 < s) by apply pz_pos. pose proof (pow_lt 2 p ltac:(lra)) as PP.
  assert (LE : powerRZ 2 (e - Z.of_nat p + 1) <= s) by (apply pz_le; unfold z; lia). rewrite unit_eq in LE.
  rewrite pz_add in B. change (powerRZ 2 1) with (2 * 1) in B.
  assert (LB : powerRZ 2 e * (2 * 1) <= 2 ^ p * s).
  { replace (powerRZ 2 e * (2 * 1)) with (2 ^ p * (2 * / 2 ^ p * powerRZ 2 e)) by (field; lra). apply Rmult_le_compat_l; lra. }
  assert (X : Rabs (x / s) < 2 ^ p).
  { unfold Rdiv. rewrite Rabs_mult, (Rabs_pos_eq (/ s)) by (left; apply Rinv_0_lt_compat; auto).
    apply Rmult_lt_reg_r with s; auto. rewrite Rmult_assoc, Rinv_l, Rmult_1_r by lra. lra. }
  apply Rabs_def2 in X. destruct X as [X1 X2].
  pose proof (base_Int_part (x / s + 1 / 2)) as [I1 I2]. set (m := Int_part (x / s + 1 / 2)) in *.
  assert (E2 : IZR (2 ^ Z.of_nat p) = 2 ^ p) by (rewrite <- pow_IZR; reflexivity).
  apply Z.abs_le. assert (m < 2 ^ Z.of_nat p + 1)%Z by (apply lt_IZR; rewrite plus_IZR, E2; lra).
  assert (- 2 ^ Z.of_nat p - 1 < m)%Z by (apply lt_IZR; rewrite minus_IZR, opp_IZR, E2; lra). lia.
Qed.
Lemma above_fix : forall p low m e, (Z.abs m < 2 ^ Z.of_nat p)%Z -> (low <= e)%Z -> round_above p low (IZR m * powerRZ 2 e) = IZR m * powerRZ 2 e.
Proof.
  intros p low m e Hm Hl. unfold round_above. set (x := IZR m * powerRZ 2 e). destruct (Req_EM_T x 0) as [Z0|N]; [congruence|].
  cbv zeta. pose proof (log2_bounds x N) as [B _]. cbv zeta in B. set (k := Int_part (ln (Rabs x) / ln 2)) in *.
  assert (PE : 0 < powerRZ 2 e) by apply pz_pos.
  assert (E2 : IZR (2 ^ Z.of_nat p) = 2 ^ p) by (rewrite <- pow_IZR; reflexivity).
  assert (X : Rabs x < powerRZ 2 (Z.of_nat p + e)).
  { unfold x. rewrite Rabs_mult, (Rabs_pos_eq (powerRZ 2 e)), powerRZ_add, <- pow_powerRZ by lra. apply Rmult_lt_compat_r; auto.
    rewrite <- E2, <- abs_IZR. apply IZR_lt. exact Hm. }
  assert (K : (k < Z.of_nat p + e)%Z).
  { destruct (Z_lt_ge_dec k (Z.of_nat p + e)) as [L|G]; auto. exfalso. pose proof (pz_le (Z.of_nat p + e) k ltac:(lia)). lra. }
  set (z := Z.max low (k - Z.of_nat p + 1)). assert (ZE : (z <= e)%Z) by (unfold z; lia).
  set (d := Z.to_nat (e - z)). assert (D : e = (Z.of_nat d + z)%Z) by (unfold d; lia).
  set (s := powerRZ 2 z). assert (SP : 0 < s) by apply pz_pos.
  assert (XS : x = IZR (m * 2 ^ Z.of_nat d) * s).
  { unfold x. rewrite D at 1. rewrite powerRZ_add, <- pow_powerRZ by lra. rewrite mult_IZR, <- pow_IZR. unfold s. ring. }
  rewrite XS. replace (IZR (m * 2 ^ Z.of_nat d) * s / s) with (IZR (m * 2 ^ Z.of_nat d)) by (field; lra).
  set (j := (m * 2 ^ Z.of_nat d)%Z). f_equal. f_equal. symmetry.
  pose proof (base_Int_part (IZR j + 1 / 2)) as [I1 I2]. set (i := Int_part (IZR j + 1 / 2)) in *.
  assert (i < j + 1)%Z by (apply lt_IZR; rewrite plus_IZR; lra). assert (j < i + 1)%Z by (apply lt_IZR; rewrite plus_IZR; lra). lia.
Qed.

Lemma sqrt_range : forall a B, 0 <= a <= B -> 1 <= B -> sqrt a <= B.
Proof.
  intros a B H L. apply Rsqr_incr_0; [|apply sqrt_pos|lra]. rewrite Rsqr_sqrt by lra. unfold Rsqr. nra.
Qed.
Lemma finite_rounds : forall over p low high B, 2 <= B -> 2 * B <= powerRZ 2 high -> B * B <= powerRZ 2 high -> (low + Z.of_nat p <= 1)%Z ->
  rounds_within (finite_arith over p low high) (/ 2 ^ p) (powerRZ 2 (low - 1)) B.
Proof.
  intros over p low high B HB H1 H2 HL. pose proof (pz_pos (low - 1)) as PE. assert (PU : 0 < / 2 ^ p) by (apply Rinv_0_lt_compat, pow_lt; lra).
  assert (K : forall x, Rabs x <= powerRZ 2 high -> Rabs (round_finite over p low high x - x) <= / 2 ^ p * Rabs x + powerRZ 2 (low - 1)).
  { intros x L. unfold round_finite. destruct (Rle_dec (Rabs x) (powerRZ 2 high)); [|lra].
    assert (0 <= / 2 ^ p * Rabs x) by (apply Rmult_le_pos; [lra|apply Rabs_pos]). destruct (above_err p low x); lra. }
  assert (K1 : forall x, Rabs x <= 1 -> Rabs (round_finite over p low high x - x) <= / 2 ^ p).
  { intros x L. unfold round_finite. destruct (Rle_dec (Rabs x) (powerRZ 2 high)); [|lra]. pose proof (Rabs_pos x).
    destruct (above_err p low x) as [E|E]; eapply Rle_trans; try exact E; [nra|].
    rewrite pow_powerRZ, <- powerRZ_neg'. apply pz_le. lia. }
  split; cbn [finite_arith f_add f_sub f_mul f_div f_sqrt f_cos f_sin f_pi]; intros.
  - apply K. pose proof (Rabs_triang a b). lra.
  - apply K. pose proof (ab_minus a b). lra.
  - apply K. rewrite Rabs_mult. pose proof (Rabs_pos a). pose proof (Rabs_pos b). nra.
  - apply K. unfold Rdiv. pose proof (Rinv_0_lt_compat b ltac:(lra)). assert (/ b <= 1) by (rewrite <- Rinv_1; apply Rinv_le_contravar; lra).
    rewrite Rabs_mult, (Rabs_pos_eq (/ b)) by lra. pose proof (Rabs_pos a). nra.
  - assert (L : sqrt a <= B) by (apply sqrt_range; lra). pose proof (sqrt_pos a) as SP. pose proof (K (sqrt a)) as E. rewrite !(Rabs_pos_eq (sqrt a)) in E by auto. apply E. lra.
  - apply K1, cos_abs.
  - apply K1, sin_abs.
  - pose proof PI_RGT_0. pose proof PI_4. pose proof PI2_3_2. assert (P4 : Rabs PI <= powerRZ 2 high) by (rewrite Rabs_pos_eq by lra; lra).
    unfold round_finite. destruct (Rle_dec (Rabs PI) (powerRZ 2 high)); [|lra]. destruct (above_err p low PI) as [E|E]; (eapply Rle_trans; [exact E|]); rewrite ?Rabs_pos_eq by lra; [lra|].
    apply Rle_trans with (/ 2 ^ p * 1); [|apply Rmult_le_compat_l; lra]. rewrite Rmult_1_r, pow_powerRZ, <- powerRZ_neg'. apply pz_le. lia.
Qed.
Lemma double_rounds : forall over, rounds_within (double_arith over) (/ 2 ^ 53) (powerRZ 2 (-1075)) (powerRZ 2 500).
Proof.
  intros over. apply (finite_rounds over 53 (-1074) 1023).
  - pose proof (pz_le 1 500 ltac:(lia)) as H. change (powerRZ 2 1) with (2 * 1) in H. lra.
  - pose proof (pz_le (1 + 500) 1023 ltac:(lia)) as H. rewrite pz_add in H. change (powerRZ 2 1) with (2 * 1) in H. lra.
  - rewrite <- pz_add. apply pz_le. lia.
  - lia.
Qed.
Lemma double_gap : forall n, (Z.of_nat n <= 2000)%Z -> powerRZ 2 (-1075) / / 2 ^ 53 * sqrt (2 ^ n) <= 1 / 1000.
Proof.
  intros n L. assert (S : sqrt (2 ^ n) <= powerRZ 2 1000).
  { rewrite <- (sqrt_square (powerRZ 2 1000)) by (left; apply pz_pos). apply sqrt_le_1_alt. rewrite <- pz_add, pow_powerRZ. apply pz_le. lia. }
  assert (E : powerRZ 2 (-1075) / / 2 ^ 53 = powerRZ 2 (-1022)).
  { unfold Rdiv. rewrite Rinv_inv, pow_powerRZ, <- pz_add. reflexivity. }
  rewrite E. apply Rle_trans with (powerRZ 2 (-1022) * powerRZ 2 1000); [apply Rmult_le_compat_l; auto; left; apply pz_pos|].
  rewrite <- pz_add. apply Rle_trans with (powerRZ 2 (- (10))); [apply pz_le; lia|]. rewrite powerRZ_neg'. simpl. lra.
Qed.
Lemma double_ieee : forall over n gs ops, (Z.of_nat n <= 2000)%Z -> circuit_ops n gs ops -> Forall (angles_within 7) gs -> (Z.of_nat (List.length ops) <= 1000000)%Z ->
  exists phi, fl_run (double_arith over) gs n = Ok (arr n phi) /\ dist n phi (apply_all ops (ket 0)) <= 1 / 300000.
Proof.
  intros over n gs ops Hn HC HW HL. apply IZR_le in HL. rewrite <- INR_IZR_INZ in HL. pose proof (pos_INR (List.length ops)). pose proof (double_gap n Hn) as G.
  destruct (finite_linear (double_arith over) (/ 2 ^ 53) (powerRZ 2 (-1075)) (powerRZ 2 500) 7 n gs ops (double_rounds over)) as [phi [E D]]; auto.
  - apply Rinv_0_lt_compat, pow_lt. lra.
  - rewrite pow_powerRZ, <- powerRZ_neg'. apply pz_le. lia.
  - lra.
  - pose proof (pz_le 10 500 ltac:(lia)) as H5. assert (T : powerRZ 2 10 = 1024) by (simpl; lra). lra.
  - rewrite pow53. lra.
  - lra.
  - rewrite pow53. lra.
  - exists phi. split; auto. eapply Rle_trans; [exact D|]. set (g := powerRZ 2 (-1075) / / 2 ^ 53 * sqrt (2 ^ n)) in *.
    apply Rle_trans with (4200 * / 2 ^ 53 * 7 * INR (List.length ops) * (1 + 1 / 1000)); [apply Rmult_le_compat_l; [rewrite pow53; lra|lra]|]. rewrite pow53. lra.
Qed.

(** ** Doubles do not have small relative errors *)
Lemma tiny_zero : forall p low x, 0 < x -> x < powerRZ 2 (low - 1) -> (1 <= p)%nat -> round_above p low x = 0.
Proof.
  intros p low x P L HP. unfold round_above. destruct (Req_EM_T x 0); [reflexivity|]. cbv zeta.
  pose proof (log2_bounds x n) as [B _]. cbv zeta in B. set (e := Int_part (ln (Rabs x) / ln 2)) in *. rewrite Rabs_pos_eq in B by lra.
  assert (E : (e < low - 1)%Z).
  { destruct (Z_lt_ge_dec e (low - 1)) as [|G]; auto. pose proof (pz_le (low - 1) e ltac:(lia)). lra. }
  rewrite Z.max_l by lia. set (s := powerRZ 2 low). assert (SP : 0 < s) by apply pz_pos.
  assert (H : x / s < 1 / 2).
  { apply Rmult_lt_reg_r with s; auto. unfold Rdiv. rewrite Rmult_assoc, Rinv_l, Rmult_1_r by lra. eapply Rlt_le_trans; [exact L|].
    unfold s. replace low with (low - 1 + 1)%Z at 2 by ring. rewrite pz_add. change (powerRZ 2 1) with (2 * 1). lra. }
  assert (H0 : 0 < x / s) by (apply Rdiv_lt_0_compat; auto).
  pose proof (base_Int_part (x / s + 1 / 2)) as [I1 I2]. set (i := Int_part (x / s + 1 / 2)) in *.
  assert (i < 1)%Z by (apply lt_IZR; lra). assert (-1 < i)%Z by (apply lt_IZR; lra). replace i with 0%Z by lia. ring.
Qed.
Lemma double_relative : forall over u, u < 1 -> ~ rounds (double_arith over) u.
Proof.
  intros over u L H. pose proof (r_mul _ _ H (powerRZ 2 (-1000)) (powerRZ 2 (-1000))) as M. cbn [double_arith finite_arith f_mul] in M. rewrite <- pz_add in M.
  set (x := powerRZ 2 (-1000 + -1000)) in *. assert (P : 0 < x) by apply pz_pos.
  assert (E : round_finite over 53 (-1074) 1023 x = 0).
  { unfold round_finite. rewrite Rabs_pos_eq by lra. destruct (Rle_dec x (powerRZ 2 1023)) as [_|N].
    - apply tiny_zero; auto; [|lia]. unfold x. assert (powerRZ 2 (-1000 + -1000) < powerRZ 2 (-1074 - 1)); [|auto].
      rewrite !powerRZ_Rpower by lra. apply Rpower_lt; [lra|]. apply IZR_lt. lia.
    - exfalso. apply N. apply pz_le. lia. }
  rewrite E, Rminus_0_l, Rabs_Ropp, Rabs_pos_eq in M by lra. nra.
Qed.

Lemma finite_case : circuit_ops 3 ex_gates ex_ops /\ Forall (angles_within 7) ex_gates /\ (Z.of_nat (List.length ex_ops) <= 1000000)%Z.
Proof.
  split; [exact ex_circuit|]. split; [|cbn; lia]. eapply Forall_impl; [|exact ex_within]. intros g W. unfold angles_within in *. eapply Forall_impl; [|exact W]. intros a Ha. cbv beta in *. lra.
Qed.
