(** Runs in rounded arithmetic *)
From Coq Require Import String List Arith ZArith Bool Reals Lia Lra Psatz FunctionalExtensionality.
Import ListNotations.
From Verif Require Import Base Cplx Bits ModelTargets ModelGate ModelNumpy ModelFloat SpecTargets SpecQuantum SpecCircuit SpecFloat
  ProofTargets ProofArray ProofNumpy ProofUnitary ProofPauli ProofRun ProofMeasure ProofCache ProofExamples ProofFloat ProofFloatOps ProofFloatRun.
Local Open Scope R_scope.

(** ** Without rounding *)
Lemma scaled_exact : forall v s, fl_scaled exact_arith v s = np_scale s v.
Proof. intros. unfold fl_scaled, np_scale. apply map_ext. intros x. change (fc_mul exact_arith x s) with (x * s)%C. apply Cmul_comm. Qed.
Lemma scaled_fun : fl_scaled exact_arith = fun v s => np_scale s v.
Proof. repeat (apply functional_extensionality; intro). apply scaled_exact. Qed.
Lemma imul_exact : fl_imul exact_arith = np_imul.
Proof. repeat (apply functional_extensionality; intro). unfold fl_imul, np_imul. rewrite scaled_exact. reflexivity. Qed.
Lemma h_exact : fl_h exact_arith = step_h.
Proof.
  apply functional_extensionality; intro n. apply functional_extensionality; intro t. apply functional_extensionality; intros [q w]. unfold fl_h, step_h.
  change (fl_add exact_arith) with np_add. change (fl_sub exact_arith) with np_sub. change (fl_rsqrt2 exact_arith) with (1 / sqrt 2).
  destruct (mask_eq0 n t); [|reflexivity]. destruct (mask_ne0 n t); [|reflexivity]. cbn [bind].
  destruct (np_add _ _); [|reflexivity]. cbn [bind]. destruct (np_put _ _ _); [|reflexivity]. cbn [bind].
  destruct (np_sub _ _); [|reflexivity]. cbn [bind]. destruct (np_put _ _ _); [|reflexivity]. cbn [bind]. cbv zeta. rewrite scaled_exact. reflexivity.
Qed.
Lemma diag1_exact : forall a, fl_diag1 exact_arith a = step_diag1 a.
Proof. intros. unfold fl_diag1, step_diag1. rewrite imul_exact. reflexivity. Qed.
Lemma diag01_exact : forall a b, fl_diag01 exact_arith a b = step_diag01 a b.
Proof. intros. unfold fl_diag01, step_diag01. rewrite imul_exact. reflexivity. Qed.
Lemma cdiag1_exact : forall a, fl_cdiag1 exact_arith a = step_cdiag1 a.
Proof. intros. unfold fl_cdiag1, step_cdiag1. rewrite imul_exact. reflexivity. Qed.
Lemma cdiag01_exact : forall a b, fl_cdiag01 exact_arith a b = step_cdiag01 a b.
Proof. intros. unfold fl_cdiag01, step_cdiag01. rewrite imul_exact. reflexivity. Qed.
Lemma u3_exact : forall a b c d, fl_u3 exact_arith a b c d = step_u3 a b c d.
Proof. intros. unfold fl_u3, step_u3. rewrite scaled_fun. reflexivity. Qed.
Lemma ccz_exact : forall n tg, fl_ccz exact_arith n tg = np_ccz n tg.
Proof. intros. unfold fl_ccz, np_ccz. rewrite imul_exact. reflexivity. Qed.
Lemma ccx_exact : forall n tg, fl_ccx exact_arith n tg = np_ccx n tg.
Proof. intros. unfold fl_ccx, np_ccx. rewrite h_exact, ccz_exact. reflexivity. Qed.

Lemma unitary_exact : forall g n, fl_unitary exact_arith g n = np_unitary g n.
Proof.
  intros g n. destruct g as [k tg|k tg|k tg|tg|tg]; try reflexivity; destruct k; try reflexivity; cbn [fl_unitary np_unitary];
    rewrite ?h_exact, ?diag1_exact, ?diag01_exact, ?cdiag1_exact, ?cdiag01_exact, ?u3_exact, ?ccz_exact, ?ccx_exact; reflexivity.
Qed.
Lemma fallback_exact : forall g n, fl_fallback exact_arith g n = fallback g n.
Proof. intros g n. destruct g as [k tg|k tg|k tg|tg|tg]; try reflexivity; destruct k; reflexivity. Qed.
Lemma single_exact : forall fuel n g s, fl_single exact_arith fuel n g s = urun fuel g n s.
Proof.
  induction fuel as [|fuel IH]; intros n g s; cbn [fl_single urun]; unfold urun; fold urun; rewrite unitary_exact; destruct (np_unitary g n); try reflexivity.
  rewrite fallback_exact. destruct (fallback g (Z.of_nat n)) as [gs|e]; [|reflexivity]. cbn [bind].
  revert s. induction gs as [|g' gs IHg]; intros s; cbn [fl_list for_list]; [reflexivity|]. rewrite IH. destruct (urun fuel g' n s); cbn [bind]; auto.
Qed.
Lemma list_exact : forall fuel n gs s, fl_list (fl_single exact_arith fuel n) gs s = for_list gs (fun g => urun fuel g n) s.
Proof.
  induction gs as [|g gs IH]; intros s; cbn [fl_list for_list]; [reflexivity|]. rewrite single_exact. destruct (urun fuel g n s); cbn [bind]; auto.
Qed.

Lemma run_gates_fst : forall rng gs ctx b, fst (np_run_gates rng gs ctx b) = run_list (np_run_single rng recursion_limit) gs ctx.
Proof.
  induction gs as [|g gs IH]; intros ctx b; cbn [np_run_gates run_list]; [reflexivity|]. destruct (np_run_single rng recursion_limit g ctx); [apply IH|reflexivity].
Qed.
Lemma exact_lemma : forall rng gs n pos, Forall no_collapse gs ->
  fst (fst (np_run rng new_backend gs n no_args pos)) = match fl_run exact_arith gs n with Ok v => Ok (RState v) | Err e => Err e end.
Proof.
  intros rng gs n pos H.
  assert (U : forallb unitary gs = true).
  { induction H as [|g gs Hg _ IH]; [reflexivity|]. cbn [forallb]. rewrite IH. destruct g; try reflexivity; destruct Hg. }
  unfold np_run, no_args. change (parse_run_args (RunArgs None None false)) with (Ok (1%Z, "statevector"%string, false)). cbv zeta. cbn [clear_cache_if_invalid new_backend b_cache].
  change (Z.to_nat 1) with 1%nat. cbn [np_shots]. cbn [new_backend b_cache b_idx]. change (Z.to_nat (-1 + 1)) with 0%nat. cbn [skipn].
  pose proof (run_gates_fst rng gs (prepare (new_ctx n pos) None) new_backend) as R.
  rewrite (for_list_lift rng n gs (prepare (new_ctx n pos) None) U eq_refl) in R.
  change (x_qubits (prepare (new_ctx n pos) None)) with (basis0 n) in R. change (x_buf (prepare (new_ctx n pos) None)) with (zeros n) in R.
  unfold fl_run. rewrite list_exact. destruct (np_run_gates rng gs (prepare (new_ctx n pos) None) new_backend) as [sr b']. cbn [fst] in R. subst sr.
  destruct (for_list gs (fun g => urun recursion_limit g n) (basis0 n, zeros n)) as [[q b]|e]; cbn [lift bind fst]; [|reflexivity].
  destruct (x_cregs _); reflexivity.
Qed.

(** ** Errors of runs *)
Lemma zeros_arr : forall n, zeros n = arr n (fun _ => C0).
Proof.
  intros. unfold zeros, arr.
  assert (G : forall k s, repeat C0 k = map (fun _ : nat => C0) (seq s k)) by (induction k as [|k IH]; intros s; cbn [repeat seq map]; [reflexivity|rewrite <- IH; reflexivity]).
  apply G.
Qed.
Lemma norm_ket0 : forall n, norm n (ket 0) = 1.
Proof. intros. unfold norm. rewrite norm2_ket; [apply sqrt_1|]. apply pow2_pos. Qed.

Lemma error_lemma : forall A u M n gs ops, rounds A u -> 3 <= M -> 1000 * u * M <= 1 -> circuit_ops n gs ops -> Forall (angles_within M) gs ->
  exists phi, fl_run A gs n = Ok (arr n phi) /\ dist n phi (apply_all ops (ket 0)) <= (1 + 256 * (u * M)) ^ (7 * List.length ops) - 1.
Proof.
  intros A u M n gs ops HR HM Hs HC HW.
  destruct (circuit_approx A u M HR HM Hs 98 n gs ops HC HW) as [H _].
  destruct (H (ket 0) (fun _ => C0)) as [phi [b' [E D]]]. exists phi. split.
  - unfold fl_run. rewrite arr_basis0, zeros_arr. change recursion_limit with 100%nat. rewrite E. reflexivity.
  - rewrite norm_ket0, Rmult_1_r in D. exact D.
Qed.

Lemma pow_linear : forall x m, 0 <= x -> 2 * INR m * x <= 1 -> (1 + x) ^ m - 1 <= 2 * INR m * x.
Proof.
  intros x m P. induction m as [|m IH]; intros H; [simpl; lra|]. rewrite S_INR in *. pose proof (pos_INR m). cbn [pow].
  assert (I : 2 * INR m * x <= 1) by nra. specialize (IH I). assert ((1 + x) * (1 + x) ^ m <= (1 + x) * (1 + 2 * INR m * x)) by (apply Rmult_le_compat_l; lra).
  assert (2 * INR m * x * x <= 1 * x) by (apply Rmult_le_compat_r; auto). nra.
Qed.
Lemma linear_lemma : forall A u M n gs ops, rounds A u -> 3 <= M -> 1000 * u * M <= 1 -> circuit_ops n gs ops -> Forall (angles_within M) gs ->
  3584 * u * M * INR (List.length ops) <= 1 ->
  exists phi, fl_run A gs n = Ok (arr n phi) /\ dist n phi (apply_all ops (ket 0)) <= 3584 * u * M * INR (List.length ops).
Proof.
  intros A u M n gs ops HR HM Hs HC HW HL. destruct (error_lemma A u M n gs ops HR HM Hs HC HW) as [phi [E D]]. exists phi. split; auto.
  eapply Rle_trans; [exact D|]. pose proof (u_pos A u HR).
  assert (K : 2 * INR (7 * List.length ops) * (256 * (u * M)) = 3584 * u * M * INR (List.length ops)) by (rewrite mult_INR; simpl INR; ring).
  rewrite <- K. apply pow_linear; [|rewrite K; auto]. apply Rmult_le_pos; [lra|]. apply Rmult_le_pos; lra.
Qed.

Lemma exact_norm : forall n gs ops, circuit_ops n gs ops -> norm n (apply_all ops (ket 0)) = 1.
Proof. intros. unfold norm. rewrite (preserves_norm n (apply_all ops)) by (eapply circuit_preserves; eauto). apply norm_ket0. Qed.
Lemma norm_dist : forall n a b, Rabs (norm n a - norm n b) <= dist n a b.
Proof. intros. pose proof (dist_norm n a b). pose proof (dist_norm n b a). rewrite (dist_sym n b a) in *. apply Rabs_le. lra. Qed.

Lemma Cabs_le_norm : forall n a x, (x < 2 ^ n)%nat -> Cabs (a x) <= norm n a.
Proof.
  intros n a x L. unfold Cabs, norm. apply sqrt_le_1_alt. unfold norm2.
  assert (I : In x (seq 0 (2 ^ n))) by (apply in_seq; lia). revert I. generalize (seq 0 (2 ^ n)). induction l as [|y l IH]; [intros []|].
  assert (0 <= Rsum (fun y => Cnorm2 (a y)) l) by (apply Rsum_nonneg; intros; apply Cnorm2_pos). pose proof (Cnorm2_pos (a y)).
  intros [<-|I]; simpl; [lra|]. specialize (IH I). lra.
Qed.
Lemma cnorm_dif : forall z w : C, Rabs (Cnorm2 z - Cnorm2 w) <= Cabs (z - w)%C * (2 * Cabs w + Cabs (z - w)%C).
Proof.
  intros z w. set (d := (z - w)%C). replace z with (w + d)%C by (unfold d; ring).
  assert (N : Cabs d * Cabs d = Cnorm2 d) by (apply sqrt_sqrt, Cnorm2_pos). assert (W : Cabs w * Cabs w = Cnorm2 w) by (apply sqrt_sqrt, Cnorm2_pos).
  assert (E : Cnorm2 (w + d)%C - Cnorm2 w = 2 * (fst w * fst d + snd w * snd d) + Cnorm2 d) by (unfold Cnorm2, Cadd; cbn [fst snd]; ring).
  rewrite E. pose proof (sqrt_pos (Cnorm2 d)) as Pd. pose proof (sqrt_pos (Cnorm2 w)) as Pw. fold (Cabs d) in Pd. fold (Cabs w) in Pw.
  assert (CS : Rabs (fst w * fst d + snd w * snd d) <= Cabs w * Cabs d).
  { apply Rsqr_incr_0_var; [|apply Rmult_le_pos; auto]. rewrite <- Rsqr_abs. unfold Rsqr.
    replace (Cabs w * Cabs d * (Cabs w * Cabs d)) with (Cabs w * Cabs w * (Cabs d * Cabs d)) by ring. rewrite N, W. unfold Cnorm2.
    pose proof (Rle_0_sqr (fst w * snd d - snd w * fst d)). unfold Rsqr in *. nra. }
  pose proof (Rabs_triang (2 * (fst w * fst d + snd w * snd d)) (Cnorm2 d)) as T. rewrite Rabs_mult, (Rabs_pos_eq 2), (Rabs_pos_eq (Cnorm2 d)) in T by (try apply Cnorm2_pos; lra). nra.
Qed.
Lemma prob_lemma : forall n gs ops phi x e, circuit_ops n gs ops -> dist n phi (apply_all ops (ket 0)) <= e -> (x < 2 ^ n)%nat ->
  Rabs (Cnorm2 (phi x) - Cnorm2 (apply_all ops (ket 0) x)) <= e * (2 + e).
Proof.
  intros n gs ops phi x e HC D L. set (psi := apply_all ops (ket 0)) in *.
  pose proof (Cabs_le_norm n (fun x => (phi x - psi x)%C) x L) as A1. cbv beta in A1. fold (dist n phi psi) in A1.
  pose proof (Cabs_le_norm n psi x L) as A2. unfold psi in A2. rewrite (exact_norm n gs ops HC) in A2. fold psi in A2.
  pose proof (sqrt_pos (Cnorm2 (phi x - psi x)%C)) as P1. fold (Cabs (phi x - psi x)%C) in P1. pose proof (sqrt_pos (Cnorm2 (psi x))) as P2. fold (Cabs (psi x)) in P2.
  eapply Rle_trans; [apply cnorm_dif|]. apply Rmult_le_compat; lra.
Qed.

(** ** Arithmetics *)
Lemma biased_rounds : forall u, 0 <= u -> rounds (biased_arith u) u.
Proof.
  intros u P.
  assert (K : forall x, Rabs (x * (1 + u) - x) <= u * Rabs x).
  { intros x. replace (x * (1 + u) - x) with (u * x) by ring. rewrite Rabs_mult, (Rabs_pos_eq u) by auto. lra. }
  split; cbn [biased_arith f_add f_sub f_mul f_div f_sqrt f_cos f_sin f_pi]; intros; try apply K.
  - eapply Rle_trans; [apply K|]. rewrite Rabs_pos_eq by apply sqrt_pos. lra.
  - eapply Rle_trans; [apply K|]. pose proof (cos_abs a). nra.
  - eapply Rle_trans; [apply K|]. pose proof (sin_abs a). nra.
  - eapply Rle_trans; [apply K|]. pose proof PI_RGT_0. rewrite Rabs_pos_eq by lra. lra.
Qed.

Lemma log2_bounds : forall x, x <> 0 -> let e := Int_part (ln (Rabs x) / ln 2) in powerRZ 2 e <= Rabs x < powerRZ 2 (e + 1).
Proof.
  intros x N e. pose proof (Rabs_pos_lt x N) as PX. assert (L2 : 0 < ln 2) by (rewrite <- ln_1; apply ln_increasing; lra).
  assert (Q : ln (Rabs x) / ln 2 * ln 2 = ln (Rabs x)) by (field; lra).
  pose proof (base_Int_part (ln (Rabs x) / ln 2)) as [I1 I2]. fold e in I1, I2.
  rewrite !powerRZ_Rpower by lra. unfold Rpower. replace (Rabs x) with (exp (ln (Rabs x))) by (apply exp_ln; auto). split.
  - assert (H : IZR e * ln 2 <= ln (Rabs x)) by (rewrite <- Q; apply Rmult_le_compat_r; lra).
    destruct (Rle_lt_or_eq_dec _ _ H) as [L|E]; [left; apply exp_increasing; auto|rewrite E; lra].
  - apply exp_increasing. rewrite <- Q. apply Rmult_lt_compat_r; auto. rewrite plus_IZR. lra.
Qed.
Lemma unit_eq : forall p e, powerRZ 2 (e - Z.of_nat p + 1) = 2 * / 2 ^ p * powerRZ 2 e.
Proof.
  intros. replace (e - Z.of_nat p + 1)%Z with (e + - Z.of_nat p + 1)%Z by ring. rewrite !powerRZ_add by lra.
  rewrite powerRZ_neg'. rewrite <- pow_powerRZ. change (powerRZ 2 1) with (2 ^ 1). field. apply pow_nonzero; lra.
Qed.
Lemma round_err : forall p x, Rabs (round_to p x - x) <= / 2 ^ p * Rabs x.
Proof.
  intros p x. unfold round_to. destruct (Req_EM_T x 0) as [->|N].
  { rewrite Rminus_0_r, Rabs_R0. lra. }
  cbv zeta. pose proof (log2_bounds x N) as [B _]. cbv zeta in B. set (e := Int_part (ln (Rabs x) / ln 2)) in *.
  pose proof (unit_eq p e) as S2. set (s := powerRZ 2 (e - Z.of_nat p + 1)) in *.
  assert (SP : 0 < s) by (apply powerRZ_lt; lra).
  pose proof (base_Int_part (x / s + 1 / 2)) as [I1 I2]. set (m := Int_part (x / s + 1 / 2)) in *.
  assert (Q : Rabs (IZR m - x / s) <= 1 / 2) by (apply Rabs_le; lra).
  replace (IZR m * s - x) with ((IZR m - x / s) * s) by (field; lra). rewrite Rabs_mult, (Rabs_pos_eq s) by lra.
  apply Rle_trans with (s / 2); [nra|]. replace (s / 2) with (/ 2 ^ p * powerRZ 2 e) by (rewrite S2; field; apply pow_nonzero; lra).
  apply Rmult_le_compat_l; auto. left. apply Rinv_0_lt_compat, pow_lt. lra.
Qed.
Lemma round_digits : forall p x, exists m e, round_to p x = IZR m * powerRZ 2 e /\ (Z.abs m <= 2 ^ Z.of_nat p)%Z.
Proof.
  intros p x. unfold round_to. destruct (Req_EM_T x 0) as [->|N].
  { exists 0%Z, 0%Z. split; [lra|]. simpl Z.abs. apply Z.pow_nonneg. lia. }
  cbv zeta. pose proof (log2_bounds x N) as [_ B]. cbv zeta in B. set (e := Int_part (ln (Rabs x) / ln 2)) in *.
  pose proof (unit_eq p e) as S2. set (s := powerRZ 2 (e - Z.of_nat p + 1)) in *.
  exists (Int_part (x / s + 1 / 2)), (e - Z.of_nat p + 1)%Z. split; [reflexivity|].
  assert (SP : 0 < s) by (apply powerRZ_lt; lra). pose proof (pow_lt 2 p ltac:(lra)) as PP.
  rewrite powerRZ_add in B by lra. change (powerRZ 2 1) with (2 ^ 1) in B.
  assert (X : Rabs (x / s) < 2 ^ p).
  { unfold Rdiv. rewrite Rabs_mult, (Rabs_pos_eq (/ s)) by (left; apply Rinv_0_lt_compat; auto).
    apply Rmult_lt_reg_r with s; auto. rewrite Rmult_assoc, Rinv_l, Rmult_1_r by lra. rewrite S2.
    replace (2 ^ p * (2 * / 2 ^ p * powerRZ 2 e)) with (powerRZ 2 e * 2 ^ 1) by (field; lra). exact B. }
  apply Rabs_def2 in X. destruct X as [X1 X2].
  pose proof (base_Int_part (x / s + 1 / 2)) as [I1 I2]. set (m := Int_part (x / s + 1 / 2)) in *.
  assert (E2 : IZR (2 ^ Z.of_nat p) = 2 ^ p) by (rewrite <- pow_IZR; reflexivity).
  apply Z.abs_le. assert (m < 2 ^ Z.of_nat p + 1)%Z by (apply lt_IZR; rewrite plus_IZR, E2; lra).
  assert (- 2 ^ Z.of_nat p - 1 < m)%Z by (apply lt_IZR; rewrite minus_IZR, opp_IZR, E2; lra). lia.
Qed.
Lemma round_fix : forall p m e, (Z.abs m < 2 ^ Z.of_nat p)%Z -> round_to p (IZR m * powerRZ 2 e) = IZR m * powerRZ 2 e.
Proof.
  intros p m e Hm. unfold round_to. set (x := IZR m * powerRZ 2 e). destruct (Req_EM_T x 0) as [Z0|N]; [congruence|].
  cbv zeta. pose proof (log2_bounds x N) as [B _]. cbv zeta in B. set (k := Int_part (ln (Rabs x) / ln 2)) in *.
  assert (PE : 0 < powerRZ 2 e) by (apply powerRZ_lt; lra).
  assert (E2 : IZR (2 ^ Z.of_nat p) = 2 ^ p) by (rewrite <- pow_IZR; reflexivity).
  assert (X : Rabs x < powerRZ 2 (Z.of_nat p + e)).
  { unfold x. rewrite Rabs_mult, (Rabs_pos_eq (powerRZ 2 e)), powerRZ_add, <- pow_powerRZ by lra. apply Rmult_lt_compat_r; auto.
    rewrite <- E2, <- abs_IZR. apply IZR_lt. exact Hm. }
  assert (K : (k < Z.of_nat p + e)%Z).
  { destruct (Z_lt_ge_dec k (Z.of_nat p + e)) as [L|G]; auto. exfalso.
    assert (G' : powerRZ 2 (Z.of_nat p + e) <= powerRZ 2 k).
    { rewrite !powerRZ_Rpower by lra. destruct (Z.eq_dec k (Z.of_nat p + e)) as [->|Q]; [lra|]. left. apply Rpower_lt; [lra|]. apply IZR_lt. lia. }
    lra. }
  set (d := Z.to_nat (e - (k - Z.of_nat p + 1))). assert (D : e = (Z.of_nat d + (k - Z.of_nat p + 1))%Z) by (unfold d; lia).
  set (s := powerRZ 2 (k - Z.of_nat p + 1)). assert (SP : 0 < s) by (apply powerRZ_lt; lra).
  assert (XS : x = IZR (m * 2 ^ Z.of_nat d) * s).
  { unfold x. rewrite D, powerRZ_add, <- pow_powerRZ by lra. rewrite mult_IZR, <- pow_IZR. unfold s. ring. }
  rewrite XS. replace (IZR (m * 2 ^ Z.of_nat d) * s / s) with (IZR (m * 2 ^ Z.of_nat d)) by (field; lra).
  set (j := (m * 2 ^ Z.of_nat d)%Z). f_equal. f_equal. symmetry.
  pose proof (base_Int_part (IZR j + 1 / 2)) as [I1 I2]. set (i := Int_part (IZR j + 1 / 2)) in *.
  assert (i < j + 1)%Z by (apply lt_IZR; rewrite plus_IZR; lra). assert (j < i + 1)%Z by (apply lt_IZR; rewrite plus_IZR; lra). lia.
Qed.
Lemma binary_rounds : forall p, rounds (binary_arith p) (/ 2 ^ p).
Proof.
  intros p. assert (P : 0 < / 2 ^ p) by (apply Rinv_0_lt_compat, pow_lt; lra).
  split; cbn [binary_arith f_add f_sub f_mul f_div f_sqrt f_cos f_sin f_pi]; intros; try apply round_err.
  - eapply Rle_trans; [apply round_err|]. rewrite Rabs_pos_eq by apply sqrt_pos. lra.
  - eapply Rle_trans; [apply round_err|]. pose proof (cos_abs a). nra.
  - eapply Rle_trans; [apply round_err|]. pose proof (sin_abs a). nra.
  - eapply Rle_trans; [apply round_err|]. pose proof PI_RGT_0. rewrite Rabs_pos_eq by lra. lra.
Qed.

Lemma pow53 : 2 ^ 53 = 9007199254740992.
Proof. rewrite pow_IZR. f_equal. Qed.
Lemma double_lemma : forall n gs ops, circuit_ops n gs ops -> Forall (angles_within 7) gs -> (Z.of_nat (List.length ops) <= 1000000)%Z ->
  exists phi, fl_run (binary_arith 53) gs n = Ok (arr n phi) /\ dist n phi (apply_all ops (ket 0)) <= 1 / 300000.
Proof.
  intros n gs ops HC HW HL. apply IZR_le in HL. rewrite <- INR_IZR_INZ in HL. pose proof (pos_INR (List.length ops)).
  destruct (linear_lemma (binary_arith 53) (/ 2 ^ 53) 7 n gs ops (binary_rounds 53)) as [phi [E D]]; auto; try (rewrite ?pow53; lra).
  exists phi. split; auto. eapply Rle_trans; [exact D|]. rewrite pow53. lra.
Qed.
Lemma norm_lemma : forall n gs ops phi e, circuit_ops n gs ops -> dist n phi (apply_all ops (ket 0)) <= e -> Rabs (norm n phi - 1) <= e.
Proof. intros n gs ops phi e HC D. rewrite <- (exact_norm n gs ops HC). eapply Rle_trans; [apply norm_dist|exact D]. Qed.

(** ** Cases *)
Lemma biased_case : forall u, fl_run (biased_arith u) [GOne KX (TInt 0); GOne KZ (TInt 0)] 1 = Ok [C0; RtoC (- ((1 + u) * (1 + u)))].
Proof.
  intros u. transitivity (Ok [C0; fc_mul (biased_arith u) C1 (- C1)%C]); [reflexivity|]. unfold fc_mul, biased_arith, RtoC, C1, Copp; cbn [fst snd f_sub f_add f_mul].
  repeat f_equal; ring.
Qed.

Lemma pair_list : forall a b c d a' b' c' d' : R, a = a' -> b = b' -> c = c' -> d = d' -> Ok [(a, b); (c, d)] = Ok [(a', b'); (c', d')] :> res carr.
Proof. intros; subst; reflexivity. Qed.
Lemma rx_biased : forall u theta, let k := 1 + u in let h := theta * (1 / 2) * k in
  fl_run (biased_arith u) [GOne (KRX theta) (TInt 0)] 1 = Ok [RtoC (cos h * k ^ 4); (0, - (sin h * k ^ 6))].
Proof.
  intros u theta k h. set (A := biased_arith u). set (a00 := RtoC (f_cos A (f_mul A theta (1 / 2)))).
  set (a01 := fc_mul A (- Ci)%C (RtoC (f_sin A (f_mul A theta (1 / 2))))).
  transitivity (Ok [fc_add A (fc_mul A a00 C1) (fc_mul A a01 C0); fc_add A (fc_mul A a01 C1) (fc_mul A a00 C0)]); [reflexivity|].
  unfold a00, a01, A, fc_mul, fc_add, biased_arith, RtoC, C1, C0, Ci, Copp; cbn [fst snd f_sub f_add f_mul f_cos f_sin]. fold k. fold h.
  apply pair_list; ring.
Qed.
Lemma rx_exact : forall theta x, (x < 2)%nat -> sem1 (KRX theta) 0 (ket 0) x = match x with O => RtoC (cos (theta / 2)) | _ => (0, - sin (theta / 2)) end.
Proof.
  intros theta x L. destruct x as [|[|x]]; [| |lia]; unfold sem1, ap1, ket; cbn; unfold RtoC, Ci, Copp, Cmul, Cadd, C0, C1; cbn [fst snd];
    change (setb 0 0 false) with 0%nat || change (setb 1 0 false) with 0%nat; change (setb 0 0 true) with 1%nat || change (setb 1 0 true) with 1%nat;
    cbn [Nat.eqb fst snd]; f_equal; ring.
Qed.
Lemma angles_lemma : forall u, 0 < u -> exists theta phi, fl_run (biased_arith u) [GOne (KRX theta) (TInt 0)] 1 = Ok (arr 1 phi) /\
  2 <= dist 1 phi (sem1 (KRX theta) 0 (ket 0)).
Proof.
  intros u P. set (theta := 2 * PI / u). set (k := 1 + u). set (h := theta / 2).
  assert (K1 : 1 <= k) by (unfold k; lra). assert (K4 : 1 <= k ^ 4) by (apply pow_R1_Rle; auto). assert (K6 : 1 <= k ^ 6) by (apply pow_R1_Rle; auto).
  assert (H : theta * (1 / 2) * k = h + PI) by (unfold h, k, theta; field; lra).
  exists theta, (fun x => match x with O => RtoC (- cos h * k ^ 4) | _ => (0, sin h * k ^ 6) end). split.
  - rewrite rx_biased. cbv zeta. fold k. rewrite H, neg_cos, neg_sin. unfold arr. cbn [Nat.pow Nat.mul Nat.add seq map]. unfold RtoC. apply pair_list; ring.
  - unfold dist, norm, norm2. rewrite <- (sqrt_square 2) by lra. apply sqrt_le_1_alt. cbn [Nat.pow Nat.mul Nat.add seq]. cbn [Rsum].
    rewrite !rx_exact by lia. fold h. unfold Cnorm2, Csub, Cadd, Copp, RtoC; cbn [fst snd].
    pose proof (sin2_cos2 h) as SC. unfold Rsqr in SC.
    assert (A1 : 4 * (cos h * cos h) <= (1 + k ^ 4) * (1 + k ^ 4) * (cos h * cos h)) by (apply Rmult_le_compat_r; [apply Rle_0_sqr|nra]).
    assert (A2 : 4 * (sin h * sin h) <= (1 + k ^ 6) * (1 + k ^ 6) * (sin h * sin h)) by (apply Rmult_le_compat_r; [apply Rle_0_sqr|nra]).
    nra.
Qed.

Lemma ex_within : Forall (angles_within 3) ProofExamples.ex_gates.
Proof. unfold ProofExamples.ex_gates. repeat (apply Forall_cons; [unfold angles_within; cbn; repeat (apply Forall_cons; [apply Rabs_le; lra|]); apply Forall_nil|]); apply Forall_nil. Qed.
Lemma angles_both : forall u, 0 < u -> rounds (biased_arith u) u /\ exists theta phi, fl_run (biased_arith u) [GOne (KRX theta) (TInt 0)] 1 = Ok (arr 1 phi) /\
  2 <= dist 1 phi (sem1 (KRX theta) 0 (ket 0)).
Proof. intros u P. split; [exact (biased_rounds u (Rlt_le _ _ P))|exact (angles_lemma u P)]. Qed.
Lemma float_case : circuit_ops 3 ex_gates ex_ops /\ Forall (angles_within 3) ex_gates /\ rounds (biased_arith (1 / 1000000)) (1 / 1000000) /\ 1000 * (1 / 1000000) * 3 <= 1.
Proof. split; [exact ex_circuit|]. split; [exact ex_within|]. split; [apply biased_rounds; lra|lra]. Qed.
