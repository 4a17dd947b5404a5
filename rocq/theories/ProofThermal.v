(** Proofs: with many slices, a slice of quantum annealing follows the law of the thermal state *)
From Coq Require Import List Arith ZArith Bool Reals Lia Lra.
Import ListNotations.
From Verif Require Import Base Cplx Bits SpecQuantum SpecLaw SpecWq SpecOpt SpecAnneal SpecSqa SpecThermal ProofLawStat ProofAnneal ProofSqa ProofTrotter ProofLie.
From Verif Require ProofAnnealConv ProofFloatAgree ProofVqeRun.
Local Open Scope R_scope.

Lemma cpower_ext : forall n A B, (forall b c, A b c = B b c) -> forall k b c, cpower n A k b c = cpower n B k b c.
Proof. intros n A B E. induction k as [|k IH]; intros b c; [reflexivity|]. cbn [cpower]. unfold cmul. apply Rsum_ext. intros d _. rewrite E, IH. reflexivity. Qed.
Lemma exponential_ext : forall n K K' A, (forall b c, K b c = K' b c) -> exponential_of n K A -> exponential_of n K' A.
Proof.
  intros n K K' A E H b c B C eps Heps. destruct (H b c B C eps Heps) as (N & HN). exists N. intros k Hk.
  rewrite (sum_eq _ (fun k => cpower n K k b c / INR (fact k))); [apply HN; exact Hk|]. intros i _. rewrite (cpower_ext n K' K); auto.
Qed.

Lemma lin_deriv : forall a, derivable_pt_lim (fun h => h * a) 0 a.
Proof.
  intros a eps Heps. exists (mkposreal 1 Rlt_0_1). intros h Hh _. replace (((0 + h) * a - 0 * a) / h - a) with 0 by (field; exact Hh). rewrite Rabs_R0. exact Heps.
Qed.
(** [hops a] is the exponential of a sum X *)
Lemma hops_scaled : forall n a b c, In b (values n) -> In c (values n) -> hops (0 * a) b c = is b c /\ derivable_pt_lim (fun h => hops (h * a) b c) 0 (a * field_matrix n b c).
Proof.
  intros n a b c B C. rewrite Rmult_0_l. split; [apply (hops_zero n); auto|].
  assert (D1 : derivable_pt_lim (fun h => h * a) 0 a) by apply lin_deriv.
  assert (D2 : derivable_pt_lim (fun y => hops y b c) (0 * a) (field_matrix n b c)) by (rewrite Rmult_0_l; apply hops_deriv; auto).
  pose proof (derivable_pt_lim_comp (fun h => h * a) (fun y => hops y b c) 0 a _ D1 D2) as M. rewrite (Rmult_comm a). exact M.
Qed.
Lemma hops_power : forall n x k b c, In b (values n) -> In c (values n) -> cpower n (hops x) k b c = hops (INR k * x) b c.
Proof.
  intros n x. induction k as [|k IH]; intros b c B C.
  - cbn [cpower INR]. rewrite Rmult_0_l, (hops_zero n) by auto. reflexivity.
  - cbn [cpower]. rewrite S_INR. replace ((INR k + 1) * x) with (x + INR k * x) by ring. rewrite <- (hops_add n) by auto.
    unfold cmul. apply Rsum_ext. intros d D. rewrite IH by auto. reflexivity.
Qed.
Lemma hops_exponential : forall n a, exponential_of n (fun b c => a * field_matrix n b c) (hops a).
Proof.
  intros n a. destruct (exponential_exists n (fun b c => a * field_matrix n b c)) as (A & HA).
  assert (E : forall b c, In b (values n) -> In c (values n) -> A b c = hops a b c).
  { intros b c B C. pose proof (lie_limit n _ A (fun h => hops (h * a)) HA (hops_scaled n a) b c B C) as L.
    apply (UL_sequence _ _ _ L). intros eps Heps. exists 1%nat. intros P HP. rewrite (hops_power n) by auto.
    assert (0 < INR P) by (apply lt_0_INR; lia). replace (INR P * (/ INR P * a)) with a by (field; lra). rewrite R_dist_eq. exact Heps. }
  intros b c B C. rewrite <- E by auto. apply HA; auto.
Qed.

Section Field.
Variable n : nat.
Variable energy : (nat -> R) -> R.
Variables T G : R.
Hypothesis T0 : 0 < T.
Hypothesis G0 : 0 < G.
Variable A : cmat.
Hypothesis HA : gibbs n (field_hamiltonian n energy G) T A.

Definition step_matrix (h : R) : cmat := fun b c => exp (h * (- energy (spin b) / T)) * hops (h * (G / T)) b c.
Lemma step_trotter : forall P b c, (0 < P)%nat -> step_matrix (/ INR P) b c = trotter n P energy T G b c.
Proof.
  intros P b c HP. unfold step_matrix, trotter. assert (0 < INR P) by (apply lt_0_INR; exact HP). f_equal; f_equal; field; lra.
Qed.
Lemma step_deriv : forall b c, In b (values n) -> In c (values n) ->
  step_matrix 0 b c = is b c /\ derivable_pt_lim (fun h => step_matrix h b c) 0 (- field_hamiltonian n energy G b c / T).
Proof.
  intros b c B C. destruct (hops_scaled n (G / T) b c B C) as (H0 & HD). set (e := - energy (spin b) / T).
  split; [unfold step_matrix; rewrite H0, Rmult_0_l, exp_0; ring|].
  assert (D1 : derivable_pt_lim (fun h => h * e) 0 e) by apply lin_deriv.
  assert (D2 : derivable_pt_lim exp (0 * e) 1) by (rewrite Rmult_0_l, <- exp_0 at 1; apply derivable_pt_lim_exp).
  pose proof (derivable_pt_lim_comp (fun h => h * e) exp 0 e 1 D1 D2) as D3.
  pose proof (derivable_pt_lim_mult (comp exp (fun h => h * e)) (fun h => hops (h * (G / T)) b c) 0 _ _ D3 HD) as D4.
  replace (- field_hamiltonian n energy G b c / T) with (1 * e * hops (0 * (G / T)) b c + comp exp (fun h => h * e) 0 * (G / T * field_matrix n b c)); [exact D4|].
  rewrite H0. unfold comp, field_hamiltonian, e. rewrite Rmult_0_l, exp_0. field. lra.
Qed.
Lemma power_limit : forall b c, In b (values n) -> In c (values n) -> Un_cv (fun P => cpower n (trotter n P energy T G) P b c) (A b c).
Proof.
  intros b c B C eps Heps. destruct (lie_limit n _ A step_matrix HA step_deriv b c B C eps Heps) as (N & HN). exists (S N). intros P HP.
  rewrite <- (cpower_ext n (step_matrix (/ INR P)) (trotter n P energy T G)); [apply HN; lia|]. intros b' c'. apply step_trotter. lia.
Qed.

Lemma hops_nonneg : forall a b c, 0 <= a -> 0 <= hops a b c.
Proof.
  intros a b. induction b as [|s b IH]; intros c Ha; destruct c as [|t c]; cbn; try lra. apply Rmult_le_pos; [|apply IH; exact Ha].
  destruct (bool_dec s t); [left; unfold cosh; pose proof (exp_pos a); pose proof (exp_pos (- a)); lra|].
  unfold sinh. assert (exp (- a) <= exp a); [|lra]. destruct (Req_dec a 0) as [->|N]; [rewrite Ropp_0; lra|]. left. apply exp_increasing. lra.
Qed.
Lemma cosh_ge : forall a, 1 <= cosh a.
Proof.
  intros a. unfold cosh. pose proof (exp_ge a). pose proof (exp_ge (- a)). lra.
Qed.
Lemma hops_diag : forall a b, 1 <= hops a b b.
Proof.
  intros a. induction b as [|s b IH]; cbn; [lra|]. destruct (bool_dec s s) as [_|N]; [|congruence].
  rewrite <- (Rmult_1_l 1). apply Rmult_le_compat; try lra. apply cosh_ge.
Qed.
Lemma diag_power : forall M k c, (forall b d, 0 <= M b d) -> In c (values n) -> (M c c) ^ k <= cpower n M k c c /\ forall b d, 0 <= cpower n M k b d.
Proof.
  intros M k c HM C. induction k as [|k (IH & IHp)].
  - cbn. rewrite is_same. split; [lra|]. intros b d. apply is_range.
  - split; cbn [cpower pow]; unfold cmul.
    + apply Rle_trans with (M c c * cpower n M k c c); [apply Rmult_le_compat_l; auto|].
      apply (ProofAnnealConv.Rsum_ge_one _ (fun d => M c d * cpower n M k d c)); [|exact C]. intros d _. apply Rmult_le_pos; auto.
    + intros b d. apply Rsum_nonneg. intros e _. apply Rmult_le_pos; auto.
Qed.
Lemma trotter_diag : forall P c, (0 < P)%nat -> In c (values n) -> exp (- energy (spin c) / T) <= cpower n (trotter n P energy T G) P c c.
Proof.
  intros P c HP C. assert (Pp : 0 < INR P) by (apply lt_0_INR; exact HP). assert (PT : 0 < INR P * T) by (apply Rmult_lt_0_compat; assumption).
  destruct (diag_power (trotter n P energy T G) P c) as (D & _); [|exact C|].
  { intros b d. unfold trotter. apply Rmult_le_pos; [left; apply exp_pos|]. apply hops_nonneg. apply Rmult_le_pos; [lra|left; apply Rinv_0_lt_compat; exact PT]. }
  apply Rle_trans with (2 := D). apply Rle_trans with (exp (- energy (spin c) / (INR P * T)) ^ P); [right; rewrite exp_pow; f_equal; field; lra|].
  apply pow_incr. split; [left; apply exp_pos|]. unfold trotter. rewrite <- (Rmult_1_r (exp _)) at 1. apply Rmult_le_compat_l; [left; apply exp_pos|apply hops_diag].
Qed.
Lemma gibbs_diag : forall c, In c (values n) -> 0 < A c c.
Proof.
  intros c C. pose proof (exp_pos (- energy (spin c) / T)) as E. destruct (Rlt_dec 0 (A c c)) as [|N]; [assumption|exfalso].
  destruct (power_limit c c C C (exp (- energy (spin c) / T)) E) as (N0 & HN). specialize (HN (S N0) ltac:(lia)). pose proof (trotter_diag (S N0) c ltac:(lia) C) as D.
  unfold R_dist in HN. rewrite Rabs_pos_eq in HN; lra.
Qed.
Lemma values_some : exists c, In c (values n).
Proof. exists (repeat true n). apply values_spec. apply repeat_length. Qed.
Lemma gibbs_trace : 0 < ctrace n A.
Proof.
  destruct values_some as (c & C). apply Rlt_le_trans with (1 := gibbs_diag c C). apply (ProofAnnealConv.Rsum_ge_one _ (fun b => A b b)); [|exact C].
  intros b B. left. apply gibbs_diag. exact B.
Qed.
Lemma sum_limit : forall (l : list (list bool)) (u : list bool -> nat -> R) (v : list bool -> R), (forall b, In b l -> Un_cv (u b) (v b)) -> Un_cv (fun P => Rsum (fun b => u b P) l) (Rsum v l).
Proof.
  induction l as [|a l IH]; intros u v H; cbn [Rsum].
  - intros eps Heps. exists 0%nat. intros k _. rewrite R_dist_eq. exact Heps.
  - apply (CV_plus (u a) (fun P => Rsum (fun b => u b P) l)); [apply H; left; reflexivity|]. apply IH. intros b B. apply H. right. exact B.
Qed.
Lemma trace_limit : Un_cv (fun P => ctrace n (cpower n (trotter n P energy T G) P)) (ctrace n A).
Proof. unfold ctrace. apply (sum_limit (values n) (fun b P => cpower n (trotter n P energy T G) P b b)). intros b B. apply power_limit; exact B. Qed.
Lemma ratio_limit : forall c, In c (values n) ->
  Un_cv (fun P => cpower n (trotter n P energy T G) P c c / ctrace n (cpower n (trotter n P energy T G) P)) (thermal_law n A c).
Proof.
  intros c C. pose proof gibbs_trace as Tr. unfold thermal_law, Rdiv.
  apply (CV_mult (fun P => cpower n (trotter n P energy T G) P c c) (fun P => / ctrace n (cpower n (trotter n P energy T G) P))); [apply power_limit; exact C|].
  apply (continuity_seq Rinv); [|exact trace_limit].
  apply (continuity_pt_inv id); [apply derivable_continuous_pt, derivable_pt_id|]. unfold id. lra.
Qed.
Lemma thermal_positive : forall c, In c (values n) -> 0 < thermal_law n A c.
Proof. intros c C. apply Rdiv_lt_0_compat; [apply gibbs_diag; exact C|exact gibbs_trace]. Qed.
Lemma thermal_total : Rsum (thermal_law n A) (values n) = 1.
Proof. unfold thermal_law, Rdiv. rewrite Rsum_mul_r. unfold ctrace. apply Rinv_r. pose proof gibbs_trace as Tr. unfold ctrace in Tr. lra. Qed.
End Field.

Lemma slices_limit : forall n Q T G A, 0 < T -> 0 < G -> gibbs n (field_hamiltonian n (objective n Q) G) T A -> forall c eps, In c (values n) -> 0 < eps ->
  exists P0, forall P, (P0 <= P)%nat -> Rabs (first_slice n P (boltzmann (P * n) (slices_energy n P (objective n Q) T G) T) c - thermal_law n A c) < eps.
Proof.
  intros n Q T G A T0 G0 HA c eps C Heps. destruct (ratio_limit n (objective n Q) T G T0 G0 A HA c C eps Heps) as (N & HN). exists (S N). intros P HP.
  unfold first_slice. rewrite (trotter_slice n P Q T G) by (auto; lia). apply HN. lia.
Qed.
Lemma answer_limit : forall n Q T G A, (0 < n)%nat -> 0 < T -> 0 < G -> gibbs n (field_hamiltonian n (objective n Q) G) T A -> forall c eps, In c (values n) -> 0 < eps ->
  exists P0, forall P, (P0 <= P)%nat -> forall l, exists k0, forall k, (k0 <= k)%nat ->
  Rabs (first_slice n P (phase_chance (P * n) (field_phases n P (objective n Q) T k (l ++ [G]))) c - thermal_law n A c) < eps.
Proof.
  intros n Q T G A n0 T0 G0 HA c eps C Heps. destruct (slices_limit n Q T G A T0 G0 HA c (eps / 2) C ltac:(lra)) as (P0 & H0).
  exists (Nat.max P0 2). intros P HP l. specialize (H0 P ltac:(lia)). set (D := 2 ^ (P * n)). assert (D0 : 0 < D) by (apply pow_lt; lra).
  destruct (last_field n P Q T n0 ltac:(lia) T0 l G (eps / (2 * D)) G0 ltac:(apply Rdiv_lt_0_compat; lra)) as (k0 & Hk). exists k0. intros k K.
  set (u := phase_chance (P * n) (field_phases n P (objective n Q) T k (l ++ [G]))) in *. set (v := boltzmann (P * n) (slices_energy n P (objective n Q) T G) T) in *.
  assert (E : Rabs (first_slice n P u c - first_slice n P v c) <= eps / 2).
  { unfold first_slice. rewrite <- Rsum_sub. apply Rle_trans with (1 := ProofAnnealConv.Rsum_abs _ _ _).
    apply Rle_trans with (Rsum (fun _ => eps / (2 * D)) (values (P * n))).
    - apply Rsum_below. intros b B. specialize (Hk k K b B). rewrite <- Rmult_minus_distr_r, Rabs_mult. destruct (is_range (slice n b 0) c) as (I0 & I1).
      rewrite (Rabs_pos_eq (is _ _)) by exact I0. apply Rle_trans with (Rabs (u b - v b) * 1); [apply Rmult_le_compat_l; [apply Rabs_pos|exact I1]|rewrite Rmult_1_r; left; exact Hk].
    - rewrite Rsum_const, ProofFloatAgree.values_length, pow_INR. change (INR 2) with 2. fold D. right. field. lra. }
  replace (first_slice n P u c - thermal_law n A c) with ((first_slice n P u c - first_slice n P v c) + (first_slice n P v c - thermal_law n A c)) by ring.
  apply Rle_lt_trans with (1 := Rabs_triang _ _). lra.
Qed.
(** one spin, no energy *)
Lemma free_spin : gibbs 1 (field_hamiltonian 1 (fun _ => 0) 2) 1 (hops 2) /\ thermal_law 1 (hops 2) [true] = / 2.
Proof.
  split.
  - apply exponential_ext with (2 := hops_exponential 1 2). intros b c. unfold field_hamiltonian. field.
  - unfold thermal_law, ctrace. cbn. pose proof (cosh_ge 2). field. lra.
Qed.
