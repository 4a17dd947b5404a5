(** Proofs: the exponential of a matrix on configurations, and Lie's and Trotter's limits *)
From Coq Require Import List Arith ZArith Bool Reals Lia Lra.
Import ListNotations.
From Verif Require Import Base Cplx Bits SpecQuantum SpecLaw SpecAnneal SpecSqa SpecThermal ProofLawStat ProofAnneal.
From Verif Require ProofAnnealConv ProofVqeRun ProofFloatAgree.
Local Open Scope R_scope.

(** ** Numbers *)
Lemma exp_ge : forall x, 1 + x <= exp x.
Proof. intros x. destruct (Req_dec x 0) as [->|N]; [rewrite exp_0; lra|]. left. apply exp_ineq1. exact N. Qed.
Lemma exp_pow : forall y k, exp y ^ k = exp (INR k * y).
Proof. intros y. induction k as [|k IH]; [cbn; rewrite Rmult_0_l, exp_0; reflexivity|]. cbn [pow]. rewrite IH, <- exp_plus, S_INR. f_equal. ring. Qed.
Lemma pow_upper : forall x P, 0 <= x -> (0 < P)%nat -> (1 + x / INR P) ^ P <= exp x.
Proof.
  intros x P X HP. assert (0 < INR P) by (apply lt_0_INR; exact HP). replace (exp x) with (exp (x / INR P) ^ P) by (rewrite exp_pow; f_equal; field; lra).
  apply pow_incr. split; [|apply exp_ge]. assert (0 <= x / INR P) by (apply Rmult_le_pos; [exact X|left; apply Rinv_0_lt_compat; assumption]). lra.
Qed.
Lemma bernoulli : forall y k, 0 <= y <= 1 -> 1 - INR k * y <= (1 - y) ^ k.
Proof.
  intros y k Y. induction k as [|k IH]; [cbn; lra|]. rewrite S_INR. cbn [pow]. pose proof (pos_INR k) as K.
  assert (A : (1 - y) * (1 - INR k * y) <= (1 - y) * (1 - y) ^ k) by (apply Rmult_le_compat_l; lra).
  assert (B : 0 <= INR k * (y * y)) by (apply Rmult_le_pos; [exact K|apply Rmult_le_pos; lra]). replace ((1 - y) * (1 - INR k * y)) with (1 - (INR k + 1) * y + INR k * (y * y)) in A by ring. lra.
Qed.
Lemma pow_lower : forall x P, 0 <= x -> (0 < P)%nat -> x <= INR P -> exp x - (1 + x / INR P) ^ P <= exp x * (x * x) / INR P.
Proof.
  intros x P X HP XP. assert (Pp : 0 < INR P) by (apply lt_0_INR; exact HP). set (y := x / INR P).
  assert (Y : 0 <= y <= 1).
  { split; [apply Rmult_le_pos; [exact X|left; apply Rinv_0_lt_compat; exact Pp]|]. unfold y. apply (Rmult_le_reg_r (INR P)); [exact Pp|]. unfold Rdiv. rewrite Rmult_assoc, Rinv_l; lra. }
  assert (Ep : exp y * (1 - y) <= 1).
  { pose proof (exp_ge (- y)) as E. assert (A : exp y * (1 + - y) <= exp y * exp (- y)) by (apply Rmult_le_compat_l; [left; apply exp_pos|exact E]).
    rewrite <- exp_plus, Rplus_opp_r, exp_0 in A. lra. }
  assert (Q : exp y * (1 - y * y) <= 1 + y).
  { replace (exp y * (1 - y * y)) with ((exp y * (1 - y)) * (1 + y)) by ring. rewrite <- (Rmult_1_l (1 + y)) at 2. apply Rmult_le_compat_r; lra. }
  assert (Y2 : 0 <= y * y <= 1) by (split; [apply Rmult_le_pos; lra|]; rewrite <- (Rmult_1_l 1); apply Rmult_le_compat; lra).
  assert (B : exp x * (1 - INR P * (y * y)) <= (1 + y) ^ P).
  { apply Rle_trans with ((exp y * (1 - y * y)) ^ P).
    - rewrite Rpow_mult_distr, exp_pow. replace (INR P * y) with x by (unfold y; field; lra). apply Rmult_le_compat_l; [left; apply exp_pos|]. apply bernoulli. exact Y2.
    - apply pow_incr. split; [apply Rmult_le_pos; [left; apply exp_pos|lra]|exact Q]. }
  replace (exp x * (x * x) / INR P) with (exp x * (INR P * (y * y))) by (unfold y; field; lra). lra.
Qed.

(** coefficients of the powers of 1 + h K *)
Fixpoint co (h : R) (p k : nat) : R :=
  match p, k with
  | O, O => 1
  | O, S _ => 0
  | S p, O => 1
  | S p, S k => co h p (S k) + h * co h p k
  end.
Lemma co_zero : forall h p, co h p 0 = 1.
Proof. destruct p; reflexivity. Qed.
Lemma co_above : forall h p k, (p < k)%nat -> co h p k = 0.
Proof. induction p as [|p IH]; intros k K; destruct k; try lia; [reflexivity|]. cbn. rewrite !IH by lia. ring. Qed.
Lemma power_step : forall X h k, 0 <= X -> 0 <= h -> X ^ S k + INR (S k) * h * X ^ k <= (X + h) ^ S k.
Proof.
  intros X h k HX Hh. induction k as [|k IH]; [cbn; lra|].
  assert (A : (X + h) * (X ^ S k + INR (S k) * h * X ^ k) <= (X + h) * (X + h) ^ S k) by (apply Rmult_le_compat_l; lra).
  assert (B : 0 <= INR (S k) * (h * h) * X ^ k).
  { apply Rmult_le_pos; [apply Rmult_le_pos; [apply pos_INR|apply Rmult_le_pos; assumption]|apply pow_le; assumption]. }
  change ((X + h) ^ S (S k)) with ((X + h) * (X + h) ^ S k).
  replace ((X + h) * (X ^ S k + INR (S k) * h * X ^ k)) with (X ^ S (S k) + (INR (S k) + 1) * h * X ^ S k + INR (S k) * (h * h) * X ^ k) in A by (cbn [pow]; ring).
  rewrite (S_INR (S k)). lra.
Qed.
Lemma co_range : forall h p k, 0 <= h -> 0 <= co h p k <= (INR p * h) ^ k / INR (fact k).
Proof.
  intros h p k Hh. revert k. induction p as [|p IH]; intros k.
  - destruct k as [|k]; [cbn; lra|]. cbn [co INR]. rewrite Rmult_0_l, pow_i by lia. unfold Rdiv. rewrite Rmult_0_l. lra.
  - destruct k as [|k]; [cbn; lra|]. cbn [co]. destruct (IH (S k)) as (A & B), (IH k) as (A' & B'). split; [apply Rplus_le_le_0_compat; [exact A|apply Rmult_le_pos; assumption]|].
    assert (X : 0 <= INR p * h) by (apply Rmult_le_pos; [apply pos_INR|exact Hh]). pose proof (power_step (INR p * h) h k X Hh) as Q.
    assert (F : 0 < INR (fact (S k))) by (apply lt_0_INR, lt_O_fact). assert (F' : 0 < INR (fact k)) by (apply lt_0_INR, lt_O_fact).
    assert (E : INR (fact (S k)) = INR (S k) * INR (fact k)) by (rewrite <- mult_INR; reflexivity).
    assert (C : h * co h p k <= h * ((INR p * h) ^ k / INR (fact k))) by (apply Rmult_le_compat_l; assumption).
    rewrite (S_INR p). replace ((INR p + 1) * h) with (INR p * h + h) by ring.
    assert (D : ((INR p * h) ^ S k + INR (S k) * h * (INR p * h) ^ k) / INR (fact (S k)) <= (INR p * h + h) ^ S k / INR (fact (S k))).
    { apply Rmult_le_compat_r; [left; apply Rinv_0_lt_compat; exact F|exact Q]. }
    assert (S0 : 0 < INR (S k)) by (apply lt_0_INR; lia).
    replace (((INR p * h) ^ S k + INR (S k) * h * (INR p * h) ^ k) / INR (fact (S k))) with ((INR p * h) ^ S k / INR (fact (S k)) + h * ((INR p * h) ^ k / INR (fact k))) in D.
    + lra.
    + rewrite E. field. split; apply Rgt_not_eq; assumption.
Qed.
Lemma co_unit : forall P k, (0 < P)%nat -> 0 <= co (/ INR P) P k <= / INR (fact k).
Proof.
  intros P k HP. assert (Pp : 0 < INR P) by (apply lt_0_INR; exact HP). destruct (co_range (/ INR P) P k) as (A & B); [left; apply Rinv_0_lt_compat; exact Pp|].
  rewrite Rinv_r, pow1 in B by lra. unfold Rdiv in B. rewrite Rmult_1_l in B. lra.
Qed.
(** any numbers a_k that a step takes from k to k + 1 *)
Lemma co_expand : forall h (a : nat -> R) N p, (S p <= N)%nat ->
  sum_f_R0 (fun k => co h p k * a k) N + h * sum_f_R0 (fun k => co h p k * a (S k)) (pred N) = sum_f_R0 (fun k => co h (S p) k * a k) N.
Proof.
  intros h a N p HN. rewrite (decomp_sum (fun k => co h p k * a k) N) by lia. rewrite (decomp_sum (fun k => co h (S p) k * a k) N) by lia.
  rewrite scal_sum, Rplus_assoc, <- plus_sum. rewrite co_zero. f_equal. apply sum_eq. intros i _. cbn [co]. ring.
Qed.
Lemma co_number : forall h x p N, (p <= N)%nat -> sum_f_R0 (fun k => co h p k * x ^ k) N = (1 + h * x) ^ p.
Proof.
  intros h x. induction p as [|p IH]; intros N HN.
  - cbn [pow]. destruct N as [|N]; [cbn; ring|]. rewrite decomp_sum by lia. rewrite co_zero. cbn [pow pred].
    rewrite (sum_eq _ (fun _ => 0)) by (intros i _; cbn [co]; ring). rewrite sum_cte. ring.
  - rewrite <- co_expand by exact HN. rewrite (IH N) by lia. cbn [pow].
    replace (sum_f_R0 (fun k => co h p k * (x * x ^ k)) (pred N)) with (x * sum_f_R0 (fun k => co h p k * x ^ k) (pred N)).
    + rewrite (IH (pred N)) by lia. ring.
    + rewrite scal_sum. apply sum_eq. intros i _. ring.
Qed.

(** ** Matrices *)
Section Matrices.
Variable n : nat.
Definition rows (A : cmat) (x : R) : Prop := forall b, In b (values n) -> Rsum (fun c => Rabs (A b c)) (values n) <= x.
Lemma rows_entry : forall A x b c, rows A x -> In b (values n) -> In c (values n) -> Rabs (A b c) <= x.
Proof.
  intros A x b c H B C. apply Rle_trans with (2 := H b B). apply (ProofAnnealConv.Rsum_ge_one _ (fun c => Rabs (A b c))); [intros; apply Rabs_pos|exact C].
Qed.
Lemma rows_ext : forall A B x, (forall b c, In b (values n) -> In c (values n) -> A b c = B b c) -> rows A x -> rows B x.
Proof. intros A B x E H b Ib. rewrite <- (Rsum_ext _ (fun c => Rabs (A b c))); [apply H; exact Ib|]. intros c Ic. rewrite E; auto. Qed.
Lemma rows_weaken : forall A x y, rows A x -> x <= y -> rows A y.
Proof. intros A x y H L b B. apply Rle_trans with (2 := L). apply H. exact B. Qed.
Lemma rows_is : rows is 1.
Proof.
  intros b B. rewrite (ProofVqeRun.Rsum_one _ (fun c => Rabs (is b c)) _ b); [rewrite is_same, Rabs_R1; lra|apply values_nodup|exact B|].
  intros c _ N. rewrite is_other by congruence. apply Rabs_R0.
Qed.
Lemma rows_add : forall A B x y, rows A x -> rows B y -> rows (fun b c => A b c + B b c) (x + y).
Proof.
  intros A B x y HA HB b Ib. apply Rle_trans with (Rsum (fun c => Rabs (A b c) + Rabs (B b c)) (values n)); [apply Rsum_below; intros; apply Rabs_triang|].
  rewrite Rsum_add. apply Rplus_le_compat; auto.
Qed.
Lemma rows_scale : forall A x k, rows A x -> rows (fun b c => k * A b c) (Rabs k * x).
Proof.
  intros A x k HA b Ib. rewrite (Rsum_ext _ _ (fun c => Rabs k * Rabs (A b c))) by (intros; apply Rabs_mult). rewrite Rsum_mul_l.
  apply Rmult_le_compat_l; [apply Rabs_pos|auto].
Qed.
Lemma rows_mul : forall A B x y, 0 <= y -> rows A x -> rows B y -> rows (cmul n A B) (x * y).
Proof.
  intros A B x y Y HA HB b Ib. unfold cmul.
  apply Rle_trans with (Rsum (fun c => Rsum (fun d => Rabs (A b d) * Rabs (B d c)) (values n)) (values n)).
  { apply Rsum_below. intros c _. apply Rle_trans with (1 := ProofAnnealConv.Rsum_abs _ _ _). right. apply Rsum_ext. intros d _. apply Rabs_mult. }
  rewrite Rsum_swap. rewrite (Rsum_ext _ _ (fun d => Rabs (A b d) * Rsum (fun c => Rabs (B d c)) (values n))) by (intros d _; apply Rsum_mul_l).
  apply Rle_trans with (Rsum (fun d => Rabs (A b d) * y) (values n)).
  { apply Rsum_below. intros d Id. apply Rmult_le_compat_l; [apply Rabs_pos|auto]. }
  rewrite Rsum_mul_r. apply Rmult_le_compat_r; [exact Y|auto].
Qed.
Lemma rows_power : forall A x k, 0 <= x -> rows A x -> rows (cpower n A k) (x ^ k).
Proof. intros A x k X H. induction k as [|k IH]; [exact rows_is|]. cbn [cpower pow]. apply rows_mul; [apply pow_le; exact X|exact H|exact IH]. Qed.
Lemma rows_exists : forall A, exists x, 0 <= x /\ rows A x.
Proof.
  intros A. exists (Rsum (fun b => Rsum (fun c => Rabs (A b c)) (values n)) (values n)). split.
  - apply Rsum_nonneg. intros b _. apply Rsum_nonneg. intros. apply Rabs_pos.
  - intros b B. apply (ProofAnnealConv.Rsum_ge_one _ (fun b => Rsum (fun c => Rabs (A b c)) (values n))); [intros; apply Rsum_nonneg; intros; apply Rabs_pos|exact B].
Qed.
Lemma rows_entries : forall A x, (forall b c, In b (values n) -> In c (values n) -> Rabs (A b c) <= x) -> rows A (2 ^ n * x).
Proof.
  intros A x H b B. apply Rle_trans with (Rsum (fun _ => x) (values n)); [apply Rsum_below; auto|]. rewrite Rsum_const, ProofFloatAgree.values_length, pow_INR. right. reflexivity.
Qed.
Lemma is_mul : forall A b c, In b (values n) -> cmul n is A b c = A b c.
Proof.
  intros A b c B. unfold cmul. rewrite (ProofVqeRun.Rsum_one _ (fun d => is b d * A d c) _ b); [rewrite is_same; ring|apply values_nodup|exact B|].
  intros d _ N. rewrite is_other by congruence. ring.
Qed.

Lemma telescope : forall A B M d, 1 <= M -> 0 <= d -> rows A M -> rows B M -> rows (fun b c => A b c - B b c) d ->
  forall p, rows (fun b c => cpower n A p b c - cpower n B p b c) (INR p * M ^ p * d).
Proof.
  intros A B M d M1 D0 HA HB HD. induction p as [|p IH].
  - cbn [cpower INR]. apply rows_ext with (fun b c => 0 * is b c); [intros; ring|]. apply rows_weaken with (Rabs 0 * 1); [apply rows_scale, rows_is|]. rewrite Rabs_R0. lra.
  - apply rows_ext with (fun b c => cmul n A (fun b c => cpower n A p b c - cpower n B p b c) b c + cmul n (fun b c => A b c - B b c) (cpower n B p) b c).
    { intros b c _ _. cbn [cpower]. unfold cmul. rewrite <- Rsum_add, <- Rsum_sub. apply Rsum_ext. intros e _. ring. }
    assert (Mp : 1 <= M ^ p) by (apply pow_R1_Rle; exact M1). pose proof (pos_INR p) as Ip.
    apply rows_weaken with (M * (INR p * M ^ p * d) + d * M ^ p).
    + apply rows_add; apply rows_mul; auto; [|lra|apply rows_power; [lra|exact HB]]. apply Rmult_le_pos; [apply Rmult_le_pos; [exact Ip|lra]|exact D0].
    + rewrite S_INR. cbn [pow]. assert (d * M ^ p <= M * (d * M ^ p)).
      { rewrite <- (Rmult_1_l (d * M ^ p)) at 1. apply Rmult_le_compat_r; [apply Rmult_le_pos; lra|exact M1]. }
      replace ((INR p + 1) * (M * M ^ p) * d) with (M * (INR p * M ^ p * d) + M * (d * M ^ p)) by ring. lra.
Qed.

(** *** 1 + K/P to the power P *)
Lemma sum_inside : forall (f : list bool -> R) (g : nat -> list bool -> R) N, Rsum (fun d => f d * sum_f_R0 (fun k => g k d) N) (values n) = sum_f_R0 (fun k => Rsum (fun d => f d * g k d) (values n)) N.
Proof.
  intros f g. induction N as [|N IH]; [reflexivity|]. cbn [sum_f_R0]. rewrite <- IH, <- Rsum_add. apply Rsum_ext. intros d _. ring.
Qed.
Lemma euler_expand : forall K h p N b c, (p <= N)%nat -> In b (values n) ->
  cpower n (fun b c => is b c + h * K b c) p b c = sum_f_R0 (fun k => co h p k * cpower n K k b c) N.
Proof.
  intros K h. induction p as [|p IH]; intros N b c HN B.
  - cbn [cpower]. destruct N as [|N]; [cbn; ring|]. rewrite decomp_sum by lia. rewrite co_zero. cbn [pred cpower].
    rewrite (sum_eq _ (fun _ => 0)) by (intros i _; cbn [co]; ring). rewrite sum_cte. ring.
  - rewrite <- (co_expand h (fun k => cpower n K k b c)) by exact HN. rewrite <- (IH N) by (auto; lia). cbn [cpower].
    rewrite <- (is_mul (cpower n (fun b c => is b c + h * K b c) p) b c B). unfold cmul.
    rewrite (Rsum_ext _ (fun d => (is b d + h * K b d) * cpower n (fun b c => is b c + h * K b c) p d c)
      (fun d => is b d * cpower n (fun b c => is b c + h * K b c) p d c + h * (K b d * cpower n (fun b c => is b c + h * K b c) p d c))) by (intros; ring).
    rewrite Rsum_add, Rsum_mul_l. f_equal. f_equal.
    rewrite (Rsum_ext _ _ (fun d => K b d * sum_f_R0 (fun k => co h p k * cpower n K k d c) (pred N))).
    2: { intros d Id. rewrite (IH (pred N) d c) by (auto; lia). reflexivity. }
    rewrite (sum_inside (fun d => K b d)). apply sum_eq. intros i _. rewrite <- Rsum_mul_l. apply Rsum_ext. intros d _. ring.
Qed.
Lemma exp_partial : forall x N, 0 <= x -> sum_f_R0 (fun k => / INR (fact k) * x ^ k) N <= exp x.
Proof.
  intros x N X. apply sum_incr.
  - unfold exp. destruct (exist_exp x) as (l & H). cbn. intros eps Heps. destruct (H eps Heps) as (N0 & HN). exists N0. intros k Hk. apply HN. exact Hk.
  - intros k. apply Rmult_le_pos; [left; apply Rinv_0_lt_compat, lt_0_INR, lt_O_fact|apply pow_le; exact X].
Qed.
Lemma euler_close : forall K x P N b c, 0 <= x -> rows K x -> (0 < P)%nat -> (P <= N)%nat -> In b (values n) -> In c (values n) ->
  Rabs (sum_f_R0 (fun k => cpower n K k b c / INR (fact k)) N - cpower n (fun b c => is b c + / INR P * K b c) P b c) <= exp x - (1 + x / INR P) ^ P.
Proof.
  intros K x P N b c X HK HP HN B C. rewrite (euler_expand K (/ INR P) P N b c HN B). rewrite <- minus_sum.
  apply Rle_trans with (sum_f_R0 (fun k => (/ INR (fact k) - co (/ INR P) P k) * x ^ k) N).
  - apply Rle_trans with (1 := sum_f_R0_triangle _ _). apply sum_Rle. intros k _. destruct (co_unit P k HP) as (A & A').
    replace (cpower n K k b c / INR (fact k) - co (/ INR P) P k * cpower n K k b c) with ((/ INR (fact k) - co (/ INR P) P k) * cpower n K k b c) by (unfold Rdiv; ring).
    rewrite Rabs_mult, (Rabs_pos_eq (/ INR (fact k) - _)) by lra. apply Rmult_le_compat_l; [lra|]. apply rows_entry; auto. apply rows_power; auto.
  - rewrite (sum_eq _ (fun k => / INR (fact k) * x ^ k - co (/ INR P) P k * x ^ k)) by (intros; ring). rewrite minus_sum, (co_number (/ INR P) x P N HN).
    replace (/ INR P * x) with (x / INR P) by (unfold Rdiv; ring). pose proof (exp_partial x N X). lra.
Qed.

(** *** The exponential series *)
Lemma exponential_exists : forall K, exists A, exponential_of n K A.
Proof.
  intros K. destruct (rows_exists K) as (x & X & HK).
  assert (Q : forall b c, { l | In b (values n) -> In c (values n) -> infinite_sum (fun k => cpower n K k b c / INR (fact k)) l }).
  { intros b c. destruct (in_dec (list_eq_dec bool_dec) b (values n)) as [B|B]; [|exists 0; contradiction].
    destruct (in_dec (list_eq_dec bool_dec) c (values n)) as [C|C]; [|exists 0; contradiction].
    assert (U : {l | Un_cv (fun N => sum_f_R0 (fun k => cpower n K k b c / INR (fact k)) N) l}).
    { apply cv_cauchy_2. apply cauchy_abs. apply cv_cauchy_1.
      apply (Rseries_CV_comp (fun k => Rabs (cpower n K k b c / INR (fact k))) (fun k => / INR (fact k) * x ^ k)).
      - intros k. split; [apply Rabs_pos|]. assert (F : 0 < / INR (fact k)) by (apply Rinv_0_lt_compat, lt_0_INR, lt_O_fact).
        unfold Rdiv. rewrite Rabs_mult, (Rabs_pos_eq (/ _)) by lra. rewrite Rmult_comm. apply Rmult_le_compat_l; [lra|]. apply rows_entry; auto. apply rows_power; auto.
      - destruct (exist_exp x) as (l & H). exists l. intros eps Heps. destruct (H eps Heps) as (N0 & HN). exists N0. intros k Hk. apply HN. exact Hk. }
    destruct U as (l & U). exists l. intros _ _ eps Heps. destruct (U eps Heps) as (N0 & HN). exists N0. intros k Hk. apply HN. exact Hk. }
  exists (fun b c => proj1_sig (Q b c)). intros b c B C. exact (proj2_sig (Q b c) B C).
Qed.
Lemma euler_limit : forall K A x P b c, exponential_of n K A -> 0 <= x -> rows K x -> (0 < P)%nat -> In b (values n) -> In c (values n) ->
  Rabs (A b c - cpower n (fun b c => is b c + / INR P * K b c) P b c) <= exp x - (1 + x / INR P) ^ P.
Proof.
  intros K A x P b c HA X HK HP B C. apply le_epsilon. intros eps Heps. destruct (HA b c B C eps Heps) as (N0 & HN).
  set (N := Nat.max N0 P). specialize (HN N ltac:(unfold N; lia)). unfold R_dist in HN.
  pose proof (euler_close K x P N b c X HK HP ltac:(unfold N; lia) B C) as E.
  set (sN := sum_f_R0 (fun k => cpower n K k b c / INR (fact k)) N) in *. set (t := cpower n _ P b c) in *.
  replace (A b c - t) with ((sN - t) - (sN - A b c)) by ring. apply Rle_trans with (1 := Rabs_triang _ _). rewrite Rabs_Ropp. lra.
Qed.

(** *** Trotter's limit *)
Lemma eventually_all : forall (X : Type) (l : list X) (Q : X -> nat -> Prop), (forall a, In a l -> exists N, forall P, (N <= P)%nat -> Q a P) ->
  exists N, forall P, (N <= P)%nat -> forall a, In a l -> Q a P.
Proof.
  intros X l Q. induction l as [|a l IH]; intros H; [exists 0%nat; intros P _ a []|].
  destruct (H a (or_introl eq_refl)) as (N1 & H1). destruct IH as (N2 & H2); [intros b B; apply H; right; exact B|].
  exists (Nat.max N1 N2). intros P HP b [->|B]; [apply H1; lia|apply H2; [lia|exact B]].
Qed.
Lemma large : forall x, exists N, (0 < N)%nat /\ forall P, (N <= P)%nat -> x <= INR P.
Proof.
  intros x. destruct (archimed (Rmax x 0)) as (H0 & _). destruct (IZN (up (Rmax x 0))) as (N & HN); [apply le_IZR; pose proof (Rmax_r x 0); lra|]. pose proof (Rmax_l x 0) as HL. assert (H : x < INR N) by (rewrite INR_IZR_INZ, <- HN; lra). exists (S N). split; [lia|]. intros P HP. apply Rle_trans with (INR N); [lra|]. apply le_INR. lia.
Qed.
Lemma lie_limit : forall K A (Sf : R -> cmat), exponential_of n K A ->
  (forall b c, In b (values n) -> In c (values n) -> Sf 0 b c = is b c /\ derivable_pt_lim (fun h => Sf h b c) 0 (K b c)) ->
  forall b c, In b (values n) -> In c (values n) -> Un_cv (fun P => cpower n (Sf (/ INR P)) P b c) (A b c).
Proof.
  intros K A Sf HA HS b c B C eps Heps. destruct (rows_exists K) as (x & X & HK).
  set (D := 2 ^ n). assert (D1 : 1 <= D) by (apply pow_R1_Rle; lra).
  set (e1 := Rmin (/ D) (eps / (3 * D * exp (x + 1)))).
  assert (Ex : 0 < exp (x + 1)) by apply exp_pos.
  assert (E1 : 0 < e1). { apply Rmin_pos; [apply Rinv_0_lt_compat; lra|]. apply Rdiv_lt_0_compat; [exact Heps|]. apply Rmult_lt_0_compat; [lra|exact Ex]. }
  assert (De1 : D * e1 <= 1). { apply Rle_trans with (D * / D); [apply Rmult_le_compat_l; [lra|apply Rmin_l]|]. rewrite Rinv_r; lra. }
  (* the elements of Sf (1/P) *)
  destruct (eventually_all _ (list_prod (values n) (values n)) (fun bc P => (0 < P)%nat -> Rabs (Sf (/ INR P) (fst bc) (snd bc) - (is (fst bc) (snd bc) + / INR P * K (fst bc) (snd bc))) <= e1 / INR P)) as (N1 & H1).
  { intros (b', c') I. apply in_prod_iff in I as (B' & C'). cbn [fst snd]. destruct (HS b' c' B' C') as (S0 & Dv). destruct (Dv e1 E1) as (delta & Hd).
    destruct (large (2 / delta)) as (N & N0 & HN). exists N. intros P HP P0. assert (Pp : 0 < INR P) by (apply lt_0_INR; exact P0). set (h := / INR P).
    assert (h0 : 0 < h) by (apply Rinv_0_lt_compat; exact Pp). pose proof (cond_pos delta) as Dp.
    assert (hd : h < delta).
    { specialize (HN P HP). unfold h. apply (Rmult_lt_reg_r (INR P)); [exact Pp|]. rewrite Rinv_l by lra.
      assert (Q : delta * (2 / delta) <= delta * INR P) by (apply Rmult_le_compat_l; lra). replace (delta * (2 / delta)) with 2 in Q by (field; lra). lra. }
    specialize (Hd h ltac:(lra)). rewrite Rabs_pos_eq in Hd by lra. specialize (Hd hd). rewrite Rplus_0_l, S0 in Hd.
    replace (Sf h b' c' - (is b' c' + h * K b' c')) with (h * ((Sf h b' c' - is b' c') / h - K b' c')) by (field; lra).
    rewrite Rabs_mult, (Rabs_pos_eq h) by lra. replace (e1 / INR P) with (h * e1) by (unfold h; field; lra). apply Rmult_le_compat_l; lra. }
  destruct (large (exp x * (x * x) * 3 / eps + x)) as (N2 & N20 & H2).
  exists (Nat.max (Nat.max N1 N2) 1). intros P HP. unfold R_dist. assert (P0 : (0 < P)%nat) by lia. assert (Pp : 0 < INR P) by (apply lt_0_INR; exact P0).
  specialize (H2 P ltac:(lia)). set (h := / INR P). assert (h0 : 0 < h) by (apply Rinv_0_lt_compat; exact Pp).
  set (T := fun b c => is b c + h * K b c).
  assert (Exx : 0 <= exp x * (x * x)) by (apply Rmult_le_pos; [left; apply exp_pos|apply Rmult_le_pos; exact X]).
  assert (Q0 : 0 <= exp x * (x * x) * 3 / eps) by (apply Rmult_le_pos; [lra|left; apply Rinv_0_lt_compat; exact Heps]).
  (* T to the power P *)
  assert (A1 : Rabs (A b c - cpower n T P b c) <= eps / 3).
  { apply Rle_trans with (1 := euler_limit K A x P b c HA X HK P0 B C). apply Rle_trans with (1 := pow_lower x P X P0 ltac:(lra)).
    apply (Rmult_le_reg_r (INR P)); [exact Pp|]. unfold Rdiv at 1. rewrite Rmult_assoc, Rinv_l, Rmult_1_r by lra.
    assert (W : eps / 3 * (exp x * (x * x) * 3 / eps) <= eps / 3 * INR P) by (apply Rmult_le_compat_l; lra).
    replace (eps / 3 * (exp x * (x * x) * 3 / eps)) with (exp x * (x * x)) in W by (field; lra). exact W. }
  (* Sf to the power P *)
  set (M := 1 + (x + 1) / INR P).
  assert (xP : 0 <= x / INR P) by (apply Rmult_le_pos; [exact X|left; exact h0]).
  assert (M1 : 1 <= M) by (unfold M; replace ((x + 1) / INR P) with (x / INR P + h) by (unfold h; field; lra); lra).
  assert (HT : rows T (1 + x / INR P)).
  { unfold T. apply rows_weaken with (1 + Rabs h * x); [apply rows_add; [exact rows_is|apply rows_scale; exact HK]|]. rewrite (Rabs_pos_eq h) by lra. unfold h. right. unfold Rdiv. ring. }
  assert (HD : rows (fun b c => Sf h b c - T b c) (D * (e1 / INR P))).
  { unfold D. apply rows_entries. intros b' c' B' C'. apply (H1 P ltac:(lia) (b', c')); [apply in_prod; assumption|exact P0]. }
  assert (DeP : D * (e1 / INR P) <= h).
  { replace (D * (e1 / INR P)) with (D * e1 * h) by (unfold h; field; lra). rewrite <- (Rmult_1_l h) at 2. apply Rmult_le_compat_r; lra. }
  assert (HSf : rows (Sf h) M).
  { apply rows_ext with (fun b c => T b c + (Sf h b c - T b c)); [intros; ring|].
    apply rows_weaken with (1 + x / INR P + D * (e1 / INR P)); [apply rows_add; assumption|]. unfold M. replace ((x + 1) / INR P) with (x / INR P + h) by (unfold h; field; lra). lra. }
  assert (HT' : rows T M). { apply rows_weaken with (1 := HT). unfold M. replace ((x + 1) / INR P) with (x / INR P + h) by (unfold h; field; lra). lra. }
  assert (De0 : 0 <= D * (e1 / INR P)) by (apply Rmult_le_pos; [lra|apply Rmult_le_pos; [lra|left; exact h0]]).
  assert (A2 : Rabs (cpower n (Sf h) P b c - cpower n T P b c) <= eps / 3).
  { apply Rle_trans with (1 := rows_entry _ _ b c (telescope (Sf h) T M _ M1 De0 HSf HT' HD P) B C).
    replace (INR P * M ^ P * (D * (e1 / INR P))) with (M ^ P * (D * e1)) by (field; lra).
    apply Rle_trans with (exp (x + 1) * (D * e1)).
    - apply Rmult_le_compat_r; [apply Rmult_le_pos; lra|]. apply pow_upper; [lra|exact P0].
    - apply Rle_trans with (exp (x + 1) * (D * (eps / (3 * D * exp (x + 1))))); [|right; field; split; lra].
      apply Rmult_le_compat_l; [lra|]. apply Rmult_le_compat_l; [lra|apply Rmin_r]. }
  replace (cpower n (Sf h) P b c - A b c) with ((cpower n (Sf h) P b c - cpower n T P b c) - (A b c - cpower n T P b c)) by ring.
  apply Rle_lt_trans with (1 := Rabs_triang _ _). rewrite Rabs_Ropp. lra.
Qed.
End Matrices.
