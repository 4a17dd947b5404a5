(** Proofs: the index array of 32 bits *)
From Coq Require Import List Arith NArith ZArith Bool Reals Lia Lra.
Import ListNotations.
From Verif Require Import Base Cplx Bits ModelNumpy ModelNumpyIndex SpecQuantum ProofArray ProofNumpy.
Local Open Scope nat_scope.

Lemma wrap_small : forall i, (N.of_nat i < 4294967296)%N -> N.to_nat (N.of_nat i mod 4294967296) = i.
Proof. intros i H. rewrite N.mod_small by exact H. apply Nat2N.id. Qed.
Lemma of_pow : forall n, N.of_nat (2 ^ n) = (2 ^ N.of_nat n)%N.
Proof. induction n as [|n IH]; [reflexivity|]. rewrite Nat.pow_succ_r', (Nat2N.inj_mul 2 (2 ^ n)), IH, (Nat2N.inj_succ n), N.pow_succ_r'. reflexivity. Qed.
Lemma indices_same : forall n, n <= 32 -> indices32 n = indices n.
Proof.
  intros n H. unfold indices32, indices. rewrite <- (map_id (seq 0 (2 ^ n))) at 2. apply map_ext_in. intros i I. apply in_seq in I. apply wrap_small.
  assert (N.of_nat i < N.of_nat (2 ^ n))%N by lia. rewrite of_pow in H0. assert (2 ^ N.of_nat n <= 2 ^ 32)%N by (apply N.pow_le_mono_r; lia). change (2 ^ 32)%N with 4294967296%N in H1. lia.
Qed.
Lemma masks_same : forall n target, n <= 32 -> mask32_eq0 n target = mask_eq0 n target /\ mask32_ne0 n target = mask_ne0 n target.
Proof. intros n t H. unfold mask32_eq0, mask32_ne0, mask_eq0, mask_ne0. rewrite (indices_same n H). auto. Qed.
Lemma wrap_mod : forall k i, N.to_nat (N.of_nat i mod 2 ^ N.of_nat k) = i mod 2 ^ k.
Proof. intros k i. rewrite <- of_pow. apply Nat2N.inj. rewrite N2Nat.id, Nat2N.inj_mod. reflexivity. Qed.
Lemma wrap32 : forall k i, k = 32 -> N.to_nat (N.of_nat i mod 4294967296) = i mod 2 ^ k.
Proof. intros k i ->. rewrite <- wrap_mod. reflexivity. Qed.
Lemma wrap_b0 : forall i t, Nat.eqb (Nat.land (N.to_nat (N.of_nat i mod 4294967296)) (Nat.shiftl 1 t)) 0 = if t <? 32 then Nat.eqb (Nat.land i (Nat.shiftl 1 t)) 0 else true.
Proof.
  intros i t. remember 32 as k eqn:K. rewrite (wrap32 k i K), Nat.shiftl_1_l, !land_pow2_eqb. clear K. destruct (Nat.ltb_spec t k).
  - rewrite Nat.mod_pow2_bits_low by auto. reflexivity.
  - rewrite Nat.mod_pow2_bits_high by auto. reflexivity.
Qed.
Lemma masks_low : forall n target, (target < 32)%Z -> mask32_eq0 n target = mask_eq0 n target /\ mask32_ne0 n target = mask_ne0 n target.
Proof.
  intros n t H. unfold mask32_eq0, mask32_ne0, mask_eq0, mask_ne0, indices32, indices. destruct (Z.ltb_spec t 0); auto. assert (L : (Z.to_nat t <? 32) = true) by (apply Nat.ltb_lt; lia).
  rewrite !map_map. split; f_equal; apply map_ext; intros i; rewrite wrap_b0, L; reflexivity.
Qed.
Lemma masks_high : forall n target, (32 <= target)%Z -> mask32_eq0 n target = Ok (map (fun _ => true) (seq 0 (2 ^ n))) /\ mask32_ne0 n target = Ok (map (fun _ => false) (seq 0 (2 ^ n))).
Proof.
  intros n t H. unfold mask32_eq0, mask32_ne0, indices32. destruct (Z.ltb_spec t 0); [lia|]. assert (L : (Z.to_nat t <? 32) = false) by (apply Nat.ltb_ge; lia).
  rewrite !map_map. split; f_equal; apply map_ext; intros i; rewrite wrap_b0, L; reflexivity.
Qed.
Lemma filter_none : forall X (l : list X), filter (fun _ => false) l = []. Proof. induction l; auto. Qed.
Lemma filter_all : forall X (l : list X), filter (fun _ => true) l = l. Proof. induction l as [|a l IH]; auto. cbn. rewrite IH. auto. Qed.
Lemma x_high : forall n target psi newq, (32 <= target)%Z -> step32_x n target (arr n psi, newq) = Err ValueError.
Proof.
  intros n t psi newq H. unfold step32_x, arr. destruct (masks_high n t H) as [-> ->]. cbn [bind]. rewrite np_get_map, filter_none. unfold np_put. rewrite count_true_map, filter_all, seq_length.
  pose proof (pow2_pos n). destruct (Nat.eqb_spec (length (@map nat C psi [])) (2 ^ n)) as [E|E]; [cbn in E; lia|reflexivity].
Qed.
Lemma h_high : forall n target psi newq, (32 <= target)%Z -> step32_h n target (arr n psi, newq) = Err ValueError.
Proof.
  intros n t psi newq H. unfold step32_h, arr. destruct (masks_high n t H) as [-> ->]. cbn [bind]. rewrite !np_get_map, filter_none, filter_all. unfold np_add, np_zip. rewrite map_length, seq_length.
  pose proof (pow2_pos n). destruct (Nat.eqb_spec (2 ^ n) (length (@map nat C psi []))) as [E|E]; [cbn in E; lia|reflexivity].
Qed.
Lemma diag_high : forall a n target psi newq, (32 <= target)%Z -> step32_diag1 a n target (arr n psi, newq) = Ok (arr n psi, newq).
Proof.
  intros a n t psi newq H. unfold step32_diag1, arr. destruct (masks_high n t H) as [_ ->]. cbn [bind]. rewrite np_imul_map. cbn [bind]. reflexivity.
Qed.
Lemma steps_same : forall n target, n <= 32 \/ (target < 32)%Z ->
  (forall s, step32_x n target s = step_x n target s) /\ (forall s, step32_h n target s = step_h n target s) /\ (forall a s, step32_diag1 a n target s = step_diag1 a n target s).
Proof.
  intros n t H. assert (M : mask32_eq0 n t = mask_eq0 n t /\ mask32_ne0 n t = mask_ne0 n t) by (destruct H; [apply masks_same|apply masks_low]; auto).
  destruct M as [E0 E1]. unfold step32_x, step32_h, step32_diag1, step_x, step_h, step_diag1. rewrite E0, E1. auto.
Qed.
Lemma acts32 : forall n t, (0 <= t < Z.of_nat n)%Z -> n <= 32 -> forall psi beta,
  (exists beta', step32_x n t (arr n psi, arr n beta) = Ok (arr n (ap1 mX (Z.to_nat t) psi), arr n beta')) /\
  (exists beta', step32_h n t (arr n psi, arr n beta) = Ok (arr n (ap1 mH (Z.to_nat t) psi), arr n beta')) /\
  (forall a, exists beta', step32_diag1 a n t (arr n psi, arr n beta) = Ok (arr n (ap1 (mk2 C1 C0 C0 a) (Z.to_nat t) psi), arr n beta')).
Proof.
  intros n t Ht Hn psi beta. destruct (steps_same n t (or_introl Hn)) as (E1 & E2 & E3). rewrite E1, E2. split; [|split]; [| |intros a; rewrite E3].
  - apply step_x_acts; auto.
  - apply step_h_acts; auto.
  - apply step_diag1_acts; auto.
Qed.
Lemma high_state : forall k, exists psi, arr (S k) (ap1 (mk2 C1 C0 C0 (- C1)%C) k psi) <> arr (S k) psi.
Proof.
  intros k. exists (fun _ => C1). intros E. assert (L : 2 ^ k < 2 ^ S k) by (rewrite Nat.pow_succ_r'; pose proof (pow2_pos k); lia).
  pose proof (arr_inj _ _ _ E _ L) as X. rewrite ap1_flip in X. unfold bit in X. rewrite Nat.pow2_bits_true in X. cbn [mk2 negb] in X.
  apply (f_equal Cre) in X. revert X. cbn. lra.
Qed.
Lemma index_refuted : exists n target, (0 <= target < Z.of_nat n)%Z /\ (forall psi newq, step32_x n target (arr n psi, newq) = Err ValueError) /\ (forall psi newq, step32_h n target (arr n psi, newq) = Err ValueError) /\
  exists psi, arr n (ap1 (mk2 C1 C0 C0 (- C1)%C) (Z.to_nat target) psi) <> arr n psi /\ forall newq, step32_diag1 (- C1)%C n target (arr n psi, newq) = Ok (arr n psi, newq).
Proof.
  exists 33, 32%Z. split; [lia|]. split; [intros; apply x_high; lia|]. split; [intros; apply h_high; lia|]. destruct (high_state 32) as [psi P]. exists psi. split; [exact P|]. intros. apply diag_high. lia.
Qed.
Lemma high_steps : forall n target psi newq, (32 <= target)%Z -> step32_x n target (arr n psi, newq) = Err ValueError /\ step32_h n target (arr n psi, newq) = Err ValueError /\
  forall a, step32_diag1 a n target (arr n psi, newq) = Ok (arr n psi, newq).
Proof. intros n t psi newq H. split; [apply x_high; auto|]. split; [apply h_high; auto|]. intros a. apply diag_high. auto. Qed.
Lemma index_case : (0 <= 1 < Z.of_nat 2)%Z /\ mask32_eq0 2 1 = Ok [true; true; false; false] /\ mask32_ne0 2 1 = Ok [false; false; true; true].
Proof. split; [lia|]. split; reflexivity. Qed.
