(** Errors of rounded operations and of the loop bodies of the numpy backend *)
From Coq Require Import List Arith ZArith Bool Reals Lia Lra Psatz FunctionalExtensionality.
Import ListNotations.
From Verif Require Import Base Cplx Bits ModelTargets ModelGate ModelNumpy ModelFloat SpecTargets SpecQuantum SpecCircuit SpecFloat
  ProofTargets ProofArray ProofNumpy ProofUnitary ProofPauli ProofRun ProofFloat.
Local Open Scope R_scope.

Section Round.
Variable A : arith.
Variable u : R.
Hypothesis HR : rounds A u.
Hypothesis Hu : u <= 1 / 100.

Lemma u_pos : 0 <= u.
Proof. pose proof (r_cos A u HR 0). pose proof (Rabs_pos (f_cos A 0 - cos 0)). lra. Qed.

Lemma f_sub_err : forall p q a b e f, Rabs (p - a) <= e -> Rabs (q - b) <= f ->
  Rabs (f_sub A p q - (a - b)) <= u * (Rabs (a - b) + e + f) + (e + f).
Proof.
  intros p q a b e f He Hf. pose proof u_pos. pose proof (ab_dif _ _ _ _ _ _ He Hf) as D. pose proof (ab_near _ _ _ D) as N.
  eapply ab_tri; [|exact D]. eapply Rle_trans; [apply (r_sub A u HR)|]. apply Rmult_le_compat_l; lra.
Qed.
Lemma f_add_err : forall p q a b e f, Rabs (p - a) <= e -> Rabs (q - b) <= f ->
  Rabs (f_add A p q - (a + b)) <= u * (Rabs (a + b) + e + f) + (e + f).
Proof.
  intros p q a b e f He Hf. pose proof u_pos. pose proof (ab_sum _ _ _ _ _ _ He Hf) as D. pose proof (ab_near _ _ _ D) as N.
  eapply ab_tri; [|exact D]. eapply Rle_trans; [apply (r_add A u HR)|]. apply Rmult_le_compat_l; lra.
Qed.

Lemma fc_add_err : forall z w, n1 (fc_add A z w - (z + w))%C <= u * (n1 z + n1 w).
Proof.
  intros [a b] [c d]. pose proof u_pos. unfold n1, fc_add, Csub, Cadd, Copp; cbn [fst snd].
  pose proof (r_add A u HR a c) as H1. pose proof (r_add A u HR b d) as H2. unfold Rminus in H1, H2.
  pose proof (Rabs_triang a c). pose proof (Rabs_triang b d). nra.
Qed.
Lemma fc_sub_err : forall z w, n1 (fc_sub A z w - (z - w))%C <= u * (n1 z + n1 w).
Proof.
  intros [a b] [c d]. pose proof u_pos. unfold n1, fc_sub, Csub, Cadd, Copp; cbn [fst snd].
  pose proof (r_sub A u HR a c) as H1. pose proof (r_sub A u HR b d) as H2. unfold Rminus in H1, H2.
  pose proof (ab_minus a c). pose proof (ab_minus b d). unfold Rminus in *. nra.
Qed.
Lemma fc_mul_err : forall z w, n1 (fc_mul A z w - z * w)%C <= 21 / 10 * u * (n1 z * n1 w).
Proof.
  intros [a b] [c d]. pose proof u_pos as P. unfold n1, fc_mul, Csub, Cadd, Copp, Cmul; cbn [fst snd].
  pose proof (f_sub_err _ _ _ _ _ _ (r_mul A u HR a c) (r_mul A u HR b d)) as H1.
  pose proof (f_add_err _ _ _ _ _ _ (r_mul A u HR a d) (r_mul A u HR b c)) as H2.
  unfold Rminus in H1, H2 |- *.
  pose proof (ab_minus (a * c) (b * d)) as T1. pose proof (Rabs_triang (a * d) (b * c)) as T2. unfold Rminus in T1.
  rewrite !Rabs_mult in *.
  pose proof (Rabs_pos a). pose proof (Rabs_pos b). pose proof (Rabs_pos c). pose proof (Rabs_pos d).
  set (p := Rabs a) in *. set (q := Rabs b) in *. set (r := Rabs c) in *. set (s := Rabs d) in *.
  assert (K : forall v m X, 0 <= m -> Rabs v <= m -> X <= u * (Rabs v + u * m) + u * m -> X <= 21 / 10 * u * m).
  { intros v m X M1 M2 M3. assert (u * (Rabs v + u * m) <= u * (m + 1 / 100 * m)).
    { apply Rmult_le_compat_l; auto. assert (u * m <= 1 / 100 * m) by (apply Rmult_le_compat_r; auto). lra. }
    assert (0 <= u * m) by (apply Rmult_le_pos; auto). lra. }
  assert (0 <= p * r) by (apply Rmult_le_pos; auto). assert (0 <= q * s) by (apply Rmult_le_pos; auto).
  assert (0 <= p * s) by (apply Rmult_le_pos; auto). assert (0 <= q * r) by (apply Rmult_le_pos; auto).
  pose proof (K (a * c + - (b * d)) (p * r + q * s) (Rabs (f_sub A (f_mul A a c) (f_mul A b d) + - (a * c + - (b * d)))) ltac:(lra) ltac:(lra) ltac:(lra)) as K1.
  pose proof (K (a * d + b * c) (p * s + q * r) (Rabs (f_add A (f_mul A a d) (f_mul A b c) + - (a * d + b * c))) ltac:(lra) ltac:(lra) ltac:(lra)) as K2.
  lra.
Qed.
(** with errors in the operands *)
Lemma fc_mul_near : forall z w z' w' e f a b, n1 (z - z')%C <= e -> n1 (w - w')%C <= f -> n1 z' <= a -> n1 w' <= b ->
  n1 (fc_mul A z w - z' * w')%C <= 21 / 10 * u * ((a + e) * (b + f)) + (e * (b + f) + a * f).
Proof.
  intros z w z' w' e f a b He Hf Ha Hb. pose proof u_pos.
  pose proof (n1_near _ _ _ He). pose proof (n1_near _ _ _ Hf).
  pose proof (n1_pos z). pose proof (n1_pos w). pose proof (n1_pos z'). pose proof (n1_pos w').
  pose proof (n1_pos (z - z')%C). pose proof (n1_pos (w - w')%C).
  apply n1_tri with (z * w)%C.
  - eapply Rle_trans; [apply fc_mul_err|]. apply Rmult_le_compat_l; [lra|]. apply Rmult_le_compat; lra.
  - replace (z * w - z' * w')%C with ((z - z') * w + z' * (w - w'))%C by ring.
    pose proof (n1_add ((z - z') * w)%C (z' * (w - w'))%C). pose proof (n1_mul (z - z')%C w). pose proof (n1_mul z' (w - w')%C).
    assert (n1 (z - z')%C * n1 w <= e * (b + f)) by (apply Rmult_le_compat; lra).
    assert (n1 z' * n1 (w - w')%C <= a * f) by (apply Rmult_le_compat; lra). lra.
Qed.

(** one product with a coefficient *)
Lemma coef_err : forall a a' x e, n1 (a - a')%C <= e -> n1 a' <= 3 / 2 -> e <= 1 / 10 ->
  n1 (fc_mul A a x - a' * x)%C <= (e + 4 * u) * n1 x /\ n1 (fc_mul A x a - a' * x)%C <= (e + 4 * u) * n1 x.
Proof.
  intros a a' x e He Ha Hs. pose proof u_pos. pose proof (n1_pos x) as Px. pose proof (n1_near _ _ _ He) as N.
  pose proof (n1_pos a) as Pa. pose proof (n1_pos (a - a')%C).
  assert (B : n1 (a * x - a' * x)%C <= e * n1 x).
  { replace (a * x - a' * x)%C with ((a - a') * x)%C by ring. eapply Rle_trans; [apply n1_mul|]. apply Rmult_le_compat_r; auto. }
  assert (D : 21 / 10 * u * (n1 a * n1 x) <= 4 * u * n1 x).
  { assert (n1 a * n1 x <= 16 / 10 * n1 x) by (apply Rmult_le_compat_r; lra). nra. }
  split.
  - eapply Rle_trans; [eapply n1_tri; [apply fc_mul_err|exact B]|]. lra.
  - replace (a' * x)%C with (x * a')%C by ring. replace (a * x - a' * x)%C with (x * a - x * a')%C in B by ring.
    eapply Rle_trans; [eapply n1_tri; [apply fc_mul_err|exact B]|]. rewrite (Rmult_comm (n1 x) (n1 a)). lra.
Qed.
Lemma row_add : forall x y x' y' p q s r, n1 (x - x')%C <= r * p -> n1 (y - y')%C <= r * q -> n1 x' <= s * p -> n1 y' <= s * q ->
  0 <= p -> 0 <= q -> r + s <= 2 -> n1 (fc_add A x y - (x' + y'))%C <= (r + 2 * u) * (p + q).
Proof.
  intros. pose proof u_pos. pose proof (n1_near _ _ _ H). pose proof (n1_near _ _ _ H0).
  eapply Rle_trans; [apply (n1_tri _ (x + y)%C _ (u * (n1 x + n1 y)) (r * (p + q)))|].
  - apply fc_add_err.
  - replace (x + y - (x' + y'))%C with ((x - x') + (y - y'))%C by ring. pose proof (n1_add (x - x')%C (y - y')%C). lra.
  - assert (n1 x + n1 y <= 2 * (p + q)) by nra. nra.
Qed.
Lemma row_sub : forall x y x' y' p q s r, n1 (x - x')%C <= r * p -> n1 (y - y')%C <= r * q -> n1 x' <= s * p -> n1 y' <= s * q ->
  0 <= p -> 0 <= q -> r + s <= 2 -> n1 (fc_sub A x y - (x' - y'))%C <= (r + 2 * u) * (p + q).
Proof.
  intros. pose proof u_pos. pose proof (n1_near _ _ _ H). pose proof (n1_near _ _ _ H0).
  eapply Rle_trans; [apply (n1_tri _ (x - y)%C _ (u * (n1 x + n1 y)) (r * (p + q)))|].
  - apply fc_sub_err.
  - replace (x - y - (x' - y'))%C with ((x - x') - (y - y'))%C by ring. pose proof (n1_sub (x - x')%C (y - y')%C). lra.
  - assert (n1 x + n1 y <= 2 * (p + q)) by nra. nra.
Qed.
Lemma coef_size : forall a x, n1 a <= 3 / 2 -> n1 (a * x)%C <= 3 / 2 * n1 x.
Proof. intros. pose proof (n1_pos x). eapply Rle_trans; [apply n1_mul|]. apply Rmult_le_compat_r; auto. Qed.

(** a row of a matrix *)
Lemma mat_row : forall a a' b b' x y e, n1 (a - a')%C <= e -> n1 a' <= 3 / 2 -> n1 (b - b')%C <= e -> n1 b' <= 3 / 2 -> e <= 1 / 10 ->
  n1 (fc_add A (fc_mul A a x) (fc_mul A b y) - (a' * x + b' * y))%C <= (e + 6 * u) * (n1 x + n1 y) /\
  n1 (fc_add A (fc_mul A x a) (fc_mul A y b) - (a' * x + b' * y))%C <= (e + 6 * u) * (n1 x + n1 y) /\
  n1 (fc_sub A (fc_mul A x a) (fc_mul A y b) - (a' * x - b' * y))%C <= (e + 6 * u) * (n1 x + n1 y).
Proof.
  intros a a' b b' x y e H1 H2 H3 H4 H5. replace (e + 6 * u) with (e + 4 * u + 2 * u) by ring. pose proof u_pos.
  destruct (coef_err a a' x e H1 H2 H5). destruct (coef_err b b' y e H3 H4 H5).
  pose proof (coef_size a' x H2). pose proof (coef_size b' y H4). pose proof (n1_pos x). pose proof (n1_pos y).
  split; [|split]; [eapply row_add|eapply row_add|eapply row_sub]; eauto; lra.
Qed.

Lemma rsqrt2_err : Rabs (fl_rsqrt2 A - / sqrt 2) <= 2 * u.
Proof.
  pose proof u_pos as P. unfold fl_rsqrt2.
  pose proof (r_sqrt A u HR 2 ltac:(lra)) as H.
  pose proof (sqrt_lt_R0 2 ltac:(lra)) as S0. pose proof (sqrt_sqrt 2 ltac:(lra)) as S2.
  set (r := sqrt 2) in *. set (s := f_sqrt A 2) in *.
  assert (S1 : 14 / 10 <= r) by nra.
  assert (L : 99 / 100 * r <= s).
  { pose proof (Rle_abs (- (s - r))). rewrite Rabs_Ropp in H0. nra. }
  assert (SP : 0 < s) by lra.
  assert (I : / s <= 1).
  { rewrite <- Rinv_1. apply Rinv_le_contravar; lra. }
  pose proof (Rinv_0_lt_compat s SP) as IP.
  pose proof (r_div A u HR 1 s ltac:(lra)) as D. replace (1 / s) with (/ s) in D by (field; lra). rewrite (Rabs_pos_eq (/ s)) in D by lra.
  replace (2 * u) with (u + u) by ring. apply ab_tri with (/ s); [nra|].
  replace (/ s - / r) with (- (s - r) * / s * / r) by (field; lra).
  rewrite !Rabs_mult, Rabs_Ropp. pose proof (Rinv_0_lt_compat r S0). rewrite (Rabs_pos_eq (/ s)), (Rabs_pos_eq (/ r)) by lra.
  apply Rle_trans with (u * r * / s * / r).
  - apply Rmult_le_compat_r; [lra|]. apply Rmult_le_compat_r; lra.
  - replace (u * r * / s * / r) with (u * / s) by (field; lra). nra.
Qed.

(** ** cos and sin *)
Lemma sin_le : forall t, Rabs (sin t) <= Rabs t.
Proof.
  assert (PS : forall t, 0 <= t -> sin t <= t).
  { intros t [T| <-]; [left; apply sin_lt_x; auto|rewrite sin_0; lra]. }
  assert (NS : forall t, 0 <= t -> - t <= sin t).
  { intros t T. destruct (Rle_dec t PI) as [L|L]; [pose proof (sin_ge_0 t T L); lra|]. pose proof (SIN_bound t). pose proof PI2_1. lra. }
  intros t. destruct (Rle_dec 0 t) as [T|T].
  - rewrite (Rabs_pos_eq t) by auto. apply Rabs_le. split; [apply NS|apply PS]; auto.
  - rewrite <- (Rabs_Ropp t), <- (Rabs_Ropp (sin t)), <- sin_neg. rewrite (Rabs_pos_eq (- t)) by lra. apply Rabs_le. split; [apply NS|apply PS]; lra.
Qed.
Lemma cos_lip : forall a b, Rabs (cos a - cos b) <= Rabs (a - b).
Proof.
  intros. rewrite form2, !Rabs_mult. rewrite (Rabs_left (-2)) by lra. pose proof (sin_le ((a - b) / 2)) as H.
  unfold Rdiv in H at 2. rewrite Rabs_mult, (Rabs_pos_eq (/ 2)) in H by lra.
  assert (Rabs (sin ((a + b) / 2)) <= 1) by (apply Rabs_le; pose proof (SIN_bound ((a + b) / 2)); lra).
  pose proof (Rabs_pos (sin ((a - b) / 2))). pose proof (Rabs_pos (sin ((a + b) / 2))). nra.
Qed.
Lemma sin_lip : forall a b, Rabs (sin a - sin b) <= Rabs (a - b).
Proof.
  intros. rewrite form4, !Rabs_mult. rewrite (Rabs_pos_eq 2) by lra. pose proof (sin_le ((a - b) / 2)) as H.
  unfold Rdiv in H at 2. rewrite Rabs_mult, (Rabs_pos_eq (/ 2)) in H by lra.
  assert (Rabs (cos ((a + b) / 2)) <= 1) by (apply Rabs_le; pose proof (COS_bound ((a + b) / 2)); lra).
  pose proof (Rabs_pos (sin ((a - b) / 2))). pose proof (Rabs_pos (cos ((a + b) / 2))). nra.
Qed.
Lemma cos_abs : forall a, Rabs (cos a) <= 1. Proof. intros. apply Rabs_le. pose proof (COS_bound a). lra. Qed.
Lemma sin_abs : forall a, Rabs (sin a) <= 1. Proof. intros. apply Rabs_le. pose proof (SIN_bound a). lra. Qed.
Lemma f_cos_err : forall a b d, Rabs (a - b) <= d -> Rabs (f_cos A a - cos b) <= u + d.
Proof. intros. eapply ab_tri; [apply (r_cos A u HR)|]. pose proof (cos_lip a b). lra. Qed.
Lemma f_sin_err : forall a b d, Rabs (a - b) <= d -> Rabs (f_sin A a - sin b) <= u + d.
Proof. intros. eapply ab_tri; [apply (r_sin A u HR)|]. pose proof (sin_lip a b). lra. Qed.
Lemma n1_cis : forall a, n1 (cis a) <= 3 / 2.
Proof. intros. apply n1_unit. rewrite Cnorm2_cis. lra. Qed.
Lemma cis_lip : forall a b, n1 (cis a - cis b)%C <= 2 * Rabs (a - b).
Proof. intros. unfold n1, cis, Csub, Cadd, Copp; cbn [fst snd]. pose proof (cos_lip a b). pose proof (sin_lip a b). unfold Rminus in *. lra. Qed.
Lemma fl_cis_err : forall a b d, Rabs (a - b) <= d -> n1 (fl_cis A a - cis b)%C <= 2 * u + 2 * d.
Proof.
  intros a b d H. unfold n1, fl_cis, cis, Csub, Cadd, Copp; cbn [fst snd]. pose proof (f_cos_err a b d H). pose proof (f_sin_err a b d H). unfold Rminus in *. lra.
Qed.
Lemma n1_RtoC_sub : forall a b, n1 (RtoC a - RtoC b)%C = Rabs (a - b).
Proof. intros. rewrite <- RtoC_sub. apply n1_RtoC. Qed.
Lemma n1_conj_sub : forall a b, n1 (Cconj a - Cconj b)%C = n1 (a - b)%C.
Proof.
  intros [a b] [c d]. unfold n1, Cconj, Csub, Cadd, Copp; cbn [fst snd]. replace (- b + - - d) with (- (b + - d)) by ring. rewrite Rabs_Ropp. reflexivity.
Qed.

(** ** Angles *)
Lemma half_err : forall t M, Rabs t <= M -> Rabs (f_mul A t (1 / 2) - t / 2) <= u * M / 2.
Proof.
  intros t M H. pose proof u_pos. replace (t / 2) with (t * (1 / 2)) by field. eapply Rle_trans; [apply (r_mul A u HR)|].
  rewrite Rabs_mult, (Rabs_pos_eq (1 / 2)) by lra. nra.
Qed.
End Round.
