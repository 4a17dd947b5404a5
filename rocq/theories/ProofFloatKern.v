(** The loop bodies of the numpy backend in rounded arithmetic *)
From Coq Require Import List Arith ZArith Bool Reals Lia Lra Psatz FunctionalExtensionality.
Import ListNotations.
From Verif Require Import Base Cplx Bits ModelTargets ModelGate ModelNumpy ModelFloat SpecTargets SpecQuantum SpecCircuit SpecFloat
  ProofTargets ProofArray ProofNumpy ProofUnitary ProofPauli ProofRun ProofFloat ProofFloatOps.
Local Open Scope R_scope.

Definition near (a a' : C) (e : R) : Prop := n1 (a - a')%C <= e /\ n1 a' <= 3 / 2.
Lemma near_le : forall a a' e f, near a a' e -> e <= f -> near a a' f.
Proof. intros a a' e f [H H'] L. split; auto. lra. Qed.
Lemma near_self : forall a, n1 a <= 3 / 2 -> near a a 0.
Proof. intros. split; auto. rewrite n1_self. lra. Qed.

Lemma approx_pair : forall n t f U r, (t < n)%nat -> 0 <= r ->
  (forall psi beta, exists phi beta', f (arr n psi, arr n beta) = Ok (arr n phi, arr n beta') /\
    forall x, (x < 2 ^ n)%nat -> n1 (phi x - U psi x)%C <= r * (n1 (psi x) + n1 (psi (flip x t)))) ->
  approx n f U (3 * r).
Proof.
  intros n t f U r T P H psi beta. destruct (H psi beta) as [phi [b' [E B]]]. exists phi, b'. split; auto.
  apply (pair_bound n t); auto.
Qed.
Lemma acts_approx : forall n f U, acts n f U -> approx n f U 0.
Proof. intros n f U H psi beta. destruct (H psi beta) as [b' E]. exists (U psi), b'. split; auto. rewrite dist_self. lra. Qed.

Section Kern.
Variable A : arith.
Variable u : R.
Hypothesis HR : rounds A u.
Hypothesis Hu : u <= 1 / 100.

Lemma fl_scale_map : forall s (f : nat -> C) S, fl_scale A s (map f S) = map (fun i => fc_mul A s (f i)) S.
Proof. intros. unfold fl_scale. apply map_map. Qed.
Lemma fl_scaled_map : forall s (f : nat -> C) S, fl_scaled A (map f S) s = map (fun i => fc_mul A (f i) s) S.
Proof. intros. unfold fl_scaled. apply map_map. Qed.
Lemma fl_imul_arr : forall n f a s,
  fl_imul A (arr n a) (map f (seq 0 (2 ^ n))) s = Ok (arr n (fun i => if f i then fc_mul A (a i) s else a i)).
Proof. intros. unfold fl_imul. rewrite get_same, fl_scaled_map. apply put_arr. Qed.
Lemma fl_add_map : forall (a b : nat -> C) S, fl_add A (map a S) (map b S) = Ok (map (fun i => fc_add A (a i) (b i)) S).
Proof. intros. apply np_zip_map. Qed.
Lemma fl_sub_map : forall (a b : nat -> C) S, fl_sub A (map a S) (map b S) = Ok (map (fun i => fc_sub A (a i) (b i)) S).
Proof. intros. apply np_zip_map. Qed.
Lemma fl_scaled_arr : forall n s a, fl_scaled A (arr n a) s = arr n (fun i => fc_mul A (a i) s).
Proof. intros. apply fl_scaled_map. Qed.

Lemma h_row : forall x y, n1 (fc_mul A (fc_add A x y) (RtoC (fl_rsqrt2 A)) - RtoC (/ sqrt 2) * (x + y))%C <= 6 * u * (n1 x + n1 y) /\
  n1 (fc_mul A (fc_sub A x y) (RtoC (fl_rsqrt2 A)) - RtoC (/ sqrt 2) * (x - y))%C <= 6 * u * (n1 x + n1 y).
Proof.
  intros x y. pose proof (u_pos A u HR) as P. pose proof (n1_pos x) as Px. pose proof (n1_pos y) as Py.
  assert (R1 : n1 (RtoC (/ sqrt 2)) <= 1).
  { rewrite n1_RtoC. pose proof (sqrt_lt_R0 2 ltac:(lra)) as S0. pose proof (sqrt_sqrt 2 ltac:(lra)) as S2.
    rewrite Rabs_pos_eq by (left; apply Rinv_0_lt_compat; auto). rewrite <- Rinv_1. apply Rinv_le_contravar; [lra|nra]. }
  assert (R2 : n1 (RtoC (fl_rsqrt2 A) - RtoC (/ sqrt 2))%C <= 2 * u) by (rewrite n1_RtoC_sub; apply (rsqrt2_err A u HR Hu)).
  set (T := n1 x + n1 y) in *. assert (0 <= T) by (unfold T; lra).
  assert (K : 21 / 10 * u * ((T + u * T) * (1 + 2 * u)) + (u * T * (1 + 2 * u) + T * (2 * u)) <= 6 * u * T).
  { assert (0 <= u * T) by (apply Rmult_le_pos; auto).
    assert ((1 + u) * (1 + 2 * u) <= 11 / 10) by nra.
    replace (21 / 10 * u * ((T + u * T) * (1 + 2 * u)) + (u * T * (1 + 2 * u) + T * (2 * u)))
      with (u * T * (21 / 10 * ((1 + u) * (1 + 2 * u)) + (1 + 2 * u) + 2)) by ring.
    replace (6 * u * T) with (u * T * 6) by ring. apply Rmult_le_compat_l; lra. }
  split; eapply Rle_trans; try exact K; rewrite (Cmul_comm (RtoC (/ sqrt 2))); apply (fc_mul_near A u HR Hu); auto.
  - apply (fc_add_err A u HR).
  - apply n1_add.
  - apply (fc_sub_err A u HR).
  - apply n1_sub.
Qed.

Section One.
Variable n : nat.
Variable t : Z.
Hypothesis Ht : inside n t.
Let v := Z.to_nat t.
Let vlt : (v < n)%nat := u_lt n t Ht.
Let tpos : (0 <= t)%Z := t_pos n t Ht.

Ltac start := let psi := fresh "psi" in let beta := fresh "beta" in intros psi beta; eexists; eexists;
  cbn -[np_put np_get fl_add fl_sub mask_and fl_imul fl_scale fl_scaled arr];
  rewrite ?(mask_eq0_ok n t tpos), ?(mask_ne0_ok n t tpos); fold v;
  cbn -[np_put np_get fl_add fl_sub mask_and fl_imul fl_scale fl_scaled arr].
Ltac fin := split; [reflexivity|]; let x := fresh "x" in intros x _; rewrite ap1_flip; unfold b0, b1.

Lemma fl_y_approx : approx n (fl_y A n t) (ap1 mY v) (3 * (4 * u)).
Proof.
  pose proof (u_pos A u HR) as P. apply approx_pair with v; [auto|lra|]. start.
  rewrite get_10, fl_scale_map, put_arr by auto. simpl bind. rewrite get_01, fl_scale_map, put_arr by auto. simpl bind. fin.
  assert (K : forall a x, n1 a <= 3 / 2 -> n1 (fc_mul A a x - a * x)%C <= 4 * u * n1 x).
  { intros a z Ha. destruct (coef_err A u HR Hu a a z 0) as [K _]; rewrite ?n1_self; auto; lra. }
  assert (I1 : n1 Ci <= 3 / 2) by (unfold n1, Ci; simpl; rewrite Rabs_R0, Rabs_R1; lra).
  assert (I2 : n1 (- Ci)%C <= 3 / 2) by (rewrite n1_opp; auto).
  pose proof (n1_pos (psi x)). destruct (bit x v); simpl.
  - replace (C0 * psi x + Ci * psi (flip x v))%C with (Ci * psi (flip x v))%C by ring. pose proof (K Ci (psi (flip x v)) I1). nra.
  - replace (C0 * psi x + - Ci * psi (flip x v))%C with (- Ci * psi (flip x v))%C by ring. pose proof (K (- Ci)%C (psi (flip x v)) I2). nra.
Qed.

Lemma fl_h_approx : approx n (fl_h A n t) (ap1 mH v) (3 * (6 * u)).
Proof.
  pose proof (u_pos A u HR) as P. apply approx_pair with v; [auto|lra|]. start.
  rewrite get_10, get_same, fl_add_map by auto. simpl bind. rewrite put_arr. simpl bind.
  rewrite <- get_same, <- get_10 by auto. rewrite get_01, get_same, fl_sub_map by auto. simpl bind. rewrite put_arr. simpl bind.
  rewrite fl_scaled_arr. fin. unfold mH, mscale. destruct (bit x v); simpl.
  - destruct (h_row (psi (flip x v)) (psi x)) as [_ K].
    replace (RtoC (/ sqrt 2) * - C1 * psi x + RtoC (/ sqrt 2) * C1 * psi (flip x v))%C with (RtoC (/ sqrt 2) * (psi (flip x v) - psi x))%C by ring. lra.
  - destruct (h_row (psi x) (psi (flip x v))) as [K _].
    replace (RtoC (/ sqrt 2) * C1 * psi x + RtoC (/ sqrt 2) * C1 * psi (flip x v))%C with (RtoC (/ sqrt 2) * (psi x + psi (flip x v)))%C by ring. lra.
Qed.

Lemma fl_mat_approx : forall a00 a01 a10 a11 b00 b01 b10 b11 e, near a00 b00 e -> near a01 b01 e -> near a10 b10 e -> near a11 b11 e ->
  0 <= e <= 1 / 10 -> approx n (fl_mat A a00 a01 a10 a11 n t) (ap1 (mk2 b00 b01 b10 b11) v) (3 * (e + 6 * u)).
Proof.
  intros a00 a01 a10 a11 b00 b01 b10 b11 e [H1 H1'] [H2 H2'] [H3 H3'] [H4 H4'] He.
  pose proof (u_pos A u HR) as P. apply approx_pair with v; [auto|lra|]. start.
  rewrite get_10, get_same, !fl_scale_map, fl_add_map by auto. simpl bind. rewrite put_arr. simpl bind.
  rewrite <- !fl_scale_map, <- get_same, <- get_10 by auto.
  rewrite get_01, get_same, !fl_scale_map, fl_add_map by auto. simpl bind. rewrite put_arr. simpl bind. fin. destruct (bit x v); simpl.
  - destruct (mat_row A u HR Hu a10 b10 a11 b11 (psi (flip x v)) (psi x) e) as [K _]; auto; [lra|].
    rewrite (Cadd_comm (b11 * psi x)%C). lra.
  - destruct (mat_row A u HR Hu a00 b00 a01 b01 (psi x) (psi (flip x v)) e) as [K _]; auto. lra.
Qed.

Lemma fl_u3_approx : forall a00 a01 a10 a11 b00 b01 b10 b11 e, near a00 b00 e -> near a01 b01 e -> near a10 b10 e -> near a11 b11 e ->
  0 <= e <= 1 / 10 -> approx n (fl_u3 A a00 a01 a10 a11 n t) (ap1 (mk2 b00 (- b01)%C b10 b11) v) (3 * (e + 6 * u)).
Proof.
  intros a00 a01 a10 a11 b00 b01 b10 b11 e [H1 H1'] [H2 H2'] [H3 H3'] [H4 H4'] He.
  pose proof (u_pos A u HR) as P. apply approx_pair with v; [auto|lra|]. start.
  rewrite get_same, fl_scaled_map, put_arr. simpl bind.
  rewrite get_same. rewrite get_10, fl_scaled_map, fl_sub_map by auto. simpl bind. rewrite put_arr. simpl bind.
  rewrite <- (get_same n (b0 v) psi). rewrite get_01, fl_scaled_map, put_arr by auto. simpl bind.
  rewrite <- (get_10 n v psi) by auto. rewrite !get_same, fl_scaled_map, fl_add_map. simpl bind. rewrite put_arr. simpl bind. fin.
  destruct (bit x v) eqn:E; simpl; rewrite ?E; simpl.
  - destruct (mat_row A u HR Hu a10 b10 a11 b11 (psi (flip x v)) (psi x) e) as [_ [K _]]; auto; [lra|].
    rewrite (Cadd_comm (b11 * psi x)%C). lra.
  - destruct (mat_row A u HR Hu a00 b00 a01 b01 (psi x) (psi (flip x v)) e) as [_ [_ K]]; auto; [lra|].
    replace (b00 * psi x + - b01 * psi (flip x v))%C with (b00 * psi x - b01 * psi (flip x v))%C by ring. lra.
Qed.

Lemma diag_bound : forall a b e x y, near a b e -> 0 <= e <= 1 / 10 -> n1 (fc_mul A x a - b * x)%C <= (e + 4 * u) * (n1 x + n1 y).
Proof.
  intros a b e x y [H H'] He. pose proof (u_pos A u HR). destruct (coef_err A u HR Hu a b x e) as [_ K]; auto; [lra|].
  pose proof (n1_pos y). pose proof (n1_pos x). nra.
Qed.
Lemma diag_bound0 : forall e x y, 0 <= e -> n1 (x - x)%C <= (e + 4 * u) * (n1 x + n1 y).
Proof. intros. pose proof (u_pos A u HR). rewrite n1_self. pose proof (n1_pos y). pose proof (n1_pos x). apply Rmult_le_pos; lra. Qed.

Lemma fl_diag1_approx : forall a b e, near a b e -> 0 <= e <= 1 / 10 ->
  approx n (fl_diag1 A a n t) (ap1 (mk2 C1 C0 C0 b) v) (3 * (e + 4 * u)).
Proof.
  intros a b e N He. pose proof (u_pos A u HR) as P. apply approx_pair with v; [auto|lra|]. start. rewrite fl_imul_arr. simpl bind. fin.
  destruct (bit x v); simpl.
  - replace (b * psi x + C0 * psi (flip x v))%C with (b * psi x)%C by ring. apply diag_bound; auto.
  - replace (C1 * psi x + C0 * psi (flip x v))%C with (psi x) by ring. apply diag_bound0; lra.
Qed.

Lemma fl_diag01_approx : forall a0 a1 b0' b1' e, near a0 b0' e -> near a1 b1' e -> 0 <= e <= 1 / 10 ->
  approx n (fl_diag01 A a0 a1 n t) (ap1 (mk2 b0' C0 C0 b1') v) (3 * (e + 4 * u)).
Proof.
  intros a0 a1 c0 c1 e N0 N1 He. pose proof (u_pos A u HR) as P. apply approx_pair with v; [auto|lra|]. start.
  rewrite fl_imul_arr. simpl bind. rewrite fl_imul_arr. simpl bind. fin.
  destruct (bit x v) eqn:E; simpl; rewrite ?E; simpl.
  - replace (c1 * psi x + C0 * psi (flip x v))%C with (c1 * psi x)%C by ring. apply diag_bound; auto.
  - replace (c0 * psi x + C0 * psi (flip x v))%C with (c0 * psi x)%C by ring. apply diag_bound; auto.
Qed.
End One.

Section Two.
Variable n : nat.
Variables c t : Z.
Hypothesis Hc : inside n c.
Hypothesis Ht : inside n t.
Hypothesis Hct : c <> t.
Let w := Z.to_nat c.
Let v := Z.to_nat t.
Let vlt : (v < n)%nat := cu_lt n c t Hc Ht Hct.
Let tpos : (0 <= t)%Z := ct_pos n c t Ht.
Let cpos : (0 <= c)%Z := cc_pos n c t Hc.

Ltac masks := rewrite ?(mask_eq0_ok n t tpos), ?(mask_ne0_ok n t tpos), ?(mask_ne0_ok n c cpos); fold v; fold w;
  cbn -[np_put np_get fl_add fl_sub mask_and fl_imul fl_scale fl_scaled arr].
Ltac start := let psi := fresh "psi" in let beta := fresh "beta" in intros psi beta; eexists; eexists;
  cbn -[np_put np_get fl_add fl_sub mask_and fl_imul fl_scale fl_scaled arr]; masks; masks; masks;
  unfold v, w; rewrite ?(mask_c0 n c t), ?(mask_c1 n c t), ?(mask_c0' n c t), ?(mask_c1' n c t).
Ltac fin := split; [reflexivity|]; let x := fresh "x" in intros x _; unfold ctl; rewrite ap1_flip; unfold c1t0, c1t1, b0, b1; fold v; fold w.

Lemma fl_cmat_approx : forall a00 a01 a10 a11 b00 b01 b10 b11 e, near a00 b00 e -> near a01 b01 e -> near a10 b10 e -> near a11 b11 e ->
  0 <= e <= 1 / 10 -> approx n (fl_cmat A a00 a01 a10 a11 n (c, t)) (ctl w (ap1 (mk2 b00 b01 b10 b11) v)) (3 * (e + 6 * u)).
Proof.
  intros a00 a01 a10 a11 b00 b01 b10 b11 e [H1 H1'] [H2 H2'] [H3 H3'] [H4 H4'] He.
  pose proof (u_pos A u HR) as P. apply approx_pair with v; [auto|lra|]. start.
  rewrite (cget_10 n c t Hc Ht Hct), get_same, !fl_scale_map, fl_add_map. simpl bind. rewrite put_arr. simpl bind.
  rewrite <- !fl_scale_map, <- get_same, <- (cget_10 n c t Hc Ht Hct).
  rewrite (cget_01 n c t Hc Ht Hct), get_same, !fl_scale_map, fl_add_map. simpl bind. rewrite put_arr. simpl bind. fin.
  pose proof (n1_pos (psi x)). pose proof (n1_pos (psi (flip x v))).
  destruct (bit x w); simpl; [|rewrite n1_self; apply Rmult_le_pos; lra]. destruct (bit x v); simpl.
  - destruct (mat_row A u HR Hu a10 b10 a11 b11 (psi (flip x v)) (psi x) e) as [K _]; auto; [lra|].
    rewrite (Cadd_comm (b11 * psi x)%C). unfold v in *. lra.
  - destruct (mat_row A u HR Hu a00 b00 a01 b01 (psi x) (psi (flip x v)) e) as [K _]; auto. lra.
Qed.
Lemma fl_cdiag1_approx : forall a b e, near a b e -> 0 <= e <= 1 / 10 ->
  approx n (fl_cdiag1 A a n (c, t)) (ctl w (ap1 (mk2 C1 C0 C0 b) v)) (3 * (e + 4 * u)).
Proof.
  intros a b e N He. pose proof (u_pos A u HR) as P. apply approx_pair with v; [auto|lra|]. start. rewrite fl_imul_arr. simpl bind. fin.
  destruct (bit x w); simpl; [|apply diag_bound0; lra]. destruct (bit x v); simpl.
  - replace (b * psi x + C0 * psi (flip x v))%C with (b * psi x)%C by ring. apply diag_bound; auto.
  - replace (C1 * psi x + C0 * psi (flip x v))%C with (psi x) by ring. apply diag_bound0; lra.
Qed.
Lemma fl_cdiag01_approx : forall a0 a1 b0' b1' e, near a0 b0' e -> near a1 b1' e -> 0 <= e <= 1 / 10 ->
  approx n (fl_cdiag01 A a0 a1 n (c, t)) (ctl w (ap1 (mk2 b0' C0 C0 b1') v)) (3 * (e + 4 * u)).
Proof.
  intros a0 a1 c0 c1 e N0 N1 He. pose proof (u_pos A u HR) as P. apply approx_pair with v; [auto|lra|]. start.
  rewrite fl_imul_arr. simpl bind. rewrite fl_imul_arr. simpl bind. fin.
  destruct (bit x w); simpl; [|apply diag_bound0; lra].
  destruct (bit x v) eqn:E; simpl; rewrite ?E; simpl.
  - replace (c1 * psi x + C0 * psi (flip x v))%C with (c1 * psi x)%C by ring. apply diag_bound; auto.
  - replace (c0 * psi x + C0 * psi (flip x v))%C with (c0 * psi x)%C by ring. apply diag_bound; auto.
Qed.
End Two.

Lemma fl_ccz_approx : forall n a b c, inside n a -> inside n b -> inside n c ->
  approx n (fl_ccz A n (TTuple [TInt a; TInt b; TInt c])) (sem3 KCCZ (Z.to_nat a) (Z.to_nat b) (Z.to_nat c)) (3 * (0 + 4 * u)).
Proof.
  intros n a b c Ha Hb Hc. pose proof (u_pos A u HR) as P. apply approx_pair with (Z.to_nat c); [unfold inside in *; lia|lra|].
  intros psi beta. eexists. eexists. unfold fl_ccz. cbn [unpack3 bind raw_index].
  rewrite !mask_ne0_ok by (unfold inside in *; lia). cbn [bind]. rewrite !mask_and_map, fl_imul_arr. cbn [bind].
  split; [reflexivity|]. intros x _. unfold sem3, ctl. rewrite ap1_flip. unfold b1.
  assert (N : near (- C1)%C (- C1)%C 0).
  { apply near_self. rewrite n1_opp. unfold n1, C1; simpl. rewrite Rabs_R0, Rabs_R1. lra. }
  destruct (bit x (Z.to_nat a)), (bit x (Z.to_nat b)), (bit x (Z.to_nat c)); cbn [andb mZ mk2 negb]; try (apply diag_bound0; lra).
  - replace (- C1 * psi x + C0 * psi (flip x (Z.to_nat c)))%C with (- C1 * psi x)%C by ring. apply diag_bound; auto; lra.
  - replace (C1 * psi x + C0 * psi (flip x (Z.to_nat c)))%C with (psi x) by ring. apply diag_bound0; lra.
Qed.
End Kern.
