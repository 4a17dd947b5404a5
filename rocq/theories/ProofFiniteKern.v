(** The loop bodies of the numpy backend in arithmetic with underflow and overflow *)
From Coq Require Import List Arith ZArith Bool Reals Lia Lra Psatz FunctionalExtensionality.
Import ListNotations.
From Verif Require Import Base Cplx Bits ModelTargets ModelGate ModelNumpy ModelFloat SpecTargets SpecQuantum SpecCircuit SpecFloat SpecFinite
  ProofTargets ProofArray ProofNumpy ProofUnitary ProofPauli ProofRun ProofFloat ProofFloatOps ProofFloatKern ProofFinite.
Local Open Scope R_scope.

Definition np_rep (n : nat) (s : bufs) (psi : state) : Prop := exists beta, s = (arr n psi, arr n beta).
Definition small (n : nat) (psi : state) : Prop := forall x, (x < 2 ^ n)%nat -> n1 (psi x) <= 6.

Lemma nearly_pair : forall n t f U r g, (t < n)%nat -> 0 <= r -> 0 <= g ->
  (forall psi beta, small n psi -> exists phi beta', f (arr n psi, arr n beta) = Ok (arr n phi, arr n beta') /\
    forall x, (x < 2 ^ n)%nat -> n1 (phi x - U psi x)%C <= r * (n1 (psi x) + n1 (psi (flip x t)) + g)) ->
  nearly n (np_rep n) (g * sqrt (2 ^ n)) f U (3 * r).
Proof.
  intros n t f U r g T P G H s psi [beta ->] W. pose proof (sqrt_pos (2 ^ n)) as SP. assert (0 <= g * sqrt (2 ^ n)) by (apply Rmult_le_pos; auto).
  pose proof (norm_pos n psi) as NP.
  assert (SM : small n psi) by (intros x L; apply (entry_small n); auto; nra).
  destruct (H psi beta SM) as [phi [b' [E B]]]. exists (arr n phi, arr n b'), phi. split; auto. split; [exists b'; reflexivity|].
  apply (pair_bound_add n t); auto.
Qed.
Lemma acts_nearly : forall n f U k g, acts n f U -> 0 <= k -> 0 <= g -> nearly n (np_rep n) g f U k.
Proof. intros n f U k g H K G. apply nearly_same; auto. intros s psi [beta ->]. destruct (H psi beta) as [b' E]. eexists. split; [exact E|]. exists b'. reflexivity. Qed.

Section Kern.
Variable A : arith.
Variable u eta B : R.
Hypothesis HR : rounds_within A u eta B.
Hypothesis Hu : 0 < u <= 1 / 100.
Hypothesis He : eta <= u.
Hypothesis HB : 192 <= B.
Let g0 := eta / u.

Lemma g0_pos : 0 <= g0.
Proof. pose proof (eta_pos A u eta B HR HB). unfold g0. apply Rmult_le_pos; [auto|left; apply Rinv_0_lt_compat; lra]. Qed.
Lemma u_g0 : u * g0 = eta. Proof. unfold g0. field. lra. Qed.
Lemma slack : forall e p q, 0 <= e -> 0 <= p -> q <= (e + 8 * u) * p + 17 * eta -> q <= (e + 17 * u) * (p + g0).
Proof. intros e p q E P H. pose proof g0_pos. pose proof u_g0. nra. Qed.

Lemma wh_row : forall x y, n1 x <= 6 -> n1 y <= 6 ->
  n1 (fc_mul A (fc_add A x y) (RtoC (fl_rsqrt2 A)) - RtoC (/ sqrt 2) * (x + y))%C <= 8 * u * (n1 x + n1 y) + 17 * eta /\
  n1 (fc_mul A (fc_sub A x y) (RtoC (fl_rsqrt2 A)) - RtoC (/ sqrt 2) * (x - y))%C <= 8 * u * (n1 x + n1 y) + 17 * eta.
Proof.
  intros x y Lx Ly. pose proof (eta_pos A u eta B HR HB) as EP. pose proof (n1_pos x) as Px. pose proof (n1_pos y) as Py.
  assert (R1 : n1 (RtoC (/ sqrt 2)) <= 1).
  { rewrite n1_RtoC. pose proof (sqrt_lt_R0 2 ltac:(lra)) as S0. pose proof (sqrt_sqrt 2 ltac:(lra)) as S2.
    rewrite Rabs_pos_eq by (left; apply Rinv_0_lt_compat; auto). rewrite <- Rinv_1. apply Rinv_le_contravar; [lra|nra]. }
  assert (R2 : n1 (RtoC (fl_rsqrt2 A) - RtoC (/ sqrt 2))%C <= 4 * u) by (rewrite n1_RtoC_sub; apply (wrsqrt2_err A u eta B HR Hu He HB)).
  set (T := n1 x + n1 y) in *. assert (TP : 0 <= T <= 12) by (unfold T; lra).
  assert (K : 21 / 10 * u * ((T + (u * T + 2 * eta)) * (1 + 4 * u)) + ((u * T + 2 * eta) * (1 + 4 * u) + T * (4 * u)) + 7 * eta <= 8 * u * T + 17 * eta).
  { assert (UT : 0 <= u * T) by (apply Rmult_le_pos; lra). assert (UE : u * eta <= 1 / 100 * eta) by (apply Rmult_le_compat_r; lra).
    assert (UE0 : 0 <= u * eta) by (apply Rmult_le_pos; lra).
    assert (CC : (1 + u) * (1 + 4 * u) <= 11 / 10) by nra. assert (CD : 1 + 4 * u <= 11 / 10) by lra.
    replace (21 / 10 * u * ((T + (u * T + 2 * eta)) * (1 + 4 * u)) + ((u * T + 2 * eta) * (1 + 4 * u) + T * (4 * u)) + 7 * eta)
      with (u * T * (21 / 10 * ((1 + u) * (1 + 4 * u)) + (1 + 4 * u) + 4) + (u * eta) * (42 / 10 * (1 + 4 * u)) + 2 * eta * (1 + 4 * u) + 7 * eta) by field.
    assert (u * T * (21 / 10 * ((1 + u) * (1 + 4 * u)) + (1 + 4 * u) + 4) <= u * T * 8) by (apply Rmult_le_compat_l; lra).
    assert (u * eta * (42 / 10 * (1 + 4 * u)) <= u * eta * 5) by (apply Rmult_le_compat_l; lra).
    assert (2 * eta * (1 + 4 * u) <= 2 * eta * (11 / 10)) by (apply Rmult_le_compat_l; lra). lra. }
  assert (SZ : T + (u * T + 2 * eta) <= 13) by nra.
  split; eapply Rle_trans; try exact K; rewrite (Cmul_comm (RtoC (/ sqrt 2))); apply (wc_mul_near A u eta B HR Hu He HB); auto; try lra.
  - apply (wc_add_err A u eta B HR); lra.
  - apply n1_add.
  - apply (wc_sub_err A u eta B HR); lra.
  - apply n1_sub.
Qed.
Lemma diag_near : forall a b e x y, near a b e -> 0 <= e <= 1 / 10 -> n1 x <= 6 -> n1 (fc_mul A x a - b * x)%C <= (e + 17 * u) * (n1 x + n1 y + g0).
Proof.
  intros a b e x y [H H'] E L. pose proof (eta_pos A u eta B HR HB). destruct (wcoef_err A u eta B HR Hu He HB a b x e) as [_ K]; auto; [lra|].
  pose proof (n1_pos y). pose proof (n1_pos x). apply slack; [lra|lra|]. nra.
Qed.
Lemma diag_near' : forall a b e x y, near a b e -> 0 <= e <= 1 / 10 -> n1 x <= 6 -> n1 (fc_mul A a x - b * x)%C <= (e + 17 * u) * (n1 x + n1 y + g0).
Proof.
  intros a b e x y [H H'] E L. pose proof (eta_pos A u eta B HR HB). destruct (wcoef_err A u eta B HR Hu He HB a b x e) as [K _]; auto; [lra|].
  pose proof (n1_pos y). pose proof (n1_pos x). apply slack; [lra|lra|]. nra.
Qed.
Lemma diag_same : forall e x y, 0 <= e -> n1 (x - x)%C <= (e + 17 * u) * (n1 x + n1 y + g0).
Proof. intros. rewrite n1_self. pose proof (n1_pos y). pose proof (n1_pos x). pose proof g0_pos. apply Rmult_le_pos; lra. Qed.
Lemma row_near : forall a a' b b' x y e, near a a' e -> near b b' e -> 0 <= e <= 1 / 10 -> n1 x <= 6 -> n1 y <= 6 ->
  n1 (fc_add A (fc_mul A a x) (fc_mul A b y) - (a' * x + b' * y))%C <= (e + 17 * u) * (n1 x + n1 y + g0) /\
  n1 (fc_add A (fc_mul A x a) (fc_mul A y b) - (a' * x + b' * y))%C <= (e + 17 * u) * (n1 x + n1 y + g0) /\
  n1 (fc_sub A (fc_mul A x a) (fc_mul A y b) - (a' * x - b' * y))%C <= (e + 17 * u) * (n1 x + n1 y + g0).
Proof.
  intros a a' b b' x y e [H1 H1'] [H2 H2'] E Lx Ly. pose proof (n1_pos x). pose proof (n1_pos y).
  destruct (wmat_row A u eta B HR Hu He HB a a' b b' x y e) as [K1 [K2 K3]]; auto; [lra|].
  assert (S : forall q, q <= (e + 6 * u) * (n1 x + n1 y) + 17 * eta -> q <= (e + 17 * u) * (n1 x + n1 y + g0)).
  { intros q Q. apply slack; [lra|lra|]. assert ((e + 6 * u) * (n1 x + n1 y) <= (e + 8 * u) * (n1 x + n1 y)) by (apply Rmult_le_compat_r; lra). lra. }
  auto.
Qed.

Section One.
Variable n : nat.
Variable t : Z.
Hypothesis Ht : inside n t.
Let v := Z.to_nat t.
Let vlt : (v < n)%nat := u_lt n t Ht.
Let tpos : (0 <= t)%Z := t_pos n t Ht.

Ltac start := let psi := fresh "psi" in let beta := fresh "beta" in let SM := fresh "SM" in intros psi beta SM; eexists; eexists;
  cbn -[np_put np_get fl_add fl_sub mask_and fl_imul fl_scale fl_scaled arr];
  rewrite ?(mask_eq0_ok n t tpos), ?(mask_ne0_ok n t tpos); fold v;
  cbn -[np_put np_get fl_add fl_sub mask_and fl_imul fl_scale fl_scaled arr].
Ltac fin SM := split; [reflexivity|]; let x := fresh "x" in let L := fresh "L" in intros x L; pose proof (SM x L); pose proof (SM _ (flip_lt n x v vlt L)); rewrite ap1_flip; unfold b0, b1.
Ltac op v := apply nearly_pair with v; [exact vlt|lra|apply g0_pos|].

Lemma wy_nearly : nearly n (np_rep n) (g0 * sqrt (2 ^ n)) (fl_y A n t) (ap1 mY v) (3 * (0 + 17 * u)).
Proof.
  op v. start.
  rewrite get_10, fl_scale_map, put_arr by auto. simpl bind. rewrite get_01, fl_scale_map, put_arr by auto. simpl bind. fin SM.
  assert (I1 : near Ci Ci 0) by (apply near_self; unfold n1, Ci; simpl; rewrite Rabs_R0, Rabs_R1; lra).
  assert (I2 : near (- Ci)%C (- Ci)%C 0) by (apply near_self; rewrite n1_opp; unfold n1, Ci; simpl; rewrite Rabs_R0, Rabs_R1; lra).
  rewrite (Rplus_comm (n1 (psi x))). destruct (bit x v); simpl.
  - replace (C0 * psi x + Ci * psi (flip x v))%C with (Ci * psi (flip x v))%C by ring. apply diag_near'; auto; lra.
  - replace (C0 * psi x + - Ci * psi (flip x v))%C with (- Ci * psi (flip x v))%C by ring. apply diag_near'; auto; lra.
Qed.

Lemma wh_nearly : nearly n (np_rep n) (g0 * sqrt (2 ^ n)) (fl_h A n t) (ap1 mH v) (3 * (0 + 17 * u)).
Proof.
  op v. start.
  rewrite get_10, get_same, fl_add_map by auto. simpl bind. rewrite put_arr. simpl bind.
  rewrite <- get_same, <- get_10 by auto. rewrite get_01, get_same, fl_sub_map by auto. simpl bind. rewrite put_arr. simpl bind.
  rewrite fl_scaled_arr. fin SM. unfold mH, mscale. pose proof (n1_pos (psi x)). pose proof (n1_pos (psi (flip x v))). apply slack; [lra|lra|]. destruct (bit x v); simpl.
  - destruct (wh_row (psi (flip x v)) (psi x)) as [_ K]; auto.
    replace (RtoC (/ sqrt 2) * - C1 * psi x + RtoC (/ sqrt 2) * C1 * psi (flip x v))%C with (RtoC (/ sqrt 2) * (psi (flip x v) - psi x))%C by ring. lra.
  - destruct (wh_row (psi x) (psi (flip x v))) as [K _]; auto.
    replace (RtoC (/ sqrt 2) * C1 * psi x + RtoC (/ sqrt 2) * C1 * psi (flip x v))%C with (RtoC (/ sqrt 2) * (psi x + psi (flip x v)))%C by ring. lra.
Qed.

Lemma wmat_nearly : forall a00 a01 a10 a11 b00 b01 b10 b11 e, near a00 b00 e -> near a01 b01 e -> near a10 b10 e -> near a11 b11 e ->
  0 <= e <= 1 / 10 -> nearly n (np_rep n) (g0 * sqrt (2 ^ n)) (fl_mat A a00 a01 a10 a11 n t) (ap1 (mk2 b00 b01 b10 b11) v) (3 * (e + 17 * u)).
Proof.
  intros a00 a01 a10 a11 b00 b01 b10 b11 e H1 H2 H3 H4 Hee.
  op v. start.
  rewrite get_10, get_same, !fl_scale_map, fl_add_map by auto. simpl bind. rewrite put_arr. simpl bind.
  rewrite <- !fl_scale_map, <- get_same, <- get_10 by auto.
  rewrite get_01, get_same, !fl_scale_map, fl_add_map by auto. simpl bind. rewrite put_arr. simpl bind. fin SM. destruct (bit x v); simpl.
  - destruct (row_near a10 b10 a11 b11 (psi (flip x v)) (psi x) e) as [K _]; auto.
    rewrite (Cadd_comm (b11 * psi x)%C), (Rplus_comm (n1 (psi x))). exact K.
  - destruct (row_near a00 b00 a01 b01 (psi x) (psi (flip x v)) e) as [K _]; auto.
Qed.

Lemma wu3_nearly : forall a00 a01 a10 a11 b00 b01 b10 b11 e, near a00 b00 e -> near a01 b01 e -> near a10 b10 e -> near a11 b11 e ->
  0 <= e <= 1 / 10 -> nearly n (np_rep n) (g0 * sqrt (2 ^ n)) (fl_u3 A a00 a01 a10 a11 n t) (ap1 (mk2 b00 (- b01)%C b10 b11) v) (3 * (e + 17 * u)).
Proof.
  intros a00 a01 a10 a11 b00 b01 b10 b11 e H1 H2 H3 H4 Hee.
  op v. start.
  rewrite get_same, fl_scaled_map, put_arr. simpl bind.
  rewrite get_same. rewrite get_10, fl_scaled_map, fl_sub_map by auto. simpl bind. rewrite put_arr. simpl bind.
  rewrite <- (get_same n (b0 v) psi). rewrite get_01, fl_scaled_map, put_arr by auto. simpl bind.
  rewrite <- (get_10 n v psi) by auto. rewrite !get_same, fl_scaled_map, fl_add_map. simpl bind. rewrite put_arr. simpl bind. fin SM.
  destruct (bit x v) eqn:E; simpl; rewrite ?E; simpl.
  - destruct (row_near a10 b10 a11 b11 (psi (flip x v)) (psi x) e) as [_ [K _]]; auto.
    rewrite (Cadd_comm (b11 * psi x)%C), (Rplus_comm (n1 (psi x))). exact K.
  - destruct (row_near a00 b00 a01 b01 (psi x) (psi (flip x v)) e) as [_ [_ K]]; auto.
    replace (b00 * psi x + - b01 * psi (flip x v))%C with (b00 * psi x - b01 * psi (flip x v))%C by ring. exact K.
Qed.

Lemma wdiag1_nearly : forall a b e, near a b e -> 0 <= e <= 1 / 10 ->
  nearly n (np_rep n) (g0 * sqrt (2 ^ n)) (fl_diag1 A a n t) (ap1 (mk2 C1 C0 C0 b) v) (3 * (e + 17 * u)).
Proof.
  intros a b e N Hee. op v. start. rewrite fl_imul_arr. simpl bind. fin SM.
  destruct (bit x v); simpl.
  - replace (b * psi x + C0 * psi (flip x v))%C with (b * psi x)%C by ring. apply diag_near; auto.
  - replace (C1 * psi x + C0 * psi (flip x v))%C with (psi x) by ring. apply diag_same; lra.
Qed.

Lemma wdiag01_nearly : forall a0 a1 b0' b1' e, near a0 b0' e -> near a1 b1' e -> 0 <= e <= 1 / 10 ->
  nearly n (np_rep n) (g0 * sqrt (2 ^ n)) (fl_diag01 A a0 a1 n t) (ap1 (mk2 b0' C0 C0 b1') v) (3 * (e + 17 * u)).
Proof.
  intros a0 a1 c0 c1 e N0 N1 Hee. op v. start.
  rewrite fl_imul_arr. simpl bind. rewrite fl_imul_arr. simpl bind. fin SM.
  destruct (bit x v) eqn:E; simpl; rewrite ?E; simpl.
  - replace (c1 * psi x + C0 * psi (flip x v))%C with (c1 * psi x)%C by ring. apply diag_near; auto.
  - replace (c0 * psi x + C0 * psi (flip x v))%C with (c0 * psi x)%C by ring. apply diag_near; auto.
Qed.
End One.

Section Two.
Variable n : nat.
Variables c t : Z.
Hypothesis Hc : inside n c.
Hypothesis Ht : inside n t.
Hypothesis Hct : c <> t.
Let w := Z.to_nat c.
Let v := Z.to_nat t.
Let vlt : (v < n)%nat := cu_lt n c t Hc Ht Hct.
Let tpos : (0 <= t)%Z := ct_pos n c t Ht.
Let cpos : (0 <= c)%Z := cc_pos n c t Hc.

Ltac masks := rewrite ?(mask_eq0_ok n t tpos), ?(mask_ne0_ok n t tpos), ?(mask_ne0_ok n c cpos); fold v; fold w;
  cbn -[np_put np_get fl_add fl_sub mask_and fl_imul fl_scale fl_scaled arr].
Ltac start := let psi := fresh "psi" in let beta := fresh "beta" in let SM := fresh "SM" in intros psi beta SM; eexists; eexists;
  cbn -[np_put np_get fl_add fl_sub mask_and fl_imul fl_scale fl_scaled arr]; masks; masks; masks;
  unfold v, w; rewrite ?(mask_c0 n c t), ?(mask_c1 n c t), ?(mask_c0' n c t), ?(mask_c1' n c t).
Ltac fin SM := split; [reflexivity|]; let x := fresh "x" in let L := fresh "L" in intros x L; pose proof (SM x L); pose proof (SM _ (flip_lt n x v vlt L)); unfold ctl; rewrite ap1_flip; unfold c1t0, c1t1, b0, b1; fold v; fold w.
Ltac op v := apply nearly_pair with v; [exact vlt|lra|apply g0_pos|].

Lemma wcmat_nearly : forall a00 a01 a10 a11 b00 b01 b10 b11 e, near a00 b00 e -> near a01 b01 e -> near a10 b10 e -> near a11 b11 e ->
  0 <= e <= 1 / 10 -> nearly n (np_rep n) (g0 * sqrt (2 ^ n)) (fl_cmat A a00 a01 a10 a11 n (c, t)) (ctl w (ap1 (mk2 b00 b01 b10 b11) v)) (3 * (e + 17 * u)).
Proof.
  intros a00 a01 a10 a11 b00 b01 b10 b11 e H1 H2 H3 H4 Hee.
  op v. start.
  rewrite (cget_10 n c t Hc Ht Hct), get_same, !fl_scale_map, fl_add_map. simpl bind. rewrite put_arr. simpl bind.
  rewrite <- !fl_scale_map, <- get_same, <- (cget_10 n c t Hc Ht Hct).
  rewrite (cget_01 n c t Hc Ht Hct), get_same, !fl_scale_map, fl_add_map. simpl bind. rewrite put_arr. simpl bind. fin SM.
  destruct (bit x w); simpl; [|apply diag_same; lra]. destruct (bit x v); simpl.
  - destruct (row_near a10 b10 a11 b11 (psi (flip x v)) (psi x) e) as [K _]; auto.
    rewrite (Cadd_comm (b11 * psi x)%C), (Rplus_comm (n1 (psi x))). exact K.
  - destruct (row_near a00 b00 a01 b01 (psi x) (psi (flip x v)) e) as [K _]; auto.
Qed.
Lemma wcdiag1_nearly : forall a b e, near a b e -> 0 <= e <= 1 / 10 ->
  nearly n (np_rep n) (g0 * sqrt (2 ^ n)) (fl_cdiag1 A a n (c, t)) (ctl w (ap1 (mk2 C1 C0 C0 b) v)) (3 * (e + 17 * u)).
Proof.
  intros a b e N Hee. op v. start. rewrite fl_imul_arr. simpl bind. fin SM.
  destruct (bit x w); simpl; [|apply diag_same; lra]. destruct (bit x v); simpl.
  - replace (b * psi x + C0 * psi (flip x v))%C with (b * psi x)%C by ring. apply diag_near; auto.
  - replace (C1 * psi x + C0 * psi (flip x v))%C with (psi x) by ring. apply diag_same; lra.
Qed.
Lemma wcdiag01_nearly : forall a0 a1 b0' b1' e, near a0 b0' e -> near a1 b1' e -> 0 <= e <= 1 / 10 ->
  nearly n (np_rep n) (g0 * sqrt (2 ^ n)) (fl_cdiag01 A a0 a1 n (c, t)) (ctl w (ap1 (mk2 b0' C0 C0 b1') v)) (3 * (e + 17 * u)).
Proof.
  intros a0 a1 c0 c1 e N0 N1 Hee. op v. start.
  rewrite fl_imul_arr. simpl bind. rewrite fl_imul_arr. simpl bind. fin SM.
  destruct (bit x w); simpl; [|apply diag_same; lra].
  destruct (bit x v) eqn:E; simpl; rewrite ?E; simpl.
  - replace (c1 * psi x + C0 * psi (flip x v))%C with (c1 * psi x)%C by ring. apply diag_near; auto.
  - replace (c0 * psi x + C0 * psi (flip x v))%C with (c0 * psi x)%C by ring. apply diag_near; auto.
Qed.
End Two.

Lemma wccz_nearly : forall n a b c, inside n a -> inside n b -> inside n c ->
  nearly n (np_rep n) (g0 * sqrt (2 ^ n)) (fl_ccz A n (TTuple [TInt a; TInt b; TInt c])) (sem3 KCCZ (Z.to_nat a) (Z.to_nat b) (Z.to_nat c)) (3 * (0 + 17 * u)).
Proof.
  intros n a b c Ha Hb Hc. assert (vlt : (Z.to_nat c < n)%nat) by (unfold inside in *; lia). apply nearly_pair with (Z.to_nat c); [exact vlt|lra|apply g0_pos|].
  intros psi beta SM. eexists. eexists. unfold fl_ccz. cbn [unpack3 bind raw_index].
  rewrite !mask_ne0_ok by (unfold inside in *; lia). cbn [bind]. rewrite !mask_and_map, fl_imul_arr. cbn [bind].
  split; [reflexivity|]. intros x L. pose proof (SM x L). unfold sem3, ctl. rewrite ap1_flip. unfold b1.
  assert (N : near (- C1)%C (- C1)%C 0).
  { apply near_self. rewrite n1_opp. unfold n1, C1; simpl. rewrite Rabs_R0, Rabs_R1. lra. }
  destruct (bit x (Z.to_nat a)), (bit x (Z.to_nat b)), (bit x (Z.to_nat c)); cbn [andb mZ mk2 negb]; try (apply diag_same; lra).
  - replace (- C1 * psi x + C0 * psi (flip x (Z.to_nat c)))%C with (- C1 * psi x)%C by ring. apply diag_near; auto; lra.
  - replace (C1 * psi x + C0 * psi (flip x (Z.to_nat c)))%C with (psi x) by ring. apply diag_same; lra.
Qed.
End Kern.
