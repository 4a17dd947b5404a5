(** The gate methods of the numba backend in rounded arithmetic *)
From Coq Require Import List Arith NArith Nnat ZArith Bool Reals Lia Lra Psatz FunctionalExtensionality.
Import ListNotations.
From Verif Require Import Base Cplx Bits ModelTargets ModelGate ModelNumpy ModelNumba ModelFloat ModelFloatNumba SpecTargets SpecQuantum SpecCircuit SpecMeasure SpecNumba SpecFloat SpecFinite
  SpecFloatNumba ProofTargets ProofArray ProofNumpy ProofFallback ProofFallback3 ProofUnitary ProofPauli ProofRun ProofMeasure ProofIndex ProofKernel ProofPair ProofNumba ProofNumbaRun ProofFloat ProofFloatOps
  ProofFloatKern ProofFloatCoef ProofFloatRun ProofFinite ProofFiniteKern ProofFiniteCoef ProofFiniteNative ProofFiniteRun ProofFloatNumba ProofFloatNumba2.
Local Open Scope R_scope.

Section Native.
Variable c : compiled.
Variable P : arith.
Variable u eta B M : R.
Hypothesis HC : compiles c u eta B.
Hypothesis HP : rounds_within P u eta B.
Hypothesis Hu0 : 0 < u.
Hypothesis He : eta <= u.
Hypothesis HM : 3 <= M.
Hypothesis HBM : 64 * M <= B.
Hypothesis Hh : u * M <= 1 / 400.
Hypothesis Hlit : 1 / 10 ^ 16 <= u.
Let h := u * M.
Let A := c_arith c.
Let HA : rounds_within A u eta B := co_arith _ _ _ _ HC.
Let Hu : 0 < u <= 1 / 100 := Hu' u M Hu0 HM Hh.
Let HB : 192 <= B := HB' B M HM HBM.
Let EP : 0 <= eta := eta_pos P u eta B HP HB.
Let g (n : nat) := eta / u * sqrt (2 ^ n).
Let gp : forall n, 0 <= g n := gn_pos P u eta B M HP Hu0 HM HBM Hh.
Let k := 130 * h.
Lemma nk_pos : 0 <= k. Proof. pose proof (wh_pos u M Hu0 HM). unfold k, h. lra. Qed.
Ltac hle := pose proof (wh_pos u M Hu0 HM); pose proof (wu_h u M Hu0 HM); unfold h; lra.
Ltac lim := rewrite cost_1; unfold k; hle.
Ltac nr X := first [eapply (X A u eta B M); eassumption | eapply (X A u eta B M); try eassumption].

(** coefficients *)
Lemma ncoef : forall z w z' w' e f a b r, n1 (z - z')%C <= e -> n1 (w - w')%C <= f -> n1 z' <= a -> n1 w' <= b -> n1 (z' * w')%C <= 3 / 2 ->
  a + e <= 2 -> b + f <= 2 -> 5 / 3 * h * ((a + e) * (b + f)) + (e * (b + f) + a * f) + 20 / 3 * h <= r -> near (c_coef c z w) (z' * w')%C r.
Proof.
  intros z w z' w' e f a b r H1 H2 H3 H4 H5 L1 L2 H6. split; auto. eapply Rle_trans; [|exact H6].
  pose proof (n1_near _ _ _ H1) as Z. pose proof (n1_near _ _ _ H2) as W. pose proof (n1_pos z). pose proof (n1_pos w). pose proof (n1_pos z'). pose proof (n1_pos w').
  pose proof (n1_pos (z - z')%C). pose proof (n1_pos (w - w')%C).
  pose proof (co_coef _ _ _ _ HC z w ltac:(change (n1 z <= 2); lra) ltac:(change (n1 w <= 2); lra)) as K. change (size z) with (n1 z) in K. change (size w) with (n1 w) in K.
  assert (D : n1 (z * w - z' * w')%C <= e * (b + f) + a * f).
  { replace (z * w - z' * w')%C with ((z - z') * w + z' * (w - w'))%C by ring. eapply Rle_trans; [apply n1_add|].
    pose proof (n1_mul (z - z')%C w). pose proof (n1_mul z' (w - w')%C).
    assert (n1 (z - z')%C * n1 w <= e * (b + f)) by (apply Rmult_le_compat; lra). assert (n1 z' * n1 (w - w')%C <= a * f) by (apply Rmult_le_compat; lra). lra. }
  pose proof (n1_tri _ _ _ _ _ K D) as T. eapply Rle_trans; [exact T|].
  assert (U : u <= h / 3) by (apply (wu_h u M Hu0 HM)).
  assert (ZW : n1 z * n1 w <= (a + e) * (b + f)) by (apply Rmult_le_compat; lra).
  assert (5 * u * (n1 z * n1 w) <= 5 / 3 * h * ((a + e) * (b + f))) by (apply Rmult_le_compat; [lra|apply Rmult_le_pos; lra|lra|auto]). lra.
Qed.
Lemma nnear_isin : forall t, Rabs t <= M -> near (c_coef c (RtoC (f_sin A (f_mul A t (1 / 2)))) (- Ci)%C) (- Ci * RtoC (sin (t / 2)))%C (20 * h).
Proof.
  intros t H. destruct (wnear_sin A u eta B M HA Hu0 He HM HBM Hh t H) as [H1 H2]. fold h in H1. rewrite Cmul_comm.
  apply ncoef with (e := 2 * h) (f := 0) (a := 1) (b := 1); auto.
  - rewrite n1_self. lra.
  - rewrite n1_RtoC. apply sin_abs.
  - rewrite n1_opp. unfold n1, Ci; simpl. rewrite Rabs_R0, Rabs_R1. lra.
  - rewrite Cmul_comm, n1_ci_mul. pose proof (sin_abs (t / 2)). lra.
  - hle.
  - lra.
  - pose proof (wh_pos u M Hu0 HM) as PP. fold h in PP, Hh. nra.
Qed.
Lemma nnear_rc : forall z a r r', near z (cis a) (7 * h) -> near (RtoC r) (RtoC r') (2 * h) -> Rabs r' <= 1 -> near (c_coef c z (RtoC r)) (RtoC r' * cis a)%C (20 * h).
Proof.
  intros z a r r' [H1 H1'] [H2 H2'] L. rewrite Cmul_comm.
  apply ncoef with (e := 7 * h) (f := 2 * h) (a := 3 / 2) (b := 1); auto.
  - rewrite n1_RtoC. auto.
  - rewrite Cmul_comm. apply n1_unit, size_rc; auto.
  - hle.
  - hle.
  - pose proof (wh_pos u M Hu0 HM) as PP. fold h in PP, Hh. nra.
Qed.
Lemma nnear_add : forall p l, Rabs p <= M -> Rabs l <= M -> near (fl_cis A (f_mul A (f_add A p l) (1 / 2))) (cis (p / 2 + l / 2)) (7 * h).
Proof.
  intros p l Hp Hl. destruct (wadd_range A u eta B M HA Hu0 He HM HBM p l Hp Hl) as [E L].
  replace (p / 2 + l / 2) with ((p + l) / 2) by field. apply (whalf_sum A u eta B M); auto. pose proof (Rabs_triang p l). lra.
Qed.
Lemma nnear_sub : forall p l, Rabs p <= M -> Rabs l <= M -> near (fl_cis A (f_mul A (f_sub A p l) (1 / 2))) (cis (p / 2 + - (l / 2))) (7 * h).
Proof.
  intros p l Hp Hl. destruct (wsub_range A u eta B M HA Hu0 He HM HBM p l Hp Hl) as [E L].
  replace (p / 2 + - (l / 2)) with ((p - l) / 2) by field. apply (whalf_sum A u eta B M); auto. pose proof (ab_minus p l). lra.
Qed.
Lemma near_opp : forall a b e, near a b e -> near (- a)%C (- b)%C e.
Proof. intros a b e [H1 H2]. split; [|rewrite n1_opp; auto]. rewrite <- n1_opp. replace (- (- a - - b))%C with (a - b)%C by ring. auto. Qed.
Lemma nnear_T : near (fl_cis P (f_mul P (1 / 4) (f_pi P))) (cis (PI / 4)) (4 * h) /\ near (fl_cis P (f_mul P (- (1 / 4)) (f_pi P))) (cis (- (PI / 4))) (4 * h).
Proof.
  pose proof (w_pi _ _ _ _ HP) as K. pose proof PI_RGT_0. pose proof PI_4. pose proof (wu_h u M Hu0 HM) as UH. fold h in UH.
  assert (K' : Rabs (f_pi P - PI) <= 4 * u) by nra. pose proof (ab_near _ _ _ K') as N. rewrite (Rabs_pos_eq PI) in N by lra.
  assert (G : forall s x, s = 1 / 4 \/ s = - (1 / 4) -> x = s * PI -> near (fl_cis P (f_mul P s (f_pi P))) (cis x) (4 * h)).
  { intros s x S ->. assert (SA : Rabs s = 1 / 4) by (destruct S as [-> | ->]; [|rewrite Rabs_Ropp]; apply Rabs_pos_eq; lra).
    assert (W : Rabs (f_mul P s (f_pi P) - s * f_pi P) <= 3 * u).
    { eapply Rle_trans; [apply (w_mul _ _ _ _ HP); lra|]. rewrite Rabs_mult, SA. nra. }
    assert (D : Rabs (s * f_pi P - s * PI) <= u). { rewrite <- Rmult_minus_distr_l, Rabs_mult, SA. lra. }
    pose proof (ab_tri _ _ _ _ _ W D) as T. pose proof (ab_near _ _ _ T) as NN. rewrite Rabs_mult, SA, (Rabs_pos_eq PI) in NN by lra.
    assert (LB : Rabs (f_mul P s (f_pi P)) <= B) by lra.
    eapply near_le; [eapply (wnear_cis P u eta B M); eassumption|]. fold h. lra. }
  split; apply G; auto; field.
Qed.

Lemma nnative1 : forall n kd tg l f, (n <= 64)%nat -> denotes (Z.of_nat n) tg l -> Forall (inside n) l -> Forall (fun a => Rabs a <= M) (angles1 kd) ->
  fn_unitary c P (GOne kd tg) n = Some f -> nearly n (nb_rep n) (g n) f (apply_all (map (fun t => sem1 kd (Z.to_nat t)) l)) (cost k (1 * List.length l)).
Proof.
  intros n kd tg l f Hn D F W E. pose proof (gp n) as GP.
  assert (L : forall s, f = nb_loop1 n tg s -> (forall t, (t < N.of_nat n)%N -> nearly n (nb_rep n) (g n) (run_kernel (s (N.of_nat n) t)) (sem1 kd (N.to_nat t)) (cost k 1)) ->
    nearly n (nb_rep n) (g n) f (apply_all (map (fun t => sem1 kd (Z.to_nat t)) l)) (cost k (1 * List.length l))).
  { intros s -> H. apply (nb_loop1_nearly n tg l s (sem1 kd)); auto using nk_pos. intros t Ht. apply good_sem1; auto. }
  destruct kd; cbn [fn_unitary] in E; try discriminate; injection E; intros <-; clear E; eapply L; try reflexivity; clear L; intros t Ht; unfold sem1; cbn [mat1];
    cbn [angles1] in W; repeat match goal with W : Forall _ (_ :: _) |- _ => apply Forall_cons_iff in W; destruct W as [? W] end.
  - apply kacts_nearly; auto; [apply k_x_ok; auto|apply cost_pos, nk_pos].
  - eapply nearly_le; [exact GP|eapply (ny_nearly c P u eta B); eauto|]. lim.
  - eapply nearly_le; [exact GP|eapply (ndiag_nearly c P u eta B) with (e := 0) (a' := (- C1)%C); eauto; [apply near_self, n1_one|lra]|]. lim.
  - eapply nearly_le; [exact GP|eapply (nh_nearly c P u eta B); eauto|]. lim.
  - eapply nearly_le; [exact GP|eapply (ndiag_nearly c P u eta B); eauto; [apply nnear_T|hle]|]. lim.
  - eapply nearly_le; [exact GP|eapply (ndiag_nearly c P u eta B); eauto; [apply nnear_T|hle]|]. lim.
  - unfold mPhase. rewrite cis_PI2. eapply nearly_le; [exact GP|eapply (ndiag_nearly c P u eta B) with (e := 0); eauto; [apply near_self, n1_i|lra]|]. lim.
  - unfold mPhase. rewrite cis_npi2. eapply nearly_le; [exact GP|eapply (ndiag_nearly c P u eta B) with (e := 0); eauto; [apply near_self, n1_mi|lra]|]. lim.
  - eapply nearly_le; [exact GP|eapply (nmat_nearly c P u eta B) with (e := 20 * h); eauto|].
    + eapply near_le; [nr wnear_cos; auto|hle].
    + apply nnear_isin; auto.
    + apply nnear_isin; auto.
    + eapply near_le; [nr wnear_cos; auto|hle].
    + hle.
    + lim.
  - eapply nearly_le; [exact GP|eapply (nmat_nearly c P u eta B) with (e := 2 * h); eauto|].
    + nr wnear_cos; auto.
    + rewrite RtoC_opp. apply near_opp. nr wnear_sin; auto.
    + nr wnear_sin; auto.
    + nr wnear_cos; auto.
    + hle.
    + lim.
  - eapply nearly_le; [exact GP|eapply (nrz_nearly c P u eta B) with (e := 3 * h); eauto; [nr wnear_cis_half'; auto|nr wnear_cis_half; auto|hle]|]. lim.
  - eapply nearly_le; [exact GP|eapply (ndiag_nearly c P u eta B) with (e := h); eauto; [|hle]|].
    + replace theta with (theta / 2 + theta / 2) at 2 by field. eapply (wnear_phase1 P u eta B M); eauto.
    + lim.
  - eapply nearly_le; [exact GP|eapply (nrz_nearly c P u eta B) with (e := 3 * h); eauto; [nr wnear_cis_half'; auto|nr wnear_cis_half; auto|hle]|]. lim.
  - eapply nearly_le; [exact GP|eapply nearly_ext; [eapply (nmat_nearly c P u eta B) with (e := 20 * h)
      (a' := (RtoC (cos (theta / 2)) * cis (- (phi / 2 + lambd / 2)))%C) (b' := (RtoC (sin (theta / 2)) * - cis (- (phi / 2 + - (lambd / 2))))%C)
      (c'' := (RtoC (sin (theta / 2)) * cis (phi / 2 + - (lambd / 2)))%C) (d' := (RtoC (cos (theta / 2)) * cis (phi / 2 + lambd / 2))%C); eauto|]|].
    + apply nnear_rc; [rewrite cis_opp; apply near_conj, nnear_add; auto|nr wnear_cos; auto|apply cos_abs].
    + replace (RtoC (sin (theta / 2)) * - cis (- (phi / 2 + - (lambd / 2))))%C with (RtoC (sin (theta / 2)) * cis (PI + - (phi / 2 + - (lambd / 2))))%C
        by (rewrite <- (cis_add PI); replace (cis PI) with (- C1)%C by (unfold cis, C1; rewrite cos_PI, sin_PI; apply C_ext; cunfold; ring); ring).
      apply nnear_rc; [|nr wnear_sin; auto|apply sin_abs]. rewrite <- (cis_add PI). replace (cis PI) with (- C1)%C by (unfold cis, C1; rewrite cos_PI, sin_PI; apply C_ext; cunfold; ring).
      replace (- C1 * cis (- (phi / 2 + - (lambd / 2))))%C with (- cis (- (phi / 2 + - (lambd / 2))))%C by ring. apply near_opp. rewrite cis_opp. apply near_conj, nnear_sub; auto.
    + apply nnear_rc; [apply nnear_sub; auto|nr wnear_sin; auto|apply sin_abs].
    + apply nnear_rc; [apply nnear_add; auto|nr wnear_cos; auto|apply cos_abs].
    + hle.
    + intros psi. apply functional_extensionality. intros x. apply ap1_eq_mat. intros a b. rewrite u3_entries.
      replace (- (phi / 2 + lambd / 2)) with (- (phi / 2) + - (lambd / 2)) by ring. replace (- (phi / 2 + - (lambd / 2))) with (- (phi / 2) + lambd / 2) by ring.
      destruct a, b; unfold mk2; rewrite ?RtoC_opp; ring.
    + lim.
Qed.

Lemma nctl_le : forall n K U a b, (exists k0, K = Ok k0 /\ nearly n (nb_rep n) (g n) (run_kernel k0) U a) -> a <= b ->
  exists k0, K = Ok k0 /\ nearly n (nb_rep n) (g n) (run_kernel k0) U b.
Proof. intros n K U a b [k0 [E H]] L. exists k0. split; auto. eapply nearly_le; eauto. Qed.

Lemma nnative2 : forall n kd tg ps f, (n <= 64)%nat -> denotes_pairs (Z.of_nat n) tg ps -> Forall (fun p => inside n (fst p) /\ inside n (snd p)) ps ->
  Forall (fun a => Rabs a <= M) (angles2 kd) -> fn_unitary c P (GTwo kd tg) n = Some f ->
  nearly n (nb_rep n) (g n) f (apply_all (map (fun p => sem2 kd (Z.to_nat (fst p)) (Z.to_nat (snd p))) ps)) (cost k (1 * List.length ps)).
Proof.
  intros n kd tg ps f Hn D F W E. pose proof (gp n) as GP.
  assert (L : forall s, f = nb_loop2 n tg s -> (forall x t, (x < N.of_nat n)%N -> (t < N.of_nat n)%N -> x <> t ->
      exists K, s (N.of_nat n) [x; t] = Ok K /\ nearly n (nb_rep n) (g n) (run_kernel K) (sem2 kd (N.to_nat x) (N.to_nat t)) (cost k 1)) ->
    nearly n (nb_rep n) (g n) f (apply_all (map (fun p => sem2 kd (Z.to_nat (fst p)) (Z.to_nat (snd p))) ps)) (cost k (1 * List.length ps))).
  { intros s -> H. apply (nb_loop2_nearly n tg ps s (sem2 kd)); auto using nk_pos. intros x t Hx Ht Hxt. apply good_sem2; auto. }
  destruct kd; cbn [fn_unitary] in E; try discriminate; injection E; intros <-; clear E; eapply L; try reflexivity; clear L; intros x t Hx Ht Hxt; unfold sem2;
    cbn [angles2] in W; repeat match goal with W : Forall _ (_ :: _) |- _ => apply Forall_cons_iff in W; destruct W as [? W] end;
    destruct (pair_ct n x t Hx Ht Hxt) as [ND FA].
  - destruct (k_cx_ok n [x] t Hn ND FA) as [K [E1 E2]]. exists K. split; auto. apply kacts_nearly; auto. apply cost_pos, nk_pos.
  - eapply nctl_le; [apply (ncz_nearly c P u eta B HC HP Hu He HB Hlit n [x] t Hn ND FA)|lim].
  - eapply nctl_le; [eapply (ncmat_nearly c P u eta B HC HP Hu HB Hlit n [x] t Hn ND FA) with (e := 20 * h)|].
    + eapply near_le; [nr wnear_cos; auto|hle].
    + apply nnear_isin; auto.
    + apply nnear_isin; auto.
    + eapply near_le; [nr wnear_cos; auto|hle].
    + hle.
    + lim.
  - eapply nctl_le; [eapply (ncmat_nearly c P u eta B HC HP Hu HB Hlit n [x] t Hn ND FA) with (e := 2 * h)|].
    + nr wnear_cos; auto.
    + rewrite RtoC_opp. apply near_opp. nr wnear_sin; auto.
    + nr wnear_sin; auto.
    + nr wnear_cos; auto.
    + hle.
    + lim.
  - eapply nctl_le; [eapply (ncrz_nearly c P u eta B HC HP Hu He HB Hlit n [x] t Hn ND FA) with (e := 3 * h); [nr wnear_cis_half'; auto|nr wnear_cis_half; auto|hle]|]. lim.
  - eapply nctl_le; [eapply (ncphase_nearly c P u eta B HC HP Hu He HB Hlit n [x] t Hn ND FA) with (e := h) (a' := cis theta); [|hle]|].
    + replace theta with (theta / 2 + theta / 2) at 2 by field. nr wnear_phase1; auto.
    + lim.
Qed.

Lemma nnative3 : forall n kd a b d f, (n <= 64)%nat -> inside n a -> inside n b -> inside n d -> a <> b -> a <> d -> b <> d ->
  fn_unitary c P (GThree kd (TTuple [TInt a; TInt b; TInt d])) n = Some f ->
  nearly n (nb_rep n) (g n) f (sem3 kd (Z.to_nat a) (Z.to_nat b) (Z.to_nat d)) (cost k 1).
Proof.
  intros n kd a b d f Hn Ha Hb Hd Hab Had Hbd E. pose proof (gp n) as GP.
  destruct kd; cbn [fn_unitary] in E; try discriminate; injection E; intros <-; clear E.
  - apply (nb_raw_nearly n a b d k_cx (sem3 KCCX)); auto. intros x y z Hx Hy Hz Hxy Hxz Hyz.
    destruct (triple_ct n x y z Hx Hy Hz Hxy Hxz Hyz) as [ND FA]. destruct (k_cx_ok n [x; y] z Hn ND FA) as [K [E1 E2]]. exists K. split; auto.
    apply kacts_nearly; auto. apply cost_pos, nk_pos.
  - apply (nb_raw_nearly n a b d (fk_cz c) (sem3 KCCZ)); auto. intros x y z Hx Hy Hz Hxy Hxz Hyz.
    destruct (triple_ct n x y z Hx Hy Hz Hxy Hxz Hyz) as [ND FA]. eapply nctl_le; [apply (ncz_nearly c P u eta B HC HP Hu He HB Hlit n [x; y] z Hn ND FA)|lim].
Qed.
End Native.
