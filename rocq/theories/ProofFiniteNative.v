(** The gate methods of the numpy backend in arithmetic with underflow and overflow *)
From Coq Require Import List Arith ZArith Bool Reals Lia Lra Psatz FunctionalExtensionality.
Import ListNotations.
From Verif Require Import Base Cplx Bits ModelTargets ModelGate ModelNumpy ModelFloat SpecTargets SpecQuantum SpecCircuit SpecFloat SpecFinite
  ProofTargets ProofArray ProofNumpy ProofFallback ProofFallback3 ProofUnitary ProofPauli ProofRun ProofFloat ProofFloatOps ProofFloatKern ProofFloatCoef ProofFinite
  ProofFiniteKern ProofFiniteCoef.
Local Open Scope R_scope.

(** ** Loops *)
Lemma loop1_nearly : forall n tg l f U k m g, denotes (Z.of_nat n) tg l -> Forall (inside n) l -> 0 <= k -> 0 <= g ->
  (forall t, inside n t -> nearly n (np_rep n) g (f n t) (U (Z.to_nat t)) (cost k m) /\ good n (U (Z.to_nat t))) ->
  nearly n (np_rep n) g (loop1 n tg f) (apply_all (map (fun t => U (Z.to_nat t)) l)) (cost k (m * List.length l)).
Proof.
  intros n tg l f U k m g D F K G H s psi R W. unfold loop1, for_gen. apply slicing_iff in D; [|lia]. rewrite D. simpl.
  rewrite Forall_forall in F.
  destruct (nearly_for n (np_rep n) g G Z (f n) (fun t => U (Z.to_nat t)) k m l K (fun t I => H t (F t I)) s psi R W) as [s' [phi [E B]]].
  exists s', phi. rewrite E. auto.
Qed.
Lemma loop2_nearly : forall n tg ps f U k m g, denotes_pairs (Z.of_nat n) tg ps ->
  Forall (fun p => inside n (fst p) /\ inside n (snd p)) ps -> 0 <= k -> 0 <= g ->
  (forall c t, inside n c -> inside n t -> c <> t -> nearly n (np_rep n) g (f n (c, t)) (U (Z.to_nat c) (Z.to_nat t)) (cost k m) /\ good n (U (Z.to_nat c) (Z.to_nat t))) ->
  nearly n (np_rep n) g (loop2 n tg f) (apply_all (map (fun p => U (Z.to_nat (fst p)) (Z.to_nat (snd p))) ps)) (cost k (m * List.length ps)).
Proof.
  intros n tg ps f U k m g D F K G H s psi R W. unfold loop2.
  pose proof (proj2 (pairs_iff (Z.of_nat n) tg ps ltac:(lia)) D) as E. rewrite E. simpl bind.
  destruct D as [a [b [la [lb [_ [_ [_ [_ [_ Hd]]]]]]]]]. rewrite Forall_forall in F, Hd.
  apply (nearly_for n (np_rep n) g G _ (f n) (fun p => U (Z.to_nat (fst p)) (Z.to_nat (snd p))) k m ps); auto.
  intros [c t] I. destruct (F _ I). apply H; auto; apply (Hd _ I).
Qed.

Section Native.
Variable A : arith.
Variable u eta B M : R.
Hypothesis HR : rounds_within A u eta B.
Hypothesis Hu0 : 0 < u.
Hypothesis He : eta <= u.
Hypothesis HM : 3 <= M.
Hypothesis HBM : 64 * M <= B.
Hypothesis Hh : u * M <= 1 / 400.
Let h := u * M.
Let Hu : 0 < u <= 1 / 100 := Hu' u M Hu0 HM Hh.
Let HB : 192 <= B := HB' B M HM HBM.
Let g (n : nat) := eta / u * sqrt (2 ^ n).
Lemma gn_pos : forall n, 0 <= g n.
Proof. intros. unfold g. apply Rmult_le_pos; [apply (g0_pos A u eta B HR Hu HB)|apply sqrt_pos]. Qed.

Let k := 130 * h.
Lemma wk_pos : 0 <= k. Proof. pose proof (wh_pos u M Hu0 HM). unfold k, h. lra. Qed.
Ltac hle := pose proof (wh_pos u M Hu0 HM); pose proof (wu_h u M Hu0 HM); unfold h; lra.
Ltac lim := rewrite cost_1; unfold k; hle.
Ltac use X := apply (X A u eta B HR Hu He HB).
Ltac nr X := first [eapply (X A u eta B M); eassumption | eapply (X A u eta B M); try eassumption].

Lemma wh_loop : forall n t, inside n t -> nearly n (np_rep n) (g n) (fl_h A n t) (sem1 KH (Z.to_nat t)) (cost k 1).
Proof. intros n t Ht. eapply nearly_le; [apply gn_pos|use wh_nearly; auto|]. lim. Qed.

Lemma ry_neg : forall theta, near (RtoC (f_sin A (f_mul A theta (1 / 2)))) (RtoC (sin (theta / 2))) (2 * h) ->
  near (- RtoC (f_sin A (f_mul A theta (1 / 2))))%C (RtoC (- sin (theta / 2))) (2 * h).
Proof.
  intros theta [N1 N2]. rewrite RtoC_opp. split; [|rewrite n1_opp; auto]. rewrite <- n1_opp. eapply Rle_trans; [|exact N1]. right. f_equal. ring.
Qed.

Lemma wnative1 : forall n kd tg l f, denotes (Z.of_nat n) tg l -> Forall (inside n) l -> Forall (fun a => Rabs a <= M) (angles1 kd) ->
  fl_unitary A (GOne kd tg) n = Some f -> nearly n (np_rep n) (g n) f (apply_all (map (fun t => sem1 kd (Z.to_nat t)) l)) (cost k (1 * List.length l)).
Proof.
  intros n kd tg l f D F W E. pose proof (gn_pos n) as GP.
  assert (L : forall s, f = loop1 n tg s -> (forall t, inside n t -> nearly n (np_rep n) (g n) (s n t) (sem1 kd (Z.to_nat t)) (cost k 1)) ->
    nearly n (np_rep n) (g n) f (apply_all (map (fun t => sem1 kd (Z.to_nat t)) l)) (cost k (1 * List.length l))).
  { intros s -> H. apply (loop1_nearly n tg l s (sem1 kd)); auto using wk_pos. intros t Ht. split; auto. apply good_sem1; auto. }
  destruct kd; cbn [fl_unitary] in E; try discriminate; injection E; intros <-; clear E; eapply L; try reflexivity; clear L; intros t Ht; unfold sem1;
    cbn [angles1] in W; repeat match goal with W : Forall _ (_ :: _) |- _ => apply Forall_cons_iff in W; destruct W as [? W] end.
  - apply acts_nearly; auto; [apply step_x_acts; auto|]. apply cost_pos, wk_pos.
  - eapply nearly_le; [exact GP|use wy_nearly; auto|]. lim.
  - eapply nearly_le; [exact GP|apply (wdiag1_nearly A u eta B HR Hu He HB n t Ht _ _ 0 (near_self _ n1_one)); lra|]. lim.
  - apply wh_loop; auto.
  - eapply nearly_le; [exact GP|apply (wdiag1_nearly A u eta B HR Hu He HB n t Ht _ _ (3 * h)); [nr wnear_T|hle]|]. lim.
  - cbn [mat1]. unfold mPhase. rewrite cis_PI2. eapply nearly_le; [exact GP|apply (wdiag1_nearly A u eta B HR Hu He HB n t Ht _ _ 0 (near_self _ n1_i)); lra|]. lim.
  - eapply nearly_le; [exact GP|apply (wmat_nearly A u eta B HR Hu He HB n t Ht _ _ _ _ _ _ _ _ (6 * h))|]; [| | | |hle|lim].
    + eapply near_le; [nr wnear_cos; auto|hle].
    + nr wnear_isin; auto.
    + nr wnear_isin; auto.
    + eapply near_le; [nr wnear_cos; auto|hle].
  - eapply nearly_le; [exact GP|apply (wmat_nearly A u eta B HR Hu He HB n t Ht _ _ _ _ _ _ _ _ (2 * h))|]; [| | | |hle|lim].
    + nr wnear_cos; auto.
    + apply ry_neg. nr wnear_sin; auto.
    + nr wnear_sin; auto.
    + nr wnear_cos; auto.
  - eapply nearly_le; [exact GP|apply (wdiag01_nearly A u eta B HR Hu He HB n t Ht _ _ _ _ (3 * h)); [nr wnear_cis_half'; auto|nr wnear_cis_half; auto|hle]|]. lim.
  - eapply nearly_le; [exact GP|apply (wdiag1_nearly A u eta B HR Hu He HB n t Ht _ _ h)|]; [|hle|lim].
    replace theta with (theta / 2 + theta / 2) at 2 by field. nr wnear_phase1; auto.
  - eapply nearly_le; [exact GP|apply (wdiag01_nearly A u eta B HR Hu He HB n t Ht _ _ _ _ (3 * h)); [nr wnear_cis_half'; auto|nr wnear_cis_half; auto|hle]|]. lim.
  - eapply nearly_le; [exact GP| |].
    + eapply nearly_ext; [apply (wu3_nearly A u eta B HR Hu He HB n t Ht _ _ _ _
        (RtoC (cos (theta / 2)) * cis (- (phi / 2) + - (lambd / 2)))%C
        (RtoC (sin (theta / 2)) * cis (- (phi / 2) + - (lambd / 2)) * cis (lambd / 2 + lambd / 2))%C
        (RtoC (sin (theta / 2)) * cis (- (phi / 2) + - (lambd / 2)) * cis (phi / 2 + phi / 2))%C
        (RtoC (cos (theta / 2)) * cis (- (phi / 2) + - (lambd / 2)) * cis (phi / 2 + phi / 2 + (lambd / 2 + lambd / 2)))%C (35 * h))|].
      * eapply near_le; [nr wnear_rc; auto using cos_abs; nr wnear_cos; auto|hle].
      * eapply (wnear_rcc A u eta B M HR Hu0 He HM HBM Hh); [nr wnear_rc; auto using sin_abs; nr wnear_sin; auto|apply sin_abs|nr wnear_phase1; auto|hle].
      * eapply (wnear_rcc A u eta B M HR Hu0 He HM HBM Hh); [nr wnear_rc; auto using sin_abs; nr wnear_sin; auto|apply sin_abs|nr wnear_phase1; auto|hle].
      * eapply (wnear_rcc A u eta B M HR Hu0 He HM HBM Hh); [nr wnear_rc; auto using cos_abs; nr wnear_cos; auto|apply cos_abs|nr wnear_phase_sum; auto|hle].
      * hle.
      * intros psi. cbn [mat1]. apply functional_extensionality. intros x. apply ap1_eq_mat. intros a b. rewrite u3_entries.
        pose proof (cis_opp_l (phi / 2)) as Ep. pose proof (cis_opp_l (lambd / 2)) as Eq. rewrite <- !cis_add, ?RtoC_opp.
        destruct a, b; unfold mk2; ring [Ep Eq].
    + lim.
Qed.

Lemma wnative2 : forall n kd tg ps f, denotes_pairs (Z.of_nat n) tg ps -> Forall (fun p => inside n (fst p) /\ inside n (snd p)) ps ->
  Forall (fun a => Rabs a <= M) (angles2 kd) -> fl_unitary A (GTwo kd tg) n = Some f ->
  nearly n (np_rep n) (g n) f (apply_all (map (fun p => sem2 kd (Z.to_nat (fst p)) (Z.to_nat (snd p))) ps)) (cost k (1 * List.length ps)).
Proof.
  intros n kd tg ps f D F W E. pose proof (gn_pos n) as GP.
  assert (L : forall s, f = loop2 n tg s -> (forall c t, inside n c -> inside n t -> c <> t -> nearly n (np_rep n) (g n) (s n (c, t)) (sem2 kd (Z.to_nat c) (Z.to_nat t)) (cost k 1)) ->
    nearly n (np_rep n) (g n) f (apply_all (map (fun p => sem2 kd (Z.to_nat (fst p)) (Z.to_nat (snd p))) ps)) (cost k (1 * List.length ps))).
  { intros s -> H. apply (loop2_nearly n tg ps s (sem2 kd)); auto using wk_pos. intros c t Hc Ht Hct. split; auto. apply good_sem2; auto. }
  destruct kd; cbn [fl_unitary] in E; try discriminate; injection E; intros <-; clear E; eapply L; try reflexivity; clear L; intros c t Hc Ht Hct; unfold sem2;
    cbn [angles2] in W; repeat match goal with W : Forall _ (_ :: _) |- _ => apply Forall_cons_iff in W; destruct W as [? W] end.
  - apply acts_nearly; auto; [apply step_cx_acts; auto|]. apply cost_pos, wk_pos.
  - eapply nearly_le; [exact GP|apply (wcdiag1_nearly A u eta B HR Hu He HB n c t Hc Ht Hct _ _ 0 (near_self _ n1_one)); lra|]. lim.
  - eapply nearly_le; [exact GP|apply (wcmat_nearly A u eta B HR Hu He HB n c t Hc Ht Hct _ _ _ _ _ _ _ _ (6 * h))|]; [| | | |hle|lim].
    + eapply near_le; [nr wnear_cos; auto|hle].
    + nr wnear_isin; auto.
    + nr wnear_isin; auto.
    + eapply near_le; [nr wnear_cos; auto|hle].
  - eapply nearly_le; [exact GP|apply (wcmat_nearly A u eta B HR Hu He HB n c t Hc Ht Hct _ _ _ _ _ _ _ _ (2 * h))|]; [| | | |hle|lim].
    + nr wnear_cos; auto.
    + apply ry_neg. nr wnear_sin; auto.
    + nr wnear_sin; auto.
    + nr wnear_cos; auto.
  - eapply nearly_le; [exact GP|apply (wcdiag01_nearly A u eta B HR Hu He HB n c t Hc Ht Hct _ _ _ _ (3 * h)); [nr wnear_cis_half'; auto|nr wnear_cis_half; auto|hle]|]. lim.
  - eapply nearly_le; [exact GP|apply (wcdiag1_nearly A u eta B HR Hu He HB n c t Hc Ht Hct _ _ h)|]; [|hle|lim].
    replace theta with (theta / 2 + theta / 2) at 2 by field. nr wnear_phase1; auto.
Qed.

Lemma wnative_ccz : forall n a b c, inside n a -> inside n b -> inside n c ->
  nearly n (np_rep n) (g n) (fl_ccz A n (TTuple [TInt a; TInt b; TInt c])) (sem3 KCCZ (Z.to_nat a) (Z.to_nat b) (Z.to_nat c)) (cost k 1).
Proof. intros n a b c Ha Hb Hc. eapply nearly_le; [apply gn_pos|use wccz_nearly; auto|]. lim. Qed.
Lemma wnative_ccx : forall n a b c, inside n a -> inside n b -> inside n c -> a <> b -> a <> c -> b <> c ->
  nearly n (np_rep n) (g n) (fl_ccx A n (TTuple [TInt a; TInt b; TInt c])) (sem3 KCCX (Z.to_nat a) (Z.to_nat b) (Z.to_nat c)) (cost k 3).
Proof.
  intros n a b c Ha Hb Hc Hab Hac Hbc. pose proof (gn_pos n) as GP.
  assert (H : nearly n (np_rep n) (g n) (loop1 n (TInt c) (fl_h A)) (sem1 KH (Z.to_nat c)) (cost k 1)).
  { apply (loop1_nearly n (TInt c) [c] (fl_h A) (sem1 KH) k 1); [apply denotes_int; auto|constructor; auto|apply wk_pos|auto|].
    intros t Ht. split; [apply wh_loop; auto|apply good_sem1; auto]. }
  pose proof (good_sem1 n KH c Hc) as GH. pose proof (good_sem3 n KCCZ a b c Ha Hb Hc Hab Hac Hbc) as GZ.
  eapply nearly_ext.
  - apply (nearly_cost_seq n (np_rep n) (g n) GP (loop1 n (TInt c) (fl_h A)) (fun s => bind (fl_ccz A n (TTuple [TInt a; TInt b; TInt c]) s) (loop1 n (TInt c) (fl_h A)))
      (sem1 KH (Z.to_nat c)) (fun psi => sem1 KH (Z.to_nat c) (sem3 KCCZ (Z.to_nat a) (Z.to_nat b) (Z.to_nat c) psi)) k 1 2); auto using wk_pos.
    + apply (nearly_cost_seq n (np_rep n) (g n) GP _ _ _ _ k 1 1); auto using wk_pos. apply wnative_ccz; auto.
    + exact (good_comp n _ _ GZ GH).
  - intros psi. apply (h_ccz_h (Z.to_nat a) (Z.to_nat b) (Z.to_nat c)); unfold inside in *; lia.
Qed.
End Native.
