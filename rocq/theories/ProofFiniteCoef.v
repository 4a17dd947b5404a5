(** Errors of the coefficients of gates in arithmetic with underflow and overflow *)
From Coq Require Import List Arith ZArith Bool Reals Lia Lra Psatz FunctionalExtensionality.
Import ListNotations.
From Verif Require Import Base Cplx Bits ModelTargets ModelGate ModelNumpy ModelFloat SpecTargets SpecQuantum SpecCircuit SpecFloat SpecFinite
  ProofTargets ProofArray ProofNumpy ProofFallback ProofFallback3 ProofUnitary ProofPauli ProofRun ProofFloat ProofFloatOps ProofFloatKern ProofFloatCoef ProofFinite.
Local Open Scope R_scope.

Section Coef.
Variable A : arith.
Variable u eta B M : R.
Hypothesis HR : rounds_within A u eta B.
Hypothesis Hu0 : 0 < u.
Hypothesis He : eta <= u.
Hypothesis HM : 3 <= M.
Hypothesis HBM : 64 * M <= B.
Hypothesis Hh : u * M <= 1 / 400.
Let h := u * M.

Lemma HB' : 192 <= B. Proof. lra. Qed.
Lemma wu_h : u <= h / 3. Proof. unfold h. nra. Qed.
Lemma wh_pos : 0 <= h. Proof. unfold h. apply Rmult_le_pos; lra. Qed.
Lemma Hu' : 0 < u <= 1 / 100. Proof. pose proof wu_h. fold h in Hh. lra. Qed.
Let EP : 0 <= eta := eta_pos A u eta B HR HB'.
Lemma weta_h : 0 <= eta <= h / 3. Proof. pose proof wu_h. lra. Qed.
Lemma wh_sq : h * h <= h / 400.
Proof. pose proof wh_pos. fold h in Hh. nra. Qed.
Lemma wh_cube : h * h * h <= h / 400.
Proof. pose proof wh_pos. pose proof wh_sq. fold h in Hh. nra. Qed.
Ltac poly := pose proof wh_pos; pose proof wh_sq; pose proof wh_cube; fold h in Hh; nra.
Ltac hs := pose proof wu_h; pose proof weta_h; pose proof wh_pos; fold h in Hh; lra.

Lemma half_range : forall t, Rabs t <= M -> Rabs (f_mul A t (1 / 2) - t / 2) <= 5 / 6 * h /\ Rabs (f_mul A t (1 / 2)) <= B.
Proof.
  intros t H. pose proof (whalf_err A u eta B HR Hu' HB' t M H ltac:(lra)) as E. fold h in E.
  assert (E' : Rabs (f_mul A t (1 / 2) - t / 2) <= 5 / 6 * h) by (pose proof weta_h; lra). split; auto.
  pose proof (ab_near _ _ _ E'). assert (Rabs (t / 2) <= M / 2) by (unfold Rdiv; rewrite Rabs_mult, (Rabs_pos_eq (/ 2)) by lra; lra). hs.
Qed.
Lemma wnear_cos : forall t, Rabs t <= M -> near (RtoC (f_cos A (f_mul A t (1 / 2)))) (RtoC (cos (t / 2))) (2 * h).
Proof.
  intros t H. destruct (half_range t H) as [E L]. apply near_R; [|apply cos_abs]. pose proof (wf_cos_err A u eta B HR _ _ _ L E). hs.
Qed.
Lemma wnear_sin : forall t, Rabs t <= M -> near (RtoC (f_sin A (f_mul A t (1 / 2)))) (RtoC (sin (t / 2))) (2 * h).
Proof.
  intros t H. destruct (half_range t H) as [E L]. apply near_R; [|apply sin_abs]. pose proof (wf_sin_err A u eta B HR _ _ _ L E). hs.
Qed.
Lemma wnear_mul : forall z w z' w' e f a b r, n1 (z - z')%C <= e -> n1 (w - w')%C <= f -> n1 z' <= a -> n1 w' <= b -> n1 (z' * w')%C <= 3 / 2 ->
  a + e <= 13 -> b + f <= 13 ->
  7 / 10 * h * ((a + e) * (b + f)) + (e * (b + f) + a * f) + 7 / 3 * h <= r -> near (fc_mul A z w) (z' * w')%C r.
Proof.
  intros z w z' w' e f a b r H1 H2 H3 H4 H5 L1 L2 H6. split; auto. eapply Rle_trans; [|exact H6].
  eapply Rle_trans; [apply (wc_mul_near A u eta B HR Hu' He HB' _ _ _ _ _ _ _ _ H1 H2 H3 H4); auto|].
  apply Rplus_le_compat; [|pose proof weta_h; lra]. apply Rplus_le_compat_r, Rmult_le_compat_r.
  - pose proof (n1_pos (z - z')%C). pose proof (n1_pos (w - w')%C). pose proof (n1_pos z'). pose proof (n1_pos w'). apply Rmult_le_pos; lra.
  - pose proof wu_h. lra.
Qed.

Lemma wnear_isin : forall t, Rabs t <= M -> near (fc_mul A (- Ci)%C (RtoC (f_sin A (f_mul A t (1 / 2))))) (- Ci * RtoC (sin (t / 2)))%C (6 * h).
Proof.
  intros t H. destruct (wnear_sin t H) as [H1 H2].
  apply wnear_mul with (e := 0) (f := 2 * h) (a := 1) (b := 1); auto.
  - rewrite n1_self. lra.
  - rewrite n1_opp. unfold n1, Ci; simpl. rewrite Rabs_R0, Rabs_R1. lra.
  - rewrite n1_RtoC. apply sin_abs.
  - rewrite n1_ci_mul. pose proof (sin_abs (t / 2)). lra.
  - lra.
  - hs.
  - poly.
Qed.
Lemma wnear_cis : forall a b d, Rabs a <= B -> Rabs (a - b) <= d -> near (fl_cis A a) (cis b) (2 / 3 * h + 2 * d).
Proof. intros a b d L H. split; [|apply n1_cis]. pose proof (wfl_cis_err A u eta B HR a b d L H). pose proof wu_h. lra. Qed.
Lemma wnear_cis_half : forall t, Rabs t <= M -> near (fl_cis A (f_mul A t (1 / 2))) (cis (t / 2)) (3 * h).
Proof. intros t H. destruct (half_range t H) as [E L]. eapply near_le; [apply wnear_cis; eauto|]. hs. Qed.
Lemma wnear_cis_half' : forall t, Rabs t <= M -> near (Cconj (fl_cis A (f_mul A t (1 / 2)))) (cis (- (t / 2))) (3 * h).
Proof. intros t H. rewrite cis_opp. apply near_conj, wnear_cis_half; auto. Qed.
Lemma wnear_T : near (fl_rsqrt2 A, fl_rsqrt2 A) (cis (PI / 4)) (3 * h).
Proof.
  split; [|apply n1_cis]. pose proof (wrsqrt2_err A u eta B HR Hu' He HB') as H. pose proof wu_h. pose proof wh_pos. unfold n1, cis, Csub, Cadd, Copp. cbn [fst snd].
  rewrite cos_PI4, sin_PI4. replace (1 / sqrt 2) with (/ sqrt 2) by (unfold Rdiv; ring). unfold Rminus in H. lra.
Qed.

(** u3 *)
Lemma wsub_range : forall p l, Rabs p <= M -> Rabs l <= M -> Rabs (f_sub A p l - (p - l)) <= 7 / 3 * h /\ Rabs (f_sub A p l) <= 2 * M + 7 / 3 * h.
Proof.
  intros p l Hp Hl. assert (L : Rabs (p - l) <= 2 * M) by (pose proof (ab_minus p l); lra).
  assert (E : Rabs (f_sub A p l - (p - l)) <= 7 / 3 * h).
  { eapply Rle_trans; [apply (w_sub _ _ _ _ HR); lra|]. assert (u * Rabs (p - l) <= 2 * h) by (unfold h; nra). pose proof weta_h. lra. }
  split; auto. pose proof (ab_near _ _ _ E). lra.
Qed.
Lemma wadd_range : forall p l, Rabs p <= M -> Rabs l <= M -> Rabs (f_add A p l - (p + l)) <= 7 / 3 * h /\ Rabs (f_add A p l) <= 2 * M + 7 / 3 * h.
Proof.
  intros p l Hp Hl. assert (L : Rabs (p + l) <= 2 * M) by (pose proof (Rabs_triang p l); lra).
  assert (E : Rabs (f_add A p l - (p + l)) <= 7 / 3 * h).
  { eapply Rle_trans; [apply (w_add _ _ _ _ HR); lra|]. assert (u * Rabs (p + l) <= 2 * h) by (unfold h; nra). pose proof weta_h. lra. }
  split; auto. pose proof (ab_near _ _ _ E). lra.
Qed.
(** half of a rounded sum or difference *)
Lemma whalf_sum : forall s x, Rabs (s - x) <= 7 / 3 * h -> Rabs s <= 2 * M + 7 / 3 * h -> Rabs x <= 2 * M ->
  near (fl_cis A (f_mul A s (1 / 2))) (cis (x / 2)) (7 * h).
Proof.
  intros s x E L X. pose proof (whalf_err A u eta B HR Hu' HB' s (2 * M + 7 / 3 * h) L ltac:(hs)) as D. apply half_dist in E.
  assert (U : u * (2 * M + 7 / 3 * h) <= 201 / 100 * h).
  { replace (u * (2 * M + 7 / 3 * h)) with (2 * h + 7 / 3 * (u * h)) by (unfold h; field). pose proof Hu'. pose proof wh_pos. pose proof wu_h. fold h in Hh. assert (u * h <= 1 / 1000 * h) by (apply Rmult_le_compat_r; lra). lra. }
  pose proof (ab_tri _ _ _ _ _ D E) as T. pose proof (ab_near _ _ _ T) as N.
  assert (Rabs (x / 2) <= M) by (unfold Rdiv; rewrite Rabs_mult, (Rabs_pos_eq (/ 2)) by lra; lra).
  eapply near_le; [apply wnear_cis; [|exact T]|]; hs.
Qed.
Lemma wnear_phase3 : forall p l, Rabs p <= M -> Rabs l <= M ->
  near (fl_cis A (f_mul A (f_sub A (- p) l) (1 / 2))) (cis (- (p / 2) + - (l / 2))) (7 * h).
Proof.
  intros p l Hp Hl. rewrite <- Rabs_Ropp in Hp. destruct (wsub_range (- p) l Hp Hl) as [E L].
  replace (- (p / 2) + - (l / 2)) with ((- p - l) / 2) by field. apply whalf_sum; auto. pose proof (ab_minus (- p) l). lra.
Qed.
Lemma wnear_phase_sum : forall p l, Rabs p <= M -> Rabs l <= M -> near (fl_cis A (f_add A p l)) (cis (p / 2 + p / 2 + (l / 2 + l / 2))) (6 * h).
Proof.
  intros p l Hp Hl. destruct (wadd_range p l Hp Hl) as [E L].
  replace (p / 2 + p / 2 + (l / 2 + l / 2)) with (p + l) by field.
  eapply near_le; [apply wnear_cis; [|exact E]|]; hs.
Qed.
Lemma wnear_phase1 : forall l, Rabs l <= M -> near (fl_cis A l) (cis (l / 2 + l / 2)) h.
Proof.
  intros l L. replace (l / 2 + l / 2) with l by field. eapply near_le; [apply (wnear_cis l l 0); [lra|rewrite Rminus_diag_eq, Rabs_R0 by auto; lra]|]. hs.
Qed.
Lemma wnear_rc : forall r r' p l, near (RtoC r) (RtoC r') (2 * h) -> Rabs r' <= 1 -> Rabs p <= M -> Rabs l <= M ->
  near (fc_mul A (RtoC r) (fl_cis A (f_mul A (f_sub A (- p) l) (1 / 2)))) (RtoC r' * cis (- (p / 2) + - (l / 2)))%C (14 * h).
Proof.
  intros r r' p l [H1 H1'] Hr Hp Hl. destruct (wnear_phase3 p l Hp Hl) as [H2 H2'].
  apply wnear_mul with (e := 2 * h) (f := 7 * h) (a := 1) (b := 3 / 2); auto; try hs.
  - rewrite n1_RtoC. auto.
  - apply n1_unit, size_rc; auto.
  - poly.
Qed.
Lemma wnear_rcc : forall z w r a b f, near z (RtoC r * cis a)%C (14 * h) -> Rabs r <= 1 -> near w (cis b) f -> f <= 6 * h ->
  near (fc_mul A z w) (RtoC r * cis a * cis b)%C (35 * h).
Proof.
  intros z w r a b f [H1 H1'] Hr [H2 H2'] Hf.
  apply wnear_mul with (e := 14 * h) (f := 6 * h) (a := 3 / 2) (b := 3 / 2); auto; try hs.
  - apply n1_unit. rewrite <- Cmul_assoc, cis_add. apply size_rc; auto.
  - poly.
Qed.
End Coef.
