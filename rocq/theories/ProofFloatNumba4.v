(** Kinds of compiled code, and the order of the iterations *)
From Coq Require Import String List Arith NArith Nnat ZArith Bool Reals Lia Lra Psatz FunctionalExtensionality.
Import ListNotations.
From Verif Require Import Base Cplx Bits ModelTargets ModelGate ModelNumpy ModelNumba ModelFloat ModelFloatNumba SpecTargets SpecQuantum SpecCircuit SpecMeasure SpecNumba SpecFloat SpecFinite
  SpecFloatNumba ProofTargets ProofArray ProofNumpy ProofUnitary ProofPauli ProofRun ProofMeasure ProofCache ProofExamples ProofIndex ProofKernel ProofPair ProofNumba ProofNumbaRun ProofNumbaProps
  ProofFloat ProofFloatOps ProofFloatKern ProofFloatCoef ProofFloatRun ProofFloatTop
  ProofFinite ProofFiniteKern ProofFiniteCoef ProofFiniteNative ProofFiniteRun ProofFiniteTop ProofFloatNumba ProofFloatNumba2 ProofFloatNumba3 ProofFloatNumbaTop.
Local Open Scope R_scope.

(** ** The order of the iterations *)
Lemma fn_loop_kacts : forall c n k, (n <= 64)%nat -> rounded_loop c (N.of_nat n) k -> exists U, kacts n k U.
Proof.
  intros c n k Hn H.
  assert (MAT : forall a b c' d t, (t < N.of_nat n)%N -> exists U, kacts n (fk_mat c a b c' d (N.of_nat n) t) U).
  { intros a b c' d t Ht. eexists. apply (one_kernel_at n t Hn Ht _ (fst (lin_rows c a b c' d)) (snd (lin_rows c a b c' d))). intros p q Ha Hb Hab i <- <-. cbn [fst snd lin_rows].
    rewrite !N2Nat.id. apply (body_swap n _ _ Ha Hb Hab). intros r r' E0 E1. rewrite E0, E1. auto. }
  assert (CMAT : forall a b c' d ct, ct <> [] -> NoDup ct -> Forall (fun q => q < N.of_nat n)%N ct -> fk_cmat c a b c' d (N.of_nat n) ct = Ok k -> exists U, kacts n k U).
  { intros a b c' d ct HN ND FA E. destruct (snoc_list _ ct HN) as [cs [t ->]].
    destruct (ctl_kernel_at n cs t Hn ND FA) with (f0 := fst (lin_rows c a b c' d)) (f1 := snd (lin_rows c a b c' d))
      (body := fun i10 t_mask => let i11 := N.lor i10 t_mask in
        [Load 0 i10; Load 1 i11; Store i10 (fun r => c_lin c i10 a (r 0%nat) b (r 1%nat)); Store i11 (fun r => c_lin c i11 c' (r 0%nat) d (r 1%nat))]) as [k' [E' K]].
    - intros p q Ha Hb Hab ->. cbn [fst snd lin_rows]. rewrite !N2Nat.id. apply (body_swap n _ _ Ha Hb Hab). intros r r' E0 E1. rewrite E0, E1. auto.
    - eexists. pose proof (eq_trans (eq_sym E') E) as X. injection X as <-. exact K. }
  destruct H as [t Ht|t Ht|t Ht|t f Ht|t th Ht|t th Ht|t th Ht|t th ph la Ht|ct k HN ND FA E|ct k HN ND FA E|ct th k HN ND FA E|ct th k HN ND FA E|ct th k HN ND FA E|ct th k HN ND FA E];
    try (apply MAT; exact Ht); try (eapply CMAT; eassumption).
  - eexists. apply k_x_ok; auto.
  - eexists. apply (one_kernel_at n t Hn Ht _ (fun i _ y => c_mul c (N.of_nat i) y (- Ci)%C) (fun i x _ => c_mul c (N.of_nat i) x Ci)).
    intros p q Ha Hb Hab i <- <-. cbv beta. rewrite !N2Nat.id. apply (body_swap n _ _ Ha Hb Hab). intros r r' E0 E1. rewrite E0, E1. auto.
  - eexists. apply (one_kernel_at n t Hn Ht _ (fun i x y => c_had c (N.of_nat i) x y (c_lit c (7071067811865475 / 10000000000000000)))
      (fun i x y => c_had c (N.of_nat i) x (- y)%C (c_lit c (7071067811865475 / 10000000000000000)))).
    intros p q Ha Hb Hab i <- <-. cbv beta zeta. rewrite !N2Nat.id. apply (body_swap n _ _ Ha Hb Hab). intros r r' E0 E1. rewrite E0, E1. auto.
  - eexists. apply (one_kernel_at n t Hn Ht _ (fun _ x _ => x) (fun i _ y => c_mul c (N.of_nat i) y f)).
    intros p q Ha Hb Hab i <- <-. cbv beta. rewrite !N2Nat.id. apply (fbody_scale1 n _ _ Hb Hab c).
  - eexists. unfold fk_rz. cbv zeta. set (e := fl_cis _ _). apply (one_kernel_at n t Hn Ht _ (fun i x _ => c_mul c (N.of_nat i) x (Cconj e)) (fun i _ y => c_mul c (N.of_nat i) y e)).
    intros p q Ha Hb Hab i <- <-. cbv beta. rewrite !N2Nat.id. apply (fbody_rz n _ _ Ha Hb Hab c).
  - destruct (snoc_list _ ct HN) as [cs [t ->]]. destruct (cz_kernel_at n cs t Hn ND FA c (fun i y => c_mul c (N.of_nat i) y (- C1)%C)) as [k' [E' K]].
    { intros b v. rewrite N2Nat.id. reflexivity. }
    eexists. rewrite E' in E. injection E as <-. exact K.
  - destruct (snoc_list _ ct HN) as [cs [t ->]]. destruct (k_cx_ok n cs t Hn ND FA) as [k' [E' K]]. eexists. rewrite E' in E. injection E as <-. exact K.
  - destruct (snoc_list _ ct HN) as [cs [t ->]]. unfold fk_crz in E. cbv zeta in E. set (e := fl_cis _ _) in E.
    destruct (ctl_kernel_at n cs t Hn ND FA) with (f0 := fun i (x _ : C) => c_mul c (N.of_nat i) x (Cconj e)) (f1 := fun i (_ y : C) => c_mul c (N.of_nat i) y e)
      (body := fun i10 t_mask => fk_scale_at c i10 (Cconj e) ++ fk_scale_at c (N.lor i10 t_mask) e) as [k' [E' K]].
    { intros p q Ha Hb Hab ->. rewrite !N2Nat.id. apply (fbody_scale01 n _ _ Ha Hb Hab c). }
    eexists. rewrite E' in E. injection E as <-. exact K.
  - destruct (snoc_list _ ct HN) as [cs [t ->]]. unfold fk_cphase in E. set (e := fl_cis _ _) in E.
    destruct (ctl_kernel_at n cs t Hn ND FA) with (f0 := fun (_ : nat) (x _ : C) => x) (f1 := fun i (_ y : C) => c_mul c (N.of_nat i) y e)
      (body := fun i10 t_mask => fk_scale_at c (N.lor i10 t_mask) e) as [k' [E' K]].
    { intros p q Ha Hb Hab ->. rewrite !N2Nat.id. apply (fbody_scale1 n _ _ Hb Hab c). }
    eexists. rewrite E' in E. injection E as <-. exact K.
Qed.
Lemma fn_race_free : forall c n k a, (n <= 64)%nat -> rounded_loop c (N.of_nat n) k -> List.length a = (2 ^ n)%nat -> race_free k a.
Proof. intros c n k a Hn H Ha. destruct (fn_loop_kacts c n k Hn H) as [U K]. eapply kacts_race_free; eauto. Qed.

(** ** Kinds of compiled code *)
Section Kinds.
Variable A : arith.
Variable u eta B : R.
Variable lit : R -> R.
Hypothesis HR : rounds_within A u eta B.
Hypothesis Hu : 0 < u <= 1 / 100.
Hypothesis He : eta <= u.
Hypothesis HB : 192 <= B.
Hypothesis HL : forall x, Rabs x <= 1 -> Rabs (lit x - x) <= u * Rabs x + eta.
Let EP : 0 <= eta := eta_pos A u eta B HR HB.

Lemma s_prod : forall z w, n1 z <= 13 -> n1 w <= 13 -> n1 (fc_mul A z w - z * w)%C <= 5 * u * (n1 z * n1 w) + 20 * eta.
Proof.
  intros z w Z W. pose proof (wc_mul_err A u eta B HR Hu He HB z w Z W). pose proof (n1_pos z). pose proof (n1_pos w).
  assert (0 <= u * (n1 z * n1 w)) by (apply Rmult_le_pos; [lra|apply Rmult_le_pos; auto]). lra.
Qed.
Lemma s_lin : forall a t b v, n1 a <= 2 -> n1 t <= 6 -> n1 b <= 2 -> n1 v <= 6 ->
  n1 (fc_add A (fc_mul A a t) (fc_mul A b v) - (a * t + b * v))%C <= 5 * u * (n1 a * n1 t + n1 b * n1 v) + 20 * eta.
Proof.
  intros a t b v Ha Ht Hb Hv. pose proof (wc_mul_err A u eta B HR Hu He HB a t ltac:(lra) ltac:(lra)) as K1. pose proof (wc_mul_err A u eta B HR Hu He HB b v ltac:(lra) ltac:(lra)) as K2.
  pose proof (n1_pos a). pose proof (n1_pos t). pose proof (n1_pos b). pose proof (n1_pos v).
  assert (P1 : 0 <= n1 a * n1 t <= 12) by nra. assert (P2 : 0 <= n1 b * n1 v <= 12) by nra. set (p := n1 a * n1 t) in *. set (q := n1 b * n1 v) in *.
  pose proof (n1_near _ _ _ K1) as N1. pose proof (n1_near _ _ _ K2) as N2. pose proof (n1_mul a t) as M1. pose proof (n1_mul b v) as M2. fold p in M1. fold q in M2.
  assert (U1 : 0 <= u * p <= 12 / 100) by nra. assert (U2 : 0 <= u * q <= 12 / 100) by nra.
  pose proof (wc_add_err A u eta B HR Hu (fc_mul A a t) (fc_mul A b v) ltac:(lra) ltac:(lra)) as K3.
  assert (D : n1 (fc_mul A a t + fc_mul A b v - (a * t + b * v))%C <= 21 / 10 * u * (p + q) + 14 * eta).
  { replace (fc_mul A a t + fc_mul A b v - (a * t + b * v))%C with ((fc_mul A a t - a * t) + (fc_mul A b v - b * v))%C by ring. eapply Rle_trans; [apply n1_add|]. lra. }
  pose proof (n1_tri _ _ _ _ _ K3 D) as T. eapply Rle_trans; [exact T|].
  assert (S : u * (n1 (fc_mul A a t) + n1 (fc_mul A b v)) <= 11 / 10 * (u * (p + q)) + eta).
  { apply Rle_trans with (u * (p + q + 21 / 10 * u * (p + q) + 14 * eta)); [apply Rmult_le_compat_l; lra|].
    assert (u * (u * (p + q)) <= 1 / 100 * (u * (p + q))) by (apply Rmult_le_compat_r; lra). assert (u * eta <= 1 / 100 * eta) by (apply Rmult_le_compat_r; lra).
    replace (u * (p + q + 21 / 10 * u * (p + q) + 14 * eta)) with (u * (p + q) + 21 / 10 * (u * (u * (p + q))) + 14 * (u * eta)) by ring. lra. }
  lra.
Qed.
Lemma s_had : forall t v s, n1 t <= 6 -> n1 v <= 6 -> Rabs s <= 1 -> n1 (fc_mul A (fc_add A t v) (RtoC s) - (t + v) * RtoC s)%C <= 5 * u * ((n1 t + n1 v) * Rabs s) + 20 * eta.
Proof.
  intros t v s Ht Hv Hs. pose proof (n1_pos t). pose proof (n1_pos v). pose proof (Rabs_pos s). pose proof (wc_add_err A u eta B HR Hu t v ltac:(lra) ltac:(lra)) as K1.
  set (T := n1 t + n1 v) in *. assert (TP : 0 <= T <= 12) by (unfold T; lra). pose proof (n1_add t v) as NA. fold T in NA. pose proof (n1_near _ _ _ K1) as N1.
  assert (U1 : 0 <= u * T <= 12 / 100) by nra.
  pose proof (wc_mul_err A u eta B HR Hu He HB (fc_add A t v) (RtoC s) ltac:(lra) ltac:(rewrite n1_RtoC; lra)) as K2. rewrite n1_RtoC in K2.
  assert (D : n1 (fc_add A t v * RtoC s - (t + v) * RtoC s)%C <= (u * T + 2 * eta) * Rabs s).
  { replace (fc_add A t v * RtoC s - (t + v) * RtoC s)%C with ((fc_add A t v - (t + v)) * RtoC s)%C by ring. eapply Rle_trans; [apply n1_mul|]. rewrite n1_RtoC. apply Rmult_le_compat_r; auto. }
  pose proof (n1_tri _ _ _ _ _ K2 D) as TT. eapply Rle_trans; [exact TT|].
  assert (Q : n1 (fc_add A t v) * Rabs s <= (T + (u * T + 2 * eta)) * Rabs s) by (apply Rmult_le_compat_r; lra).
  assert (Q2 : 21 / 10 * u * (n1 (fc_add A t v) * Rabs s) <= 21 / 10 * u * ((T + (u * T + 2 * eta)) * Rabs s)) by (apply Rmult_le_compat_l; lra).
  assert (TS : 0 <= T * Rabs s) by (apply Rmult_le_pos; lra). assert (UTS : 0 <= u * (T * Rabs s)) by (apply Rmult_le_pos; lra).
  assert (ES : 0 <= eta * Rabs s <= eta) by (split; [apply Rmult_le_pos; lra|nra]).
  assert (X1 : u * (u * (T * Rabs s)) <= 1 / 100 * (u * (T * Rabs s))) by (apply Rmult_le_compat_r; lra).
  assert (X2 : u * (eta * Rabs s) <= 1 / 100 * (eta * Rabs s)) by (apply Rmult_le_compat_r; lra).
  replace (21 / 10 * u * ((T + (u * T + 2 * eta)) * Rabs s)) with (21 / 10 * (u * (T * Rabs s)) + 21 / 10 * (u * (u * (T * Rabs s))) + 42 / 10 * (u * (eta * Rabs s))) in Q2 by field.
  replace ((u * T + 2 * eta) * Rabs s) with (u * (T * Rabs s) + 2 * (eta * Rabs s)) by ring. lra.
Qed.
Lemma plain_lemma : compiles (plain_compiled A lit) u eta B.
Proof.
  split; cbn [plain_compiled c_arith c_lit c_coef c_mul c_lin c_had]; auto.
  - intros a b Ha Hb. change (n1 a <= 2) in Ha. change (n1 b <= 2) in Hb. apply s_prod; lra.
  - intros i a b Ha Hb. change (n1 a <= 6) in Ha. change (n1 b <= 2) in Hb. apply s_prod; lra.
  - intros i. exact s_lin.
  - intros i. exact s_had.
Qed.

Variable F : R -> R -> R -> R.
Hypothesis HF : fuses F u eta B.

(** a rounded number, then a fused operation *)
Lemma f_two : forall a b r s, Rabs a <= 13 -> Rabs b <= 13 -> Rabs (a * b) <= 60 -> Rabs s <= 60 -> Rabs (r - s) <= u * Rabs s + eta ->
  Rabs (F a b r - (a * b + s)) <= 202 / 100 * u * (Rabs (a * b) + Rabs s) + 21 / 10 * eta.
Proof.
  intros a b r s Ha Hb Hab Hs K. pose proof (Rabs_pos (a * b)). pose proof (Rabs_pos s).
  assert (U1 : 0 <= u * Rabs s <= 60 / 100) by nra. pose proof (ab_near _ _ _ K) as N1.
  pose proof (HF a b r ltac:(lra) ltac:(lra) ltac:(lra)) as K2.
  assert (D : Rabs (a * b + r - (a * b + s)) <= u * Rabs s + eta) by (replace (a * b + r - (a * b + s)) with (r - s) by ring; auto).
  pose proof (ab_tri _ _ _ _ _ K2 D) as T. eapply Rle_trans; [exact T|].
  assert (S : u * Rabs (a * b + r) <= u * (Rabs (a * b) + (Rabs s + (u * Rabs s + eta)))).
  { apply Rmult_le_compat_l; [lra|]. pose proof (Rabs_triang (a * b) r). lra. }
  assert (u * (u * Rabs s) <= 1 / 100 * (u * Rabs s)) by (apply Rmult_le_compat_r; lra). assert (u * eta <= 1 / 100 * eta) by (apply Rmult_le_compat_r; lra).
  assert (0 <= u * Rabs (a * b)) by (apply Rmult_le_pos; lra).
  replace (u * (Rabs (a * b) + (Rabs s + (u * Rabs s + eta)))) with (u * Rabs (a * b) + u * Rabs s + u * (u * Rabs s) + u * eta) in S by ring. lra.
Qed.
Lemma ab_prod : forall a b x y, Rabs a <= x -> Rabs b <= y -> Rabs (a * b) <= x * y.
Proof. intros. rewrite Rabs_mult. apply Rmult_le_compat; auto using Rabs_pos. Qed.
Lemma f_mul_err : forall z w, n1 z <= 6 -> n1 w <= 6 -> n1 (fused_mul A F z w - z * w)%C <= 202 / 100 * u * (n1 z * n1 w) + 42 / 10 * eta.
Proof.
  intros [a b] [c d] Z W. pose proof (n1_fst (a, b)) as Z1. pose proof (n1_snd (a, b)) as Z2. pose proof (n1_fst (c, d)) as Z3. pose proof (n1_snd (c, d)) as Z4. cbn [fst snd] in *.
  pose proof (w_mul _ _ _ _ HR b d ltac:(lra) ltac:(lra)) as M1. pose proof (w_mul _ _ _ _ HR b c ltac:(lra) ltac:(lra)) as M2.
  pose proof (ab_prod a c 6 6 ltac:(lra) ltac:(lra)) as P1. pose proof (ab_prod b d 6 6 ltac:(lra) ltac:(lra)) as P2.
  pose proof (ab_prod a d 6 6 ltac:(lra) ltac:(lra)) as P3. pose proof (ab_prod b c 6 6 ltac:(lra) ltac:(lra)) as P4.
  apply ab_opp in M1. rewrite <- (Rabs_Ropp (b * d)) in M1, P2.
  pose proof (f_two a c (- f_mul A b d) (- (b * d)) ltac:(lra) ltac:(lra) ltac:(lra) ltac:(lra) M1) as E1. pose proof (f_two a d (f_mul A b c) (b * c) ltac:(lra) ltac:(lra) ltac:(lra) ltac:(lra) M2) as E2.
  unfold n1, fused_mul, Csub, Cadd, Copp, Cmul in *; cbn [fst snd] in *. rewrite Rabs_Ropp in E1.
  rewrite !Rabs_mult in E1, E2. unfold Rminus in E1, E2.
  replace (202 / 100 * u * ((Rabs a + Rabs b) * (Rabs c + Rabs d)) + 42 / 10 * eta)
    with (202 / 100 * u * (Rabs a * Rabs c + Rabs b * Rabs d) + 21 / 10 * eta + (202 / 100 * u * (Rabs a * Rabs d + Rabs b * Rabs c) + 21 / 10 * eta)) by field.
  apply Rplus_le_compat; [exact E1|exact E2].
Qed.
Lemma f_add_err : forall z w x, n1 z <= 6 -> n1 w <= 6 -> n1 x <= 20 -> n1 (fused_add_mul F z w x - (z * w + x))%C <= 202 / 100 * u * (n1 z * n1 w + n1 x) + 43 / 10 * eta.
Proof.
  intros [a b] [c d] [x y] Z W X. pose proof (n1_fst (a, b)) as Z1. pose proof (n1_snd (a, b)) as Z2. pose proof (n1_fst (c, d)) as Z3. pose proof (n1_snd (c, d)) as Z4.
  pose proof (n1_fst (x, y)) as Z5. pose proof (n1_snd (x, y)) as Z6. cbn [fst snd] in *.
  pose proof (ab_prod a c 6 6 ltac:(lra) ltac:(lra)) as P1. pose proof (ab_prod b d 6 6 ltac:(lra) ltac:(lra)) as P2.
  pose proof (ab_prod a d 6 6 ltac:(lra) ltac:(lra)) as P3. pose proof (ab_prod b c 6 6 ltac:(lra) ltac:(lra)) as P4.
  pose proof (HF a c x ltac:(lra) ltac:(lra) ltac:(lra)) as M1. pose proof (HF a d y ltac:(lra) ltac:(lra) ltac:(lra)) as M2.
  pose proof (Rabs_triang (a * c) x) as T1. pose proof (Rabs_triang (a * d) y) as T2.
  pose proof (f_two (- b) d (F a c x) (a * c + x) ltac:(rewrite Rabs_Ropp; lra) ltac:(lra) ltac:(replace (- b * d) with (- (b * d)) by ring; rewrite Rabs_Ropp; lra) ltac:(lra) M1) as E1.
  pose proof (f_two b c (F a d y) (a * d + y) ltac:(lra) ltac:(lra) ltac:(lra) ltac:(lra) M2) as E2.
  replace (- b * d) with (- (b * d)) in E1 by ring. rewrite Rabs_Ropp in E1.
  assert (G1 : 202 / 100 * u * (Rabs (b * d) + Rabs (a * c + x)) <= 202 / 100 * u * (Rabs b * Rabs d + (Rabs a * Rabs c + Rabs x))) by (apply Rmult_le_compat_l; [lra|]; rewrite !Rabs_mult in *; lra).
  assert (G2 : 202 / 100 * u * (Rabs (b * c) + Rabs (a * d + y)) <= 202 / 100 * u * (Rabs b * Rabs c + (Rabs a * Rabs d + Rabs y))) by (apply Rmult_le_compat_l; [lra|]; rewrite !Rabs_mult in *; lra).
  unfold n1, fused_add_mul, Csub, Cadd, Copp, Cmul in *; cbn [fst snd] in *.
  replace (a * c - b * d + x) with (- (b * d) + (a * c + x)) by ring. replace (a * d + b * c + y) with (b * c + (a * d + y)) by ring. unfold Rminus in E1, E2.
  assert (0 <= u * (Rabs a * Rabs c + Rabs a * Rabs d + Rabs b * Rabs c + Rabs b * Rabs d + Rabs x + Rabs y)).
  { apply Rmult_le_pos; [lra|]. pose proof (Rabs_pos a). pose proof (Rabs_pos b). pose proof (Rabs_pos c). pose proof (Rabs_pos d). pose proof (Rabs_pos x). pose proof (Rabs_pos y).
    repeat apply Rplus_le_le_0_compat; auto; apply Rmult_le_pos; auto. }
  eapply Rle_trans; [apply Rplus_le_compat; [exact E1|exact E2]|].
  replace (202 / 100 * u * ((Rabs a + Rabs b) * (Rabs c + Rabs d) + (Rabs x + Rabs y)) + 43 / 10 * eta)
    with (202 / 100 * (u * (Rabs a * Rabs c + Rabs a * Rabs d + Rabs b * Rabs c + Rabs b * Rabs d + Rabs x + Rabs y)) + 43 / 10 * eta) by field.
  replace (202 / 100 * u * (Rabs b * Rabs d + (Rabs a * Rabs c + Rabs x))) with (202 / 100 * (u * (Rabs b * Rabs d + Rabs a * Rabs c + Rabs x))) in G1 by field.
  replace (202 / 100 * u * (Rabs b * Rabs c + (Rabs a * Rabs d + Rabs y))) with (202 / 100 * (u * (Rabs b * Rabs c + Rabs a * Rabs d + Rabs y))) in G2 by field.
  assert (u * (Rabs a * Rabs c + Rabs a * Rabs d + Rabs b * Rabs c + Rabs b * Rabs d + Rabs x + Rabs y) = u * (Rabs b * Rabs d + Rabs a * Rabs c + Rabs x) + u * (Rabs b * Rabs c + Rabs a * Rabs d + Rabs y)) by ring.
  lra.
Qed.
Lemma fused_lemma : compiles (fused_compiled A F lit) u eta B.
Proof.
  assert (ML : forall z w, n1 z <= 6 -> n1 w <= 6 -> n1 (fused_mul A F z w - z * w)%C <= 5 * u * (n1 z * n1 w) + 20 * eta).
  { intros z w Z W. pose proof (f_mul_err z w Z W). pose proof (n1_pos z). pose proof (n1_pos w). assert (0 <= u * (n1 z * n1 w)) by (apply Rmult_le_pos; [lra|apply Rmult_le_pos; auto]). lra. }
  split; cbn [fused_compiled c_arith c_lit c_coef c_mul c_lin c_had]; auto.
  - intros a b Ha Hb. change (n1 a <= 2) in Ha. change (n1 b <= 2) in Hb. apply ML; lra.
  - intros i a b Ha Hb. change (n1 a <= 6) in Ha. change (n1 b <= 2) in Hb. apply ML; lra.
  - intros i a t b v Ha Ht Hb Hv. change (n1 a <= 2) in Ha. change (n1 t <= 6) in Ht. change (n1 b <= 2) in Hb. change (n1 v <= 6) in Hv.
    change (n1 (fused_add_mul F b v (fused_mul A F a t) - (a * t + b * v))%C <= 5 * u * (n1 a * n1 t + n1 b * n1 v) + 20 * eta).
    pose proof (n1_pos a). pose proof (n1_pos t). pose proof (n1_pos b). pose proof (n1_pos v).
    pose proof (f_mul_err a t ltac:(lra) Ht) as K1. pose proof (n1_near _ _ _ K1) as N1. pose proof (n1_mul a t) as M1.
    assert (P1 : 0 <= n1 a * n1 t <= 12) by nra. assert (P2 : 0 <= n1 b * n1 v <= 12) by nra. set (p := n1 a * n1 t) in *. set (q := n1 b * n1 v) in *.
    assert (U1 : 0 <= u * p <= 12 / 100) by nra. assert (U2 : 0 <= u * q <= 12 / 100) by nra.
    pose proof (f_add_err b v (fused_mul A F a t) ltac:(lra) Hv ltac:(lra)) as K2. fold q in K2.
    assert (D : n1 (b * v + fused_mul A F a t - (a * t + b * v))%C <= 202 / 100 * u * p + 42 / 10 * eta) by (replace (b * v + fused_mul A F a t - (a * t + b * v))%C with (fused_mul A F a t - a * t)%C by ring; exact K1).
    pose proof (n1_tri _ _ _ _ _ K2 D) as T. eapply Rle_trans; [exact T|].
    assert (S : 202 / 100 * u * (q + n1 (fused_mul A F a t)) <= 202 / 100 * u * (q + (p + (202 / 100 * u * p + 42 / 10 * eta)))) by (apply Rmult_le_compat_l; lra).
    assert (u * (u * p) <= 1 / 100 * (u * p)) by (apply Rmult_le_compat_r; lra). assert (u * eta <= 1 / 100 * eta) by (apply Rmult_le_compat_r; lra).
    replace (202 / 100 * u * (q + (p + (202 / 100 * u * p + 42 / 10 * eta)))) with (202 / 100 * (u * q) + 202 / 100 * (u * p) + 202 * 202 / 10000 * (u * (u * p)) + 202 * 42 / 1000 * (u * eta)) in S by field.
    replace (5 * u * (p + q) + 20 * eta) with (5 * (u * p) + 5 * (u * q) + 20 * eta) by ring. replace (202 / 100 * u * p) with (202 / 100 * (u * p)) by ring. 
    assert (u * (u * p) <= 1 / 100 * (u * p)) by auto. lra.
  - intros i [a b] [c d] s Ht Hv Hs. pose proof (n1_fst (a, b)) as Z1. pose proof (n1_snd (a, b)) as Z2. pose proof (n1_fst (c, d)) as Z3. pose proof (n1_snd (c, d)) as Z4.
    change (n1 (a, b) <= 6) in Ht. change (n1 (c, d) <= 6) in Hv. cbn [fst snd] in *.
    pose proof (w_mul _ _ _ _ HR c s ltac:(lra) ltac:(lra)) as M1. pose proof (w_mul _ _ _ _ HR d s ltac:(lra) ltac:(lra)) as M2.
    pose proof (ab_prod a s 6 1 ltac:(lra) ltac:(lra)) as P1. pose proof (ab_prod c s 6 1 ltac:(lra) ltac:(lra)) as P2.
    pose proof (ab_prod b s 6 1 ltac:(lra) ltac:(lra)) as P3. pose proof (ab_prod d s 6 1 ltac:(lra) ltac:(lra)) as P4.
    pose proof (f_two a s (f_mul A c s) (c * s) ltac:(lra) ltac:(lra) ltac:(lra) ltac:(lra) M1) as E1. pose proof (f_two b s (f_mul A d s) (d * s) ltac:(lra) ltac:(lra) ltac:(lra) ltac:(lra) M2) as E2.
    unfold size, RtoC, Csub, Cadd, Copp, Cmul in *; cbn [fst snd] in *.
    replace ((a + c) * s - (b + d) * 0) with (a * s + c * s) by ring. replace ((a + c) * 0 + (b + d) * s) with (b * s + d * s) by ring. unfold Rminus in E1, E2.
    eapply Rle_trans; [apply Rplus_le_compat; [exact E1|exact E2]|]. rewrite !Rabs_mult.
    assert (0 <= u * ((Rabs a + Rabs b + (Rabs c + Rabs d)) * Rabs s)).
    { apply Rmult_le_pos; [lra|]. pose proof (Rabs_pos a). pose proof (Rabs_pos b). pose proof (Rabs_pos c). pose proof (Rabs_pos d). pose proof (Rabs_pos s). apply Rmult_le_pos; lra. }
    replace (202 / 100 * u * (Rabs a * Rabs s + Rabs c * Rabs s) + 21 / 10 * eta + (202 / 100 * u * (Rabs b * Rabs s + Rabs d * Rabs s) + 21 / 10 * eta))
      with (202 / 100 * (u * ((Rabs a + Rabs b + (Rabs c + Rabs d)) * Rabs s)) + 42 / 10 * eta) by field. lra.
Qed.
End Kinds.

Lemma mixed_lemma : forall p c d u eta B, compiles c u eta B -> compiles d u eta B -> compiles (mixed_compiled p c d) u eta B.
Proof.
  intros p c d u eta B [C1 C2 C3 C4 C5 C6] [D1 D2 D3 D4 D5 D6]. split; cbn [mixed_compiled c_arith c_lit c_coef c_mul c_lin c_had]; auto; intros i; destruct (p i); auto.
Qed.

(** ** Doubles *)
Lemma dbl_round : forall over x, Rabs x <= powerRZ 2 1023 -> Rabs (round_finite over 53 (-1074) 1023 x - x) <= / 2 ^ 53 * Rabs x + powerRZ 2 (-1075).
Proof.
  intros over x L. unfold round_finite. destruct (Rle_dec (Rabs x) (powerRZ 2 1023)); [|contradiction]. pose proof (pz_pos (-1075)).
  assert (0 <= / 2 ^ 53 * Rabs x) by (apply Rmult_le_pos; [left; apply Rinv_0_lt_compat, pow_lt; lra|apply Rabs_pos]).
  destruct (above_err 53 (-1074) x) as [E|E]; [|change (-1074 - 1)%Z with (-1075)%Z in E]; lra.
Qed.
Lemma dbl_lit : forall over x, Rabs x <= 1 -> Rabs (double_lit over x - x) <= / 2 ^ 53 * Rabs x + powerRZ 2 (-1075).
Proof. intros over x L. apply dbl_round. pose proof (pz_le 0 1023 ltac:(lia)) as H. change (powerRZ 2 0) with 1 in H. lra. Qed.
Lemma dbl_fuses : forall over, fuses (double_fma over) (/ 2 ^ 53) (powerRZ 2 (-1075)) (powerRZ 2 500).
Proof.
  intros over a b c Ha Hb Hc. apply dbl_round. pose proof (Rabs_triang (a * b) c). pose proof (ab_prod a b _ _ Ha Hb) as P. rewrite <- pz_add in P.
  pose proof (pz_le (500 + 500) 1022 ltac:(lia)). pose proof (pz_le 500 1022 ltac:(lia)). pose proof (pz_add 1022 1) as E. change (powerRZ 2 1) with (2 * 1) in E. change (1022 + 1)%Z with 1023%Z in E. lra.
Qed.
Lemma dbl_plain : forall over, compiles (plain_compiled (double_arith over) (double_lit over)) (/ 2 ^ 53) (powerRZ 2 (-1075)) (powerRZ 2 500).
Proof.
  intros over. apply plain_lemma; auto using double_rounds, dbl_lit.
  - rewrite pow53. lra.
  - rewrite pow_powerRZ, <- powerRZ_neg'. apply pz_le. lia.
  - pose proof (pz_le 10 500 ltac:(lia)) as H5. assert (T : powerRZ 2 10 = 1024) by (simpl; lra). lra.
Qed.
Lemma dbl_fused : forall over, compiles (fused_compiled (double_arith over) (double_fma over) (double_lit over)) (/ 2 ^ 53) (powerRZ 2 (-1075)) (powerRZ 2 500).
Proof.
  intros over. apply fused_lemma; auto using double_rounds, dbl_lit, dbl_fuses.
  - rewrite pow53. lra.
  - rewrite pow_powerRZ, <- powerRZ_neg'. apply pz_le. lia.
  - pose proof (pz_le 10 500 ltac:(lia)) as H5. assert (T : powerRZ 2 10 = 1024) by (simpl; lra). lra.
Qed.
Lemma dbl_lemma : forall c over n gs ops, compiles c (/ 2 ^ 53) (powerRZ 2 (-1075)) (powerRZ 2 500) -> (n <= 64)%nat -> circuit_ops n gs ops -> Forall (angles_within 7) gs ->
  (Z.of_nat (List.length ops) <= 1000000)%Z ->
  exists phi, fn_run c (double_arith over) gs n = Ok (arr n phi) /\ dist n phi (apply_all ops (ket 0)) <= 1 / 300000.
Proof.
  intros c over n gs ops HC Hn HG HW HL. apply IZR_le in HL. rewrite <- INR_IZR_INZ in HL. pose proof (pos_INR (List.length ops)). pose proof (double_gap n ltac:(lia)) as G.
  destruct (fn_linear_lemma c (double_arith over) (/ 2 ^ 53) (powerRZ 2 (-1075)) (powerRZ 2 500) 7 n gs ops HC (double_rounds over)) as [phi [E D]]; auto.
  - rewrite pow53. lra.
  - rewrite pow_powerRZ, <- powerRZ_neg'. apply pz_le. lia.
  - lra.
  - pose proof (pz_le 10 500 ltac:(lia)) as H5. assert (T : powerRZ 2 10 = 1024) by (simpl; lra). lra.
  - rewrite pow53. lra.
  - lra.
  - rewrite pow53. lra.
  - exists phi. split; auto. eapply Rle_trans; [exact D|]. set (g := powerRZ 2 (-1075) / / 2 ^ 53 * sqrt (2 ^ n)) in *.
    apply Rle_trans with (4200 * / 2 ^ 53 * 7 * INR (List.length ops) * (1 + 1 / 1000)); [apply Rmult_le_compat_l; [rewrite pow53; lra|lra]|]. rewrite pow53. lra.
Qed.
