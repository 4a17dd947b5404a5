(** Quotients in rounded arithmetic *)
From Coq Require Import List Arith NArith ZArith Bool Reals Lia Lra Psatz FunctionalExtensionality.
Import ListNotations.
From Verif Require Import Base Cplx Bits ModelNumpy ModelFloat ModelFloatNumba ModelFloatPhase SpecQuantum SpecFloat SpecFinite SpecFloatNumba SpecFiniteMeasure SpecFloatPhase
  ProofPhase ProofFloat ProofFloatOps ProofFloatMeas ProofFinite.
Local Open Scope R_scope.

Section Quot.
Variable A : arith.
Variables u eta B : R.
Hypothesis HR : rounds_within A u eta B.
Hypothesis HS : divides_signed A u eta B.
Hypothesis Hu : 0 < u <= 1 / 10000.
Hypothesis He0 : 0 <= eta.
Hypothesis He : eta <= u / 10 ^ 20.
Hypothesis HB : 10 ^ 10 <= B.

Section Pivot.
Variables p o : R.
Hypothesis Hp : 3 / 10 ^ 8 <= Rabs p <= 2.
Hypothesis Ho : Rabs o <= Rabs p.
Let r := o / p.
Let D := p + o * r.
Let rat := f_div A o p.

Lemma p_neq : p <> 0.
Proof. intros E. rewrite E, Rabs_R0 in Hp. lra. Qed.
Lemma eta_p : eta <= u * Rabs p / 10 ^ 10.
Proof. assert (u * (3 / 10 ^ 8) <= u * Rabs p) by (apply Rmult_le_compat_l; lra). lra. Qed.
Lemma B_inv' : / B <= 1 / 10 ^ 10.
Proof. replace (1 / 10 ^ 10) with (/ 10 ^ 10) by lra. apply Rinv_le_contravar; lra. Qed.
Lemma r_le : Rabs r <= 1.
Proof.
  unfold r, Rdiv. rewrite Rabs_mult, Rabs_inv. apply Rmult_le_reg_r with (Rabs p); [lra|]. rewrite Rmult_assoc, Rinv_l by lra. lra.
Qed.
Lemma rat_err : Rabs (rat - r) <= 101 / 100 * u /\ Rabs rat <= 102 / 100.
Proof.
  pose proof r_le. pose proof B_inv'. pose proof (HS o p ltac:(lra) ltac:(lra)) as W. fold rat r in W. assert (u * Rabs r <= u) by nra.
  assert (E : Rabs (rat - r) <= 101 / 100 * u) by lra. split; auto. pose proof (ab_near _ _ _ E). lra.
Qed.
Lemma prod_err : Rabs (f_mul A o rat - o * r) <= 21 / 10 * u * Rabs p.
Proof.
  destruct rat_err as [R1 R2]. pose proof r_le as R3. pose proof eta_p. pose proof (Rabs_pos o). pose proof (w_mul _ _ _ _ HR o rat ltac:(lra) ltac:(lra)) as W.
  assert (X : Rabs (o * rat - o * r) <= Rabs p * (101 / 100 * u)).
  { replace (o * rat - o * r) with (o * (rat - r)) by ring. rewrite Rabs_mult. apply Rmult_le_compat; auto; apply Rabs_pos. }
  assert (Y : Rabs (o * rat) <= Rabs p * (102 / 100)) by (rewrite Rabs_mult; apply Rmult_le_compat; auto; apply Rabs_pos).
  eapply Rle_trans; [apply (ab_tri _ (o * rat)); eauto|]. assert (u * Rabs (o * rat) <= u * (Rabs p * (102 / 100))) by (apply Rmult_le_compat_l; lra).
  assert (0 <= u * Rabs p) by (apply Rmult_le_pos; lra). lra.
Qed.
(** o r has the sign of p *)
Lemma D_abs : Rabs p <= Rabs D <= 2 * Rabs p.
Proof.
  pose proof p_neq as N. pose proof r_le as R1. assert (E : D = p * (1 + r * r)) by (unfold D, r; field; auto). rewrite E, Rabs_mult. apply Rabs_le_inv in R1.
  assert (0 <= r * r <= 1) by nra. rewrite (Rabs_pos_eq (1 + r * r)) by lra. pose proof (Rabs_pos p). split; nra.
Qed.
Definition denom_near (s : R) : Prop := Rabs (s - D) <= 46 / 10 * u * Rabs p.
Lemma denom_err : denom_near (f_add A p (f_mul A o rat)) /\ denom_near (f_add A (f_mul A o rat) p).
Proof.
  pose proof prod_err as P. pose proof D_abs as DA. pose proof eta_p. set (m := f_mul A o rat) in *. pose proof r_le as R3.
  assert (U : 0 <= u * Rabs p) by (apply Rmult_le_pos; lra).
  assert (X : Rabs (p + m - D) <= 21 / 10 * u * Rabs p) by (replace (p + m - D) with (m - o * r) by (unfold D; ring); auto).
  assert (Y : Rabs (p + m) <= 201 / 100 * Rabs p). { pose proof (ab_near _ _ _ X) as Y. nra. }
  assert (M : Rabs m <= B). { pose proof (ab_near _ _ _ P) as Q. rewrite Rabs_mult in Q. pose proof (Rabs_pos o). pose proof (Rabs_pos r). nra. }
  assert (Z : u * Rabs (p + m) <= 201 / 100 * (u * Rabs p)). { apply Rle_trans with (u * (201 / 100 * Rabs p)); [apply Rmult_le_compat_l; lra|lra]. }
  unfold denom_near. split.
  - eapply Rle_trans; [apply (ab_tri _ (p + m)); [apply (w_add _ _ _ _ HR); lra|exact X]|]. lra.
  - eapply Rle_trans; [apply (ab_tri _ (m + p)); [apply (w_add _ _ _ _ HR); lra|rewrite Rplus_comm; exact X]|]. rewrite (Rplus_comm m p). lra.
Qed.

Variables s x X h : R.
Hypothesis Hs : denom_near s.
Hypothesis Hh : 3 / 10 ^ 8 <= h <= 2.
Hypothesis Hx : Rabs (x - X) <= 32 / 10 * u * h.
Hypothesis HX : Rabs X <= h.
Lemma s_abs : 2 / 10 ^ 8 <= Rabs s <= 5 /\ Rabs D <= 1001 / 1000 * Rabs s /\ Rabs (s - D) <= 46 / 10 * u * Rabs D.
Proof.
  pose proof D_abs as DA. unfold denom_near in Hs. assert (U : 0 <= u * Rabs p) by (apply Rmult_le_pos; lra).
  assert (E : Rabs (s - D) <= 46 / 10 * u * Rabs D) by (eapply Rle_trans; [exact Hs|]; nra).
  pose proof (ab_near _ _ _ E). assert (E' : Rabs (D - s) <= 46 / 10 * u * Rabs D) by (rewrite Rabs_minus_sym; auto). pose proof (ab_near _ _ _ E'). repeat split; auto; nra.
Qed.
Lemma inv_err : Rabs (1 / s - 1 / D) <= 47 / 10 * u / Rabs D.
Proof.
  destruct s_abs as (S1 & S2 & S3). pose proof D_abs as DA. assert (s <> 0) by (intros E; rewrite E, Rabs_R0 in S1; lra). assert (D <> 0) by (intros E; rewrite E, Rabs_R0 in DA; lra).
  replace (1 / s - 1 / D) with ((D - s) * / s * / D) by (field; auto). rewrite !Rabs_mult, !Rabs_inv, (Rabs_minus_sym D s). unfold Rdiv.
  apply Rmult_le_compat_r; [left; apply Rinv_0_lt_compat; lra|]. apply Rmult_le_reg_r with (Rabs s); [lra|]. rewrite Rmult_assoc, Rinv_l by lra. nra.
Qed.
Lemma x_abs : Rabs x <= 1001 / 1000 * h /\ Rabs x <= 3.
Proof. pose proof (ab_near _ _ _ Hx). assert (u * h <= 1 / 10000 * h) by (apply Rmult_le_compat_r; lra). lra. Qed.
Lemma exact_quot : Rabs (x / s - X / D) <= 80 / 10 * (u * (h / Rabs D)) /\ Rabs (x / s) <= 101 / 100 * (h / Rabs D).
Proof.
  pose proof D_abs as DA. pose proof inv_err as I. destruct x_abs as [X1 X2]. assert (PD : 0 < / Rabs D) by (apply Rinv_0_lt_compat; lra).
  assert (E : Rabs (x / s - X / D) <= 80 / 10 * (u * (h / Rabs D))).
  { replace (x / s - X / D) with ((x - X) * (1 / D) + x * (1 / s - 1 / D)) by (unfold Rdiv; ring). eapply Rle_trans; [apply Rabs_triang|]. rewrite !Rabs_mult.
    assert (ID : Rabs (1 / D) = / Rabs D) by (unfold Rdiv; rewrite Rmult_1_l, Rabs_inv; reflexivity). rewrite ID.
    assert (Y1 : Rabs (x - X) * / Rabs D <= 32 / 10 * u * h * / Rabs D) by (apply Rmult_le_compat_r; lra).
    assert (Y2 : Rabs x * Rabs (1 / s - 1 / D) <= 1001 / 1000 * h * (47 / 10 * u / Rabs D)) by (apply Rmult_le_compat; auto; apply Rabs_pos).
    set (k := u * (h / Rabs D)). assert (K : 0 <= k) by (unfold k, Rdiv; apply Rmult_le_pos; [lra|apply Rmult_le_pos; lra]).
    replace (32 / 10 * u * h * / Rabs D) with (32 / 10 * k) in Y1 by (unfold k, Rdiv; ring).
    replace (1001 / 1000 * h * (47 / 10 * u / Rabs D)) with (1001 / 1000 * (47 / 10 * k)) in Y2 by (unfold k, Rdiv; ring). lra. }
  split; auto. pose proof (ab_near _ _ _ E) as N. assert (XD : Rabs (X / D) <= h / Rabs D) by (unfold Rdiv; rewrite Rabs_mult, Rabs_inv; apply Rmult_le_compat_r; lra).
  assert (HD : 0 <= h / Rabs D) by (unfold Rdiv; apply Rmult_le_pos; lra). nra.
Qed.
Lemma eta_hD : eta <= u * (h / Rabs D) / 10 ^ 10.
Proof.
  pose proof D_abs as DA. assert (3 / 10 ^ 8 / 4 <= h / Rabs D).
  { replace (3 / 10 ^ 8 / 4) with (3 / 10 ^ 8 * / 4) by lra. unfold Rdiv at 2. assert (/ 4 <= / Rabs D) by (apply Rinv_le_contravar; lra). apply Rmult_le_compat; lra. }
  assert (u * (3 / 10 ^ 8 / 4) <= u * (h / Rabs D)) by (apply Rmult_le_compat_l; lra). lra.
Qed.
Lemma py_quot_err : Rabs (f_div A x s - X / D) <= 11 * (u * (h / Rabs D)).
Proof.
  destruct exact_quot as [Q1 Q2]. destruct s_abs as (S1 & _). destruct x_abs as [X1 X2]. pose proof eta_hD. pose proof B_inv'.
  pose proof (HS x s ltac:(lra) ltac:(lra)) as W. assert (u * Rabs (x / s) <= u * (101 / 100 * (h / Rabs D))) by (apply Rmult_le_compat_l; lra).
  assert (0 <= u * (h / Rabs D)) by lra. eapply Rle_trans; [apply (ab_tri _ (x / s)); eauto|]. lra.
Qed.
Lemma np_quot_err : Rabs (f_mul A x (f_div A 1 s) - X / D) <= 11 * (u * (h / Rabs D)).
Proof.
  destruct exact_quot as [Q1 Q2]. destruct s_abs as (S1 & S2 & S3). destruct x_abs as [X1 X2]. pose proof eta_hD as EH. pose proof B_inv'. pose proof D_abs as DA.
  assert (N1' : Rabs 1 = 1) by (apply Rabs_pos_eq; lra). pose proof (HS 1 s ltac:(lra) ltac:(lra)) as W. set (t := f_div A 1 s) in *.
  assert (I : Rabs (1 / s) = / Rabs s) by (unfold Rdiv; rewrite Rmult_1_l, Rabs_inv; reflexivity). rewrite I in W.
  assert (IS : / Rabs s <= 10 ^ 8 / 2). { replace (10 ^ 8 / 2) with (/ (2 / 10 ^ 8)) by field. apply Rinv_le_contravar; lra. }
  assert (I5 : / 5 <= / Rabs s) by (apply Rinv_le_contravar; lra).
  assert (T1 : Rabs (t - 1 / s) <= 101 / 100 * u * / Rabs s) by (eapply Rle_trans; [exact W|]; assert (u * / 5 <= u * / Rabs s) by (apply Rmult_le_compat_l; lra); lra).
  assert (T2 : Rabs t <= B). { pose proof (ab_near _ _ _ T1) as Q. rewrite I in Q. nra. }
  pose proof (w_mul _ _ _ _ HR x t ltac:(lra) T2) as V.
  assert (XS : Rabs x * / Rabs s = Rabs (x / s)) by (unfold Rdiv; rewrite Rabs_mult, Rabs_inv; reflexivity).
  assert (E1 : Rabs (x * t - x / s) <= 101 / 100 * u * Rabs (x / s)).
  { replace (x * t - x / s) with (x * (t - 1 / s)) by (unfold Rdiv; ring). rewrite Rabs_mult. rewrite <- XS.
    apply Rle_trans with (Rabs x * (101 / 100 * u * / Rabs s)); [apply Rmult_le_compat_l; [apply Rabs_pos|auto]|right; ring]. }
  pose proof (ab_near _ _ _ E1) as E2. set (k := h / Rabs D) in *. assert (K : 0 <= u * k) by lra.
  assert (E3 : u * Rabs (x / s) <= 101 / 100 * (u * k)) by (apply Rle_trans with (u * (101 / 100 * k)); [apply Rmult_le_compat_l; lra|lra]).
  assert (E4 : u * Rabs (x * t) <= 102 / 100 * (u * k)).
  { apply Rle_trans with (u * (Rabs (x / s) + 101 / 100 * u * Rabs (x / s))); [apply Rmult_le_compat_l; lra|]. nra. }
  eapply Rle_trans; [apply (ab_tri _ (x * t)); [exact V|]; apply (ab_tri _ (x / s)); eauto|]. lra.
Qed.
End Pivot.

(** the dividends *)
Lemma num_add : forall h rat, 3 / 10 ^ 8 <= h <= 2 -> Rabs rat <= 102 / 100 -> Rabs (f_add A h (f_mul A 0 rat) - h) <= 32 / 10 * u * h /\ Rabs (f_sub A (f_mul A 0 rat) h - - h) <= 32 / 10 * u * h.
Proof.
  intros h rat H1 H2. pose proof (w_mul _ _ _ _ HR 0 rat ltac:(rewrite Rabs_R0; lra) ltac:(lra)) as W. rewrite Rmult_0_l, Rabs_R0, Rmult_0_r, Rminus_0_r, Rplus_0_l in W. set (z := f_mul A 0 rat) in *.
  assert (EH : eta <= u * h / 10 ^ 10) by (assert (u * (3 / 10 ^ 8) <= u * h) by (apply Rmult_le_compat_l; lra); lra). apply Rabs_le_inv in W as W'.
  assert (Rh : Rabs h = h) by (apply Rabs_pos_eq; lra). assert (UH : 0 <= u * h) by (apply Rmult_le_pos; lra). assert (UL : u * h <= 2 * u) by nra.
  split.
  - pose proof (w_add _ _ _ _ HR h z ltac:(lra) ltac:(apply Rabs_le; lra)) as V. assert (V1 : Rabs (h + z) <= 2 * h) by (apply Rabs_le; nra).
    assert (u * Rabs (h + z) <= u * (2 * h)) by (apply Rmult_le_compat_l; lra). eapply Rle_trans; [apply (ab_tri _ (h + z) h); [exact V|]|].
    + replace (h + z - h) with z by ring. exact W. + lra.
  - pose proof (w_sub _ _ _ _ HR z h ltac:(apply Rabs_le; lra) ltac:(lra)) as V. assert (V1 : Rabs (z - h) <= 2 * h) by (apply Rabs_le; nra).
    assert (u * Rabs (z - h) <= u * (2 * h)) by (apply Rmult_le_compat_l; lra). eapply Rle_trans; [apply (ab_tri _ (z - h) (- h)); [exact V|]|].
    + replace (z - h - - h) with z by ring. exact W. + lra.
Qed.
Lemma num_mul : forall h rat r, 3 / 10 ^ 8 <= h <= 2 -> Rabs (rat - r) <= 101 / 100 * u -> Rabs r <= 1 ->
  Rabs (f_sub A 0 (f_mul A h rat) - - (h * r)) <= 32 / 10 * u * h /\ Rabs (f_add A (f_mul A h rat) 0 - h * r) <= 32 / 10 * u * h.
Proof.
  intros h rat r H1 H2 H3. pose proof (ab_near _ _ _ H2) as H4. assert (Rh : Rabs h = h) by (apply Rabs_pos_eq; lra). assert (UH : 0 <= u * h) by (apply Rmult_le_pos; lra).
  assert (EH : eta <= u * h / 10 ^ 10) by (assert (u * (3 / 10 ^ 8) <= u * h) by (apply Rmult_le_compat_l; lra); lra). assert (UL : u * h <= 2 * u) by nra. assert (US : u * h <= 1 / 10000 * h) by nra.
  pose proof (w_mul _ _ _ _ HR h rat ltac:(lra) ltac:(lra)) as W. set (z := f_mul A h rat) in *.
  assert (X1 : Rabs (h * rat - h * r) <= 101 / 100 * (u * h)).
  { replace (h * rat - h * r) with (h * (rat - r)) by ring. rewrite Rabs_mult, Rh. apply Rle_trans with (h * (101 / 100 * u)); [apply Rmult_le_compat_l; lra|lra]. }
  assert (X2 : Rabs (h * rat) <= 101 / 100 * h) by (rewrite Rabs_mult, Rh; nra).
  assert (X3 : u * Rabs (h * rat) <= 101 / 100 * (u * h)) by (apply Rle_trans with (u * (101 / 100 * h)); [apply Rmult_le_compat_l; lra|lra]).
  assert (Z1 : Rabs (z - h * r) <= 21 / 10 * (u * h)) by (eapply Rle_trans; [apply (ab_tri _ (h * rat)); eauto|]; lra).
  assert (Z2 : Rabs z <= 101 / 100 * h). { pose proof (ab_near _ _ _ Z1) as Q. rewrite Rabs_mult, Rh in Q. assert (h * Rabs r <= h) by nra. lra. }
  assert (X4 : u * Rabs z <= 101 / 100 * (u * h)) by (apply Rle_trans with (u * (101 / 100 * h)); [apply Rmult_le_compat_l; lra|lra]).
  split.
  - pose proof (w_sub _ _ _ _ HR 0 z ltac:(rewrite Rabs_R0; lra) ltac:(lra)) as V. rewrite Rminus_0_l, Rabs_Ropp in V.
    eapply Rle_trans; [apply (ab_tri _ (- z)); [exact V|]|]. + replace (- z - - (h * r)) with (- (z - h * r)) by ring. rewrite Rabs_Ropp. exact Z1. + lra.
  - pose proof (w_add _ _ _ _ HR z 0 ltac:(lra) ltac:(rewrite Rabs_R0; lra)) as V. rewrite Rplus_0_r in V.
    eapply Rle_trans; [apply (ab_tri _ z); [exact V|exact Z1]|]. lra.
Qed.

(** |q| is at most the root of 2 times the larger part *)
Lemma pivot_abs : forall p o q, Rabs o <= Rabs p -> Cabs q * Cabs q = p * p + o * o -> Rabs p <= Cabs q <= 3 / 2 * Rabs p.
Proof.
  intros p o q H E. pose proof (Rabs_pos o) as Po. pose proof (Cabs_nonneg q) as Pq. assert (P2 : p * p = Rabs p * Rabs p) by (rewrite <- Rabs_mult, Rabs_pos_eq; nra).
  assert (O2 : o * o = Rabs o * Rabs o) by (rewrite <- Rabs_mult, Rabs_pos_eq; nra). rewrite P2, O2 in E. split; nra.
Qed.
Definition quot_near (quot : R -> C -> C) : Prop := forall h q, 3 / 10 ^ 8 <= h <= 2 -> 5 / 10 ^ 8 <= Cabs q <= 2 -> n1 (quot h q - RtoC h / q)%C <= 22 * u * (h / Cabs q).
(** both parts, for both choices of the pivot *)
Lemma quot_parts : forall (f : R -> R -> R) h q, 3 / 10 ^ 8 <= h <= 2 -> 5 / 10 ^ 8 <= Cabs q <= 2 ->
  (forall p o s x X, 3 / 10 ^ 8 <= Rabs p <= 2 -> Rabs o <= Rabs p -> denom_near p o s -> Rabs (x - X) <= 32 / 10 * u * h -> Rabs X <= h ->
     Rabs (f x s - X / (p + o * (o / p))) <= 11 * (u * (h / Rabs (p + o * (o / p))))) ->
  let c := fst q in let d := snd q in
  (Rabs d <= Rabs c -> forall s, denom_near c d s -> let rat := f_div A d c in
     n1 ((f (f_add A h (f_mul A 0 rat)) s, f (f_sub A 0 (f_mul A h rat)) s) - RtoC h / q)%C <= 22 * u * (h / Cabs q)) /\
  (Rabs c < Rabs d -> forall s, denom_near d c s -> let rat := f_div A c d in
     n1 ((f (f_add A (f_mul A h rat) 0) s, f (f_sub A (f_mul A 0 rat) h) s) - RtoC h / q)%C <= 22 * u * (h / Cabs q)).
Proof.
  intros f h q H1 H2 F c d. assert (QS : Cabs q * Cabs q = c * c + d * d) by (rewrite Cabs_sq; reflexivity).
  assert (QP : 0 < Cabs q) by lra. assert (Q0 : c * c + d * d <> 0) by nra.
  assert (HQ : (RtoC h / q)%C = (h * c / (c * c + d * d), - (h * d / (c * c + d * d)))).
  { unfold Cdiv, Cinv, Cmul, RtoC, Cnorm2. fold c d. cbn [fst snd]. f_equal; field; auto. }
  assert (UP : 0 <= u * h) by (apply Rmult_le_pos; lra).
  assert (G : forall p o a b X Y, 3 / 10 ^ 8 <= Rabs p <= 2 -> Rabs o <= Rabs p -> Rabs p <= Cabs q -> let D := p + o * (o / p) in
    Rabs (a - X / D) <= 11 * (u * (h / Rabs D)) -> Rabs (b - Y / D) <= 11 * (u * (h / Rabs D)) -> c * c + d * d = p * p + o * o ->
    (RtoC h / q)%C = (X / D, Y / D) -> n1 ((a, b) - RtoC h / q)%C <= 22 * u * (h / Cabs q)).
  { intros p o a b X Y P1 P2 P3 D A1 A2 E1 E2. rewrite E2. unfold n1, Csub, Cadd, Copp. cbn [fst snd]. change (a + - (X / D)) with (a - X / D). change (b + - (Y / D)) with (b - Y / D).
    pose proof (p_neq p P1) as N.
    assert (DQ : Cabs q <= Rabs D).
    { assert (ED : D * p = Cabs q * Cabs q) by (rewrite QS, E1; unfold D; field; auto). apply (f_equal Rabs) in ED. rewrite !Rabs_mult, (Rabs_pos_eq (Cabs q)) in ED by lra.
      destruct (Rle_lt_dec (Cabs q) (Rabs D)) as [?|L]; auto. exfalso. pose proof (Rabs_pos D). nra. }
    assert (K : h / Rabs D <= h / Cabs q) by (unfold Rdiv; apply Rmult_le_compat_l; [lra|apply Rinv_le_contravar; lra]).
    assert (u * (h / Rabs D) <= u * (h / Cabs q)) by (apply Rmult_le_compat_l; lra). lra. }
  split; intros L s S' rat.
  - pose proof (pivot_abs c d q L QS) as PV. assert (P1 : 3 / 10 ^ 8 <= Rabs c <= 2) by lra. pose proof (p_neq c P1) as N.
    destruct (rat_err c d P1 L) as [R1 R2]. fold rat in R1, R2. pose proof (r_le c d P1 L) as R3.
    destruct (num_add h rat H1 R2) as [X1 _]. destruct (num_mul h rat (d / c) H1 R1 R3) as [Y1 _].
    apply (G c d _ _ h (- (h * (d / c)))); auto; try lra.
    + apply F; auto. rewrite Rabs_pos_eq; lra.
    + apply F; auto. rewrite Rabs_Ropp, Rabs_mult, (Rabs_pos_eq h) by lra. nra.
    + rewrite HQ. f_equal; field; split; auto; nra.
  - assert (QS' : Cabs q * Cabs q = d * d + c * c) by lra. pose proof (pivot_abs d c q (Rlt_le _ _ L) QS') as PV. assert (P1 : 3 / 10 ^ 8 <= Rabs d <= 2) by lra. pose proof (p_neq d P1) as N.
    destruct (rat_err d c P1 (Rlt_le _ _ L)) as [R1 R2]. fold rat in R1, R2. pose proof (r_le d c P1 (Rlt_le _ _ L)) as R3.
    destruct (num_add h rat H1 R2) as [_ X1]. destruct (num_mul h rat (c / d) H1 R1 R3) as [_ Y1].
    apply (G d c _ _ (h * (c / d)) (- h)); auto; try lra.
    + apply F; auto; try lra. rewrite Rabs_mult, (Rabs_pos_eq h) by lra. nra.
    + apply F; auto; try lra. rewrite Rabs_Ropp, Rabs_pos_eq; lra.
    + rewrite HQ. f_equal; field; split; auto; nra.
Qed.
Lemma np_quot_near : quot_near (np_quot A).
Proof.
  intros h q H1 H2. destruct (quot_parts (fun x s => f_mul A x (f_div A 1 s)) h q H1 H2) as [G1 G2].
  { intros p o s x X P1 P2 S1 X1 X2. apply np_quot_err; auto. }
  assert (QS : Cabs q * Cabs q = fst q * fst q + snd q * snd q) by (rewrite Cabs_sq; reflexivity).
  unfold np_quot. cbv zeta in *. destruct (Rle_dec (Rabs (snd q)) (Rabs (fst q))) as [L|L].
  - apply G1; auto. pose proof (pivot_abs _ _ q L QS). apply denom_err; auto; lra.
  - apply Rnot_le_lt in L. apply G2; auto. rewrite Rplus_comm in QS. pose proof (pivot_abs _ _ q (Rlt_le _ _ L) QS). apply denom_err; auto; lra.
Qed.
Lemma py_quot_near : quot_near (py_quot A).
Proof.
  intros h q H1 H2. destruct (quot_parts (f_div A) h q H1 H2) as [G1 G2].
  { intros p o s x X P1 P2 S1 X1 X2. apply py_quot_err; auto. }
  assert (QS : Cabs q * Cabs q = fst q * fst q + snd q * snd q) by (rewrite Cabs_sq; reflexivity).
  unfold py_quot. cbv zeta in *. destruct (Rle_dec (Rabs (snd q)) (Rabs (fst q))) as [L|L].
  - apply G1; auto. pose proof (pivot_abs _ _ q L QS). apply denom_err; auto; lra.
  - apply Rnot_le_lt in L. apply G2; auto. rewrite Rplus_comm in QS. pose proof (pivot_abs _ _ q (Rlt_le _ _ L) QS). apply denom_err; auto; lra.
Qed.
End Quot.
