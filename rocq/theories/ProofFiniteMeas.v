(** Measurements and resets of the NumPy backend in arithmetic with underflow and overflow *)
From Coq Require Import List Arith NArith ZArith Bool Reals Lia Lra Psatz FunctionalExtensionality.
Import ListNotations.
From Verif Require Import Base Cplx Bits ModelTargets ModelGate ModelNumpy ModelFloat ModelFloatMeasure SpecTargets SpecQuantum SpecCircuit SpecMeasure SpecLaw SpecFloat
  SpecFloatMeasure SpecFinite SpecFiniteMeasure ProofTargets ProofArray ProofNumpy ProofUnitary ProofPauli ProofRun ProofMeasure ProofCache ProofFloat ProofFloatOps ProofFloatCoef ProofFloatRun
  ProofLaw ProofFloatMeas ProofFloatMeasRun ProofFinite ProofFiniteShot.
Local Open Scope R_scope.

Lemma sqrt_range : forall u q, 0 < u -> 3000 * u <= 1 -> 1000 * u <= q -> q <= 2 -> 30 * u <= sqrt q /\ 1000 * u <= sqrt q * sqrt q /\ sqrt q <= 3 / 2.
Proof.
  intros u q U L Q1 Q2. assert (S : sqrt q * sqrt q = q) by (apply sqrt_sqrt; lra). pose proof (sqrt_pos q) as P.
  assert (T : sqrt q <= 3 / 2) by nra. split; [|split; [lra|auto]]. destruct (Rle_lt_dec (30 * u) (sqrt q)) as [?|LT]; auto. exfalso.
  assert (sqrt q * sqrt q <= 30 * u * (30 * u)) by (apply Rmult_le_compat; lra). nra.
Qed.

Section Meas.
Variable A : arith.
Variables u eta B : R.
Hypothesis HR : rounds_within A u eta B.
Hypothesis HQ : divides_within A u eta B.
Hypothesis Hu : 0 < u.
Hypothesis Hu1 : 3000 * u <= 1.
Hypothesis He0 : 0 <= eta.
Hypothesis He : eta <= u * u.
Hypothesis HB : / u <= B.

Lemma B_big : 3000 <= B.
Proof. eapply Rle_trans; [|exact HB]. apply Rmult_le_reg_r with u; auto. rewrite Rinv_l by lra. lra. Qed.
Lemma B_inv : / B <= u.
Proof. rewrite <- (Rinv_inv u). apply Rinv_le_contravar; auto. apply Rinv_0_lt_compat; auto. Qed.
Lemma eta_small : eta <= u / 3000. Proof. nra. Qed.

(** square roots of [p] and [1 - p] *)
Lemma wsqrt_rel : forall p, 1000 * u <= p -> p <= 2 -> rel (3 * u) (f_sqrt A p) (sqrt p).
Proof.
  intros p P1 P2. pose proof B_big. destruct (sqrt_range u p Hu Hu1 P1 P2) as (S1 & S2 & S3). unfold rel. rewrite (Rabs_pos_eq (sqrt p)) by lra.
  eapply Rle_trans; [apply (w_sqrt _ _ _ _ HR); lra|]. nra.
Qed.
Lemma wsub_rel : forall p, 1000 * u <= 1 - p -> 1 - p <= 2 -> rel (11 / 10 * u) (f_sub A 1 p) (1 - p).
Proof.
  intros p P1 P2. pose proof B_big. unfold rel. rewrite (Rabs_pos_eq (1 - p)) by lra.
  eapply Rle_trans; [apply (w_sub _ _ _ _ HR); [rewrite Rabs_pos_eq; lra|apply Rabs_le; lra]|]. rewrite (Rabs_pos_eq (1 - p)) by lra.
  assert (u * (1000 * u) <= u * (1 - p)) by (apply Rmult_le_compat_l; lra). nra.
Qed.
Lemma rel_sqrt : forall e a b, 0 <= a -> 0 < b -> rel e a b -> 0 <= e -> rel e (sqrt a) (sqrt b).
Proof.
  intros e a b Pa Pb R1 E. unfold rel in *. assert (S0 : 0 < sqrt b) by (apply sqrt_lt_R0; auto). rewrite (Rabs_pos_eq b) in R1 by lra. rewrite (Rabs_pos_eq (sqrt b)) by lra. pose proof (sqrt_pos a).
  assert (X : (sqrt a - sqrt b) * (sqrt a + sqrt b) = a - b).
  { replace ((sqrt a - sqrt b) * (sqrt a + sqrt b)) with (sqrt a * sqrt a - sqrt b * sqrt b) by ring. rewrite !sqrt_sqrt by lra. ring. }
  apply Rmult_le_reg_r with (sqrt b); auto. replace (e * sqrt b * sqrt b) with (e * b) by (rewrite <- (sqrt_sqrt b) at 1 by lra; ring).
  apply Rle_trans with (Rabs (a - b)); auto. rewrite <- X, Rabs_mult. apply Rmult_le_compat_l; [apply Rabs_pos|]. rewrite Rabs_pos_eq; lra.
Qed.
Lemma wsqrt1_rel : forall p, 1000 * u <= 1 - p -> 1 - p <= 2 -> rel (3 * u) (f_sqrt A (f_sub A 1 p)) (sqrt (1 - p)) /\ 0 <= f_sub A 1 p /\ 0 < f_sqrt A (f_sub A 1 p).
Proof.
  intros p P1 P2. pose proof B_big as BB. pose proof (wsub_rel p P1 P2) as R1. set (q := f_sub A 1 p) in *.
  destruct (sqrt_range u (1 - p) Hu Hu1 P1 P2) as (S1 & S2 & S3). unfold rel in R1. rewrite (Rabs_pos_eq (1 - p)) in R1 by lra. apply Rabs_le_inv in R1 as R1'.
  assert (Q0 : 0 <= q) by nra. assert (Q1 : q <= B) by nra.
  assert (R2 : rel (11 / 10 * u) (sqrt q) (sqrt (1 - p))) by (apply rel_sqrt; auto; [lra|unfold rel; rewrite (Rabs_pos_eq (1 - p)); lra|lra]).
  pose proof (w_sqrt _ _ _ _ HR q (conj Q0 Q1)) as W. unfold rel in R2. rewrite (Rabs_pos_eq (sqrt (1 - p))) in R2 by lra. set (t := sqrt (1 - p)) in *.
  assert (G : Rabs (f_sqrt A q - t) <= 3 * u * t).
  { eapply Rle_trans; [apply (ab_tri _ (sqrt q)); eauto|]. apply Rabs_le_inv in R2. pose proof eta_small. assert (u * sqrt q <= u * (2 * t)) by (apply Rmult_le_compat_l; nra). nra. }
  split; [unfold rel; rewrite (Rabs_pos_eq t); lra|]. split; auto. apply Rabs_le_inv in G. nra.
Qed.

(** the division of a complex number *)
Lemma wdiv_part : forall s t, 30 * u <= t -> t <= 3 / 2 -> 1000 * u <= t * t -> rel (3 * u) s t ->
  let rat := f_div A 0 s in let sc := f_div A 1 (f_add A s (f_mul A 0 rat)) in
  Rabs rat <= eta /\ Rabs (sc - / t) <= 6 * u * / t /\ Rabs sc <= B.
Proof.
  intros s t T1 T2 T3 R1 rat sc. pose proof B_big as BB. pose proof B_inv as BI. pose proof eta_small as ES. unfold rel in R1. rewrite (Rabs_pos_eq t) in R1 by lra. apply Rabs_le_inv in R1 as R1'.
  assert (S1 : 29 * u <= s) by nra. assert (S2 : s <= 2) by nra. assert (Hrat : Rabs rat <= eta).
  { pose proof (HQ 0 s ltac:(rewrite Rabs_R0; lra) ltac:(lra)) as W. unfold Rdiv in W. rewrite Rmult_0_l, Rabs_R0, Rmult_0_r, Rminus_0_r, Rplus_0_l in W. exact W. }
  split; auto. set (mu := f_mul A 0 rat). assert (Hmu : Rabs mu <= eta).
  { pose proof (w_mul _ _ _ _ HR 0 rat ltac:(rewrite Rabs_R0; lra) ltac:(nra)) as W. rewrite Rmult_0_l, Rabs_R0, Rmult_0_r, Rminus_0_r, Rplus_0_l in W. exact W. }
  pose proof (w_add _ _ _ _ HR s mu ltac:(rewrite Rabs_pos_eq; lra) ltac:(nra)) as W1. unfold sc. fold mu. set (d := f_add A s mu) in *.
  assert (X1 : Rabs (d - s) <= 11 / 10 * u * s).
  { apply Rabs_le_inv in Hmu. pose proof (Rabs_triang s mu) as TR. rewrite (Rabs_pos_eq s) in TR by lra.
    assert (Rabs (s + mu) <= s + eta) by (eapply Rle_trans; [exact TR|]; apply Rplus_le_compat_l, Rabs_le; lra).
    assert (u * Rabs (s + mu) <= u * (s + eta)) by (apply Rmult_le_compat_l; lra). apply Rabs_le_inv in W1.
    assert (eta * 29 <= u * s) by nra. apply Rabs_le. split; nra. }
  assert (X2 : Rabs (d - t) <= 42 / 10 * u * t). { eapply Rle_trans; [apply (ab_tri d s t); eauto|]. nra. }
  apply Rabs_le_inv in X2 as X2'. assert (D1 : 29 * u <= d) by nra. assert (D2 : d <= 2) by nra.
  assert (IT : 0 < / t) by (apply Rinv_0_lt_compat; lra). assert (IT1 : 2 / 3 <= / t) by (replace (2 / 3) with (/ (3 / 2)) by field; apply Rinv_le_contravar; lra).
  assert (I : Rabs (1 / d - 1 / t) <= 43 / 10 * u * (1 / t)).
  { pose proof (rel_inv (42 / 10 * u) (43 / 10 * u) d t ltac:(lra) ltac:(lra)) as RI. unfold rel in RI. rewrite (Rabs_pos_eq t) in RI by lra.
    rewrite (Rabs_pos_eq (1 / t)) in RI by (unfold Rdiv; lra). apply RI; auto. nra. }
  pose proof (HQ 1 d ltac:(rewrite Rabs_pos_eq; lra) ltac:(lra)) as W2. rewrite (Rabs_pos_eq (1 / d)) in W2 by (left; apply Rdiv_lt_0_compat; lra).
  replace (1 / t) with (/ t) in I by (unfold Rdiv; ring). apply Rabs_le_inv in I as I'.
  assert (G : Rabs (f_div A 1 d - / t) <= 6 * u * / t).
  { eapply Rle_trans; [apply (ab_tri _ (1 / d)); eauto|]. assert (u * (1 / d) <= u * (11 / 10 * / t)) by (apply Rmult_le_compat_l; nra). nra. }
  split; auto. apply Rabs_le_inv in G. assert (TU : / t <= / u / 30).
  { apply Rmult_le_reg_r with t; [lra|]. rewrite Rinv_l by lra. replace (/ u / 30 * t) with (t / (30 * u)) by (field; lra). apply Rmult_le_reg_r with (30 * u); [lra|].
    unfold Rdiv. rewrite Rmult_assoc, Rinv_l by lra. lra. }
  apply Rabs_le. nra.
Qed.
Lemma wdiv_num : forall a b rat, Rabs a <= 6 -> Rabs b <= 6 -> Rabs rat <= eta ->
  Rabs (f_add A a (f_mul A b rat) - a) <= u * Rabs a + 10 * eta /\ Rabs (f_sub A a (f_mul A b rat) - a) <= u * Rabs a + 10 * eta.
Proof.
  intros a b rat Ha Hb Hr. pose proof B_big as BB. pose proof eta_small as ES. pose proof (Rabs_pos a). pose proof (Rabs_pos b).
  pose proof (w_mul _ _ _ _ HR b rat ltac:(lra) ltac:(nra)) as W. set (m := f_mul A b rat) in *.
  assert (M1 : Rabs (b * rat) <= 6 * eta) by (rewrite Rabs_mult; apply Rmult_le_compat; auto; apply Rabs_pos).
  assert (M2 : Rabs m <= 71 / 10 * eta). { pose proof (ab_near _ _ _ W). nra. }
  pose proof (w_add _ _ _ _ HR a m ltac:(lra) ltac:(nra)) as W1. pose proof (w_sub _ _ _ _ HR a m ltac:(lra) ltac:(nra)) as W2.
  pose proof (Rabs_triang a m) as T1. pose proof (ab_minus a m) as T2. apply Rabs_le_inv in M2 as M2'.
  assert (G : forall r x, Rabs (r - x) <= u * Rabs x + eta -> Rabs x <= Rabs a + Rabs m -> Rabs (x - a) <= 71 / 10 * eta -> Rabs (r - a) <= u * Rabs a + 10 * eta).
  { intros r x R1 R2 R3. eapply Rle_trans; [apply (ab_tri r x a); eauto|]. assert (u * Rabs x <= u * (Rabs a + 71 / 10 * eta)) by (apply Rmult_le_compat_l; lra). nra. }
  split; [apply (G _ (a + m))|apply (G _ (a - m))]; auto; apply Rabs_le; lra.
Qed.
Lemma wdiv_err : forall s t z, 30 * u <= t -> t <= 3 / 2 -> 1000 * u <= t * t -> rel (3 * u) s t -> Rabs (fst z) <= 6 -> Rabs (snd z) <= 6 ->
  Rabs (fst (fl_div A s z) - fst z * / t) <= 9 * u * (/ t * Rabs (fst z)) + 14 * (eta * / t) /\
  Rabs (snd (fl_div A s z) - snd z * / t) <= 9 * u * (/ t * Rabs (snd z)) + 14 * (eta * / t).
Proof.
  intros s t z T1 T2 T3 R1 Z1 Z2. pose proof B_big as BB. pose proof eta_small as ES. destruct (wdiv_part s t T1 T2 T3 R1) as (P1 & P2 & P3).
  unfold fl_div. cbv zeta in *. set (rat := f_div A 0 s) in *. set (sc := f_div A 1 (f_add A s (f_mul A 0 rat))) in *.
  assert (IT : 0 < / t) by (apply Rinv_0_lt_compat; lra). assert (IT1 : 2 / 3 <= / t) by (replace (2 / 3) with (/ (3 / 2)) by field; apply Rinv_le_contravar; lra).
  assert (SC : Rabs sc <= 101 / 100 * / t). { pose proof (ab_near _ _ _ P2) as X. rewrite (Rabs_pos_eq (/ t)) in X by lra. nra. }
  assert (G : forall w a, Rabs a <= 6 -> Rabs (w - a) <= u * Rabs a + 10 * eta -> Rabs (f_mul A w sc - a * / t) <= 9 * u * (/ t * Rabs a) + 14 * (eta * / t)).
  { intros w a LA W. pose proof (Rabs_pos a) as PA. pose proof (ab_near _ _ _ W) as NW. assert (WL : Rabs w <= 7) by nra.
    pose proof (w_mul _ _ _ _ HR w sc ltac:(lra) P3) as W1.
    assert (X : Rabs (w * sc - a * / t) <= (u * Rabs a + 10 * eta) * (101 / 100 * / t) + Rabs a * (6 * u * / t)).
    { replace (w * sc - a * / t) with ((w - a) * sc + a * (sc - / t)) by ring. eapply Rle_trans; [apply Rabs_triang|]. rewrite !Rabs_mult.
      apply Rplus_le_compat; [apply Rmult_le_compat; auto; apply Rabs_pos|apply Rmult_le_compat_l; auto]. }
    assert (Y : Rabs (w * sc) <= (Rabs a + (u * Rabs a + 10 * eta)) * (101 / 100 * / t)) by (rewrite Rabs_mult; apply Rmult_le_compat; auto; apply Rabs_pos).
    eapply Rle_trans; [apply (ab_tri _ (w * sc)); eauto|].
    set (y := / t * Rabs a). set (h := eta * / t). assert (PY : 0 <= y) by (apply Rmult_le_pos; lra). assert (PH : 0 <= h) by (apply Rmult_le_pos; lra).
    assert (E1 : (u * Rabs a + 10 * eta) * (101 / 100 * / t) = 101 / 100 * (u * y + 10 * h)) by (unfold y, h; ring).
    assert (E2 : Rabs a * (6 * u * / t) = 6 * (u * y)) by (unfold y; ring).
    assert (E3 : (Rabs a + (u * Rabs a + 10 * eta)) * (101 / 100 * / t) = 101 / 100 * (y + u * y + 10 * h)) by (unfold y, h; ring).
    rewrite E1, E2 in *. rewrite E3 in Y.
    assert (U1 : u * Rabs (w * sc) <= u * (101 / 100 * (y + u * y + 10 * h))) by (apply Rmult_le_compat_l; lra).
    assert (U2 : u * (u * y) <= 1 / 3000 * (u * y)) by (apply Rmult_le_compat_r; nra). assert (U3 : u * h <= 1 / 3000 * h) by (apply Rmult_le_compat_r; lra).
    assert (U4 : eta <= 3 / 2 * h) by (unfold h; nra). replace (9 * u * y) with (9 * (u * y)) by ring. assert (0 <= u * y) by (apply Rmult_le_pos; lra). lra. }
  cbn [fst snd]. destruct (wdiv_num (fst z) (snd z) rat Z1 Z2 P1) as [N1 _]. destruct (wdiv_num (snd z) (fst z) rat Z2 Z1 P1) as [_ N2]. split; apply G; auto.
Qed.

(** the division of an array *)
Lemma wdiv_dist : forall n v s t phi, (v < n)%nat -> 30 * u <= t -> t <= 3 / 2 -> 1000 * u <= t * t -> rel (3 * u) s t -> norm n phi <= 3 / 2 ->
  dist n (fun x => fl_div A s (phi x)) (scl (RtoC (/ t)) phi) <= 100 * u * (/ t * (norm n phi + eta / u * sqrt (2 ^ n))).
Proof.
  intros n v s t phi Hv T1 T2 T3 R1 NL. assert (IT : 0 < / t) by (apply Rinv_0_lt_compat; lra). pose proof (norm_pos n phi). pose proof (sqrt_pos (2 ^ n)) as SP.
  assert (G0 : 0 <= eta / u) by (apply Rmult_le_pos; [auto|left; apply Rinv_0_lt_compat; auto]).
  assert (UT : 0 <= u * / t) by (apply Rmult_le_pos; lra).
  apply Rle_trans with (3 * (28 * (u * / t)) * (norm n phi + eta / u * sqrt (2 ^ n))).
  - unfold dist. apply (pair_bound_add n v); auto; [lra|]. intros x L. pose proof (entry_small n phi x L ltac:(lra)) as ES. set (z := phi x) in *.
    assert (Z1 : Rabs (fst z) <= 6 /\ Rabs (snd z) <= 6) by (unfold n1 in ES; pose proof (Rabs_pos (fst z)); pose proof (Rabs_pos (snd z)); lra).
    destruct (wdiv_err s t z T1 T2 T3 R1 (proj1 Z1) (proj2 Z1)) as [D1 D2]. pose proof (n1_pos (phi (flip x v))) as FP.
    assert (E : n1 (fl_div A s z - scl (RtoC (/ t)) phi x)%C = Rabs (fst (fl_div A s z) - fst z * / t) + Rabs (snd (fl_div A s z) - snd z * / t)).
    { unfold n1, scl. fold z. set (d := fl_div A s z). unfold Csub, Cadd, Copp, Cmul, RtoC; cbn [fst snd]. f_equal; f_equal; ring. }
    rewrite E. set (y := n1 z). assert (Y : y = Rabs (fst z) + Rabs (snd z)) by reflexivity.
    assert (EE : eta * / t = u * / t * (eta / u)) by (field; split; lra). rewrite EE in D1, D2. set (k := u * / t) in *.
    assert (F1 : 9 * u * (/ t * Rabs (fst z)) = 9 * (k * Rabs (fst z))) by (unfold k; ring). assert (F2 : 9 * u * (/ t * Rabs (snd z)) = 9 * (k * Rabs (snd z))) by (unfold k; ring).
    rewrite F1 in D1. rewrite F2 in D2. assert (Y0 : 0 <= y) by apply n1_pos.
    assert (P1 : 0 <= k * y) by (apply Rmult_le_pos; auto). assert (P2 : 0 <= k * n1 (phi (flip x v))) by (apply Rmult_le_pos; auto). assert (P3 : 0 <= k * (eta / u)) by (apply Rmult_le_pos; auto).
    apply Rle_trans with (9 * (k * y) + 28 * (k * (eta / u))); [rewrite Y; lra|]. lra.
  - assert (0 <= norm n phi + eta / u * sqrt (2 ^ n)) by (assert (0 <= eta / u * sqrt (2 ^ n)) by (apply Rmult_le_pos; auto); lra).
    replace (100 * u * (/ t * (norm n phi + eta / u * sqrt (2 ^ n)))) with (100 * (u * / t) * (norm n phi + eta / u * sqrt (2 ^ n))) by ring. apply Rmult_le_compat_r; lra.
Qed.

(** ** The probability of 0 *)
Variable N : carr -> R.
Variable n : nat.
Variables w g : R.
Hypothesis HN : norms_within N n w g.
Hypothesis Hw : u <= w <= 1 / 100.
Hypothesis Hg : eta / u * sqrt (2 ^ n) <= g.
Hypothesis Hg1 : g <= 1.
Lemma pow2_1 : 1 <= sqrt (2 ^ n).
Proof. rewrite <- sqrt_1. apply sqrt_le_1_alt, pow_R1_Rle. lra. Qed.
Lemma eta_g : eta <= u * g /\ 0 <= g.
Proof.
  pose proof pow2_1 as P. assert (G0 : 0 <= eta / u) by (apply Rmult_le_pos; [auto|left; apply Rinv_0_lt_compat; auto]).
  assert (X : eta / u <= g) by nra. split; [|lra]. apply Rmult_le_compat_l with (r := u) in X; [|lra]. replace (u * (eta / u)) with eta in X by (field; lra). auto.
Qed.
Lemma wp_err : forall t phi, norm n phi <= 3 / 2 -> Rabs (fl_norm2 A N (zero_part n t phi) - prob n t false phi) <= 6 * w * (norm n phi + g).
Proof.
  intros t phi NL. pose proof B_big as BB. destruct eta_g as [EG G0]. assert (E : exact_norm2 (zero_part n t phi) = prob n t false phi) by exact (p_zero_eq n t phi).
  assert (L : (List.length (zero_part n t phi) <= 2 ^ n)%nat).
  { unfold zero_part. rewrite map_length. rewrite <- (seq_length (2 ^ n) 0) at 2. apply filter_length. }
  pose proof (norm_pos n phi) as NP. pose proof (norm_sq n phi) as NS. pose proof (prob_total n t phi) as PT. pose proof (prob_nonneg n t true phi) as P1. pose proof (prob_nonneg n t false phi) as P0.
  pose proof (HN _ L) as H1. rewrite E in H1. set (x := sqrt (prob n t false phi)) in *. assert (X : x * x = prob n t false phi) by (apply sqrt_sqrt; auto). assert (X0 : 0 <= x) by apply sqrt_pos.
  rewrite <- X in *. assert (XN : x <= norm n phi) by nra. specialize (H1 ltac:(nra)). unfold fl_norm2. set (y := N (zero_part n t phi)) in *. apply Rabs_le_inv in H1 as H2.
  assert (W1 : w * (x + g) <= 25 / 1000) by nra. assert (W0 : 0 <= w * (x + g)) by (apply Rmult_le_pos; lra).
  assert (Y1 : Rabs y <= 1525 / 1000) by (apply Rabs_le; lra).
  assert (D1 : Rabs (y * y - x * x) <= w * (x + g) * (3025 / 1000)).
  { replace (y * y - x * x) with ((y - x) * (y + x)) by ring. rewrite Rabs_mult. apply Rmult_le_compat; try apply Rabs_pos; auto. apply Rabs_le. lra. }
  pose proof (w_mul _ _ _ _ HR y y ltac:(lra) ltac:(lra)) as M1.
  assert (YY : Rabs (y * y) <= 1525 / 1000 * (x + w * (x + g))) by (rewrite Rabs_mult; apply Rmult_le_compat; auto; try apply Rabs_pos; apply Rabs_le; lra).
  eapply Rle_trans; [apply (ab_tri _ (y * y)); eauto|].
  assert (U1 : u * Rabs (y * y) <= w * (1525 / 1000 * (x + w * (x + g)))) by (apply Rmult_le_compat; try apply Rabs_pos; lra).
  assert (U2 : w * (w * (x + g)) <= 1 / 100 * (w * (x + g))) by (apply Rmult_le_compat_r; lra). assert (U3 : u * g <= w * g) by (apply Rmult_le_compat_r; lra).
  assert (U4 : w * x <= w * norm n phi) by (apply Rmult_le_compat_l; lra). assert (0 <= w * g) by (apply Rmult_le_pos; lra). assert (0 <= w * x) by (apply Rmult_le_pos; lra). lra.
Qed.

Variable rng : nat -> R.
Lemma project_norm : forall t b phi, norm n (project t b phi) <= norm n phi.
Proof. intros. unfold norm. apply sqrt_le_1_alt. apply norm2_proj1. Qed.
Lemma gap_le : forall k x, 0 <= k -> k * (x + eta / u * sqrt (2 ^ n)) <= k * (x + g).
Proof. intros. apply Rmult_le_compat_l; auto. lra. Qed.
Lemma wsqrt_any : forall b p, let q := if b : bool then 1 - p else p in 1000 * u <= q -> q <= 2 -> rel (3 * u) (f_sqrt A (if b then f_sub A 1 p else p)) (sqrt q).
Proof. intros [] p q Q1 Q2; unfold q in *; [apply wsqrt1_rel; auto|apply wsqrt_rel; auto]. Qed.
Lemma wdist_any : forall t b p phi V, (t < n)%nat -> norm n phi <= 3 / 2 -> good n V -> let q := if b : bool then 1 - p else p in 1000 * u <= q -> q <= 2 ->
  dist n (fun x => fl_div A (f_sqrt A (if b then f_sub A 1 p else p)) (V (project t b phi) x)) (scl (RtoC (/ sqrt q)) (V (project t b phi))) <= 100 * u * (/ sqrt q * (norm n phi + g)).
Proof.
  intros t b p phi V Ht NL GV q Q1 Q2. destruct (sqrt_range u q Hu Hu1 Q1 Q2) as (S1 & S2 & S3). pose proof (project_norm t b phi) as PN.
  assert (NV : norm n (V (project t b phi)) = norm n (project t b phi)) by (unfold norm; f_equal; apply preserves_norm, GV).
  eapply Rle_trans; [apply (wdiv_dist n t _ (sqrt q)); auto; [apply wsqrt_any; auto|lra]|]. apply Rmult_le_compat_l; [lra|].
  assert (0 < / sqrt q) by (apply Rinv_0_lt_compat; lra). apply Rmult_le_compat_l; lra.
Qed.
Lemma np_measure_collapses : collapses n u g (6 * w) rng after_measure rec_measure (fl_measure A N rng n).
Proof.
  intros tz phi bits pos Ht NL t. assert (TN : (t < n)%nat) by (apply inside_lt; auto). exists (fl_norm2 A N (zero_part n t phi)). split; [apply wp_err; auto|].
  set (p := fl_norm2 A N (zero_part n t phi)). intros b BIT q Q1 Q2.
  exists (fun x => fl_div A (f_sqrt A (if b then f_sub A 1 p else p)) (project t b phi x)). split.
  - unfold fl_measure. rewrite mask_eq0_ok, mask_ne0_ok by (unfold inside in Ht; lia). rewrite get_same. fold t. fold (zero_part n t phi). fold p. cbv zeta. rewrite BIT.
    destruct b; cbn [negb].
    + rewrite put_scalar_arr. cbn [bind]. rewrite list_set_map by (unfold inside in Ht; unfold t; lia). cbn [bind]. rewrite arr_map. do 3 f_equal.
      apply arr_ext. intros x _. unfold project, b0. destruct (bit x t); reflexivity.
    + rewrite put_scalar_arr. cbn [bind]. rewrite list_set_map by (unfold inside in Ht; unfold t; lia). cbn [bind]. rewrite arr_map. do 3 f_equal.
      apply arr_ext. intros x _. unfold project, b1. destruct (bit x t); reflexivity.
  - apply (wdist_any t b p phi (fun psi => psi)); auto. split; [apply linear_one|intros x y; reflexivity].
Qed.
Lemma np_reset_collapses : collapses n u g (6 * w) rng after_reset rec_reset (fl_reset A N rng n).
Proof.
  intros tz phi bits pos Ht NL t. assert (TN : (t < n)%nat) by (apply inside_lt; auto). exists (fl_norm2 A N (zero_part n t phi)). split; [apply wp_err; auto|].
  set (p := fl_norm2 A N (zero_part n t phi)). intros b BIT q Q1 Q2.
  exists (fun x => fl_div A (f_sqrt A (if b then f_sub A 1 p else p)) (after_reset b t (project t b phi) x)). split.
  - unfold fl_reset. rewrite mask_eq0_ok, mask_ne0_ok by (unfold inside in Ht; lia). rewrite get_same. fold t. fold (zero_part n t phi). fold p. cbv zeta. rewrite BIT.
    destruct b; cbn [negb].
    + rewrite get_10, put_arr by auto. cbn [bind]. rewrite put_scalar_arr. cbn [bind]. rewrite arr_map. do 3 f_equal.
      apply arr_ext. intros x _. unfold after_reset. rewrite ap1_flip. unfold project, b0, b1. rewrite testbit_flip, Nat.eqb_refl. unfold mX, mk2.
      f_equal. destruct (bit x t); simpl; ring.
    + rewrite put_scalar_arr. cbn [bind]. rewrite arr_map. do 3 f_equal.
      apply arr_ext. intros x _. unfold after_reset, project, b1. destruct (bit x t); reflexivity.
  - apply (wdist_any t b p phi (after_reset b t)); auto. unfold after_reset. destruct b; [apply good_x; auto|]. split; [apply linear_one|intros x y; reflexivity].
Qed.
End Meas.
