(** Rounded measurements: errors of one measurement or reset *)
From Coq Require Import List Arith ZArith Bool Reals Lia Lra Psatz FunctionalExtensionality.
Import ListNotations.
From Verif Require Import Base Cplx Bits ModelTargets ModelGate ModelNumpy ModelFloat ModelFloatMeasure SpecTargets SpecQuantum SpecCircuit SpecMeasure SpecLaw SpecFloat
  SpecFloatMeasure ProofTargets ProofArray ProofNumpy ProofUnitary ProofPauli ProofRun ProofMeasure ProofFloat ProofFloatOps.
Local Open Scope R_scope.

(** ** Relative errors *)
Lemma Rabs_le_inv : forall x a, Rabs x <= a -> - a <= x <= a.
Proof. intros x a H. unfold Rabs in H. destruct (Rcase_abs x); lra. Qed.
Definition rel (e a b : R) : Prop := Rabs (a - b) <= e * Rabs b.
Lemma rel_le : forall e f a b, rel e a b -> e <= f -> rel f a b.
Proof. unfold rel. intros. pose proof (Rabs_pos b). nra. Qed.
Lemma rel_self : forall e a, 0 <= e -> rel e a a.
Proof. unfold rel. intros. rewrite Rminus_eq_0, Rabs_R0. pose proof (Rabs_pos a). nra. Qed.
Lemma rel_trans : forall e f a b c, 0 <= e -> 0 <= f -> rel e a b -> rel f b c -> rel (e + f + e * f) a c.
Proof.
  unfold rel. intros e f a b c E F H1 H2. pose proof (ab_tri a b c _ _ H1 H2). pose proof (ab_near b c _ H2). pose proof (Rabs_pos c).
  assert (e * Rabs b <= e * (Rabs c + f * Rabs c)) by (apply Rmult_le_compat_l; auto). nra.
Qed.
Lemma rel_mul : forall e f a b c d, 0 <= e -> 0 <= f -> rel e a b -> rel f c d -> rel (e + f + e * f) (a * c) (b * d).
Proof.
  unfold rel. intros e f a b c d E F H1 H2. rewrite Rabs_mult. pose proof (ab_near c d _ H2). pose proof (Rabs_pos b). pose proof (Rabs_pos d). pose proof (Rabs_pos c).
  replace (a * c - b * d) with ((a - b) * c + b * (c - d)) by ring. pose proof (Rabs_triang ((a - b) * c) (b * (c - d))) as T. rewrite !Rabs_mult in T.
  assert (Rabs (a - b) * Rabs c <= e * Rabs b * (Rabs d + f * Rabs d)) by (apply Rmult_le_compat; auto; apply Rabs_pos).
  assert (Rabs b * Rabs (c - d) <= Rabs b * (f * Rabs d)) by (apply Rmult_le_compat_l; auto). nra.
Qed.
Lemma rel_pos : forall e a b, 0 < b -> e < 1 -> rel e a b -> 0 < a.
Proof. unfold rel. intros e a b B E H. rewrite (Rabs_pos_eq b) in H by lra. apply Rabs_le_inv in H. nra. Qed.
Lemma rel_inv : forall e f a b, 0 < b -> 0 <= e < 1 -> e <= f * (1 - e) -> rel e a b -> rel f (1 / a) (1 / b).
Proof.
  intros e f a b B E F H. pose proof (rel_pos e a b B (proj2 E) H) as P. unfold rel in *. rewrite (Rabs_pos_eq b) in H by lra.
  rewrite (Rabs_pos_eq (1 / b)) by (left; apply Rdiv_lt_0_compat; lra).
  replace (1 / a - 1 / b) with (- (a - b) * / (a * b)) by (field; lra). rewrite Rabs_mult, Rabs_Ropp, (Rabs_pos_eq (/ (a * b))) by (left; apply Rinv_0_lt_compat; nra).
  apply Rmult_le_reg_r with (a * b); [nra|]. rewrite Rmult_assoc, Rinv_l, Rmult_1_r by nra. replace (f * (1 / b) * (a * b)) with (f * a) by (field; lra).
  apply Rabs_le_inv in H as H'. assert ((1 - e) * b <= a) by lra. apply Rle_trans with (e * b); auto.
  assert (0 <= f) by nra. apply Rle_trans with (f * ((1 - e) * b)); nra.
Qed.

Section Meas.
Variable A : arith.
Variable u : R.
Hypothesis HR : rounds A u.
Hypothesis Hu : 3000 * u <= 1.

Lemma mu_pos : 0 <= u. Proof. exact (u_pos A u HR). Qed.
Lemma rel_step : forall k l a b c, 0 <= k <= 20 -> k + 11 / 10 <= l -> rel (k * u) b c -> rel u a b -> rel (l * u) a c.
Proof.
  intros k l a b c K L H1 H2. pose proof mu_pos. eapply rel_le; [eapply (rel_trans u (k * u)); eauto; nra|]. nra.
Qed.

Lemma add_0_rel : forall a, rel u (f_add A a 0) a.
Proof. intros. unfold rel. pose proof (r_add A u HR a 0) as H. rewrite Rplus_0_r in H. exact H. Qed.
Lemma sub_0_rel : forall a, rel u (f_sub A a 0) a.
Proof. intros. unfold rel. pose proof (r_sub A u HR a 0) as H. rewrite Rminus_0_r in H. exact H. Qed.
Lemma abs_0 : forall x, Rabs x <= 0 -> x = 0.
Proof. intros x H. destruct (Req_dec x 0) as [E|N]; auto. pose proof (Rabs_pos_lt x N). lra. Qed.
Lemma mul_0 : forall a b, a * b = 0 -> f_mul A a b = 0.
Proof. intros a b E. pose proof (r_mul A u HR a b) as H. rewrite E, Rabs_R0, Rmult_0_r, Rminus_0_r in H. apply abs_0; auto. Qed.
Lemma div_0 : forall s, s <> 0 -> f_div A 0 s = 0.
Proof. intros s N. pose proof (r_div A u HR 0 s N) as H. unfold Rdiv in H. rewrite Rmult_0_l, Rabs_R0, Rmult_0_r, Rminus_0_r in H. apply abs_0; auto. Qed.

Lemma fl_div_rel : forall s t z, 0 < t -> rel (3 * u) s t -> rel (8 * u) (fst (fl_div A s z)) (fst z / t) /\ rel (8 * u) (snd (fl_div A s z)) (snd z / t).
Proof.
  intros s t z T H. pose proof mu_pos as P. pose proof (rel_pos (3 * u) s t T ltac:(lra) H) as PS.
  unfold fl_div. cbv zeta. rewrite (div_0 s) by lra. rewrite (mul_0 0 0), (mul_0 (snd z) 0), (mul_0 (fst z) 0) by ring. cbn [fst snd].
  set (q := f_add A s 0). assert (Q : rel (41 / 10 * u) q t) by (eapply (rel_step 3); eauto using add_0_rel; lra).
  pose proof (rel_pos (41 / 10 * u) q t T ltac:(lra) Q) as PQ.
  assert (I : rel (42 / 10 * u) (1 / q) (1 / t)) by (apply (rel_inv (41 / 10 * u)); auto; nra).
  assert (J : rel (53 / 10 * u) (f_div A 1 q) (1 / t)) by (eapply (rel_step (42 / 10)); eauto; [lra|lra|]; apply (r_div A u HR); lra).
  assert (G : forall w x, rel u w x -> rel (8 * u) (f_mul A w (f_div A 1 q)) (x / t)).
  { intros w x Hw. eapply (rel_step (65 / 10)); [lra|lra| |apply (r_mul A u HR)]. replace (x / t) with (x * (1 / t)) by (field; lra).
    eapply rel_le; [apply (rel_mul u (53 / 10 * u)); eauto; nra|nra]. }
  split; apply G; [apply add_0_rel|apply sub_0_rel].
Qed.

(** The division of a whole array *)
Lemma div_dist : forall n s t phi, 0 < t -> rel (3 * u) s t -> dist n (fun x => fl_div A s (phi x)) (scl (RtoC (/ t)) phi) <= 8 * u * (/ t * norm n phi).
Proof.
  intros n s t phi T H. pose proof mu_pos as P. pose proof (norm_pos n phi) as NP. assert (IT : 0 < / t) by (apply Rinv_0_lt_compat; auto).
  assert (K : 0 <= 8 * u * / t) by (apply Rmult_le_pos; lra).
  rewrite <- Rmult_assoc. unfold dist. apply norm_bound; [apply Rmult_le_pos; auto|].
  replace (8 * u * / t * norm n phi * (8 * u * / t * norm n phi)) with (8 * u * / t * (8 * u * / t) * (norm n phi * norm n phi)) by ring. rewrite norm_sq.
  unfold norm2. rewrite <- Rsum_mul_l. apply Rsum_mono. intros x _. destruct (fl_div_rel s t (phi x) T H) as [R1 R2].
  unfold rel in R1, R2. unfold scl, Cnorm2, Csub, Cadd, Copp, Cmul, RtoC; cbn [fst snd]. set (d := fl_div A s (phi x)) in *. destruct (phi x) as [a b]. cbn [fst snd] in *.
  unfold Rdiv in R1, R2. rewrite Rabs_mult, (Rabs_pos_eq (/ t)) in R1, R2 by lra.
  assert (S : forall e v w, 0 <= e -> Rabs v <= e * Rabs w -> v * v <= e * e * (w * w)).
  { intros e v w E L. replace (v * v) with (Rabs v * Rabs v) by (rewrite <- Rabs_mult; apply Rabs_pos_eq; apply Rle_0_sqr).
    replace (w * w) with (Rabs w * Rabs w) by (rewrite <- Rabs_mult; apply Rabs_pos_eq; apply Rle_0_sqr).
    replace (e * e * (Rabs w * Rabs w)) with (e * Rabs w * (e * Rabs w)) by ring. apply Rmult_le_compat; auto; apply Rabs_pos. }
  pose proof (S (8 * u * / t) (fst d - a * / t) a K ltac:(lra)) as S1. pose proof (S (8 * u * / t) (snd d - b * / t) b K ltac:(lra)) as S2.
  replace (fst d + - (/ t * a - 0 * b)) with (fst d - a * / t) by ring. replace (snd d + - (/ t * b + 0 * a)) with (snd d - b * / t) by ring. nra.
Qed.

Lemma sqrt_rel : forall p, 0 < p -> rel (3 * u) (f_sqrt A p) (sqrt p).
Proof. intros p P. pose proof mu_pos. unfold rel. pose proof (r_sqrt A u HR p ltac:(lra)). rewrite (Rabs_pos_eq (sqrt p)) by apply sqrt_pos. pose proof (sqrt_pos p). nra. Qed.
Lemma sqrt1_rel : forall p, p < 1 -> rel (3 * u) (f_sqrt A (f_sub A 1 p)) (sqrt (1 - p)).
Proof.
  intros p P. pose proof mu_pos as U. assert (R1 : rel u (f_sub A 1 p) (1 - p)) by (apply (r_sub A u HR)).
  pose proof (rel_pos u _ (1 - p) ltac:(lra) ltac:(lra) R1) as Q. set (q := f_sub A 1 p) in *. assert (S0 : 0 < sqrt (1 - p)) by (apply sqrt_lt_R0; lra).
  assert (R2 : rel (1 * u) (sqrt q) (sqrt (1 - p))).
  { unfold rel in *. rewrite (Rabs_pos_eq (1 - p)) in R1 by lra. rewrite (Rabs_pos_eq (sqrt (1 - p))) by lra. pose proof (sqrt_pos q).
    assert (E : (sqrt q - sqrt (1 - p)) * (sqrt q + sqrt (1 - p)) = q - (1 - p)).
    { replace ((sqrt q - sqrt (1 - p)) * (sqrt q + sqrt (1 - p))) with (sqrt q * sqrt q - sqrt (1 - p) * sqrt (1 - p)) by ring. rewrite !sqrt_sqrt by lra. ring. }
    apply Rmult_le_reg_r with (sqrt (1 - p)); auto. replace (1 * u * sqrt (1 - p) * sqrt (1 - p)) with (u * (1 - p)) by (rewrite <- (sqrt_sqrt (1 - p)) at 1 by lra; ring).
    apply Rle_trans with (Rabs (q - (1 - p))); auto. rewrite <- E, Rabs_mult. apply Rmult_le_compat_l; [apply Rabs_pos|]. rewrite Rabs_pos_eq; lra. }
  eapply (rel_step 1); [lra|lra|exact R2|]. unfold rel. rewrite (Rabs_pos_eq (sqrt q)) by apply sqrt_pos. apply (r_sqrt A u HR). lra.
Qed.

(** ** The probability of 0 *)
Variable N : carr -> R.
Variable n : nat.
Hypothesis HN : norms N n u.

Lemma project_le : forall t b a c, dist n (project t b a) (project t b c) <= dist n a c.
Proof.
  intros t b a c. unfold dist, norm. apply sqrt_le_1_alt. unfold norm2. apply Rsum_mono. intros x _. unfold project. destruct (eqb (bit x t) b); [lra|].
  replace (C0 - C0)%C with C0 by ring. rewrite Cnorm2_C0. apply Cnorm2_pos.
Qed.
Lemma filter_length : forall (f : nat -> bool) l, (List.length (filter f l) <= List.length l)%nat.
Proof. induction l as [|a l IH]; cbn [filter List.length]; [lia|]. destruct (f a); cbn [List.length]; lia. Qed.
Definition zero_part (t : nat) (phi : state) : carr := map phi (filter (b0 t) (seq 0 (2 ^ n))).
Lemma p_rel : forall t phi, rel (35 / 10 * u) (fl_norm2 A N (zero_part t phi)) (prob n t false phi).
Proof.
  intros t phi. pose proof mu_pos. assert (E : exact_norm2 (zero_part t phi) = prob n t false phi) by exact (p_zero_eq n t phi).
  assert (L : (List.length (zero_part t phi) <= 2 ^ n)%nat).
  { unfold zero_part. rewrite map_length. rewrite <- (seq_length (2 ^ n) 0) at 2. apply filter_length. }
  pose proof (HN _ L) as H1. rewrite E in H1. set (x := sqrt (prob n t false phi)) in *. assert (X : x * x = prob n t false phi) by (apply sqrt_sqrt, prob_nonneg).
  assert (R1 : rel u (N (zero_part t phi)) x) by (unfold rel; rewrite (Rabs_pos_eq x) by apply sqrt_pos; exact H1).
  unfold fl_norm2. rewrite <- X. eapply (rel_step (21 / 10)); [lra|lra| |apply (r_mul A u HR)].
  eapply rel_le; [apply (rel_mul u u); eauto|nra].
Qed.

Definition near (phi B : state) (c e : R) : Prop := dist n phi (scl (RtoC c) B) <= c * e.
Lemma project_scl : forall t b k B, project t b (scl k B) = scl k (project t b B).
Proof. intros. apply functional_extensionality. intros x. unfold project, scl. destruct (eqb (bit x t) b); [reflexivity|]. ring. Qed.
Lemma norm_scl : forall c B, 0 <= c -> norm n (scl (RtoC c) B) = c * norm n B.
Proof.
  intros c B P. unfold norm. rewrite norm2_scl. unfold RtoC, Cnorm2; cbn [fst snd]. replace (c * c + 0 * 0) with (c * c) by ring.
  rewrite sqrt_mult by (try apply norm2_pos; nra). rewrite sqrt_square by auto. reflexivity.
Qed.
Lemma near_norm : forall phi B c e, 0 < c -> near phi B c e -> Rabs (norm n phi - c * norm n B) <= c * e.
Proof.
  intros phi B c e P H. unfold near in H. pose proof (dist_norm n phi (scl (RtoC c) B)) as A1. pose proof (dist_norm n (scl (RtoC c) B) phi) as A2.
  rewrite (dist_sym n (scl (RtoC c) B)) in A2. rewrite norm_scl in A1, A2 by lra. apply Rabs_le. lra.
Qed.
Lemma near_project : forall t b phi B c e, near phi B c e -> near (project t b phi) (project t b B) c e.
Proof. unfold near. intros. rewrite <- project_scl. eapply Rle_trans; [apply project_le|auto]. Qed.

Lemma p_err : forall t phi B c e, 0 < c -> 0 <= e <= 1 -> norm2 n B <= 1 -> near phi B c e ->
  Rabs (fl_norm2 A N (zero_part t phi) - c * c * prob n t false B) <= c * c * (3 * e + 16 * u).
Proof.
  intros t phi B c e P E W H. pose proof mu_pos as U. pose proof (near_norm _ _ c e P (near_project t false phi B c e H)) as D.
  pose proof (p_rel t phi) as R1. unfold rel in R1. set (p := fl_norm2 A N (zero_part t phi)) in *.
  set (x := norm n (project t false phi)) in *. set (y := norm n (project t false B)) in *.
  assert (X : prob n t false phi = x * x) by (symmetry; apply norm_sq). assert (Y : prob n t false B = y * y) by (symmetry; apply norm_sq).
  rewrite X in R1. rewrite Y. assert (X0 : 0 <= x) by apply norm_pos. assert (Y0 : 0 <= y) by apply norm_pos.
  assert (Y1 : y <= 1).
  { apply norm_bound; [lra|]. pose proof (prob_total n t B). pose proof (prob_nonneg n t true B). unfold prob in *. lra. }
  rewrite (Rabs_pos_eq (x * x)) in R1 by nra. apply Rabs_le_inv in D.
  assert (XX : x <= c * (1 + e)) by nra.
  assert (D2 : Rabs (x * x - c * c * (y * y)) <= c * c * (3 * e)).
  { replace (x * x - c * c * (y * y)) with ((x - c * y) * (x + c * y)) by ring. rewrite Rabs_mult, (Rabs_pos_eq (x + c * y)) by nra.
    apply Rle_trans with (c * e * (c * 3)); [|right; ring]. apply Rmult_le_compat; [apply Rabs_pos|nra|apply Rabs_le; lra|nra]. }
  assert (X2 : x <= 2 * c) by nra. assert (x * x <= 2 * c * (2 * c)) by (apply Rmult_le_compat; auto).
  eapply Rle_trans; [apply (ab_tri p (x * x)); eauto|]. nra.
Qed.
End Meas.

(** ** Real numbers *)
Lemma real_p : forall c2 W W0 p a h, 0 < W -> 0 <= W0 <= W -> 0 <= a -> Rabs (p - c2 * W0) <= c2 * a -> Rabs (c2 * W - 1) * W <= h -> h <= W ->
  c2 * W <= 2 /\ Rabs (p * W - W0) <= h + 2 * a.
Proof.
  intros c2 W W0 p a h PW P0 Pa Hp Hh HW.
  assert (K : Rabs (c2 * W - 1) <= 1) by (apply Rmult_le_reg_r with W; lra). apply Rabs_le_inv in K. split; [lra|].
  replace (p * W - W0) with (W * (p - c2 * W0) + W0 * (c2 * W - 1)) by ring. eapply Rle_trans; [apply Rabs_triang|].
  rewrite !Rabs_mult, (Rabs_pos_eq W), (Rabs_pos_eq W0) by lra. pose proof (Rabs_pos (c2 * W - 1)).
  assert (W * Rabs (p - c2 * W0) <= W * (c2 * a)) by (apply Rmult_le_compat_l; lra). assert (W * (c2 * a) <= 2 * a) by nra. nra.
Qed.
Lemma real_0 : forall c2 W0 p a, 0 < c2 -> 0 < W0 -> 0 <= a -> 2 * a <= W0 -> Rabs (p - c2 * W0) <= c2 * a ->
  0 < p /\ Rabs (c2 / p * W0 - 1) * W0 <= 2 * a.
Proof.
  intros c2 W0 p a PC PW Pa L Hp. apply Rabs_le_inv in Hp as Hq. assert (B : c2 * W0 <= 2 * p) by nra. assert (P : 0 < p) by nra. split; auto.
  replace (c2 / p * W0 - 1) with (- (p - c2 * W0) * / p) by (field; lra). rewrite Rabs_mult, Rabs_Ropp, (Rabs_pos_eq (/ p)) by (left; apply Rinv_0_lt_compat; auto).
  apply Rmult_le_reg_r with p; auto. replace (Rabs (p - c2 * W0) * / p * W0 * p) with (Rabs (p - c2 * W0) * W0) by (field; lra). nra.
Qed.
Lemma real_1 : forall c2 W W0 p a h, 0 < c2 -> 0 < W -> 0 <= W0 -> W0 < W -> 0 <= a -> 0 <= h -> Rabs (p - c2 * W0) <= c2 * a -> Rabs (c2 * W - 1) * W <= h -> h <= W ->
  h + 2 * a < W - W0 -> p < 1 /\ Rabs (c2 / (1 - p) * (W - W0) - 1) * (W - W0 - (h + 2 * a)) <= h + 2 * a.
Proof.
  intros c2 W W0 p a h PC PW P0 L Pa Ph Hp Hh HW HX. destruct (real_p c2 W W0 p a h PW ltac:(lra) Pa Hp Hh HW) as [K1 K2].
  set (X := h + 2 * a) in *. apply Rabs_le_inv in K2 as K3. assert (B : W - W0 - X <= (1 - p) * W) by lra. assert (P : 0 < 1 - p) by nra. split; [lra|].
  replace (c2 / (1 - p) * (W - W0) - 1) with ((c2 * W - 1 + (p - c2 * W0)) * / (1 - p)) by (field; lra).
  rewrite Rabs_mult, (Rabs_pos_eq (/ (1 - p))) by (left; apply Rinv_0_lt_compat; auto).
  apply Rmult_le_reg_r with (1 - p); auto. set (v := Rabs (c2 * W - 1 + (p - c2 * W0))).
  replace (v * / (1 - p) * (W - W0 - X) * (1 - p)) with (v * (W - W0 - X)) by (field; lra).
  assert (V : v * W <= X).
  { unfold v. eapply Rle_trans; [apply Rmult_le_compat_r; [lra|apply Rabs_triang]|]. rewrite Rmult_plus_distr_r. unfold X.
    assert (Rabs (p - c2 * W0) * W <= c2 * a * W) by (apply Rmult_le_compat_r; lra). nra. }
  assert (V0 : 0 <= v) by apply Rabs_pos. apply Rle_trans with (v * ((1 - p) * W)); [apply Rmult_le_compat_l; auto|]. nra.
Qed.
