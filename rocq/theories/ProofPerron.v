(** Proofs: the matrix "sum of the bit flips minus a cost" has a positive eigenvector, found by repeated multiplication *)
From Coq Require Import List Arith ZArith Bool Reals Lia Lra.
Import ListNotations.
From Verif Require Import Base Cplx Bits ProofGap.
From Verif Require ProofFloat ProofAnneal.
Local Open Scope R_scope.

(** ** Limits *)
Lemma cv_const : forall c, Un_cv (fun _ => c) c.
Proof. intros c e E. exists 0%nat. intros. unfold R_dist, Rminus. rewrite Rplus_opp_r, Rabs_R0. exact E. Qed.
Lemma cv_ext : forall a b l, (forall k, a k = b k) -> Un_cv a l -> Un_cv b l.
Proof. intros a b l E H e He. destruct (H e He) as (N & HN). exists N. intros k K. rewrite <- E. apply HN. exact K. Qed.
Lemma cv_sum : forall A (f : nat -> A -> R) g l, (forall a, In a l -> Un_cv (fun k => f k a) (g a)) -> Un_cv (fun k => Rsum (f k) l) (Rsum g l).
Proof.
  intros A f g. induction l as [|a l IH]; intros H; cbn [Rsum]; [apply cv_const|].
  apply (CV_plus (fun k => f k a) (fun k => Rsum (f k) l)); [apply H; left; reflexivity|apply IH; intros; apply H; right; assumption].
Qed.
Lemma cv_squeeze : forall a r, (forall k, Rabs (a k) <= r k) -> Un_cv r 0 -> Un_cv a 0.
Proof.
  intros a r B H e E. destruct (H e E) as (N & HN). exists N. intros k K. specialize (HN k K). unfold R_dist in *. rewrite Rminus_0_r in *. specialize (B k). pose proof (Rle_abs (r k)). lra.
Qed.
Lemma cv_pair : forall a l e, Un_cv a l -> 0 < e -> exists N, forall k j, (k >= N)%nat -> (j >= N)%nat -> Rabs (a k - a j) < e.
Proof.
  intros a l e H E. destruct (H (e / 2) ltac:(lra)) as (N & HN). exists N. intros k j K J. pose proof (HN k K) as H1. pose proof (HN j J) as H2. unfold R_dist in *.
  rewrite Rabs_minus_sym in H2. replace (a k - a j) with ((a k - l) + (l - a j)) by ring. pose proof (Rabs_triang (a k - l) (l - a j)). lra.
Qed.

(** ** The limit of vectors that are eigenvectors up to less and less *)
Lemma near_bound : forall n d s m r mu v x, 0 < m -> nearly_top n d s m r mu v -> (x < 2 ^ n)%nat -> 0 < v x <= 1.
Proof.
  intros n d s m r mu v x M (U & Lo & _) X. pose proof (Lo x X). split; [lra|]. pose proof (ip_at n v x X) as H1. rewrite U in H1. destruct (Rle_dec (v x) 1) as [L|L]; [exact L|].
  assert (1 * 1 < v x * v x) by (apply Rmult_le_0_lt_compat; lra). lra.
Qed.
Lemma near_close : forall n d s m r r' mu mu' v v' x, 0 < m -> 0 <= r -> 0 <= r' -> nearly_top n d s m r mu v -> nearly_top n d s m r' mu' v' -> (x < 2 ^ n)%nat ->
  (v x - v' x) * (v x - v' x) <= 2 * (r / m + 2 ^ n * r' + (mu - mu')) / gap n m.
Proof.
  intros n d s m r r' mu mu' v v' x M Hr Hr' T T' X. pose proof (gap_pos n m M) as G. pose proof (gap_near n d s m r mu v v' M Hr T) as H.
  assert (E : mu' - 2 ^ n * r' <= ip n v' (hop n d s v')).
  { replace (2 ^ n * r') with (Rsum (fun _ : nat => r') (seq 0 (2 ^ n))) by (rewrite ProofAnneal.Rsum_const, seq_length, pow_INR; reflexivity).
    destruct T' as (U' & L' & E') eqn:ET. rewrite <- (Rmult_1_r mu'), <- U'. unfold ip. rewrite <- Rsum_mul_l, <- Rsum_sub. apply Rsum_mono. intros y I. apply in_seq in I.
    assert (Y : (y < 2 ^ n)%nat) by lia. pose proof (near_bound n d s m r' mu' v' y M T' Y) as B. pose proof (E' y Y) as Q.
    pose proof (Rle_abs (- (hop n d s v' y - mu' * v' y))) as Q2. rewrite Rabs_Ropp in Q2.
    assert (v' y * (mu' * v' y - hop n d s v' y) <= 1 * r'); [|lra].
    destruct (Rle_dec 0 (mu' * v' y - hop n d s v' y)); [apply Rmult_le_compat; lra|].
    assert (0 <= v' y * (hop n d s v' y - mu' * v' y)) by (apply Rmult_le_pos; lra). lra. }
  destruct T as (U & L & Ei) eqn:ET. destruct T' as (U' & L' & E') eqn:ET'. rewrite U' in H. set (o := ip n v v') in *.
  assert (O : 0 <= o <= 1).
  { split.
    - apply Rsum_nonneg. intros y I. apply in_seq in I. pose proof (L y ltac:(lia)). pose proof (L' y ltac:(lia)). apply Rmult_le_pos; lra.
    - pose proof (ip_cs_abs n v v' 1 1 ltac:(lra) ltac:(lra) ltac:(lra) ltac:(lra)) as Q. fold o in Q. pose proof (Rle_abs o). lra. }
  assert (Q : ip n (fun x => 1 * v x + (-1) * v' x) (fun x => 1 * v x + (-1) * v' x) = 2 - 2 * o).
  { rewrite ip_add, (ip_scl n _ 1 v), (ip_scl n _ (-1) v'), (ip_sym n _ v), (ip_sym n _ v'), !ip_add, !ip_scl, U, U', (ip_sym n v' v). fold o. ring. }
  pose proof (ip_at n (fun x => 1 * v x + (-1) * v' x) x X) as A. cbn beta in A. rewrite Q in A.
  assert (B : gap n m * (1 - o * o) <= r / m + 2 ^ n * r' + (mu - mu')) by lra.
  assert (o * o <= o) by (rewrite <- (Rmult_1_r o) at 3; apply Rmult_le_compat_l; lra).
  apply Rle_trans with (2 * (1 - o * o)); [lra|]. unfold Rdiv. rewrite Rmult_assoc. apply Rmult_le_compat_l; [lra|].
  apply Rmult_le_reg_l with (gap n m); [exact G|]. replace (gap n m * ((r * / m + 2 ^ n * r' + (mu - mu')) * / gap n m)) with (r / m + 2 ^ n * r' + (mu - mu')) by (field; lra). exact B.
Qed.
Lemma near_limit : forall n d s m r mu l z, 0 < m -> (forall k, 0 <= r k) -> Un_cv r 0 -> Un_cv mu l -> (forall k, nearly_top n d s m (r k) (mu k) (z k)) -> exists v, top n d s m l v.
Proof.
  intros n d s m r mu l z M R0 Cr Cm T. pose proof (gap_pos n m M) as G.
  assert (Ca : forall x, (x < 2 ^ n)%nat -> Cauchy_crit (fun k => z k x)).
  { intros x X e He. apply Rgt_lt in He. assert (Pn : 0 < 2 ^ n) by (apply pow_lt; lra).
    set (t := gap n m * (e * e) / 8). assert (Ht : 0 < t) by (apply Rdiv_lt_0_compat; [apply Rmult_lt_0_compat; [exact G|apply Rmult_lt_0_compat; exact He]|lra]).
    destruct (Cr (t * m) ltac:(apply Rmult_lt_0_compat; assumption)) as (N1 & H1). destruct (Cr (t / 2 ^ n) ltac:(apply Rdiv_lt_0_compat; assumption)) as (N2 & H2).
    destruct (cv_pair mu l t Cm Ht) as (N3 & H3). exists (N1 + N2 + N3)%nat. intros k j K J.
    specialize (H1 k ltac:(lia)). specialize (H2 j ltac:(lia)). specialize (H3 k j ltac:(lia) ltac:(lia)). unfold R_dist in *. rewrite Rminus_0_r in H1, H2.
    rewrite Rabs_pos_eq in H1, H2 by apply R0.
    pose proof (near_close n d s m (r k) (r j) (mu k) (mu j) (z k) (z j) x M (R0 k) (R0 j) (T k) (T j) X) as Q.
    assert (Q1 : r k / m <= t). { apply Rmult_le_reg_r with m; [exact M|]. replace (r k / m * m) with (r k) by (field; lra). lra. }
    assert (Q2 : 2 ^ n * r j <= t). { apply Rmult_le_reg_r with (/ 2 ^ n); [apply Rinv_0_lt_compat; exact Pn|]. replace (2 ^ n * r j * / 2 ^ n) with (r j) by (field; lra). unfold Rdiv in H2. lra. }
    pose proof (Rle_abs (mu k - mu j)) as Q3.
    assert (Q4 : (z k x - z j x) * (z k x - z j x) < e * e).
    { apply Rle_lt_trans with (1 := Q). apply Rmult_lt_reg_r with (gap n m); [exact G|]. replace (2 * (r k / m + 2 ^ n * r j + (mu k - mu j)) / gap n m * gap n m) with (2 * (r k / m + 2 ^ n * r j + (mu k - mu j))) by (field; lra).
      assert (0 < gap n m * (e * e)) by (apply Rmult_lt_0_compat; [exact G|apply Rmult_lt_0_compat; exact He]). unfold t in *. lra. }
    rewrite <- (Rabs_pos_eq e) by lra. apply Rsqr_lt_abs_0. exact Q4. }
  set (v := fun x => match lt_dec x (2 ^ n) with left X => proj1_sig (R_complete _ (Ca x X)) | right _ => 0 end).
  assert (Cv : forall x, (x < 2 ^ n)%nat -> Un_cv (fun k => z k x) (v x)).
  { intros x X. unfold v. destruct (lt_dec x (2 ^ n)) as [X'|N]; [|contradiction]. apply (proj2_sig (R_complete _ (Ca x X'))). }
  exists v. split; [|split].
  - apply (UL_sequence (fun k => ip n (z k) (z k))).
    + apply (cv_sum _ (fun k x => z k x * z k x) (fun x => v x * v x)). intros x I. apply in_seq in I. apply CV_mult; apply Cv; lia.
    + apply cv_ext with (a := fun _ => 1); [intros k; symmetry; apply (T k)|apply cv_const].
  - intros x X. apply Rle_cv_lim with (Un := fun _ => m) (Vn := fun k => z k x); [intros k; apply (T k); exact X|apply cv_const|apply Cv; exact X].
  - intros x X. assert (Ch : Un_cv (fun k => hop n d s (z k) x - mu k * z k x) (hop n d s v x - l * v x)).
    { apply CV_minus; [|apply CV_mult; [exact Cm|apply Cv; exact X]]. unfold hop. apply CV_minus.
      - apply (cv_sum _ (fun k q => z k (flip x q)) (fun q => v (flip x q))). intros q I. apply in_seq in I. apply Cv. apply flip_lt; lia.
      - apply (CV_mult (fun _ => s * d x)); [apply cv_const|apply Cv; exact X]. }
    assert (Cz : Un_cv (fun k => hop n d s (z k) x - mu k * z k x) 0) by (apply cv_squeeze with r; [intros k; apply (T k); exact X|exact Cr]).
    pose proof (UL_sequence _ _ _ Ch Cz). lra.
Qed.

(** ** Harnack's inequality *)
Definition harnack (n : nat) (w : R) (f : nat -> R) : Prop := (forall x, (x < 2 ^ n)%nat -> 0 < f x) /\ forall x q, (x < 2 ^ n)%nat -> (q < n)%nat -> f (flip x q) <= w * f x.
Lemma harnack_far : forall n w f, 1 <= w -> harnack n w f -> forall x y, (x < 2 ^ n)%nat -> (y < 2 ^ n)%nat -> f y <= w ^ n * f x.
Proof.
  intros n w f W (P & H) x y X Y.
  assert (G : forall j, (j <= n)%nat -> forall y, (y < 2 ^ n)%nat -> (forall b, (j <= b)%nat -> bit y b = bit x b) -> f y <= w ^ j * f x).
  { induction j as [|j IH]; intros J z Z E.
    - replace z with x; [cbn [pow]; lra|]. apply Nat.bits_inj. intros b. symmetry. apply (E b). lia.
    - cbn [pow]. destruct (Bool.bool_dec (bit z j) (bit x j)) as [Eq|Ne].
      + assert (Q : f z <= w ^ j * f x). { apply IH; [lia|exact Z|]. intros b B. destruct (Nat.eq_dec b j) as [-> | Nb]; [exact Eq|apply E; lia]. }
        assert (0 <= f z) by (left; apply P; exact Z). assert (1 * (w ^ j * f x) <= w * (w ^ j * f x)) by (apply Rmult_le_compat_r; lra). lra.
      + assert (Q : f (flip z j) <= w ^ j * f x).
        { apply IH; [lia|apply flip_lt; lia|]. intros b B. rewrite testbit_flip. destruct (Nat.eqb_spec j b) as [<-|Nb]; [|apply E; lia]. destruct (bit z j), (bit x j); cbn; congruence. }
        pose proof (H (flip z j) j ltac:(apply flip_lt; lia) ltac:(lia)) as Q2. rewrite flip_flip in Q2.
        assert (w * f (flip z j) <= w * (w ^ j * f x)) by (apply Rmult_le_compat_l; lra). lra. }
  apply (G n (Nat.le_refl n) y Y). intros b B.
  assert (F : forall z, (z < 2 ^ n)%nat -> bit z b = false). { intros z Z. apply bit_high. apply Nat.lt_le_trans with (2 ^ n)%nat; [exact Z|]. apply Nat.pow_le_mono_r; lia. }
  rewrite !F by assumption. reflexivity.
Qed.
Lemma harnack_low : forall n w f x, 1 <= w -> harnack n w f -> (x < 2 ^ n)%nat -> 0 < ip n f f /\ / (2 ^ n * w ^ n) <= f x / sqrt (ip n f f).
Proof.
  intros n w f x W Hf X. pose proof (proj1 Hf x X) as P. pose proof (ip_at n f x X) as A. assert (0 < f x * f x) by (apply Rmult_lt_0_compat; exact P).
  split; [lra|]. assert (Pw : 1 <= w ^ n) by (apply pow_R1_Rle; exact W). assert (P2 : 1 <= 2 ^ n) by (apply pow_R1_Rle; lra).
  set (t := 2 ^ n * w ^ n * f x). assert (T0 : 0 < t) by (repeat apply Rmult_lt_0_compat; lra).
  assert (B : ip n f f <= t * t).
  { apply Rle_trans with (Rsum (fun _ : nat => (w ^ n * f x) * (w ^ n * f x)) (seq 0 (2 ^ n))).
    - apply Rsum_mono. intros y I. apply in_seq in I. pose proof (harnack_far n w f W Hf x y X ltac:(lia)). pose proof (proj1 Hf y ltac:(lia)). apply Rmult_le_compat; lra.
    - rewrite ProofAnneal.Rsum_const, seq_length, pow_INR. change (INR 2) with 2. unfold t. replace (2 ^ n * w ^ n * f x * (2 ^ n * w ^ n * f x)) with (2 ^ n * (2 ^ n * (w ^ n * f x * (w ^ n * f x)))) by ring.
      assert (0 <= 2 ^ n * (w ^ n * f x * (w ^ n * f x))) by (apply Rmult_le_pos; [lra|apply Rle_0_sqr]).
      rewrite <- (Rmult_1_l (2 ^ n * (w ^ n * f x * (w ^ n * f x)))) at 1. apply Rmult_le_compat_r; lra. }
  assert (Sq : sqrt (ip n f f) <= t) by (rewrite <- (sqrt_square t) by lra; apply sqrt_le_1_alt; exact B). assert (S0 : 0 < sqrt (ip n f f)) by (apply sqrt_lt_R0; lra).
  apply Rmult_le_reg_r with (sqrt (ip n f f)); [exact S0|]. replace (f x / sqrt (ip n f f) * sqrt (ip n f f)) with (f x) by (field; lra).
  apply Rmult_le_reg_l with (2 ^ n * w ^ n); [apply Rmult_lt_0_compat; lra|]. replace (2 ^ n * w ^ n * (/ (2 ^ n * w ^ n) * sqrt (ip n f f))) with (sqrt (ip n f f)) by (field; lra). exact Sq.
Qed.
Lemma harnack_mix : forall n w f g a b, 0 < a -> 0 < b -> harnack n w f -> harnack n w g -> harnack n w (fun x => a * f x + b * g x).
Proof.
  intros n w f g a b A B (Pf & Hf) (Pg & Hg). split.
  - intros x X. pose proof (Pf x X). pose proof (Pg x X). assert (0 < a * f x) by (apply Rmult_lt_0_compat; assumption). assert (0 < b * g x) by (apply Rmult_lt_0_compat; assumption). lra.
  - intros x q X Q. pose proof (Hf x q X Q). pose proof (Hg x q X Q). assert (a * f (flip x q) <= a * (w * f x)) by (apply Rmult_le_compat_l; lra). assert (b * g (flip x q) <= b * (w * g x)) by (apply Rmult_le_compat_l; lra). lra.
Qed.

(** ** Repeated multiplication *)
Definition lift (n : nat) (d : nat -> R) (s k : R) (f : nat -> R) (x : nat) : R := hop n d s f x + k * f x.
Lemma split_one : forall (f : nat -> R) q n, (q < n)%nat -> Rsum f (seq 0 n) = f q + Rsum (fun p => if (p =? q)%nat then 0 else f p) (seq 0 n).
Proof.
  intros f q n Q.
  transitivity (Rsum (fun p => (if (p =? q)%nat then f p else 0) + (if (p =? q)%nat then 0 else f p)) (seq 0 n)).
  - apply Rsum_ext. intros p _. destruct (p =? q)%nat; ring.
  - rewrite Rsum_add. f_equal. rewrite (Rsum_single (fun p => if (p =? q)%nat then f p else 0) (seq 0 n) q); [rewrite Nat.eqb_refl; reflexivity|apply seq_NoDup|apply in_seq; lia|].
    intros p _ N. destruct (Nat.eqb_spec p q); [contradiction|reflexivity].
Qed.
Lemma lift_sym : forall n d s k f g, ip n f (lift n d s k g) = ip n (lift n d s k f) g.
Proof. intros. unfold lift. rewrite ip_add, ip_scl, hop_sym, (ip_sym n (fun x => hop n d s f x + k * f x)), ip_add, ip_scl, (ip_sym n g f), (ip_sym n g). reflexivity. Qed.
Section Power.
Variables (n : nat) (d : nat -> R) (s k w : R).
Hypothesis Hw : forall x, (x < 2 ^ n)%nat -> 1 <= k - s * d x <= w.
Lemma lift_at : forall f x, lift n d s k f x = Rsum (fun q => f (flip x q)) (seq 0 n) + (k - s * d x) * f x.
Proof. intros. unfold lift, hop. ring. Qed.
Lemma w_one : 1 <= w.
Proof. pose proof (Hw 0%nat ltac:(pose proof (Nat.pow_nonzero 2 n); lia)). lra. Qed.
Lemma harnack_lift : forall f, harnack n w f -> harnack n w (lift n d s k f).
Proof.
  intros f (P & H). pose proof w_one as W1. split.
  - intros x X. rewrite lift_at. pose proof (P x X) as Px. pose proof (Hw x X).
    assert (0 <= Rsum (fun q => f (flip x q)) (seq 0 n)) by (apply Rsum_nonneg; intros q I; apply in_seq in I; left; apply P; apply flip_lt; lia).
    assert (0 < (k - s * d x) * f x) by (apply Rmult_lt_0_compat; lra). lra.
  - intros x q X Q. rewrite !lift_at. rewrite (split_one (fun p => f (flip (flip x q) p)) q n Q), (split_one (fun p => f (flip x p)) q n Q). rewrite flip_flip.
    assert (X' : (flip x q < 2 ^ n)%nat) by (apply flip_lt; lia). pose proof (Hw x X) as A. pose proof (Hw _ X') as B. pose proof (P x X) as Px. pose proof (P _ X') as Px'.
    assert (L1 : Rsum (fun p => if (p =? q)%nat then 0 else f (flip (flip x q) p)) (seq 0 n) <= w * Rsum (fun p => if (p =? q)%nat then 0 else f (flip x p)) (seq 0 n)).
    { rewrite <- Rsum_mul_l. apply Rsum_mono. intros p I. apply in_seq in I. destruct (p =? q)%nat; [lra|]. rewrite (flip_comm x q p). apply H; [apply flip_lt; lia|exact Q]. }
    assert (L2 : (k - s * d (flip x q)) * f (flip x q) <= w * f (flip x q)) by (apply Rmult_le_compat_r; lra).
    assert (L3 : 1 * f x <= w * ((k - s * d x) * f x)).
    { assert (1 * f x <= (k - s * d x) * f x) by (apply Rmult_le_compat_r; lra). assert (1 * ((k - s * d x) * f x) <= w * ((k - s * d x) * f x)) by (apply Rmult_le_compat_r; lra). lra. }
    lra.
Qed.
Fixpoint pw (j : nat) : nat -> R := match j with O => fun _ => 1 | S j => lift n d s k (pw j) end.
Lemma pw_harnack : forall j, harnack n w (pw j).
Proof. induction j as [|j IH]; [|apply harnack_lift; exact IH]. pose proof w_one. split; cbn [pw]; intros; lra. Qed.
Definition nn (j : nat) : R := ip n (pw j) (pw j).
Lemma zero_below : (0 < 2 ^ n)%nat.
Proof. pose proof (Nat.pow_nonzero 2 n). lia. Qed.
Lemma nn_pos : forall j, 0 < nn j.
Proof. intros j. apply (harnack_low n w (pw j) 0%nat w_one (pw_harnack j) zero_below). Qed.
Lemma pw_grows : forall j x, (x < 2 ^ n)%nat -> pw j x <= pw (S j) x <= (INR n + 1) * w * pw j x.
Proof.
  intros j x X. cbn [pw]. rewrite lift_at. destruct (pw_harnack j) as (P & H). pose proof (P x X) as Px. pose proof (Hw x X) as A. split.
  - assert (0 <= Rsum (fun q => pw j (flip x q)) (seq 0 n)) by (apply Rsum_nonneg; intros q I; apply in_seq in I; left; apply P; apply flip_lt; lia).
    assert (1 * pw j x <= (k - s * d x) * pw j x) by (apply Rmult_le_compat_r; lra). lra.
  - assert (Rsum (fun q => pw j (flip x q)) (seq 0 n) <= INR n * (w * pw j x)).
    { replace (INR n * (w * pw j x)) with (Rsum (fun _ : nat => w * pw j x) (seq 0 n)) by (rewrite ProofAnneal.Rsum_const, seq_length; reflexivity).
      apply Rsum_mono. intros q I. apply in_seq in I. apply H; lia. }
    assert ((k - s * d x) * pw j x <= w * pw j x) by (apply Rmult_le_compat_r; lra). lra.
Qed.
Definition cc (j : nat) : R := nn (S j) / nn j.
Lemma cc_nn : forall j, nn (S j) = cc j * nn j.
Proof. intros j. pose proof (nn_pos j). unfold cc. field. lra. Qed.
Lemma cc_one : forall j, 1 <= cc j.
Proof.
  intros j. pose proof (nn_pos j) as P. assert (nn j <= nn (S j)).
  { apply Rsum_mono. intros x I. apply in_seq in I. pose proof (pw_grows j x ltac:(lia)). pose proof (proj1 (pw_harnack j) x ltac:(lia)). apply Rmult_le_compat; lra. }
  apply Rmult_le_reg_r with (nn j); [exact P|]. rewrite <- cc_nn. lra.
Qed.
Lemma cc_bound : forall j, cc j <= ((INR n + 1) * w) * ((INR n + 1) * w).
Proof.
  intros j. pose proof (nn_pos j) as P. apply Rmult_le_reg_r with (nn j); [exact P|]. rewrite <- cc_nn. unfold nn at 2. unfold nn, ip. rewrite <- Rsum_mul_l. apply Rsum_mono. intros x I. apply in_seq in I.
  pose proof (pw_grows j x ltac:(lia)) as (G1 & G2). pose proof (proj1 (pw_harnack j) x ltac:(lia)).
  replace ((INR n + 1) * w * ((INR n + 1) * w) * (pw j x * pw j x)) with (((INR n + 1) * w * pw j x) * ((INR n + 1) * w * pw j x)) by ring. apply Rmult_le_compat; lra.
Qed.
Lemma pw_two : forall j, ip n (pw j) (pw (S (S j))) = nn (S j).
Proof. intros j. unfold nn. cbn [pw]. apply lift_sym. Qed.
Lemma cc_grows : forall j, cc j <= cc (S j).
Proof.
  intros j. pose proof (ip_cs n (pw j) (pw (S (S j)))) as Q. rewrite pw_two in Q. fold (nn j) in Q. fold (nn (S (S j))) in Q. pose proof (nn_pos j) as P0. pose proof (nn_pos (S j)) as P1.
  rewrite (cc_nn (S j)) in Q. apply Rmult_le_reg_r with (nn j * nn (S j)); [apply Rmult_lt_0_compat; assumption|].
  replace (cc j * (nn j * nn (S j))) with (nn (S j) * nn (S j)) by (rewrite (cc_nn j) at 1; ring). lra.
Qed.
Definition zz (j : nat) (x : nat) : R := 1 * pw (S j) x + sqrt (cc j) * pw j x.
Lemma zz_harnack : forall j, harnack n w (zz j).
Proof. intros j. pose proof (cc_one j). apply harnack_mix; [lra|apply sqrt_lt_R0; lra|apply pw_harnack|apply pw_harnack]. Qed.
Lemma zz_norm : forall j, nn (S j) <= ip n (zz j) (zz j).
Proof.
  intros j. apply Rsum_mono. intros x I. apply in_seq in I. pose proof (proj1 (pw_harnack j) x ltac:(lia)). pose proof (proj1 (pw_harnack (S j)) x ltac:(lia)). pose proof (sqrt_pos (cc j)).
  assert (0 <= sqrt (cc j) * pw j x) by (apply Rmult_le_pos; lra). unfold zz. apply Rmult_le_compat; lra.
Qed.
Definition rr (j : nat) : R := sqrt (cc (S j) - cc j).
Definition low : R := / (2 ^ n * w ^ n).
Lemma zz_near : forall j, nearly_top n d s low (rr j) (sqrt (cc j) - k) (fun x => / sqrt (ip n (zz j) (zz j)) * zz j x).
Proof.
  intros j. set (t := ip n (zz j) (zz j)). pose proof (nn_pos (S j)) as P. pose proof (zz_norm j) as Z. fold t in Z. assert (T : 0 < t) by lra. assert (Ts : 0 < sqrt t) by (apply sqrt_lt_R0; exact T).
  assert (T2 : sqrt t * sqrt t = t) by (apply sqrt_sqrt; lra). pose proof (cc_one j) as C1. assert (Sc : sqrt (cc j) * sqrt (cc j) = cc j) by (apply sqrt_sqrt; lra). split; [|split].
  - rewrite ip_scl, (ip_sym n _ (zz j)), ip_scl. fold t. replace (/ sqrt t * (/ sqrt t * t)) with (/ sqrt t * (/ sqrt t * (sqrt t * sqrt t))) by (rewrite T2; reflexivity). field. lra.
  - intros x X. pose proof (proj2 (harnack_low n w (zz j) x w_one (zz_harnack j) X)) as L. fold t in L. unfold low. unfold Rdiv in L. lra.
  - intros x X. set (r := fun x => 1 * pw (S (S j)) x + (- cc j) * pw j x).
    replace (hop n d s (fun x => / sqrt t * zz j x) x - (sqrt (cc j) - k) * (/ sqrt t * zz j x)) with (/ sqrt t * r x).
    2: { replace (hop n d s (fun x => / sqrt t * zz j x) x) with (/ sqrt t * hop n d s (zz j) x) by (unfold hop; rewrite Rsum_mul_l; ring).
         unfold r, zz. rewrite (hop_lin n d s 1 (pw (S j)) (sqrt (cc j)) (pw j) x).
         assert (E1 : pw (S (S j)) x = hop n d s (pw (S j)) x + k * pw (S j) x) by reflexivity. assert (E2 : pw (S j) x = hop n d s (pw j) x + k * pw j x) by reflexivity.
         rewrite E1. replace (hop n d s (pw j) x) with (pw (S j) x - k * pw j x) by lra. rewrite <- Sc at 1. ring. }
    assert (Nr : ip n r r = nn (S j) * (cc (S j) - cc j)).
    { unfold r. rewrite ip_add, (ip_scl n _ 1), (ip_scl n _ (- cc j)), (ip_sym n _ (pw (S (S j)))), (ip_sym n _ (pw j)), !ip_add, !ip_scl, (ip_sym n (pw (S (S j))) (pw j)), pw_two.
      fold (nn (S (S j))) (nn j). rewrite (cc_nn (S j)). rewrite (cc_nn j). ring. }
    pose proof (ip_at n r x X) as A. rewrite Nr in A. pose proof (cc_grows j) as Cg.
    rewrite Rabs_mult, (Rabs_pos_eq (/ sqrt t)) by (left; apply Rinv_0_lt_compat; exact Ts).
    apply Rmult_le_reg_l with (sqrt t); [exact Ts|]. replace (sqrt t * (/ sqrt t * Rabs (r x))) with (Rabs (r x)) by (field; lra).
    unfold rr. rewrite <- sqrt_mult by lra. rewrite <- sqrt_Rsqr_abs. apply sqrt_le_1_alt. unfold Rsqr. apply Rle_trans with (1 := A). apply Rmult_le_compat_r; lra.
Qed.
Lemma low_pos : 0 < low.
Proof. unfold low. pose proof w_one. apply Rinv_0_lt_compat, Rmult_lt_0_compat; apply pow_lt; lra. Qed.
Lemma top_exists : exists mu v, top n d s low mu v.
Proof.
  destruct (growing_cv cc) as (l & Hl); [intros j; apply cc_grows| |].
  { exists (((INR n + 1) * w) * ((INR n + 1) * w)). intros y (j & ->). apply cc_bound. }
  assert (Cr : Un_cv rr 0).
  { intros e He. destruct (cv_pair cc l (e * e) Hl ltac:(apply Rmult_lt_0_compat; lra)) as (N & HN). exists N. intros j J. unfold R_dist. rewrite Rminus_0_r. unfold rr.
    rewrite Rabs_pos_eq by apply sqrt_pos. rewrite <- (sqrt_square e) by lra. pose proof (cc_grows j). apply sqrt_lt_1; [lra|apply Rle_0_sqr|]. pose proof (HN (S j) j ltac:(lia) J). pose proof (Rle_abs (cc (S j) - cc j)). lra. }
  assert (L1 : 1 <= l) by (apply Rle_cv_lim with (Un := fun _ => 1) (Vn := cc); [intros j; apply cc_one|apply cv_const|exact Hl]).
  assert (Cm : Un_cv (fun j => sqrt (cc j) - k) (sqrt l - k)).
  { apply CV_minus; [|apply cv_const]. apply (continuity_seq sqrt cc l); [|exact Hl]. apply continuity_pt_sqrt. lra. }
  destruct (near_limit n d s low rr _ _ _ low_pos (fun j => sqrt_pos _) Cr Cm zz_near) as (v & T). exists (sqrt l - k), v. exact T.
Qed.
End Power.
