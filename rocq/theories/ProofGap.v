(** Proofs: sums over the hypercube, and the gap of the matrix "sum of the bit flips minus a cost" above a positive eigenvector *)
From Coq Require Import List Arith ZArith Bool Reals Lia Lra.
Import ListNotations.
From Verif Require Import Base Cplx Bits.
From Verif Require ProofFloat ProofAnneal.
Local Open Scope R_scope.

Definition ip (n : nat) (f g : nat -> R) : R := Rsum (fun x => f x * g x) (seq 0 (2 ^ n)).
(** the sum of the flips of the [n] bits minus [s] times the cost *)
Definition hop (n : nat) (d : nat -> R) (s : R) (f : nat -> R) (x : nat) : R := Rsum (fun q => f (flip x q)) (seq 0 n) - s * d x * f x.

Lemma Rsum_mono : forall A (f g : A -> R) l, (forall a, In a l -> f a <= g a) -> Rsum f l <= Rsum g l.
Proof. exact ProofFloat.Rsum_mono. Qed.
Lemma Rsum_one_le : forall A (f : A -> R) l a, (forall b, In b l -> 0 <= f b) -> In a l -> f a <= Rsum f l.
Proof.
  intros A f. induction l as [|b l IH]; intros a P I; [destruct I|]. cbn [Rsum]. pose proof (P b (or_introl eq_refl)).
  assert (0 <= Rsum f l) by (apply Rsum_nonneg; intros c Ic; apply P; right; exact Ic).
  destruct I as [-> | I]; [lra|]. assert (f a <= Rsum f l) by (apply IH; [intros c Ic; apply P; right; exact Ic|exact I]). lra.
Qed.

(** ** Inner products *)
Lemma ip_sym : forall n f g, ip n f g = ip n g f.
Proof. intros. unfold ip. apply Rsum_ext. intros. ring. Qed.
Lemma ip_ext : forall n f g f' g', (forall x, (x < 2 ^ n)%nat -> f x = f' x) -> (forall x, (x < 2 ^ n)%nat -> g x = g' x) -> ip n f g = ip n f' g'.
Proof. intros n f g f' g' F G. unfold ip. apply Rsum_ext. intros x I. apply in_seq in I. rewrite F, G by lia. reflexivity. Qed.
Lemma ip_add : forall n f g h, ip n f (fun x => g x + h x) = ip n f g + ip n f h.
Proof. intros. unfold ip. rewrite <- Rsum_add. apply Rsum_ext. intros. ring. Qed.
Lemma ip_scl : forall n f k g, ip n f (fun x => k * g x) = k * ip n f g.
Proof. intros. unfold ip. rewrite <- Rsum_mul_l. apply Rsum_ext. intros. ring. Qed.
Lemma ip_pos : forall n f, 0 <= ip n f f.
Proof. intros. apply Rsum_nonneg. intros x _. apply Rle_0_sqr. Qed.
Lemma ip_at : forall n f x, (x < 2 ^ n)%nat -> f x * f x <= ip n f f.
Proof. intros n f x X. apply (Rsum_one_le _ (fun x => f x * f x)); [intros; apply Rle_0_sqr|apply in_seq; lia]. Qed.
Lemma ip_cs : forall n f g, ip n f g * ip n f g <= ip n f f * ip n g g.
Proof.
  intros n f g. set (a := ip n f f). set (b := ip n f g). set (c := ip n g g).
  assert (Q : forall t u, 0 <= t * t * a - 2 * (t * u) * b + u * u * c).
  { intros t u. pose proof (ip_pos n (fun x => t * f x + (- u) * g x)) as H. rewrite ip_add in H. rewrite (ip_scl n _ t f), (ip_scl n _ (- u) g) in H.
    rewrite (ip_sym n _ f), (ip_sym n _ g), !ip_add, !ip_scl in H. rewrite (ip_sym n g f) in H. fold a b c in H. lra. }
  assert (0 <= c) by apply ip_pos. assert (0 <= a) by apply ip_pos.
  destruct (Req_dec c 0) as [Z|Z].
  - rewrite Z, Rmult_0_r. destruct (Req_dec b 0) as [Zb|Zb]; [rewrite Zb; lra|]. exfalso. pose proof (Q 1 ((a + 1) / b)) as Q1. rewrite Z in Q1.
    replace (2 * (1 * ((a + 1) / b)) * b) with (2 * (a + 1)) in Q1 by (field; exact Zb). lra.
  - pose proof (Q c b) as Q1. assert (0 <= c * (a * c - b * b)) by lra.
    assert (0 < c) by lra. apply Rmult_le_reg_l with c; [assumption|]. lra.
Qed.
Lemma ip_cs_abs : forall n f g a b, 0 <= a -> 0 <= b -> ip n f f <= a * a -> ip n g g <= b * b -> Rabs (ip n f g) <= a * b.
Proof.
  intros n f g a b A B F G. pose proof (ip_cs n f g) as H. pose proof (ip_pos n f). pose proof (ip_pos n g).
  assert (ip n f f * ip n g g <= (a * a) * (b * b)) by (apply Rmult_le_compat; assumption).
  rewrite <- (Rabs_pos_eq (a * b)) by (apply Rmult_le_pos; assumption). apply Rsqr_le_abs_0. unfold Rsqr. lra.
Qed.

(** ** The matrix *)
Lemma hop_lin : forall n d s a f b g x, hop n d s (fun x => a * f x + b * g x) x = a * hop n d s f x + b * hop n d s g x.
Proof. intros. unfold hop. rewrite Rsum_add, !Rsum_mul_l. ring. Qed.
Lemma hop_sym : forall n d s f g, ip n f (hop n d s g) = ip n (hop n d s f) g.
Proof.
  intros. unfold ip, hop.
  rewrite (Rsum_ext _ (fun x => f x * (Rsum (fun q => g (flip x q)) (seq 0 n) - s * d x * g x)) (fun x => Rsum (fun q => f x * g (flip x q)) (seq 0 n) + - (s * d x * f x * g x))) by (intros; rewrite Rsum_mul_l; ring).
  rewrite (Rsum_ext _ (fun x => (Rsum (fun q => f (flip x q)) (seq 0 n) - s * d x * f x) * g x) (fun x => Rsum (fun q => g x * f (flip x q)) (seq 0 n) + - (s * d x * f x * g x))) by (intros; rewrite Rsum_mul_l; ring).
  rewrite !Rsum_add. f_equal. rewrite (Rsum_swap nat nat (fun x q => f x * g (flip x q))), (Rsum_swap nat nat (fun x q => g x * f (flip x q))). apply Rsum_ext. intros q I. apply in_seq in I.
  rewrite <- (Rsum_flip n q (fun x => f x * g (flip x q))) by lia. apply Rsum_ext. intros x _. rewrite flip_flip. ring.
Qed.
Lemma hop_change : forall n d s s' f g, ip n f (hop n d s g) = ip n f (hop n d s' g) - (s - s') * ip n f (fun x => d x * g x).
Proof.
  intros. replace (ip n f (hop n d s g)) with (ip n f (fun x => hop n d s' g x + (- (s - s')) * (d x * g x))).
  - rewrite ip_add, ip_scl. ring.
  - apply ip_ext; intros; unfold hop; ring.
Qed.

(** ** Poincare's inequality on the hypercube *)
Definition edges_sum (n : nat) (f : nat -> R) : R := Rsum (fun x => Rsum (fun q => (f x - f (flip x q)) * (f x - f (flip x q))) (seq 0 n)) (seq 0 (2 ^ n)).
Definition pairs_sum (n : nat) (f : nat -> R) : R := Rsum (fun x => Rsum (fun y => (f x - f y) * (f x - f y)) (seq 0 (2 ^ n))) (seq 0 (2 ^ n)).
Lemma halves : forall n (f : nat -> R), Rsum f (seq 0 (2 ^ S n)) = Rsum f (seq 0 (2 ^ n)) + Rsum (fun x => f (2 ^ n + x)%nat) (seq 0 (2 ^ n)).
Proof.
  intros n f. replace (2 ^ S n)%nat with (2 ^ n + 2 ^ n)%nat by (cbn [Nat.pow]; lia). rewrite seq_app, Rsum_app. f_equal. cbn [plus].
  generalize (2 ^ n)%nat at 1 3. intros k. generalize (2 ^ n)%nat. intros m. replace k with (k + 0)%nat at 1 by lia. generalize 0%nat. induction m as [|m IH]; intros j; [reflexivity|].
  cbn [seq Rsum]. rewrite <- Nat.add_succ_r, IH. reflexivity.
Qed.
Lemma bit_high : forall n x, (x < 2 ^ n)%nat -> bit x n = false.
Proof. intros n x X. unfold bit. destruct (Nat.eq_dec x 0) as [-> | Z]; [apply Nat.bits_0|]. apply Nat.bits_above_log2. apply Nat.log2_lt_pow2; lia. Qed.
Lemma high_flip : forall n x, (x < 2 ^ n)%nat -> (2 ^ n + x)%nat = flip x n.
Proof. intros n x X. rewrite flip_add by (apply bit_high; exact X). lia. Qed.
Lemma edges_halves : forall n f, edges_sum (S n) f = edges_sum n f + edges_sum n (fun x => f (2 ^ n + x)%nat) + 2 * Rsum (fun x => (f x - f (2 ^ n + x)%nat) * (f x - f (2 ^ n + x)%nat)) (seq 0 (2 ^ n)).
Proof.
  intros n f. unfold edges_sum. rewrite halves. replace (seq 0 (S n)) with (seq 0 n ++ [n]) by (rewrite seq_S; reflexivity).
  rewrite (Rsum_ext _ (fun x => Rsum (fun q => (f x - f (flip x q)) * (f x - f (flip x q))) (seq 0 n ++ [n])) (fun x => Rsum (fun q => (f x - f (flip x q)) * (f x - f (flip x q))) (seq 0 n) + (f x - f (2 ^ n + x)%nat) * (f x - f (2 ^ n + x)%nat)) (seq 0 (2 ^ n))).
  2: { intros x I. apply in_seq in I. rewrite Rsum_app. cbn [Rsum]. rewrite (high_flip n x) by lia. ring. }
  rewrite (Rsum_ext _ (fun x => Rsum (fun q => (f (2 ^ n + x)%nat - f (flip (2 ^ n + x) q)) * (f (2 ^ n + x)%nat - f (flip (2 ^ n + x) q))) (seq 0 n ++ [n]))
    (fun x => Rsum (fun q => (f (2 ^ n + x)%nat - f (2 ^ n + flip x q)%nat) * (f (2 ^ n + x)%nat - f (2 ^ n + flip x q)%nat)) (seq 0 n) + (f x - f (2 ^ n + x)%nat) * (f x - f (2 ^ n + x)%nat)) (seq 0 (2 ^ n))).
  2: { intros x I. apply in_seq in I. rewrite Rsum_app. f_equal.
       - apply Rsum_ext. intros q Iq. apply in_seq in Iq. rewrite (high_flip n x) by lia. rewrite (high_flip n (flip x q)) by (apply flip_lt; lia). rewrite (flip_comm x n q). reflexivity.
       - cbn [Rsum]. rewrite (high_flip n x) by lia. rewrite flip_flip. ring. }
  rewrite !Rsum_add. ring.
Qed.
Lemma poincare : forall n f, pairs_sum n f <= 4 ^ n * edges_sum n f.
Proof.
  induction n as [|n IH]; intros f; [unfold pairs_sum, edges_sum; cbn; lra|].
  set (f1 := fun x => f (2 ^ n + x)%nat). set (w := Rsum (fun x => (f x - f1 x) * (f x - f1 x)) (seq 0 (2 ^ n))).
  assert (P : pairs_sum (S n) f <= 4 * 2 ^ n * w + 4 * pairs_sum n f + 4 * pairs_sum n f1).
  { unfold pairs_sum. rewrite halves.
    rewrite (Rsum_ext _ _ (fun x => Rsum (fun y => (f x - f y) * (f x - f y)) (seq 0 (2 ^ n)) + Rsum (fun y => (f x - f1 y) * (f x - f1 y)) (seq 0 (2 ^ n))) (seq 0 (2 ^ n))) by (intros; rewrite halves; reflexivity).
    rewrite (Rsum_ext _ (fun x => Rsum (fun y => (f (2 ^ n + x)%nat - f y) * (f (2 ^ n + x)%nat - f y)) (seq 0 (2 ^ S n))) (fun x => Rsum (fun y => (f1 x - f y) * (f1 x - f y)) (seq 0 (2 ^ n)) + Rsum (fun y => (f1 x - f1 y) * (f1 x - f1 y)) (seq 0 (2 ^ n))) (seq 0 (2 ^ n))) by (intros; rewrite halves; reflexivity).
    rewrite !Rsum_add.
    assert (M : forall a b, Rsum (fun x => Rsum (fun y => (a x - b y) * (a x - b y)) (seq 0 (2 ^ n))) (seq 0 (2 ^ n)) <=
      2 * 2 ^ n * Rsum (fun x => (a x - b x) * (a x - b x)) (seq 0 (2 ^ n)) + 2 * Rsum (fun x => Rsum (fun y => (b x - b y) * (b x - b y)) (seq 0 (2 ^ n))) (seq 0 (2 ^ n))).
    { intros a b. rewrite <- !Rsum_mul_l, <- Rsum_add. apply Rsum_mono. intros x _.
      replace (2 * 2 ^ n * ((a x - b x) * (a x - b x))) with (Rsum (fun _ : nat => 2 * ((a x - b x) * (a x - b x))) (seq 0 (2 ^ n))).
      - rewrite <- Rsum_mul_l, <- Rsum_add. apply Rsum_mono. intros y _. pose proof (Rle_0_sqr (a x - b x - (b x - b y))) as Q. unfold Rsqr in Q. lra.
      - rewrite ProofAnneal.Rsum_const, seq_length, pow_INR. change (INR 2) with 2. ring. }
    pose proof (M f f1) as M1. pose proof (M f1 f) as M2.
    replace (Rsum (fun x => (f1 x - f x) * (f1 x - f x)) (seq 0 (2 ^ n))) with w in M2 by (apply Rsum_ext; intros; ring). fold w in M1.
    assert (Z : forall g, 0 <= Rsum (fun x => Rsum (fun y => (g x - g y) * (g x - g y)) (seq 0 (2 ^ n))) (seq 0 (2 ^ n))) by (intros g; apply Rsum_nonneg; intros; apply Rsum_nonneg; intros; apply Rle_0_sqr).
    pose proof (Z f). pose proof (Z f1). lra. }
  rewrite edges_halves. fold f1. fold w. pose proof (IH f) as I0. pose proof (IH f1) as I1. cbn [pow].
  assert (0 <= w) by (apply Rsum_nonneg; intros; apply Rle_0_sqr).
  assert (2 ^ n <= 2 * 4 ^ n). { assert (2 ^ n <= 4 ^ n) by (apply pow_incr; lra). assert (0 < 4 ^ n) by (apply pow_lt; lra). lra. }
  assert (2 ^ n * w <= 2 * 4 ^ n * w) by (apply Rmult_le_compat_r; assumption).
  change (Rsum (fun x => (f x - f (2 ^ n + x)%nat) * (f x - f (2 ^ n + x)%nat)) (seq 0 (2 ^ n))) with w. lra.
Qed.

(** ** The gap *)
(** [v] is a positive unit vector with entries from [m] on, and an eigenvector high_flip to [r] in each entry *)
Definition nearly_top (n : nat) (d : nat -> R) (s m r mu : R) (v : nat -> R) : Prop :=
  ip n v v = 1 /\ (forall x, (x < 2 ^ n)%nat -> m <= v x) /\ forall x, (x < 2 ^ n)%nat -> Rabs (hop n d s v x - mu * v x) <= r.
Lemma dirichlet : forall n d s v mu phi, (forall x, (x < 2 ^ n)%nat -> 0 < v x) ->
  mu * ip n phi phi - ip n phi (hop n d s phi) =
  / 2 * Rsum (fun x => Rsum (fun q => v x * v (flip x q) * ((phi x / v x - phi (flip x q) / v (flip x q)) * (phi x / v x - phi (flip x q) / v (flip x q)))) (seq 0 n)) (seq 0 (2 ^ n))
  - Rsum (fun x => phi x * phi x / v x * (hop n d s v x - mu * v x)) (seq 0 (2 ^ n)).
Proof.
  intros n d s v mu phi P.
  set (e1 := Rsum (fun x => Rsum (fun q => phi x * phi x / v x * v (flip x q)) (seq 0 n)) (seq 0 (2 ^ n))).
  set (e2 := Rsum (fun x => Rsum (fun q => phi x * phi (flip x q)) (seq 0 n)) (seq 0 (2 ^ n))).
  set (e3 := ip n phi phi). set (e4 := Rsum (fun x => d x * (phi x * phi x)) (seq 0 (2 ^ n))).
  assert (H1 : ip n phi (hop n d s phi) = e2 - s * e4).
  { unfold ip, hop, e2, e4. rewrite <- Rsum_mul_l, <- Rsum_sub. apply Rsum_ext. intros x _. rewrite Rsum_mul_l. ring. }
  assert (H2 : Rsum (fun x => phi x * phi x / v x * (hop n d s v x - mu * v x)) (seq 0 (2 ^ n)) = e1 - s * e4 - mu * e3).
  { unfold e1, e3, e4, ip. rewrite <- !Rsum_mul_l, <- !Rsum_sub. apply Rsum_ext. intros x I. apply in_seq in I. assert (Px := P x ltac:(lia)). rewrite Rsum_mul_l. unfold hop. field. lra. }
  assert (H3 : Rsum (fun x => Rsum (fun q => v x * v (flip x q) * ((phi x / v x - phi (flip x q) / v (flip x q)) * (phi x / v x - phi (flip x q) / v (flip x q)))) (seq 0 n)) (seq 0 (2 ^ n)) = 2 * e1 - 2 * e2).
  { transitivity (e1 + Rsum (fun x => Rsum (fun q => phi (flip x q) * phi (flip x q) / v (flip x q) * v x) (seq 0 n)) (seq 0 (2 ^ n)) - 2 * e2).
    - unfold e1, e2. rewrite <- Rsum_mul_l, <- Rsum_add, <- Rsum_sub. apply Rsum_ext. intros x I. apply in_seq in I. rewrite <- Rsum_mul_l, <- Rsum_add, <- Rsum_sub. apply Rsum_ext. intros q J. apply in_seq in J.
      assert (P1 := P x ltac:(lia)). assert (P2 := P (flip x q) ltac:(apply flip_lt; lia)). field. lra.
    - replace (Rsum (fun x => Rsum (fun q => phi (flip x q) * phi (flip x q) / v (flip x q) * v x) (seq 0 n)) (seq 0 (2 ^ n))) with e1; [ring|].
      unfold e1. rewrite (Rsum_swap nat nat (fun x q => phi x * phi x / v x * v (flip x q))), (Rsum_swap nat nat (fun x q => phi (flip x q) * phi (flip x q) / v (flip x q) * v x)).
      apply Rsum_ext. intros q J. apply in_seq in J. rewrite <- (Rsum_flip n q (fun x => phi x * phi x / v x * v (flip x q))) by lia. apply Rsum_ext. intros x _. rewrite flip_flip. reflexivity. }
  rewrite H1, H2, H3. field.
Qed.
Definition gap (n : nat) (m : R) : R := m * m / 4 ^ n.
Lemma gap_pos : forall n m, 0 < m -> 0 < gap n m.
Proof. intros n m M. unfold gap. apply Rdiv_lt_0_compat; [apply Rmult_lt_0_compat; exact M|apply pow_lt; lra]. Qed.
Lemma gap_near : forall n d s m r mu v phi, 0 < m -> 0 <= r -> nearly_top n d s m r mu v ->
  gap n m * (ip n phi phi - ip n v phi * ip n v phi) - r / m * ip n phi phi <= mu * ip n phi phi - ip n phi (hop n d s phi).
Proof.
  intros n d s m r mu v phi M Hr (U & Lo & Ei).
  assert (P : forall x, (x < 2 ^ n)%nat -> 0 < v x) by (intros x X; pose proof (Lo x X); lra).
  assert (V1 : forall x, (x < 2 ^ n)%nat -> v x <= 1).
  { intros x X. pose proof (ip_at n v x X) as H. rewrite U in H. pose proof (P x X). destruct (Rle_dec (v x) 1) as [L|L]; [exact L|].
    assert (1 * 1 < v x * v x) by (apply Rmult_le_0_lt_compat; lra). lra. }
  rewrite (dirichlet n d s v mu phi P). set (f := fun x => phi x / v x).
  assert (A1 : m * m * edges_sum n f <= Rsum (fun x => Rsum (fun q => v x * v (flip x q) * ((phi x / v x - phi (flip x q) / v (flip x q)) * (phi x / v x - phi (flip x q) / v (flip x q)))) (seq 0 n)) (seq 0 (2 ^ n))).
  { unfold edges_sum. rewrite <- Rsum_mul_l. apply Rsum_mono. intros x I. apply in_seq in I. rewrite <- Rsum_mul_l. apply Rsum_mono. intros q J. apply in_seq in J. unfold f.
    apply Rmult_le_compat_r; [apply Rle_0_sqr|]. apply Rmult_le_compat; try lra; apply Lo; [lia|apply flip_lt; lia]. }
  assert (A2 : 2 * (ip n phi phi - ip n v phi * ip n v phi) <= pairs_sum n f).
  { replace (2 * (ip n phi phi - ip n v phi * ip n v phi)) with (Rsum (fun x => Rsum (fun y => v x * v x * (v y * v y) * ((f x - f y) * (f x - f y))) (seq 0 (2 ^ n))) (seq 0 (2 ^ n))).
    - apply Rsum_mono. intros x I. apply in_seq in I. apply Rsum_mono. intros y J. apply in_seq in J.
      rewrite <- (Rmult_1_l ((f x - f y) * (f x - f y))) at 2. apply Rmult_le_compat_r; [apply Rle_0_sqr|].
      assert (Q : forall z, (z < 2 ^ n)%nat -> 0 <= v z * v z <= 1).
      { intros z Z. pose proof (P z Z). pose proof (V1 z Z). split; [apply Rle_0_sqr|]. rewrite <- (Rmult_1_l 1). apply Rmult_le_compat; lra. }
      rewrite <- (Rmult_1_l 1). apply Rmult_le_compat; apply Q || apply (proj2 (Q _ _)); lia.
    - transitivity (Rsum (fun x => Rsum (fun y => (phi x * phi x) * (v y * v y) + (v x * v x) * (phi y * phi y) - 2 * ((v x * phi x) * (v y * phi y))) (seq 0 (2 ^ n))) (seq 0 (2 ^ n))).
      + apply Rsum_ext. intros x I. apply in_seq in I. apply Rsum_ext. intros y J. apply in_seq in J. assert (P1 := P x ltac:(lia)). assert (P2 := P y ltac:(lia)). unfold f. field. lra.
      + rewrite (Rsum_ext _ _ (fun x => (phi x * phi x) * ip n v v + (v x * v x) * ip n phi phi - 2 * ((v x * phi x) * ip n v phi))).
        * rewrite Rsum_sub, Rsum_add, Rsum_mul_l, !Rsum_mul_r. fold (ip n phi phi). fold (ip n v v). fold (ip n v phi). rewrite U. ring.
        * intros x _. rewrite Rsum_sub, Rsum_add, !Rsum_mul_l. reflexivity. }
  assert (A3 : Rsum (fun x => phi x * phi x / v x * (hop n d s v x - mu * v x)) (seq 0 (2 ^ n)) <= r / m * ip n phi phi).
  { unfold ip. rewrite <- Rsum_mul_l. apply Rsum_mono. intros x I. apply in_seq in I. assert (P1 := P x ltac:(lia)). assert (L1 := Lo x ltac:(lia)). assert (E1 := Ei x ltac:(lia)).
    assert (Q : (hop n d s v x - mu * v x) / v x <= r / m).
    { apply Rle_trans with (r / v x).
      - apply Rmult_le_compat_r; [left; apply Rinv_0_lt_compat; exact P1|]. pose proof (Rle_abs (hop n d s v x - mu * v x)). lra.
      - apply Rmult_le_compat_l; [exact Hr|]. apply Rinv_le_contravar; lra. }
    replace (phi x * phi x / v x * (hop n d s v x - mu * v x)) with ((hop n d s v x - mu * v x) / v x * (phi x * phi x)) by (field; lra).
    apply Rmult_le_compat_r; [apply Rle_0_sqr|exact Q]. }
  pose proof (poincare n f) as A4.
  assert (A5 : gap n m * (ip n phi phi - ip n v phi * ip n v phi) <= / 2 * (m * m * edges_sum n f)).
  { unfold gap. assert (P4 : 0 < 4 ^ n) by (apply pow_lt; lra). assert (0 < m * m) by (apply Rmult_lt_0_compat; exact M).
    assert (ip n phi phi - ip n v phi * ip n v phi <= / 2 * (4 ^ n * edges_sum n f)) by lra.
    replace (/ 2 * (m * m * edges_sum n f)) with (m * m / 4 ^ n * (/ 2 * (4 ^ n * edges_sum n f))) by (field; lra).
    apply Rmult_le_compat_l; [|assumption]. left. apply Rdiv_lt_0_compat; assumption. }
  lra.
Qed.
(** an eigenvector with positive entries *)
Definition top (n : nat) (d : nat -> R) (s m mu : R) (v : nat -> R) : Prop :=
  ip n v v = 1 /\ (forall x, (x < 2 ^ n)%nat -> m <= v x) /\ forall x, (x < 2 ^ n)%nat -> hop n d s v x = mu * v x.
Lemma top_gap : forall n d s m mu v phi, 0 < m -> top n d s m mu v -> gap n m * (ip n phi phi - ip n v phi * ip n v phi) <= mu * ip n phi phi - ip n phi (hop n d s phi).
Proof.
  intros n d s m mu v phi M (U & Lo & Ei). pose proof (gap_near n d s m 0 mu v phi M (Rle_refl 0)) as H. unfold Rdiv in H at 1. rewrite !Rmult_0_l, Rminus_0_r in H. apply H.
  split; [exact U|]. split; [exact Lo|]. intros x X. rewrite (Ei x X). unfold Rminus. rewrite Rplus_opp_r, Rabs_R0. lra.
Qed.
Lemma top_value : forall n d s m mu v, top n d s m mu v -> ip n v (hop n d s v) = mu.
Proof. intros n d s m mu v (U & _ & Ei). rewrite (ip_ext n v (hop n d s v) v (fun x => mu * v x)); [|reflexivity|exact Ei]. rewrite ip_scl, U. ring. Qed.
Lemma top_most : forall n d s m mu v phi, 0 < m -> top n d s m mu v -> ip n phi (hop n d s phi) <= mu * ip n phi phi.
Proof.
  intros n d s m mu v phi M T. pose proof (top_gap n d s m mu v phi M T) as H. pose proof (ip_cs n v phi) as Q. destruct T as (U & _). rewrite U in Q.
  pose proof (gap_pos n m M). assert (0 <= gap n m * (ip n phi phi - ip n v phi * ip n v phi)) by (apply Rmult_le_pos; lra). lra.
Qed.
(** eigenvectors of neighbouring matrices *)
Lemma top_overlap : forall n d s s' m mu mu' v v', 0 < m -> top n d s m mu v -> top n d s' m mu' v' ->
  gap n m * (1 - ip n v v' * ip n v v') <= (s' - s) * (ip n v (fun x => d x * v x) - ip n v' (fun x => d x * v' x)).
Proof.
  intros n d s s' m mu mu' v v' M T T'. pose proof (top_gap n d s m mu v v' M T) as H. pose proof (top_most n d s' m mu' v' v M T') as H'.
  rewrite (hop_change n d s s' v' v'), (top_value n d s' m mu' v' T') in H. rewrite (hop_change n d s' s v v), (top_value n d s m mu v T) in H'.
  destruct T as (U & _). destruct T' as (U' & _). rewrite U' in H. rewrite U in H'. lra.
Qed.
(** what is orthogonal to the eigenvector is bounded by the rest *)
Lemma top_rest : forall n d s m mu v u f e, 0 < m -> top n d s m mu v -> ip n u u = 1 -> 0 <= e -> ip n (fun x => hop n d s f x - mu * f x) (fun x => hop n d s f x - mu * f x) <= e * e ->
  Rabs (ip n u f - ip n u v * ip n v f) <= e / gap n m.
Proof.
  intros n d s m mu v u f e M T Uu He H. pose proof (gap_pos n m M) as G. set (r := fun x => hop n d s f x - mu * f x) in *. set (a := ip n v f).
  set (w := fun x => 1 * f x + (- a) * v x).
  assert (W : ip n w w = ip n f f - a * a).
  { unfold w. rewrite ip_add, (ip_scl n _ 1 f), (ip_scl n _ (- a) v), (ip_sym n _ f), (ip_sym n _ v), !ip_add, !ip_scl. destruct T as (U & _). rewrite U, (ip_sym n f v). fold a. ring. }
  assert (Vr : ip n v r = 0).
  { unfold r. rewrite (ip_ext n v _ v (fun x => hop n d s f x + (- mu) * f x)); [|reflexivity|intros; ring]. rewrite ip_add, ip_scl, hop_sym. destruct T as (_ & _ & Ei).
    rewrite (ip_ext n (hop n d s v) f (fun x => mu * v x) f Ei (fun x _ => eq_refl)), (ip_sym n _ f), ip_scl, (ip_sym n f v). ring. }
  assert (K : gap n m * ip n w w <= Rabs (ip n w r)).
  { pose proof (top_gap n d s m mu v f M T) as Q. fold a in Q. rewrite <- W in Q. apply Rle_trans with (1 := Q). rewrite <- Rabs_Ropp.
    replace (mu * ip n f f - ip n f (hop n d s f)) with (- ip n w r); [apply Rle_abs|].
    unfold w. rewrite (ip_sym n _ r), ip_add, (ip_scl n r 1 f), (ip_scl n r (- a) v), (ip_sym n r v), Vr, (ip_sym n r f). unfold r.
    rewrite (ip_ext n f (fun x => hop n d s f x - mu * f x) f (fun x => hop n d s f x + (- mu) * f x)); [|reflexivity|intros; ring]. rewrite ip_add, ip_scl. ring. }
  pose proof (ip_pos n w) as W0. set (b := sqrt (ip n w w)). assert (B : b * b = ip n w w) by (apply sqrt_sqrt; exact W0). assert (B0 : 0 <= b) by apply sqrt_pos.
  assert (K2 : Rabs (ip n w r) <= b * e) by (apply ip_cs_abs; try assumption; lra).
  assert (K3 : b <= e / gap n m).
  { destruct (Rle_lt_or_eq_dec 0 b B0) as [Bp|Bz].
    - apply Rmult_le_reg_l with (b * gap n m); [apply Rmult_lt_0_compat; assumption|]. replace (b * gap n m * (e / gap n m)) with (b * e) by (field; lra). rewrite <- B in K. lra.
    - rewrite <- Bz. apply Rmult_le_pos; [exact He|left; apply Rinv_0_lt_compat; exact G]. }
  apply Rle_trans with (2 := K3). replace (ip n u f - ip n u v * a) with (ip n u w).
  - rewrite <- (Rmult_1_l b). apply ip_cs_abs; lra.
  - unfold w. rewrite ip_add, !ip_scl. ring.
Qed.
