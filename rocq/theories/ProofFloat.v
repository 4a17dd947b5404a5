(** Norms, and errors of rounded operations *)
From Coq Require Import List Arith ZArith Bool Reals Lia Lra Psatz FunctionalExtensionality.
Import ListNotations.
From Verif Require Import Base Cplx Bits ModelTargets ModelGate ModelNumpy ModelFloat SpecTargets SpecQuantum SpecCircuit SpecFloat
  ProofUnitary ProofPauli ProofRun.
Local Open Scope R_scope.

(** ** Absolute values *)
Lemma ab_tri : forall x y z a b, Rabs (x - y) <= a -> Rabs (y - z) <= b -> Rabs (x - z) <= a + b.
Proof. intros. replace (x - z) with ((x - y) + (y - z)) by ring. pose proof (Rabs_triang (x - y) (y - z)). lra. Qed.
Lemma ab_sum : forall x y a b e f, Rabs (x - a) <= e -> Rabs (y - b) <= f -> Rabs (x + y - (a + b)) <= e + f.
Proof. intros. replace (x + y - (a + b)) with ((x - a) + (y - b)) by ring. pose proof (Rabs_triang (x - a) (y - b)). lra. Qed.
Lemma ab_dif : forall x y a b e f, Rabs (x - a) <= e -> Rabs (y - b) <= f -> Rabs (x - y - (a - b)) <= e + f.
Proof.
  intros. replace (x - y - (a - b)) with ((x - a) + - (y - b)) by ring. pose proof (Rabs_triang (x - a) (- (y - b))). rewrite Rabs_Ropp in *. lra.
Qed.
Lemma ab_near : forall x y e, Rabs (x - y) <= e -> Rabs x <= Rabs y + e.
Proof. intros. replace x with ((x - y) + y) by ring. pose proof (Rabs_triang (x - y) y). lra. Qed.
Lemma ab_opp : forall x y e, Rabs (x - y) <= e -> Rabs (- x - - y) <= e.
Proof. intros. replace (- x - - y) with (- (x - y)) by ring. rewrite Rabs_Ropp. auto. Qed.
Lemma ab_minus : forall x y, Rabs (x - y) <= Rabs x + Rabs y.
Proof. intros. pose proof (Rabs_triang x (- y)). rewrite Rabs_Ropp in *. exact H. Qed.

(** ** The sum of the absolute values of the parts *)
Definition n1 (z : C) : R := Rabs (fst z) + Rabs (snd z).
Lemma n1_pos : forall z, 0 <= n1 z.
Proof. intros. unfold n1. pose proof (Rabs_pos (fst z)). pose proof (Rabs_pos (snd z)). lra. Qed.
Lemma n1_0 : n1 C0 = 0. Proof. unfold n1, C0. simpl. rewrite Rabs_R0. lra. Qed.
Lemma n1_add : forall z w, n1 (z + w)%C <= n1 z + n1 w.
Proof. intros [a b] [c d]. unfold n1, Cadd; simpl. pose proof (Rabs_triang a c). pose proof (Rabs_triang b d). lra. Qed.
Lemma n1_opp : forall z, n1 (- z)%C = n1 z.
Proof. intros [a b]. unfold n1, Copp; simpl. rewrite !Rabs_Ropp. auto. Qed.
Lemma n1_sub : forall z w, n1 (z - w)%C <= n1 z + n1 w.
Proof. intros. unfold Csub. pose proof (n1_add z (- w)%C). rewrite n1_opp in H. auto. Qed.
Lemma n1_mul : forall z w, n1 (z * w)%C <= n1 z * n1 w.
Proof.
  intros [a b] [c d]. unfold n1, Cmul; simpl. pose proof (ab_minus (a * c) (b * d)). pose proof (Rabs_triang (a * d) (b * c)).
  rewrite !Rabs_mult in *. lra.
Qed.
Lemma n1_RtoC : forall r, n1 (RtoC r) = Rabs r. Proof. intros. unfold n1, RtoC; simpl. rewrite Rabs_R0. lra. Qed.
Lemma n1_tri : forall x y z a b, n1 (x - y)%C <= a -> n1 (y - z)%C <= b -> n1 (x - z)%C <= a + b.
Proof. intros. replace (x - z)%C with ((x - y) + (y - z))%C by ring. pose proof (n1_add (x - y)%C (y - z)%C). lra. Qed.
Lemma n1_near : forall x y e, n1 (x - y)%C <= e -> n1 x <= n1 y + e.
Proof. intros. replace x with ((x - y) + y)%C by ring. pose proof (n1_add (x - y)%C y). lra. Qed.
Lemma n1_self : forall z, n1 (z - z)%C = 0. Proof. intros. replace (z - z)%C with C0 by ring. apply n1_0. Qed.
Lemma n1_sq : forall z, Cnorm2 z <= n1 z * n1 z.
Proof.
  intros [a b]. unfold n1, Cnorm2; simpl. pose proof (Rabs_pos a). pose proof (Rabs_pos b).
  assert (a * a = Rabs a * Rabs a) by (rewrite <- Rabs_mult; symmetry; apply Rabs_pos_eq; nra).
  assert (b * b = Rabs b * Rabs b) by (rewrite <- Rabs_mult; symmetry; apply Rabs_pos_eq; nra). nra.
Qed.
Lemma n1_sq2 : forall z, n1 z * n1 z <= 2 * Cnorm2 z.
Proof.
  intros [a b]. unfold n1, Cnorm2; simpl.
  assert (a * a = Rabs a * Rabs a) by (rewrite <- Rabs_mult; symmetry; apply Rabs_pos_eq; nra).
  assert (b * b = Rabs b * Rabs b) by (rewrite <- Rabs_mult; symmetry; apply Rabs_pos_eq; nra).
  pose proof (Rle_0_sqr (Rabs a - Rabs b)). unfold Rsqr in *. nra.
Qed.
Lemma n1_unit : forall z, Cnorm2 z <= 1 -> n1 z <= 3 / 2.
Proof. intros z H. pose proof (n1_sq2 z). pose proof (n1_pos z). nra. Qed.

(** ** Norms of states *)
Lemma Rsum_mono : forall A (f g : A -> R) l, (forall a, In a l -> f a <= g a) -> Rsum f l <= Rsum g l.
Proof.
  induction l as [|a l IH]; intros H; simpl; [lra|]. pose proof (H a (or_introl eq_refl)).
  assert (Rsum f l <= Rsum g l) by (apply IH; intros; apply H; right; auto). lra.
Qed.
Lemma norm2_pos : forall n psi, 0 <= norm2 n psi.
Proof.
  intros. unfold norm2. apply Rle_trans with (Rsum (fun _ => 0) (seq 0 (2 ^ n))).
  - clear. induction (seq 0 (2 ^ n)); simpl; lra.
  - apply Rsum_mono. intros. apply Cnorm2_pos.
Qed.
Lemma norm_pos : forall n psi, 0 <= norm n psi. Proof. intros. apply sqrt_pos. Qed.
Lemma norm_sq : forall n psi, norm n psi * norm n psi = norm2 n psi.
Proof. intros. apply sqrt_sqrt, norm2_pos. Qed.
Lemma norm_ext : forall n a b, (forall x, (x < 2 ^ n)%nat -> a x = b x) -> norm n a = norm n b.
Proof.
  intros n a b H. unfold norm, norm2. f_equal. apply Rsum_ext. intros x I. rewrite H; auto. apply in_seq in I. lia.
Qed.
Lemma norm_bound : forall n a k, 0 <= k -> norm2 n a <= k * k -> norm n a <= k.
Proof. intros. unfold norm. rewrite <- (sqrt_square k) by auto. apply sqrt_le_1_alt. auto. Qed.
Lemma norm2_zero : forall n a x, norm2 n a = 0 -> (x < 2 ^ n)%nat -> a x = C0.
Proof.
  intros n a x H L. apply Cnorm2_eq0. unfold norm2 in H.
  apply (Rsum_0_inv nat (fun x => Cnorm2 (a x)) (seq 0 (2 ^ n))); auto using Cnorm2_pos. apply in_seq. lia.
Qed.
Lemma cnorm_split : forall t z w, 0 < t -> Cnorm2 (z + w)%C <= (1 + t) * Cnorm2 z + (1 + / t) * Cnorm2 w.
Proof.
  intros t [a b] [c d] T. unfold Cnorm2, Cadd; simpl.
  assert (I : forall x y, 2 * (x * y) <= t * (x * x) + / t * (y * y)).
  { intros x y. assert (E : 0 <= / t * ((t * x - y) * (t * x - y))).
    { apply Rmult_le_pos; [left; apply Rinv_0_lt_compat; auto|]. pose proof (Rle_0_sqr (t * x - y)). exact H. }
    replace (/ t * ((t * x - y) * (t * x - y))) with (t * (x * x) + / t * (y * y) - 2 * (x * y)) in E by (field; lra). lra. }
  pose proof (I a c). pose proof (I b d). lra.
Qed.
Lemma norm_add : forall n a b, norm n (fun x => (a x + b x)%C) <= norm n a + norm n b.
Proof.
  intros n a b. pose proof (norm_pos n a) as Pa. pose proof (norm_pos n b) as Pb.
  destruct (Req_dec (norm n a) 0) as [Za|Na].
  { assert (norm2 n a = 0) by (rewrite <- norm_sq, Za; ring).
    rewrite (norm_ext n (fun x => (a x + b x)%C) b); [lra|]. intros x L. rewrite (norm2_zero n a x) by auto. ring. }
  destruct (Req_dec (norm n b) 0) as [Zb|Nb].
  { assert (norm2 n b = 0) by (rewrite <- norm_sq, Zb; ring).
    rewrite (norm_ext n (fun x => (a x + b x)%C) a); [lra|]. intros x L. rewrite (norm2_zero n b x) by auto. ring. }
  apply norm_bound; [lra|]. set (p := norm n a) in *. set (q := norm n b) in *.
  assert (T : 0 < q / p) by (apply Rdiv_lt_0_compat; lra).
  apply Rle_trans with ((1 + q / p) * norm2 n a + (1 + / (q / p)) * norm2 n b).
  - unfold norm2. rewrite <- !Rsum_mul_l, <- Rsum_add. apply Rsum_mono. intros x _. apply cnorm_split; auto.
  - rewrite <- !norm_sq. fold p. fold q. right. field. lra.
Qed.
Lemma dist_tri : forall n a b c, dist n a c <= dist n a b + dist n b c.
Proof.
  intros. unfold dist. rewrite (norm_ext n (fun x => (a x - c x)%C) (fun x => ((a x - b x) + (b x - c x))%C)).
  - apply norm_add.
  - intros. ring.
Qed.
Lemma dist_self : forall n a, dist n a a = 0.
Proof.
  intros. unfold dist. apply Rle_antisym; [|apply norm_pos]. apply norm_bound; [lra|].
  unfold norm2. rewrite Rmult_0_l. right. rewrite (Rsum_ext _ _ (fun _ => 0)).
  - clear. induction (seq 0 (2 ^ n)); simpl; lra.
  - intros. replace (a a0 - a a0)%C with C0 by ring. apply Cnorm2_C0.
Qed.
Lemma dist_norm : forall n a b, norm n a <= norm n b + dist n a b.
Proof.
  intros. unfold dist. rewrite (norm_ext n a (fun x => (b x + (a x - b x))%C)) by (intros; ring). apply norm_add.
Qed.
Lemma dist_sym : forall n a b, dist n a b = dist n b a.
Proof.
  intros. unfold dist, norm, norm2. f_equal. apply Rsum_ext. intros x _. rewrite <- Cnorm2_opp. f_equal. ring.
Qed.

(** an error at every index bounded by the amplitudes at the index and at the one with the bit of [t] flipped *)
Lemma pair_bound : forall n t d psi r, (t < n)%nat -> 0 <= r ->
  (forall x, (x < 2 ^ n)%nat -> n1 (d x) <= r * (n1 (psi x) + n1 (psi (flip x t)))) -> norm n d <= 3 * r * norm n psi.
Proof.
  intros n t d psi r T P H. pose proof (norm_pos n psi). apply norm_bound; [apply Rmult_le_pos; lra|].
  apply Rle_trans with (8 * (r * r) * norm2 n psi); [|rewrite <- norm_sq; nra].
  unfold norm2 at 2. assert (E : 8 * (r * r) * Rsum (fun x => Cnorm2 (psi x)) (seq 0 (2 ^ n)) =
    Rsum (fun x => 4 * (r * r) * Cnorm2 (psi x) + 4 * (r * r) * Cnorm2 (psi (flip x t))) (seq 0 (2 ^ n))).
  { rewrite Rsum_add, !Rsum_mul_l. rewrite (Rsum_flip n t (fun x => Cnorm2 (psi x))) by auto. ring. }
  rewrite E. apply Rsum_mono. intros x I. apply in_seq in I. specialize (H x ltac:(lia)).
  pose proof (n1_sq (d x)). pose proof (n1_sq2 (psi x)). pose proof (n1_sq2 (psi (flip x t))).
  pose proof (n1_pos (d x)). pose proof (n1_pos (psi x)). pose proof (n1_pos (psi (flip x t))).
  set (a := n1 (psi x)) in *. set (b := n1 (psi (flip x t))) in *. set (e := n1 (d x)) in *.
  assert (e * e <= (r * (a + b)) * (r * (a + b))) by (apply Rmult_le_compat; lra).
  assert ((a + b) * (a + b) <= 2 * (a * a) + 2 * (b * b)) by (pose proof (Rle_0_sqr (a - b)); unfold Rsqr in *; nra).
  assert (0 <= r * r) by nra.
  apply Rle_trans with (r * r * ((a + b) * (a + b))); [nra|].
  apply Rle_trans with (r * r * (4 * Cnorm2 (psi x) + 4 * Cnorm2 (psi (flip x t)))); [|right; ring].
  apply Rmult_le_compat_l; lra.
Qed.

(** ** Operators *)
Definition good (n : nat) (U : oper) : Prop := linear U /\ preserves n U.
Lemma good_norm : forall n U psi, good n U -> norm n (U psi) = norm n psi.
Proof. intros n U psi [_ P]. unfold norm. f_equal. apply preserves_norm; auto. Qed.
Lemma lin_sub : forall U a b, linear U -> U (fun x => (a x - b x)%C) = (fun x => (U a x - U b x)%C).
Proof.
  intros U a b L.
  replace (fun x => (a x - b x)%C) with (fun x => (a x + (- C1) * b x)%C) by (apply functional_extensionality; intros; ring).
  rewrite (lin_add _ L a (fun x => (- C1 * b x)%C)), (lin_scl _ L). apply functional_extensionality; intros; ring.
Qed.
Lemma good_dist : forall n U a b, good n U -> dist n (U a) (U b) = dist n a b.
Proof.
  intros n U a b G. unfold dist. rewrite <- (good_norm n U (fun x => (a x - b x)%C)) by auto. rewrite lin_sub by apply G. reflexivity.
Qed.
Lemma good_comp : forall n U V, good n U -> good n V -> good n (fun psi => V (U psi)).
Proof.
  intros n U V [LU PU] [LV PV]. split; [|apply preserves_comp; auto].
  destruct LU as [a1 s1], LV as [a2 s2]. split; intros.
  - rewrite a1, a2. reflexivity.
  - rewrite s1, s2. reflexivity.
Qed.
Lemma good_all : forall n ops, Forall (good n) ops -> good n (apply_all ops).
Proof.
  induction 1 as [|U ops G F IH].
  - split; [split; reflexivity|]. intros a b. reflexivity.
  - exact (good_comp n U (apply_all ops) G IH).
Qed.

Definition close (n : nat) (U V : oper) (k : R) : Prop := forall psi, dist n (U psi) (V psi) <= k * norm n psi.
Definition approx (n : nat) (f : bufs -> res bufs) (U : oper) (k : R) : Prop := forall psi beta, exists phi beta',
  f (arr n psi, arr n beta) = Ok (arr n phi, arr n beta') /\ dist n phi (U psi) <= k * norm n psi.

Lemma approx_le : forall n f U a b, approx n f U a -> a <= b -> approx n f U b.
Proof.
  intros n f U a b H L psi beta. destruct (H psi beta) as [phi [b' [E D]]]. exists phi, b'. split; auto.
  pose proof (norm_pos n psi). nra.
Qed.
Lemma approx_ext : forall n f U V a, approx n f U a -> (forall psi, U psi = V psi) -> approx n f V a.
Proof. intros n f U V a H E psi beta. rewrite <- E. apply H. Qed.
Lemma approx_close : forall n f U V a b, approx n f U a -> close n U V b -> approx n f V (a + b).
Proof.
  intros n f U V a b H C psi beta. destruct (H psi beta) as [phi [b' [E D]]]. exists phi, b'. split; auto.
  pose proof (dist_tri n phi (U psi) (V psi)). pose proof (C psi). lra.
Qed.
Lemma approx_seq : forall n f g U V a b, approx n f U a -> approx n g V b -> good n U -> good n V -> 0 <= a -> 0 <= b ->
  approx n (fun s => bind (f s) g) (fun psi => V (U psi)) ((1 + a) * (1 + b) - 1).
Proof.
  intros n f g U V a b HF HG GU GV Pa Pb psi beta. destruct (HF psi beta) as [p1 [b1 [E1 D1]]].
  destruct (HG p1 b1) as [p2 [b2 [E2 D2]]]. exists p2, b2. split; [rewrite E1; exact E2|].
  pose proof (dist_tri n p2 (V p1) (V (U psi))) as T. rewrite (good_dist n V p1 (U psi)) in T by auto.
  pose proof (dist_norm n p1 (U psi)) as N. rewrite (good_norm n U) in N by auto. pose proof (norm_pos n psi). nra.
Qed.

(** a cost of [m] steps *)
Definition cost (k : R) (m : nat) : R := (1 + k) ^ m - 1.
Lemma cost_pos : forall k m, 0 <= k -> 0 <= cost k m.
Proof. intros. unfold cost. pose proof (pow_R1_Rle (1 + k) m ltac:(lra)). lra. Qed.
Lemma cost_1 : forall k, cost k 1 = k. Proof. intros. unfold cost. ring. Qed.
Lemma cost_add : forall k a b, (1 + cost k a) * (1 + cost k b) - 1 = cost k (a + b).
Proof. intros. unfold cost. rewrite pow_add. ring. Qed.
Lemma cost_le : forall k a b, 0 <= k -> (a <= b)%nat -> cost k a <= cost k b.
Proof. intros. unfold cost. pose proof (Rle_pow (1 + k) a b ltac:(lra) H0). lra. Qed.
Lemma cost_mono : forall k l m, 0 <= k <= l -> cost k m <= cost l m.
Proof. intros. unfold cost. pose proof (pow_incr (1 + k) (1 + l) m ltac:(lra)). lra. Qed.

Lemma approx_cost_seq : forall n f g U V k a b, approx n f U (cost k a) -> approx n g V (cost k b) -> good n U -> good n V -> 0 <= k ->
  approx n (fun s => bind (f s) g) (fun psi => V (U psi)) (cost k (a + b)).
Proof. intros. rewrite <- cost_add. apply approx_seq; auto using cost_pos. Qed.
Lemma approx_cost_le : forall n f U k a b, approx n f U (cost k a) -> 0 <= k -> (a <= b)%nat -> approx n f U (cost k b).
Proof. intros. eapply approx_le; eauto. apply cost_le; auto. Qed.
