(** Errors of operations with underflow and overflow; steps of a backend that are close to operators *)
From Coq Require Import List Arith ZArith Bool Reals Lia Lra Psatz FunctionalExtensionality.
Import ListNotations.
From Verif Require Import Base Cplx Bits ModelTargets ModelGate ModelNumpy ModelFloat SpecTargets SpecQuantum SpecCircuit SpecFloat SpecFinite
  ProofTargets ProofArray ProofNumpy ProofUnitary ProofPauli ProofRun ProofFloat ProofFloatOps ProofFloatKern ProofFloatCoef.
Local Open Scope R_scope.

(** ** Sums of errors *)
Lemma norm_le : forall n a b, (forall x, (x < 2 ^ n)%nat -> Cnorm2 (a x) <= Cnorm2 (b x)) -> norm n a <= norm n b.
Proof.
  intros n a b H. unfold norm, norm2. apply sqrt_le_1_alt. apply Rsum_mono. intros x I. apply in_seq in I. apply H. lia.
Qed.
Lemma norm_const : forall n r, 0 <= r -> norm n (fun _ => RtoC r) = r * sqrt (2 ^ n).
Proof.
  intros n r P. unfold norm, norm2. assert (E : forall m, Rsum (fun _ => Cnorm2 (RtoC r)) (seq 0 m) = INR m * (r * r)).
  { intros m. generalize 0%nat. induction m as [|m IH]; intros s; cbn [seq Rsum]; [simpl; lra|]. rewrite IH, S_INR, Cnorm2_RtoC. ring. }
  rewrite E, pow_INR. change (INR 2) with (1 + 1). replace (1 + 1) with 2 by ring.
  rewrite Rmult_comm, sqrt_mult_alt, sqrt_square; auto. nra.
Qed.
Lemma pair_bound_add : forall n t d psi r g, (t < n)%nat -> 0 <= r -> 0 <= g ->
  (forall x, (x < 2 ^ n)%nat -> n1 (d x) <= r * (n1 (psi x) + n1 (psi (flip x t)) + g)) -> norm n d <= 3 * r * (norm n psi + g * sqrt (2 ^ n)).
Proof.
  intros n t d psi r g T P G H. pose proof (norm_pos n psi) as NP. pose proof (sqrt_pos (2 ^ n)) as SP.
  set (d1 := fun x => RtoC (r * (n1 (psi x) + n1 (psi (flip x t))))). set (d2 := fun x : nat => RtoC (r * g)).
  assert (P1 : forall x, 0 <= r * (n1 (psi x) + n1 (psi (flip x t)))).
  { intros x. pose proof (n1_pos (psi x)). pose proof (n1_pos (psi (flip x t))). apply Rmult_le_pos; lra. }
  assert (P2 : 0 <= r * g) by (apply Rmult_le_pos; auto).
  apply Rle_trans with (norm n (fun x => (d1 x + d2 x)%C)).
  { apply norm_le. intros x L. specialize (H x L). pose proof (n1_pos (d x)). pose proof (n1_sq (d x)) as Q. pose proof (P1 x).
    unfold d1, d2. rewrite <- RtoC_add, Cnorm2_RtoC. eapply Rle_trans; [exact Q|]. apply Rmult_le_compat; lra. }
  eapply Rle_trans; [apply norm_add|].
  assert (N1 : norm n d1 <= 3 * r * norm n psi).
  { apply (pair_bound n t); auto. intros x _. unfold d1. rewrite n1_RtoC, Rabs_pos_eq by auto. lra. }
  assert (N2 : norm n d2 = r * g * sqrt (2 ^ n)) by (apply norm_const; auto).
  rewrite N2. assert (0 <= r * g * sqrt (2 ^ n)) by (apply Rmult_le_pos; auto). lra.
Qed.
Lemma entry_norm : forall n psi x, (x < 2 ^ n)%nat -> Cnorm2 (psi x) <= norm2 n psi.
Proof.
  intros n psi x L. unfold norm2. assert (I : In x (seq 0 (2 ^ n))) by (apply in_seq; lia). revert I. generalize (seq 0 (2 ^ n)).
  induction l as [|y l IH]; intros I; [destruct I|]. cbn [Rsum].
  assert (Q : 0 <= Rsum (fun x => Cnorm2 (psi x)) l).
  { clear. induction l; cbn [Rsum]; [lra|]. pose proof (Cnorm2_pos (psi a)). lra. }
  destruct I as [->|I]; [lra|]. pose proof (Cnorm2_pos (psi y)). specialize (IH I). lra.
Qed.
Lemma entry_small : forall n psi x, (x < 2 ^ n)%nat -> norm n psi <= 4 -> n1 (psi x) <= 6.
Proof.
  intros n psi x L H. pose proof (entry_norm n psi x L) as E. pose proof (norm_sq n psi) as Q. pose proof (norm_pos n psi). pose proof (n1_sq2 (psi x)).
  pose proof (n1_pos (psi x)). nra.
Qed.

(** ** Steps on states of a backend, with an additional constant error *)
Section Step.
Context {X : Type}.
Variable n : nat.
Variable rep : X -> state -> Prop.
Variable g : R.
Hypothesis Hg : 0 <= g.

Definition nearly (f : X -> res X) (U : oper) (k : R) : Prop := forall s psi, rep s psi -> (norm n psi + g) * (1 + k) <= 4 ->
  exists s' phi, f s = Ok s' /\ rep s' phi /\ dist n phi (U psi) <= k * (norm n psi + g).

Lemma size_pos : forall psi, 0 <= norm n psi + g. Proof. intros. pose proof (norm_pos n psi). lra. Qed.
Lemma nearly_le : forall f U a b, nearly f U a -> a <= b -> nearly f U b.
Proof.
  intros f U a b H L s psi R W. pose proof (size_pos psi). destruct (H s psi R) as [s' [phi [E [R' D]]]]; [nra|]. exists s', phi. repeat split; auto. nra.
Qed.
Lemma nearly_ext : forall f U V a, nearly f U a -> (forall psi, U psi = V psi) -> nearly f V a.
Proof. intros f U V a H E s psi. rewrite <- E. apply H. Qed.
Lemma nearly_close : forall f U V a b, nearly f U a -> close n U V b -> 0 <= b -> nearly f V (a + b).
Proof.
  intros f U V a b H C P s psi R W. pose proof (size_pos psi). destruct (H s psi R) as [s' [phi [E [R' D]]]]; [nra|]. exists s', phi. repeat split; auto.
  pose proof (dist_tri n phi (U psi) (V psi)). pose proof (C psi). pose proof (norm_pos n psi). nra.
Qed.
Lemma nearly_seq : forall f f' U V a b, nearly f U a -> nearly f' V b -> good n U -> good n V -> 0 <= a -> 0 <= b ->
  nearly (fun s => bind (f s) f') (fun psi => V (U psi)) ((1 + a) * (1 + b) - 1).
Proof.
  intros f f' U V a b HF HG GU GV Pa Pb s psi R W. pose proof (size_pos psi) as SP. replace (1 + ((1 + a) * (1 + b) - 1)) with ((1 + a) * (1 + b)) in W by ring.
  destruct (HF s psi R) as [s1 [p1 [E1 [R1 D1]]]]; [nra|].
  pose proof (dist_norm n p1 (U psi)) as N. rewrite (good_norm n U) in N by auto.
  assert (N1 : norm n p1 + g <= (1 + a) * (norm n psi + g)) by lra.
  destruct (HG s1 p1 R1) as [s2 [p2 [E2 [R2 D2]]]]; [nra|]. exists s2, p2. split; [rewrite E1; exact E2|]. split; auto.
  pose proof (dist_tri n p2 (V p1) (V (U psi))) as T. rewrite (good_dist n V p1 (U psi)) in T by auto. nra.
Qed.
Lemma nearly_cost_seq : forall f f' U V k a b, nearly f U (cost k a) -> nearly f' V (cost k b) -> good n U -> good n V -> 0 <= k ->
  nearly (fun s => bind (f s) f') (fun psi => V (U psi)) (cost k (a + b)).
Proof. intros. rewrite <- cost_add. apply nearly_seq; auto using cost_pos. Qed.
Lemma nearly_cost_le : forall f U k a b, nearly f U (cost k a) -> 0 <= k -> (a <= b)%nat -> nearly f U (cost k b).
Proof. intros. eapply nearly_le; eauto. apply cost_le; auto. Qed.
Lemma nearly_same : forall f U k, (forall s psi, rep s psi -> exists s', f s = Ok s' /\ rep s' (U psi)) -> 0 <= k -> nearly f U k.
Proof.
  intros f U k H K s psi R W. destruct (H s psi R) as [s' [E R']]. exists s', (U psi). repeat split; auto. rewrite dist_self.
  apply Rmult_le_pos; auto using size_pos.
Qed.
Lemma nearly_for : forall T (f : T -> X -> res X) (U : T -> oper) k m l, 0 <= k ->
  (forall a, In a l -> nearly (f a) (U a) (cost k m) /\ good n (U a)) -> nearly (for_list l f) (apply_all (map U l)) (cost k (m * List.length l)).
Proof.
  intros T f U k m l K. induction l as [|a l IH]; intros H.
  - apply nearly_same; [|apply cost_pos; auto]. intros s psi R. exists s. auto.
  - destruct (H a (or_introl eq_refl)) as [H1 G1]. cbn [List.length]. rewrite Nat.mul_succ_r, Nat.add_comm.
    apply (nearly_cost_seq (f a) (for_list l f) (U a) (apply_all (map U l))); auto.
    + apply IH. intros. apply H. right; auto.
    + apply good_all. apply Forall_map. apply Forall_forall. intros b I. apply H. right; auto.
Qed.
End Step.

(** ** Operations *)
Section Round.
Variable A : arith.
Variable u eta B : R.
Hypothesis HR : rounds_within A u eta B.
Hypothesis Hu : 0 < u <= 1 / 100.
Hypothesis He : eta <= u.
Hypothesis HB : 192 <= B.

Lemma eta_pos : 0 <= eta.
Proof.
  pose proof (w_add _ _ _ _ HR 0 0) as H. rewrite Rplus_0_r, Rabs_R0, Rmult_0_r in H. specialize (H ltac:(lra) ltac:(lra)).
  pose proof (Rabs_pos (f_add A 0 0 - 0)). lra.
Qed.

Lemma w_sub_err : forall p q a b e f, Rabs (p - a) <= e -> Rabs (q - b) <= f -> Rabs p <= B -> Rabs q <= B ->
  Rabs (f_sub A p q - (a - b)) <= u * (Rabs (a - b) + e + f) + (e + f) + eta.
Proof.
  intros p q a b e f E F Lp Lq. pose proof (ab_dif _ _ _ _ _ _ E F) as D. pose proof (ab_near _ _ _ D) as N.
  replace (u * (Rabs (a - b) + e + f) + (e + f) + eta) with ((u * (Rabs (a - b) + e + f) + eta) + (e + f)) by ring.
  eapply ab_tri; [|exact D]. eapply Rle_trans; [apply (w_sub _ _ _ _ HR); auto|]. apply Rplus_le_compat_r. apply Rmult_le_compat_l; lra.
Qed.
Lemma w_add_err : forall p q a b e f, Rabs (p - a) <= e -> Rabs (q - b) <= f -> Rabs p <= B -> Rabs q <= B ->
  Rabs (f_add A p q - (a + b)) <= u * (Rabs (a + b) + e + f) + (e + f) + eta.
Proof.
  intros p q a b e f E F Lp Lq. pose proof (ab_sum _ _ _ _ _ _ E F) as D. pose proof (ab_near _ _ _ D) as N.
  replace (u * (Rabs (a + b) + e + f) + (e + f) + eta) with ((u * (Rabs (a + b) + e + f) + eta) + (e + f)) by ring.
  eapply ab_tri; [|exact D]. eapply Rle_trans; [apply (w_add _ _ _ _ HR); auto|]. apply Rplus_le_compat_r. apply Rmult_le_compat_l; lra.
Qed.
Lemma n1_fst : forall z, Rabs (fst z) <= n1 z. Proof. intros. unfold n1. pose proof (Rabs_pos (snd z)). lra. Qed.
Lemma n1_snd : forall z, Rabs (snd z) <= n1 z. Proof. intros. unfold n1. pose proof (Rabs_pos (fst z)). lra. Qed.

Lemma wc_add_err : forall z w, n1 z <= B -> n1 w <= B -> n1 (fc_add A z w - (z + w))%C <= u * (n1 z + n1 w) + 2 * eta.
Proof.
  intros [a b] [c d] Lz Lw. pose proof (n1_fst (a, b)). pose proof (n1_snd (a, b)). pose proof (n1_fst (c, d)). pose proof (n1_snd (c, d)). cbn [fst snd] in *.
  unfold n1, fc_add, Csub, Cadd, Copp in *; cbn [fst snd] in *.
  pose proof (w_add _ _ _ _ HR a c ltac:(lra) ltac:(lra)) as H3. pose proof (w_add _ _ _ _ HR b d ltac:(lra) ltac:(lra)) as H4. unfold Rminus in H3, H4.
  pose proof (Rabs_triang a c). pose proof (Rabs_triang b d). nra.
Qed.
Lemma wc_sub_err : forall z w, n1 z <= B -> n1 w <= B -> n1 (fc_sub A z w - (z - w))%C <= u * (n1 z + n1 w) + 2 * eta.
Proof.
  intros [a b] [c d] Lz Lw. pose proof (n1_fst (a, b)). pose proof (n1_snd (a, b)). pose proof (n1_fst (c, d)). pose proof (n1_snd (c, d)). cbn [fst snd] in *.
  unfold n1, fc_sub, Csub, Cadd, Copp in *; cbn [fst snd] in *.
  pose proof (w_sub _ _ _ _ HR a c ltac:(lra) ltac:(lra)) as H3. pose proof (w_sub _ _ _ _ HR b d ltac:(lra) ltac:(lra)) as H4. unfold Rminus in H3, H4.
  pose proof (ab_minus a c). pose proof (ab_minus b d). unfold Rminus in *. nra.
Qed.
Lemma wc_mul_err : forall z w, n1 z <= 13 -> n1 w <= 13 -> n1 (fc_mul A z w - z * w)%C <= 21 / 10 * u * (n1 z * n1 w) + 7 * eta.
Proof.
  intros [a b] [c d] Lz Lw. pose proof eta_pos as EP. pose proof (n1_fst (a, b)) as Z1. pose proof (n1_snd (a, b)) as Z2. pose proof (n1_fst (c, d)) as Z3. pose proof (n1_snd (c, d)) as Z4. cbn [fst snd] in *.
  pose proof (w_mul _ _ _ _ HR a c ltac:(lra) ltac:(lra)) as M1. pose proof (w_mul _ _ _ _ HR b d ltac:(lra) ltac:(lra)) as M2.
  pose proof (w_mul _ _ _ _ HR a d ltac:(lra) ltac:(lra)) as M3. pose proof (w_mul _ _ _ _ HR b c ltac:(lra) ltac:(lra)) as M4.
  assert (LP : forall x y, Rabs x <= 13 -> Rabs y <= 13 -> Rabs (f_mul A x y - x * y) <= u * Rabs (x * y) + eta -> Rabs (f_mul A x y) <= B).
  { intros x y X Y E. pose proof (ab_near _ _ _ E) as N. rewrite Rabs_mult in N. pose proof (Rabs_pos x). pose proof (Rabs_pos y).
    assert (Rabs x * Rabs y <= 169) by nra. assert (0 <= Rabs x * Rabs y) by nra. nra. }
  pose proof (w_sub_err _ _ _ _ _ _ M1 M2 (LP a c ltac:(lra) ltac:(lra) M1) (LP b d ltac:(lra) ltac:(lra) M2)) as H1.
  pose proof (w_add_err _ _ _ _ _ _ M3 M4 (LP a d ltac:(lra) ltac:(lra) M3) (LP b c ltac:(lra) ltac:(lra) M4)) as H2.
  clear LP M1 M2 M3 M4 Lz Lw Z1 Z2 Z3 Z4.
  unfold n1, fc_mul, Csub, Cadd, Copp, Cmul; cbn [fst snd].
  unfold Rminus in H1, H2 |- *.
  pose proof (ab_minus (a * c) (b * d)) as T1. pose proof (Rabs_triang (a * d) (b * c)) as T2. unfold Rminus in T1.
  rewrite !Rabs_mult in *.
  pose proof (Rabs_pos a). pose proof (Rabs_pos b). pose proof (Rabs_pos c). pose proof (Rabs_pos d).
  set (p := Rabs a) in *. set (q := Rabs b) in *. set (r := Rabs c) in *. set (s := Rabs d) in *.
  assert (K : forall v m X, 0 <= m -> Rabs v <= m -> X <= u * (Rabs v + (u * m + 2 * eta)) + (u * m + 2 * eta) + eta -> X <= 21 / 10 * u * m + 7 / 2 * eta).
  { intros v m X M1 M2 M3. assert (u * (Rabs v + (u * m + 2 * eta)) <= u * (m + 1 / 100 * m) + u * (2 * eta)).
    { rewrite <- Rmult_plus_distr_l. apply Rmult_le_compat_l; [lra|]. assert (u * m <= 1 / 100 * m) by (apply Rmult_le_compat_r; lra). lra. }
    assert (0 <= u * m) by (apply Rmult_le_pos; lra). assert (u * (2 * eta) <= 1 / 100 * (2 * eta)) by (apply Rmult_le_compat_r; lra). lra. }
  assert (0 <= p * r) by (apply Rmult_le_pos; auto). assert (0 <= q * s) by (apply Rmult_le_pos; auto).
  assert (0 <= p * s) by (apply Rmult_le_pos; auto). assert (0 <= q * r) by (apply Rmult_le_pos; auto).
  pose proof (K (a * c + - (b * d)) (p * r + q * s) (Rabs (f_sub A (f_mul A a c) (f_mul A b d) + - (a * c + - (b * d)))) ltac:(lra) ltac:(lra) ltac:(lra)) as K1.
  pose proof (K (a * d + b * c) (p * s + q * r) (Rabs (f_add A (f_mul A a d) (f_mul A b c) + - (a * d + b * c))) ltac:(lra) ltac:(lra) ltac:(lra)) as K2.
  lra.
Qed.
(** with errors in the operands *)
Lemma wc_mul_near : forall z w z' w' e f a b, n1 (z - z')%C <= e -> n1 (w - w')%C <= f -> n1 z' <= a -> n1 w' <= b -> a + e <= 13 -> b + f <= 13 ->
  n1 (fc_mul A z w - z' * w')%C <= 21 / 10 * u * ((a + e) * (b + f)) + (e * (b + f) + a * f) + 7 * eta.
Proof.
  intros z w z' w' e f a b E F Ha Hb La Lb.
  pose proof (n1_near _ _ _ E). pose proof (n1_near _ _ _ F).
  pose proof (n1_pos z). pose proof (n1_pos w). pose proof (n1_pos z'). pose proof (n1_pos w').
  pose proof (n1_pos (z - z')%C). pose proof (n1_pos (w - w')%C).
  replace (21 / 10 * u * ((a + e) * (b + f)) + (e * (b + f) + a * f) + 7 * eta) with ((21 / 10 * u * ((a + e) * (b + f)) + 7 * eta) + (e * (b + f) + a * f)) by ring.
  apply n1_tri with (z * w)%C.
  - eapply Rle_trans; [apply wc_mul_err; lra|]. apply Rplus_le_compat_r, Rmult_le_compat_l; [lra|]. apply Rmult_le_compat; lra.
  - replace (z * w - z' * w')%C with ((z - z') * w + z' * (w - w'))%C by ring.
    pose proof (n1_add ((z - z') * w)%C (z' * (w - w'))%C). pose proof (n1_mul (z - z')%C w). pose proof (n1_mul z' (w - w')%C).
    assert (n1 (z - z')%C * n1 w <= e * (b + f)) by (apply Rmult_le_compat; lra).
    assert (n1 z' * n1 (w - w')%C <= a * f) by (apply Rmult_le_compat; lra). lra.
Qed.

(** one product with a coefficient *)
Lemma wcoef_err : forall a a' x e, n1 (a - a')%C <= e -> n1 a' <= 3 / 2 -> e <= 1 / 10 -> n1 x <= 6 ->
  n1 (fc_mul A a x - a' * x)%C <= (e + 4 * u) * n1 x + 7 * eta /\ n1 (fc_mul A x a - a' * x)%C <= (e + 4 * u) * n1 x + 7 * eta.
Proof.
  intros a a' x e E Ha Hs Hx. pose proof (n1_pos x) as Px. pose proof (n1_near _ _ _ E) as N.
  pose proof (n1_pos a) as Pa. pose proof (n1_pos (a - a')%C).
  assert (D1 : n1 (a * x - a' * x)%C <= e * n1 x).
  { replace (a * x - a' * x)%C with ((a - a') * x)%C by ring. eapply Rle_trans; [apply n1_mul|]. apply Rmult_le_compat_r; auto. }
  assert (D : 21 / 10 * u * (n1 a * n1 x) <= 4 * u * n1 x).
  { assert (n1 a * n1 x <= 16 / 10 * n1 x) by (apply Rmult_le_compat_r; lra). nra. }
  split.
  - eapply Rle_trans; [eapply n1_tri; [apply wc_mul_err; lra|exact D1]|]. lra.
  - replace (a' * x)%C with (x * a')%C by ring. replace (a * x - a' * x)%C with (x * a - x * a')%C in D1 by ring.
    eapply Rle_trans; [eapply n1_tri; [apply wc_mul_err; lra|exact D1]|]. rewrite (Rmult_comm (n1 x) (n1 a)). lra.
Qed.
Lemma wrow_add : forall x y x' y' p q r, n1 (x - x')%C <= r * p + 7 * eta -> n1 (y - y')%C <= r * q + 7 * eta -> n1 x' <= 3 / 2 * p -> n1 y' <= 3 / 2 * q ->
  0 <= p <= 6 -> 0 <= q <= 6 -> 0 <= r <= 1 / 4 ->
  n1 (fc_add A x y - (x' + y'))%C <= (r + 2 * u) * (p + q) + 17 * eta /\ n1 (fc_sub A x y - (x' - y'))%C <= (r + 2 * u) * (p + q) + 17 * eta.
Proof.
  intros x y x' y' p q r H H0 H1 H2 Hp Hq Hr. pose proof eta_pos. pose proof (n1_near _ _ _ H) as N1. pose proof (n1_near _ _ _ H0) as N2.
  assert (r * p <= 1 / 4 * p) by (apply Rmult_le_compat_r; lra). assert (r * q <= 1 / 4 * q) by (apply Rmult_le_compat_r; lra).
  assert (L1 : n1 x <= B) by lra. assert (L2 : n1 y <= B) by lra.
  assert (K : u * (n1 x + n1 y) <= u * (2 * (p + q)) + u * (14 * eta)).
  { rewrite <- Rmult_plus_distr_l. apply Rmult_le_compat_l; lra. }
  assert (K2 : u * (14 * eta) <= 1 / 100 * (14 * eta)) by (apply Rmult_le_compat_r; lra).
  split.
  - eapply Rle_trans; [apply (n1_tri _ (x + y)%C _ (u * (n1 x + n1 y) + 2 * eta) (r * (p + q) + 14 * eta))|].
    + apply wc_add_err; auto.
    + replace (x + y - (x' + y'))%C with ((x - x') + (y - y'))%C by ring. pose proof (n1_add (x - x')%C (y - y')%C). lra.
    + lra.
  - eapply Rle_trans; [apply (n1_tri _ (x - y)%C _ (u * (n1 x + n1 y) + 2 * eta) (r * (p + q) + 14 * eta))|].
    + apply wc_sub_err; auto.
    + replace (x - y - (x' - y'))%C with ((x - x') - (y - y'))%C by ring. pose proof (n1_sub (x - x')%C (y - y')%C). lra.
    + lra.
Qed.
(** a row of a matrix *)
Lemma wmat_row : forall a a' b b' x y e, n1 (a - a')%C <= e -> n1 a' <= 3 / 2 -> n1 (b - b')%C <= e -> n1 b' <= 3 / 2 -> e <= 1 / 10 ->
  n1 x <= 6 -> n1 y <= 6 ->
  n1 (fc_add A (fc_mul A a x) (fc_mul A b y) - (a' * x + b' * y))%C <= (e + 6 * u) * (n1 x + n1 y) + 17 * eta /\
  n1 (fc_add A (fc_mul A x a) (fc_mul A y b) - (a' * x + b' * y))%C <= (e + 6 * u) * (n1 x + n1 y) + 17 * eta /\
  n1 (fc_sub A (fc_mul A x a) (fc_mul A y b) - (a' * x - b' * y))%C <= (e + 6 * u) * (n1 x + n1 y) + 17 * eta.
Proof.
  intros a a' b b' x y e H1 H2 H3 H4 H5 H6 H7. replace (e + 6 * u) with (e + 4 * u + 2 * u) by ring.
  assert (EP : 0 <= e) by (pose proof (n1_pos (a - a')%C); lra).
  destruct (wcoef_err a a' x e H1 H2 H5 H6) as [C1 C2]. destruct (wcoef_err b b' y e H3 H4 H5 H7) as [C3 C4].
  pose proof (coef_size a' x H2). pose proof (coef_size b' y H4). pose proof (n1_pos x). pose proof (n1_pos y).
  split; [|split].
  - apply (wrow_add _ _ _ _ (n1 x) (n1 y) (e + 4 * u)); auto; lra.
  - apply (wrow_add _ _ _ _ (n1 x) (n1 y) (e + 4 * u)); auto; lra.
  - apply (wrow_add _ _ _ _ (n1 x) (n1 y) (e + 4 * u)); auto; lra.
Qed.

Lemma wrsqrt2_err : Rabs (fl_rsqrt2 A - / sqrt 2) <= 4 * u.
Proof.
  unfold fl_rsqrt2. pose proof eta_pos as EP.
  pose proof (w_sqrt _ _ _ _ HR 2 ltac:(lra)) as H.
  pose proof (sqrt_lt_R0 2 ltac:(lra)) as S0. pose proof (sqrt_sqrt 2 ltac:(lra)) as S2.
  set (r := sqrt 2) in *. set (s := f_sqrt A 2) in *.
  assert (S1 : 14 / 10 <= r <= 15 / 10) by nra.
  assert (L : 1 <= s /\ s <= 2).
  { pose proof (Rle_abs (- (s - r))) as Q1. pose proof (Rle_abs (s - r)) as Q2. rewrite Rabs_Ropp in Q1. nra. }
  assert (I : / s <= 1).
  { rewrite <- Rinv_1. apply Rinv_le_contravar; lra. }
  pose proof (Rinv_0_lt_compat s ltac:(lra)) as IP.
  pose proof (w_div _ _ _ _ HR 1 s ltac:(rewrite Rabs_R1; lra) ltac:(lra)) as D. replace (1 / s) with (/ s) in D by (field; lra). rewrite (Rabs_pos_eq (/ s)) in D by lra.
  replace (4 * u) with (2 * u + 2 * u) by ring. apply ab_tri with (/ s); [nra|].
  replace (/ s - / r) with (- (s - r) * / s * / r) by (field; lra).
  rewrite !Rabs_mult, Rabs_Ropp. pose proof (Rinv_0_lt_compat r S0). rewrite (Rabs_pos_eq (/ s)), (Rabs_pos_eq (/ r)) by lra.
  assert (J : / r <= 1) by (rewrite <- Rinv_1; apply Rinv_le_contravar; lra).
  apply Rle_trans with ((u * r + eta) * / s * / r).
  - apply Rmult_le_compat_r; [lra|]. apply Rmult_le_compat_r; lra.
  - replace ((u * r + eta) * / s * / r) with (u * / s + eta * (/ s * / r)) by (field; lra).
    assert (/ s * / r <= 1) by nra. assert (0 <= / s * / r) by nra. nra.
Qed.

Lemma wf_cos_err : forall a b d, Rabs a <= B -> Rabs (a - b) <= d -> Rabs (f_cos A a - cos b) <= u + d.
Proof. intros a b d L H. eapply ab_tri; [apply (w_cos _ _ _ _ HR); auto|]. pose proof (cos_lip a b). lra. Qed.
Lemma wf_sin_err : forall a b d, Rabs a <= B -> Rabs (a - b) <= d -> Rabs (f_sin A a - sin b) <= u + d.
Proof. intros a b d L H. eapply ab_tri; [apply (w_sin _ _ _ _ HR); auto|]. pose proof (sin_lip a b). lra. Qed.
Lemma wfl_cis_err : forall a b d, Rabs a <= B -> Rabs (a - b) <= d -> n1 (fl_cis A a - cis b)%C <= 2 * u + 2 * d.
Proof.
  intros a b d L H. unfold n1, fl_cis, cis, Csub, Cadd, Copp; cbn [fst snd]. pose proof (wf_cos_err a b d L H). pose proof (wf_sin_err a b d L H). unfold Rminus in *. lra.
Qed.
Lemma whalf_err : forall t M, Rabs t <= M -> M <= B -> Rabs (f_mul A t (1 / 2) - t / 2) <= u * M / 2 + eta.
Proof.
  intros t M H L. replace (t / 2) with (t * (1 / 2)) by field. eapply Rle_trans; [apply (w_mul _ _ _ _ HR); [lra|rewrite Rabs_pos_eq; lra]|].
  rewrite Rabs_mult, (Rabs_pos_eq (1 / 2)) by lra. nra.
Qed.
End Round.
