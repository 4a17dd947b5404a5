(** Sums of squares, norms and compiled products in arithmetic with underflow and overflow *)
From Coq Require Import List Arith NArith Nnat ZArith Bool Reals Lia Lra Psatz Permutation.
Import ListNotations.
From Verif Require Import Base Cplx Bits ModelTargets ModelGate ModelNumpy ModelNumba ModelFloat ModelFloatMeasure ModelFloatNumba ModelFloatNumbaMeasure
  SpecTargets SpecQuantum SpecCircuit SpecMeasure SpecLaw SpecFloat SpecFloatMeasure SpecFinite SpecFloatNumba SpecFiniteMeasure
  ProofFloat ProofFloatOps ProofFinite ProofFiniteTop ProofFloatMeas ProofFiniteMeas ProofFloatMeasTop ProofFloatNumba5.
Local Open Scope R_scope.

(** ** Sums *)
Definition squares (xs : list R) : R := Rsum (fun x => x * x) xs.
Lemma squares_pos : forall xs, 0 <= squares xs.
Proof. induction xs; unfold squares in *; cbn [Rsum]; nra. Qed.
Lemma squares_app : forall xs ys, squares (xs ++ ys) = squares xs + squares ys.
Proof. unfold squares. induction xs; intros; cbn [Rsum app]; [ring|]. rewrite IHxs. ring. Qed.
Lemma squares_perm : forall xs ys, Permutation xs ys -> squares xs = squares ys.
Proof. induction 1; unfold squares in *; cbn [Rsum]; try lra. Qed.
Lemma squares_parts : forall v, squares (parts v) = exact_norm2 v.
Proof. unfold squares, exact_norm2. induction v; cbn [parts flat_map Rsum app]; [reflexivity|]. fold (parts v). rewrite IHv. ring. Qed.
Lemma parts_length : forall v, List.length (parts v) = (2 * List.length v)%nat.
Proof. induction v; cbn [parts flat_map List.length app]; [reflexivity|]. fold (parts v). rewrite IHv. lia. Qed.
Lemma pow_ge1 : forall u k, 0 <= u -> 1 <= (1 + u) ^ k. Proof. intros. apply pow_R1_Rle. lra. Qed.

Lemma added_bound : forall u eta, 0 <= u -> 0 <= eta -> forall k xs r, added u eta k xs r ->
  Rabs (r - squares xs) <= ((1 + u) ^ (k + 1) - 1) * squares xs + (1 + u) ^ k * (INR (List.length xs + k) * eta).
Proof.
  intros u eta Hu He k xs r H. induction H as [|x r H|k j xs ys zs x y r H1 IH1 H2 IH2 HP H].
  - unfold squares. cbn [Rsum List.length]. simpl. rewrite Rminus_0_r, Rabs_R0. lra.
  - unfold squares. cbn [Rsum List.length]. simpl. rewrite !Rplus_0_r, !Rmult_1_r, !Rmult_1_l. lra.
  - rewrite <- (squares_perm _ _ HP), squares_app, <- (Permutation_length HP), app_length.
    set (p := squares xs) in *. set (q := squares ys) in *. pose proof (squares_pos xs) as PP. pose proof (squares_pos ys) as PQ. fold p in PP. fold q in PQ.
    set (t := (1 + u) ^ (k + j)).
    assert (T1 : (1 + u) ^ k <= t) by (apply Rle_pow; [lra|lia]). assert (T2 : (1 + u) ^ j <= t) by (apply Rle_pow; [lra|lia]).
    assert (T1' : (1 + u) ^ (k + 1) <= t * (1 + u)) by (rewrite pow_add, pow_1; apply Rmult_le_compat_r; lra).
    assert (T2' : (1 + u) ^ (j + 1) <= t * (1 + u)) by (rewrite pow_add, pow_1; apply Rmult_le_compat_r; lra).
    pose proof (pow_ge1 u (k + j) Hu) as TG. fold t in TG.
    replace ((1 + u) ^ (S (k + j) + 1)) with (t * (1 + u) * (1 + u)) by (unfold t; replace (S (k + j) + 1)%nat with (k + j + 2)%nat by lia; rewrite (pow_add _ (k + j) 2); ring).
    replace ((1 + u) ^ S (k + j)) with (t * (1 + u)) by (unfold t; replace (S (k + j))%nat with (k + j + 1)%nat by lia; rewrite (pow_add _ (k + j) 1); ring).
    replace (INR (List.length xs + List.length ys + S (k + j))) with (INR (List.length xs + k) + INR (List.length ys + j) + 1) by (rewrite <- plus_INR, <- S_INR; f_equal; lia).
    set (a := INR (List.length xs + k)) in *. set (b := INR (List.length ys + j)) in *. assert (A0 : 0 <= a) by apply pos_INR. assert (B0 : 0 <= b) by apply pos_INR.
    assert (D : Rabs (x + y - (p + q)) <= (t * (1 + u) - 1) * (p + q) + t * ((a + b) * eta)).
    { replace (x + y - (p + q)) with ((x - p) + (y - q)) by ring. eapply Rle_trans; [apply Rabs_triang|].
      assert (X1 : Rabs (x - p) <= (t * (1 + u) - 1) * p + t * (a * eta)) by (eapply Rle_trans; [exact IH1|]; apply Rplus_le_compat; apply Rmult_le_compat_r; try lra; apply Rmult_le_pos; auto).
      assert (X2 : Rabs (y - q) <= (t * (1 + u) - 1) * q + t * (b * eta)) by (eapply Rle_trans; [exact IH2|]; apply Rplus_le_compat; apply Rmult_le_compat_r; try lra; apply Rmult_le_pos; auto).
      replace ((t * (1 + u) - 1) * (p + q) + t * ((a + b) * eta)) with (((t * (1 + u) - 1) * p + t * (a * eta)) + ((t * (1 + u) - 1) * q + t * (b * eta))) by ring. lra. }
    set (d := (t * (1 + u) - 1) * (p + q) + t * ((a + b) * eta)) in *.
    assert (XY : Rabs (x + y) <= p + q + d).
    { replace (x + y) with ((x + y - (p + q)) + (p + q)) by ring. eapply Rle_trans; [apply Rabs_triang|]. rewrite (Rabs_pos_eq (p + q)) by lra. lra. }
    replace (r - (p + q)) with ((r - (x + y)) + (x + y - (p + q))) by ring. eapply Rle_trans; [apply Rabs_triang|].
    apply Rle_trans with (u * (p + q + d) + eta + d); [pose proof (Rmult_le_compat_l u _ _ Hu XY); lra|].
    assert (TE : eta <= t * (1 + u) * eta).
    { assert (1 <= t * (1 + u)) by nra. nra. }
    replace ((t * (1 + u) * (1 + u) - 1) * (p + q) + t * (1 + u) * ((a + b + 1) * eta)) with (u * (p + q + d) + t * (1 + u) * eta + d) by (unfold d; ring). lra.
Qed.
Lemma added_within : forall u eta, 0 < u -> 0 <= eta -> forall k K xs r, (k <= K)%nat -> added u eta k xs r ->
  Rabs (r - squares xs) <= ((1 + u) ^ (K + 1) - 1) * (squares xs + INR (List.length xs + K) * (eta / u)).
Proof.
  intros u eta Hu He k K xs r L H. eapply Rle_trans; [apply (added_bound u eta ltac:(lra) He k xs r H)|].
  pose proof (squares_pos xs) as P. set (p := squares xs) in *.
  assert (T : (1 + u) ^ k <= (1 + u) ^ K) by (apply Rle_pow; [lra|lia]). pose proof (pow_ge1 u k ltac:(lra)) as G.
  set (t := (1 + u) ^ K) in *. rewrite !pow_add, !pow_1. fold t. set (s := (1 + u) ^ k) in *.
  assert (I : INR (List.length xs + k) <= INR (List.length xs + K)) by (apply le_INR; lia). pose proof (pos_INR (List.length xs + k)) as I0.
  set (a := INR (List.length xs + k)) in *. set (b := INR (List.length xs + K)) in *.
  assert (X1 : (s * (1 + u) - 1) * p <= (t * (1 + u) - 1) * p) by (apply Rmult_le_compat_r; nra).
  assert (X2 : s * (a * eta) <= t * (b * eta)) by (apply Rmult_le_compat; [lra|apply Rmult_le_pos; auto|auto|apply Rmult_le_compat_r; auto]).
  assert (X3 : t * (b * eta) <= (t * (1 + u) - 1) * (b * (eta / u))).
  { replace (t * (b * eta)) with (t * u * (b * (eta / u))) by (field; lra). apply Rmult_le_compat_r; [|nra].
    apply Rmult_le_pos; [lra|]. unfold Rdiv. apply Rmult_le_pos; auto. left. apply Rinv_0_lt_compat; auto. }
  replace ((t * (1 + u) - 1) * (p + b * (eta / u))) with ((t * (1 + u) - 1) * p + (t * (1 + u) - 1) * (b * (eta / u))) by ring. lra.
Qed.

Definition sum_gap (u eta : R) (n K : nat) : R := INR (2 ^ (n + 1) + K) * (eta / u).
Lemma gap_scale : forall u eta n K L, 0 < u -> 0 <= eta -> (L <= 2 ^ n)%nat -> INR (2 * L + K) * (eta / u) <= sum_gap u eta n K.
Proof.
  intros u eta n K L Hu He H. unfold sum_gap. apply Rmult_le_compat_r; [unfold Rdiv; apply Rmult_le_pos; auto; left; apply Rinv_0_lt_compat; auto|].
  apply le_INR. rewrite Nat.pow_add_r. simpl. lia.
Qed.
Lemma sums_lemma : forall u eta, 0 < u -> 0 <= eta -> forall S n K,
  (forall v, (List.length v <= 2 ^ n)%nat -> exact_norm2 v <= 4 -> exists k, (k <= K)%nat /\ added u eta k (parts v) (S v)) ->
  sums_within S n ((1 + u) ^ (K + 1) - 1) (INR (2 ^ (n + 1) + K) * (eta / u)).
Proof.
  intros u eta Hu He S n K H v L V. destruct (H v L V) as (k & Lk & AD). pose proof (added_within u eta Hu He k K _ _ Lk AD) as X. rewrite squares_parts, parts_length in X.
  eapply Rle_trans; [exact X|]. pose proof (gap_scale u eta n K _ Hu He L) as GS. unfold sum_gap in GS. pose proof (pow_ge1 u (K + 1) ltac:(lra)). apply Rmult_le_compat_l; lra.
Qed.
Lemma root_near : forall s p d e, 0 <= s -> 0 <= p -> 0 <= d <= 1 -> 0 <= e -> Rabs (s - p) <= d * p + e -> Rabs (sqrt s - sqrt p) <= d * sqrt p + sqrt e.
Proof.
  intros s p d e Hs Hp Hd He H. apply Rabs_le_inv in H. destruct H as [H1 H2].
  pose proof (sqrt_pos s) as S0. pose proof (sqrt_pos p) as P0. pose proof (sqrt_pos e) as E0.
  pose proof (sqrt_sqrt s Hs) as SS. pose proof (sqrt_sqrt p Hp) as PP. pose proof (sqrt_sqrt e He) as EE.
  set (x := sqrt s) in *. set (y := sqrt p) in *. set (z := sqrt e) in *. rewrite <- SS, <- PP, <- EE in *.
  assert (YZ : 0 <= y * z) by (apply Rmult_le_pos; auto). assert (DY : 0 <= d * (y * z)) by (apply Rmult_le_pos; lra). assert (DD : 0 <= d * (y * y)) by (apply Rmult_le_pos; [lra|nra]).
  assert (D2 : 0 <= d * d * (y * y)) by (apply Rmult_le_pos; [nra|nra]).
  apply Rabs_le. split.
  - destruct (Rle_dec (y - d * y) z) as [L|L]; [lra|]. apply Rnot_le_lt in L.
    assert (y - d * y - z <= x); [|lra]. apply Rsqr_incr_0; [unfold Rsqr|lra|auto].
    assert (Q : z * z <= (y - d * y) * z) by (apply Rmult_le_compat_r; lra).
    assert (Q2 : d * d * (y * y) <= d * (y * y)) by (apply Rmult_le_compat_r; nra).
    replace ((y - d * y - z) * (y - d * y - z)) with (y * y - 2 * (d * (y * y)) + d * d * (y * y) - 2 * ((y - d * y) * z) + z * z) by ring. lra.
  - assert (x <= y + d * y + z); [|lra]. apply Rsqr_incr_0; [unfold Rsqr|auto|].
    + replace ((y + d * y + z) * (y + d * y + z)) with (y * y + 2 * (d * (y * y)) + d * d * (y * y) + 2 * (y * z) + 2 * (d * (y * z)) + z * z) by ring. lra.
    + assert (0 <= d * y) by (apply Rmult_le_pos; lra). lra.
Qed.
Lemma norms_lemma : forall u eta, 0 < u -> 0 <= eta <= 1 -> forall N n K, (1 + u) ^ (K + 1) <= 2 ->
  (forall v, (List.length v <= 2 ^ n)%nat -> exact_norm2 v <= 4 -> exists k, (k <= K)%nat /\ root_of_sum u eta k v (N v)) ->
  norms_within N n ((1 + u) ^ (K + 2) - 1) (sqrt (INR (2 ^ (n + 1) + K) * eta) / u).
Proof.
  intros u eta Hu [He He1] N n K H2 H v L V. destruct (H v L V) as (k & Lk & s & AD & S0 & RS). pose proof (added_within u eta Hu He k K _ _ Lk AD) as X. rewrite squares_parts, parts_length in X.
  set (p := exact_norm2 v) in *. assert (P0 : 0 <= p) by (unfold p; rewrite <- squares_parts; apply squares_pos).
  pose proof (pow_ge1 u K ltac:(lra)) as TG. set (t := (1 + u) ^ K) in *.
  assert (E1 : (1 + u) ^ (K + 1) = t * (1 + u)) by (unfold t; rewrite pow_add, pow_1; reflexivity). assert (E2 : (1 + u) ^ (K + 2) = t * (1 + u) * (1 + u)) by (unfold t; rewrite pow_add; simpl; ring).
  rewrite E1 in *. rewrite E2. set (d := t * (1 + u) - 1) in *. assert (Hd : u <= d <= 1) by (unfold d; split; [nra|lra]).
  set (b := INR (2 ^ (n + 1) + K)). assert (B1 : 1 <= b) by (unfold b; replace 1 with (INR 1) by reflexivity; apply le_INR; rewrite Nat.pow_add_r; pose proof (Nat.pow_nonzero 2 n ltac:(lia)); simpl; lia).
  pose proof (gap_scale u eta n K _ Hu He L) as GS. unfold sum_gap in GS. fold b in GS.
  assert (X' : Rabs (s - p) <= d * p + d * (b * (eta / u))) by (eapply Rle_trans; [exact X|]; rewrite <- Rmult_plus_distr_l; apply Rmult_le_compat_l; lra).
  assert (IU : 0 < / u) by (apply Rinv_0_lt_compat; auto). assert (G0 : 0 <= b * (eta / u)) by (apply Rmult_le_pos; [lra|apply Rmult_le_pos; lra]).
  pose proof (root_near s p d (d * (b * (eta / u))) S0 P0 ltac:(lra) ltac:(apply Rmult_le_pos; lra) X') as RN.
  assert (SG : sqrt (d * (b * (eta / u))) <= d * (sqrt (b * eta) / u)).
  { assert (BE : 0 <= b * eta) by (apply Rmult_le_pos; lra). apply Rsqr_incr_0; [|apply sqrt_pos|apply Rmult_le_pos; [lra|]; apply Rmult_le_pos; [apply sqrt_pos|lra]].
    rewrite Rsqr_sqrt by (apply Rmult_le_pos; lra). unfold Rsqr. pose proof (sqrt_sqrt (b * eta) BE) as Q.
    replace (d * (sqrt (b * eta) / u) * (d * (sqrt (b * eta) / u))) with (d * (d / u) * (sqrt (b * eta) * sqrt (b * eta) / u)) by (field; lra). rewrite Q.
    replace (d * (b * (eta / u))) with (d * 1 * (b * eta / u)) by (field; lra). apply Rmult_le_compat_r; [apply Rmult_le_pos; lra|]. apply Rmult_le_compat_l; [lra|].
    apply (Rmult_le_reg_r u); auto. unfold Rdiv. rewrite Rmult_assoc, Rinv_l by lra. lra. }
  assert (EG : eta <= u * (sqrt (b * eta) / u)).
  { replace (u * (sqrt (b * eta) / u)) with (sqrt (b * eta)) by (field; lra). apply Rsqr_incr_0; [|auto|apply sqrt_pos]. rewrite Rsqr_sqrt by (apply Rmult_le_pos; lra). unfold Rsqr. nra. }
  set (g := sqrt (b * eta) / u) in *. pose proof (sqrt_pos p) as SP. set (y := sqrt p) in *. set (x := sqrt s) in *. set (z := sqrt (d * (b * (eta / u)))) in *.
  assert (XB : x <= y + d * y + z) by (apply Rabs_le_inv in RN; lra).
  replace (N v - y) with ((N v - x) + (x - y)) by ring. eapply Rle_trans; [apply Rabs_triang|].
  apply Rle_trans with (u * (y + d * y + d * g) + u * g + d * y + d * g).
  - pose proof (Rmult_le_compat_l u x (y + d * y + d * g) ltac:(lra) ltac:(lra)). lra.
  - replace (t * (1 + u) * (1 + u) - 1) with (u + d * (1 + u)) by (unfold d; ring). apply Req_le. ring.
Qed.
Lemma exact_sum_lemma : forall n w g, 0 <= w -> 0 <= g -> sums_within exact_norm2 n w g /\ norms_within (fun v => sqrt (exact_norm2 v)) n w g.
Proof.
  intros n w g Hw Hg. split; intros v L V; (unfold Rminus; rewrite Rplus_opp_r, Rabs_R0; apply Rmult_le_pos; auto).
  - assert (0 <= exact_norm2 v) by (rewrite <- squares_parts; apply squares_pos). lra.
  - pose proof (sqrt_pos (exact_norm2 v)). lra.
Qed.
Lemma within_weaker : forall S N n w g w' g', 0 <= w <= w' -> 0 <= g <= g' -> (sums_within S n w g -> sums_within S n w' g') /\ (norms_within N n w g -> norms_within N n w' g').
Proof.
  intros S N n w g w' g' Hw Hg. split; intros H v L V; (eapply Rle_trans; [apply H; auto|]).
  - assert (0 <= exact_norm2 v) by (rewrite <- squares_parts; apply squares_pos). apply Rmult_le_compat; lra.
  - pose proof (sqrt_pos (exact_norm2 v)). apply Rmult_le_compat; lra.
Qed.

(** *** One square after the other *)
Section Seq.
Variable A : arith.
Variables u eta B : R.
Hypothesis HR : rounds_within A u eta B.
Hypothesis Hu : 0 < u.
Hypothesis He : 0 <= eta.
Hypothesis HB : 16 <= B.
Variable n : nat.
Hypothesis Hs : (1 + u) ^ (2 ^ (n + 1) + 1) <= 2.
Hypothesis Hg : INR (2 ^ (n + 2)) * (eta / u) <= 1.
Let step (s : R) (z : C) : R := f_add A s (f_add A (f_mul A (fst z) (fst z)) (f_mul A (snd z) (snd z))).

Lemma part_le : forall x v, In x (parts v) -> x * x <= exact_norm2 v.
Proof.
  intros x v. unfold exact_norm2. induction v as [|z v IH]; cbn [parts flat_map]; intros H; [destruct H|]. cbn [Rsum].
  assert (0 <= exact_norm2 v) by (rewrite <- squares_parts; apply squares_pos). unfold exact_norm2 in *. cbn [app] in H.
  destruct H as [H|[H|H]]; [subst x; nra|subst x; nra|]. specialize (IH H). nra.
Qed.
Lemma added_small : forall k xs r, added u eta k xs r -> (k <= 2 ^ (n + 1))%nat -> (List.length xs <= 2 ^ (n + 1))%nat -> squares xs <= 4 -> Rabs r <= 9.
Proof.
  intros k xs r H Lk Lx Q. pose proof (added_within u eta Hu He k (2 ^ (n + 1)) xs r Lk H) as X. pose proof (squares_pos xs) as P. pose proof (pow_ge1 u (2 ^ (n + 1) + 1) ltac:(lra)).
  assert (G : INR (List.length xs + 2 ^ (n + 1)) * (eta / u) <= 1).
  { eapply Rle_trans; [|exact Hg]. apply Rmult_le_compat_r; [unfold Rdiv; apply Rmult_le_pos; auto; left; apply Rinv_0_lt_compat; auto|]. apply le_INR.
    rewrite !Nat.pow_add_r in *. simpl in *. lia. }
  assert (0 <= INR (List.length xs + 2 ^ (n + 1)) * (eta / u)) by (apply Rmult_le_pos; [apply pos_INR|unfold Rdiv; apply Rmult_le_pos; auto; left; apply Rinv_0_lt_compat; auto]).
  set (w := (1 + u) ^ (2 ^ (n + 1) + 1)) in *. set (gg := INR (List.length xs + 2 ^ (n + 1)) * (eta / u)) in *.
  assert (Rabs (r - squares xs) <= 5) by (eapply Rle_trans; [exact X|]; nra).
  replace r with ((r - squares xs) + squares xs) by ring. eapply Rle_trans; [apply Rabs_triang|]. rewrite (Rabs_pos_eq (squares xs)) by auto. lra.
Qed.
Lemma sq4 : forall x, x * x <= 4 -> Rabs x <= B.
Proof. intros x H. apply Rabs_le. split; nra. Qed.
Lemma seq_added : forall v2 v1 s, (List.length (v1 ++ v2) <= 2 ^ n)%nat -> exact_norm2 (v1 ++ v2) <= 4 -> added u eta (2 * List.length v1) (parts v1) s ->
  added u eta (2 * List.length (v1 ++ v2)) (parts (v1 ++ v2)) (fold_left step v2 s).
Proof.
  induction v2 as [|z v2 IH]; intros v1 s L V H; cbn [fold_left]; [rewrite app_nil_r; auto|].
  replace (v1 ++ z :: v2) with ((v1 ++ [z]) ++ v2) in * by (rewrite <- app_assoc; reflexivity).
  apply IH; auto. rewrite !app_length in L. rewrite app_length. cbn [List.length] in *.
  assert (EX : forall v w, exact_norm2 (v ++ w) = exact_norm2 v + exact_norm2 w) by (intros; unfold exact_norm2; clear; induction v; cbn [Rsum app]; [ring|rewrite IHv; ring]).
  assert (NN : forall v, 0 <= exact_norm2 v) by (intros; rewrite <- squares_parts; apply squares_pos).
  rewrite EX in V. rewrite (EX v1 [z]) in V. pose proof (NN v1) as N1. pose proof (NN v2) as N2.
  assert (Z : exact_norm2 [z] = fst z * fst z + snd z * snd z) by (unfold exact_norm2; cbn [Rsum]; ring). rewrite Z in V.
  assert (F0 : 0 <= fst z * fst z) by nra. assert (S0 : 0 <= snd z * snd z) by nra.
  assert (PO : (1 <= 2 ^ n)%nat) by (pose proof (Nat.pow_nonzero 2 n ltac:(lia)); lia).
  assert (M : forall x, x * x <= 4 -> added u eta 0 [x] (f_mul A x x)).
  { intros x Hx. apply added_square. pose proof (w_mul _ _ _ _ HR x x (sq4 x Hx) (sq4 x Hx)) as K. rewrite (Rabs_pos_eq (x * x)) in K by nra. exact K. }
  pose proof (M (fst z) ltac:(lra)) as M1. pose proof (M (snd z) ltac:(lra)) as M2.
  assert (SQ1 : forall x, squares [x] = x * x) by (intros; unfold squares; cbn [Rsum]; ring).
  pose proof (added_small _ _ _ M1 ltac:(lia) ltac:(rewrite Nat.pow_add_r; simpl; lia) ltac:(rewrite SQ1; lra)) as R1.
  pose proof (added_small _ _ _ M2 ltac:(lia) ltac:(rewrite Nat.pow_add_r; simpl; lia) ltac:(rewrite SQ1; lra)) as R2.
  assert (M3 : added u eta 1 [fst z; snd z] (f_add A (f_mul A (fst z) (fst z)) (f_mul A (snd z) (snd z)))).
  { apply (added_sum u eta 0 0 [fst z] [snd z] _ _ _ _ M1 M2); [apply Permutation_refl|]. apply (w_add _ _ _ _ HR); lra. }
  assert (SQ2 : squares [fst z; snd z] = fst z * fst z + snd z * snd z) by (unfold squares; cbn [Rsum]; ring).
  pose proof (added_small _ _ _ M3 ltac:(rewrite Nat.pow_add_r; simpl; lia) ltac:(rewrite Nat.pow_add_r; simpl; lia) ltac:(rewrite SQ2; lra)) as R3.
  assert (LL : (2 * List.length v1 <= 2 ^ (n + 1))%nat) by (rewrite Nat.pow_add_r; simpl; lia).
  pose proof (added_small _ _ _ H LL ltac:(rewrite parts_length; auto) ltac:(rewrite squares_parts; lra)) as R4.
  replace (2 * (List.length v1 + 1))%nat with (S (2 * List.length v1 + 1)) by lia.
  apply (added_sum u eta _ _ (parts v1) [fst z; snd z] _ _ _ _ H M3).
  - unfold parts. rewrite flat_map_app. cbn [flat_map app]. apply Permutation_refl.
  - unfold step. apply (w_add _ _ _ _ HR); lra.
Qed.
Lemma seq_lemma : forall v, (List.length v <= 2 ^ n)%nat -> exact_norm2 v <= 4 -> added u eta (2 * List.length v) (parts v) (fold_left step v 0).
Proof. intros v L V. apply (seq_added v [] 0); auto. apply added_zero. Qed.
Lemma seq_small : forall v, (List.length v <= 2 ^ n)%nat -> exact_norm2 v <= 4 -> Rabs (fold_left step v 0) <= 9.
Proof.
  intros v L V. apply (added_small _ _ _ (seq_lemma v L V)); rewrite ?parts_length, ?squares_parts; auto; rewrite Nat.pow_add_r; simpl; lia.
Qed.
End Seq.

(** ** Compiled products *)
Section Scale.
Variable A : arith.
Variables u eta B : R.
Hypothesis HR : rounds_within A u eta B.
Hypothesis Hu : 0 < u <= 1 / 100.
Hypothesis He : 0 <= eta <= u.
Hypothesis HB : 8 / u <= B.
Lemma IU : 100 <= / u.
Proof. replace 100 with (/ (1 / 100)) by field. apply Rinv_le_contravar; lra. Qed.
Lemma fB : 800 <= B. Proof. pose proof IU. unfold Rdiv in HB. lra. Qed.
Lemma part_s : forall x s, Rabs x <= 6 -> Rabs s <= / u -> Rabs (x * s) <= 6 * / u.
Proof. intros. rewrite Rabs_mult. pose proof (Rabs_pos x). pose proof (Rabs_pos s). apply Rmult_le_compat; auto. Qed.
Lemma mul_s : forall x s, Rabs x <= 6 -> Rabs s <= / u -> Rabs (f_mul A x s - x * s) <= u * Rabs (x * s) + eta /\ Rabs (f_mul A x s) <= B.
Proof.
  intros x s X S1. pose proof IU as IU'. pose proof fB. assert (SB : Rabs s <= B) by (unfold Rdiv in HB; lra). pose proof (w_mul _ _ _ _ HR x s ltac:(lra) SB) as K. split; [exact K|].
  pose proof (part_s x s X S1) as P. pose proof (Rabs_pos (x * s)).
  replace (f_mul A x s) with ((f_mul A x s - x * s) + x * s) by ring. eapply Rle_trans; [apply Rabs_triang|].
  assert (u * Rabs (x * s) <= u * (6 * / u)) by (apply Rmult_le_compat_l; lra). assert (u * (6 * / u) = 6) by (field; lra). unfold Rdiv in HB. lra.
Qed.
Lemma mul_0 : forall x, Rabs x <= 6 -> Rabs (f_mul A x 0) <= eta.
Proof. intros x X. pose proof fB. pose proof (w_mul _ _ _ _ HR x 0 ltac:(lra) ltac:(rewrite Rabs_R0; lra)) as K. rewrite !Rmult_0_r, Rabs_R0, Rminus_0_r in K. lra. Qed.
Lemma parts_of : forall z, size z <= 6 -> Rabs (fst z) <= 6 /\ Rabs (snd z) <= 6.
Proof. intros z H. unfold size in H. pose proof (Rabs_pos (fst z)). pose proof (Rabs_pos (snd z)). lra. Qed.
Lemma close_sum : forall m x s y e, Rabs (m - x * s) <= u * Rabs (x * s) + eta -> Rabs y <= eta -> Rabs (e - (m + y)) <= u * Rabs (m + y) + eta ->
  Rabs (e - x * s) <= 5 / 2 * u * Rabs (x * s) + 8 * eta.
Proof.
  intros m x s y e M Y E. pose proof (Rabs_pos (x * s)) as P. set (p := Rabs (x * s)) in *.
  assert (MY : Rabs (m + y - x * s) <= u * p + 2 * eta) by (replace (m + y - x * s) with ((m - x * s) + y) by ring; eapply Rle_trans; [apply Rabs_triang|]; lra).
  assert (MB : Rabs (m + y) <= p + u * p + 2 * eta) by (replace (m + y) with ((m + y - x * s) + x * s) by ring; eapply Rle_trans; [apply Rabs_triang|]; fold p; lra).
  replace (e - x * s) with ((e - (m + y)) + (m + y - x * s)) by ring. eapply Rle_trans; [apply Rabs_triang|].
  assert (UB : u * Rabs (m + y) <= u * (p + u * p + 2 * eta)) by (apply Rmult_le_compat_l; lra).
  assert (U1 : 0 <= u * p) by (apply Rmult_le_pos; lra). assert (U2 : u * (u * p) <= 1 / 100 * (u * p)) by (apply Rmult_le_compat_r; lra). assert (U3 : u * eta <= 1 / 100 * eta) by (apply Rmult_le_compat_r; lra).
  replace (u * (p + u * p + 2 * eta)) with (u * p + u * (u * p) + 2 * (u * eta)) in UB by ring. lra.
Qed.
Lemma scale_size : forall z s e f, Rabs (e - fst z * s) <= 5 / 2 * u * Rabs (fst z * s) + 8 * eta -> Rabs (f - snd z * s) <= 5 / 2 * u * Rabs (snd z * s) + 8 * eta ->
  size ((e, f) - z * RtoC s)%C <= 5 * u * (size z * Rabs s) + 20 * eta.
Proof.
  intros z s e f E F. unfold size. replace (fst ((e, f) - z * RtoC s)%C) with (e - fst z * s) by (destruct z; unfold RtoC; simpl; ring). replace (snd ((e, f) - z * RtoC s)%C) with (f - snd z * s) by (destruct z; unfold RtoC; simpl; ring).
  rewrite !Rabs_mult in *. pose proof (Rabs_pos (fst z)). pose proof (Rabs_pos (snd z)). pose proof (Rabs_pos s).
  set (p := Rabs (fst z)) in *. set (q := Rabs (snd z)) in *. set (a := Rabs s) in *. assert (0 <= p * a) by (apply Rmult_le_pos; auto). assert (0 <= q * a) by (apply Rmult_le_pos; auto).
  assert (0 <= u * (p * a)) by (apply Rmult_le_pos; lra). assert (0 <= u * (q * a)) by (apply Rmult_le_pos; lra).
  replace (5 * u * ((p + q) * a)) with (5 * (u * (p * a)) + 5 * (u * (q * a))) by ring. lra.
Qed.
Lemma plain_scales : forall lit, scales (plain_compiled A lit) u eta.
Proof.
  intros lit i z s Z S1. destruct (parts_of z Z) as [X Y]. cbn [c_mul plain_compiled]. unfold fc_mul. pose proof fB as FB.
  destruct (mul_s _ _ X S1) as [M1 B1]. destruct (mul_s _ _ Y S1) as [M2 B2]. pose proof (mul_0 _ X) as Z1. pose proof (mul_0 _ Y) as Z2.
  apply scale_size; cbn [fst snd RtoC].
  - apply (close_sum (f_mul A (fst z) s) _ _ (- f_mul A (snd z) 0)); auto; [rewrite Rabs_Ropp; auto|]. apply (w_sub _ _ _ _ HR); auto. lra.
  - apply (close_sum (f_mul A (snd z) s) _ _ (f_mul A (fst z) 0)); auto. rewrite (Rplus_comm (f_mul A (snd z) s)). apply (w_add _ _ _ _ HR); auto. lra.
Qed.
Lemma fused_scales : forall lit F, fuses F u eta B -> scales (fused_compiled A F lit) u eta.
Proof.
  intros lit F HF i z s Z S1. destruct (parts_of z Z) as [X Y]. cbn [c_mul fused_compiled]. unfold fused_mul. pose proof fB as FB. pose proof IU as IU'.
  assert (SB : Rabs s <= B) by (unfold Rdiv in HB; lra).
  destruct (mul_s _ _ Y S1) as [M2 B2]. pose proof (mul_0 _ Y) as Z2.
  apply scale_size; cbn [fst snd RtoC].
  - apply (close_sum (fst z * s) _ _ (- f_mul A (snd z) 0)); [|rewrite Rabs_Ropp; auto|].
    + unfold Rminus. rewrite Rplus_opp_r, Rabs_R0. apply Rplus_le_le_0_compat; [apply Rmult_le_pos; [lra|apply Rabs_pos]|lra].
    + apply HF; auto; [lra|]. rewrite Rabs_Ropp. lra.
  - apply (close_sum (f_mul A (snd z) s) _ _ 0); auto; [rewrite Rabs_R0; lra|]. pose proof (HF (fst z) 0 (f_mul A (snd z) s) ltac:(lra) ltac:(rewrite Rabs_R0; lra) B2) as K.
    rewrite Rmult_0_r, Rplus_0_l in K. rewrite Rplus_0_r. exact K.
Qed.
End Scale.
Lemma mixed_scales : forall p c d u eta, scales c u eta -> scales d u eta -> scales (mixed_compiled p c d) u eta.
Proof. intros p c d u eta C1 D1 i. cbn [mixed_compiled c_mul]. destruct (p i); [apply C1|apply D1]. Qed.
