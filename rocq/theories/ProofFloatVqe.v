(** Proofs: rounded probabilities *)
From Coq Require Import List Arith NArith ZArith Bool Reals Lia Lra.
Import ListNotations.
From Verif Require Import Base Cplx Bits ModelTargets ModelGate ModelNumpy ModelPauli ModelVqe ModelFloat ModelFloatVqe SpecQuantum SpecVqe SpecFloat SpecFinite SpecFloatVqe
  ProofArray ProofVqe ProofVqeRun ProofFloat ProofFinite.
Local Open Scope R_scope.

Lemma sum_abs : forall X (f : X -> R) l, Rabs (Rsum f l) <= Rsum (fun x => Rabs (f x)) l.
Proof. induction l as [|x l IH]; cbn [Rsum fold_right]; [unfold Rsum; cbn; rewrite Rabs_R0; lra|]. change (Rsum ?g (x :: l)) with (g x + Rsum g l). pose proof (Rabs_triang (f x) (Rsum f l)). lra. Qed.
Lemma sum_cons : forall X (f : X -> R) x l, Rsum f (x :: l) = f x + Rsum f l. Proof. reflexivity. Qed.
Lemma sum_member : forall X (f : X -> R) l x, (forall y, In y l -> 0 <= f y) -> In x l -> f x <= Rsum f l.
Proof.
  induction l as [|y l IH]; intros x P I; [destruct I|]. rewrite sum_cons. pose proof (Rsum_nonneg _ f l (fun z Iz => P z (or_intror Iz))). destruct I as [->|I]; [lra|].
  pose proof (IH x (fun z Iz => P z (or_intror Iz)) I). pose proof (P y (or_introl eq_refl)). lra.
Qed.
Lemma sum_const : forall X (l : list X) c, Rsum (fun _ => c) l = INR (List.length l) * c.
Proof. induction l as [|x l IH]; intros c; [unfold Rsum; cbn; ring|]. rewrite sum_cons, IH. cbn [List.length]. rewrite S_INR. ring. Qed.

Section Collect.
Variables (A : arith) (u eta B T : R).
Hypothesis HA : rounds_within A u eta B.
Hypothesis Hu : 0 < u.
Hypothesis He : 0 <= eta.
Variable key : nat -> nat.
Variable p : nat -> R.
Variable K : list nat.
Hypothesis NK : NoDup K.
Definition part (l : list nat) (k : nat) : R := Rsum (fun x => if Nat.eq_dec (key x) k then p x else 0) l.
Definition errs (d : list (nat * R)) (ex : nat -> R) : R := Rsum (fun k => Rabs (value d k - ex k)) K.
Let G := T + eta / u.

Lemma errs_set : forall d ex k r a D e, In k K -> errs d ex <= D -> Rabs (r - (value d k + a)) <= e ->
  errs (dset Nat.eqb d k r) (fun j => ex j + if Nat.eq_dec k j then a else 0) <= D + e.
Proof.
  intros d ex k r a D e I H Hr. unfold errs in *.
  apply Rle_trans with (Rsum (fun j => Rabs (value d j - ex j) + (if Nat.eq_dec k j then e else 0)) K).
  - apply Rsum_mono. intros j _. unfold value at 1. rewrite (dget_dset _ Nat.eqb_eq). destruct (Nat.eqb_spec j k) as [->|N].
    + destruct (Nat.eq_dec k k); [|congruence]. replace (r - (ex k + a)) with (r - (value d k + a) + (value d k - ex k)) by ring.
      pose proof (Rabs_triang (r - (value d k + a)) (value d k - ex k)). lra.
    + destruct (Nat.eq_dec k j); [congruence|]. fold (value d j). rewrite !Rplus_0_r. lra.
  - rewrite Rsum_add. rewrite (Rsum_one _ (fun j => if Nat.eq_dec k j then e else 0) K k); auto.
    + destruct (Nat.eq_dec k k); [lra|congruence].
    + intros y _ N. destruct (Nat.eq_dec k y); congruence.
Qed.
Lemma value_bound : forall d ex k D, In k K -> errs d ex <= D -> Rabs (value d k) <= Rabs (ex k) + D.
Proof.
  intros d ex k D I H. apply ab_near. apply Rle_trans with (2 := H). unfold errs. apply (sum_member _ (fun k => Rabs (value d k - ex k))); auto. intros; apply Rabs_pos.
Qed.
Definition fold_probs (l : list nat) (d : list (nat * R)) : list (nat * R) :=
  fold_left (fun cnt x => if Reqb (p x) 0 then cnt else fl_add_prob A cnt (key x) (p x)) l d.
Lemma collect_err : forall l d ex D, NoDup (map fst d) -> (forall k, In k (map fst d) -> In k K) -> (forall x, In x l -> In (key x) K) -> errs d ex <= D -> 0 <= D ->
  Rsum (fun k => Rabs (ex k)) K + Rsum (fun x => Rabs (p x)) l <= T -> (D + G) * (1 + u) ^ List.length l <= B ->
  let d' := fold_probs l d in NoDup (map fst d') /\ (forall k, In k (map fst d') -> In k K) /\
    errs d' (fun k => ex k + part l k) <= (D + G) * (1 + u) ^ List.length l - G.
Proof.
  induction l as [|x l IH]; intros d ex D N I F E P HT HB.
  - cbn zeta. split; [auto|]. split; [auto|]. cbn [fold_probs fold_left List.length pow]. unfold part, Rsum. cbn [fold_right].
    replace ((D + G) * 1 - G) with D by ring. apply Rle_trans with (2 := E). right. unfold errs. apply Rsum_ext. intros k _. rewrite Rplus_0_r. reflexivity.
  - assert (Kx : In (key x) K) by (apply F; left; auto). rewrite sum_cons in HT.
    pose proof (sum_member _ (fun k => Rabs (ex k)) K (key x) (fun _ _ => Rabs_pos _) Kx) as Mx. cbv beta in Mx.
    pose proof (Rsum_nonneg _ (fun x => Rabs (p x)) l (fun _ _ => Rabs_pos _)) as Pl. pose proof (Rabs_pos (p x)) as Px. pose proof (Rabs_pos (ex (key x))) as Pe.
    assert (G0 : 0 <= G). { unfold G. assert (0 <= eta / u) by (apply Rmult_le_pos; [auto|]; left; apply Rinv_0_lt_compat; auto). lra. }
    assert (Q1 : 1 <= (1 + u) ^ List.length l) by (apply pow_R1_Rle; lra).
    cbn [List.length pow] in HB |- *.
    assert (DB : D + G <= B). { apply Rle_trans with (2 := HB). assert (1 <= (1 + u) * (1 + u) ^ List.length l) by nra. nra. }
    assert (Sx : Rsum (fun k => Rabs (ex k + (if Nat.eq_dec (key x) k then p x else 0))) K <= Rsum (fun k => Rabs (ex k)) K + Rabs (p x)).
    { apply Rle_trans with (Rsum (fun k => Rabs (ex k) + (if Nat.eq_dec (key x) k then Rabs (p x) else 0)) K).
      - apply Rsum_mono. intros k _. destruct (Nat.eq_dec (key x) k); [apply Rabs_triang|rewrite Rplus_0_r; lra].
      - rewrite Rsum_add, (Rsum_one _ (fun k => if Nat.eq_dec (key x) k then Rabs (p x) else 0) K (key x)); auto.
        + destruct (Nat.eq_dec (key x) (key x)); [lra|congruence].
        + intros y _ Ny. destruct (Nat.eq_dec (key x) y); congruence. }
    set (ex' := fun k => ex k + (if Nat.eq_dec (key x) k then p x else 0)).
    assert (goal : forall d1 D1, fold_probs (x :: l) d = fold_probs l d1 -> NoDup (map fst d1) -> (forall k, In k (map fst d1) -> In k K) -> errs d1 ex' <= D1 -> 0 <= D1 ->
      D1 + G <= (1 + u) * (D + G) -> let d' := fold_probs (x :: l) d in NoDup (map fst d') /\ (forall k, In k (map fst d') -> In k K) /\
      errs d' (fun k => ex k + part (x :: l) k) <= (D + G) * ((1 + u) * (1 + u) ^ List.length l) - G).
    { intros d1 D1 Ed N1 I1 E1 P1 L1. cbv zeta. rewrite Ed. destruct (IH d1 ex' D1) as (R1 & R2 & R3); auto.
      - intros y Iy. apply F. right; auto.
      - unfold ex'. lra.
      - apply Rle_trans with (2 := HB). replace ((D + G) * ((1 + u) * (1 + u) ^ List.length l)) with ((1 + u) * (D + G) * (1 + u) ^ List.length l) by ring. apply Rmult_le_compat_r; lra.
      - split; [auto|]. split; [auto|]. apply Rle_trans with ((D1 + G) * (1 + u) ^ List.length l - G).
        + apply Rle_trans with (2 := R3). right. unfold errs. apply Rsum_ext. intros k _. unfold ex', part. rewrite sum_cons. f_equal. ring.
        + apply Rplus_le_compat_r. replace ((D + G) * ((1 + u) * (1 + u) ^ List.length l)) with ((1 + u) * (D + G) * (1 + u) ^ List.length l) by ring. apply Rmult_le_compat_r; lra. }
    destruct (Reqb (p x) 0) eqn:Z.
    + apply (goal d D); auto; [unfold fold_probs; cbn [fold_left]; rewrite Z; auto| |nra].
      apply Reqb_true in Z. apply Rle_trans with (2 := E). right. unfold errs, ex'. apply Rsum_ext. intros k _. rewrite Z. destruct (Nat.eq_dec (key x) k); f_equal; ring.
    + pose proof (value_bound d ex (key x) D Kx E) as Vb.
      apply (goal (fl_add_prob A d (key x) (p x)) (D + (u * (D + G)))).
      * unfold fold_probs; cbn [fold_left]; rewrite Z; auto.
      * apply dset_NoDup; auto. exact Nat.eqb_eq.
      * intros k Ik. apply (dset_keys _ Nat.eqb_eq) in Ik. destruct Ik as [->|Ik]; auto.
      * unfold fl_add_prob, ex'. fold (value d (key x)). apply errs_set; auto.
        assert (GT : T <= G). { unfold G. assert (0 <= eta / u) by (apply Rmult_le_pos; [auto|]; left; apply Rinv_0_lt_compat; auto). lra. }
        eapply Rle_trans; [apply (w_add _ _ _ _ HA)|].
        -- lra.
        -- lra.
        -- pose proof (Rabs_triang (value d (key x)) (p x)) as Tr. assert (Eu : eta = u * (eta / u)) by (field; lra). unfold G. rewrite Eu at 1.
           assert (Rabs (value d (key x) + p x) <= D + T) by lra. nra.
      * nra.
      * nra.
Qed.
End Collect.

(** ** The sum of the errors of squares *)
Lemma square_gap : forall s a b, 0 < s -> Rabs (Cnorm2 a - Cnorm2 b) <= / 2 * (s * Cnorm2 (a - b)%C + / s * Cnorm2 (a + b)%C).
Proof.
  intros s [a1 a2] [b1 b2] S. unfold Cnorm2, Csub, Cadd, Copp; cbn [fst snd].
  assert (H : forall x y, Rabs (x * y) <= / 2 * (s * (x * x) + / s * (y * y))).
  { intros x y. assert (I : 0 < / s) by (apply Rinv_0_lt_compat; auto). assert (E : s * / s = 1) by (field; lra).
    assert (Q1 : 0 <= / s * ((s * x - y) * (s * x - y))) by (apply Rmult_le_pos; [lra|apply Rle_0_sqr]). assert (Q2 : 0 <= / s * ((s * x + y) * (s * x + y))) by (apply Rmult_le_pos; [lra|apply Rle_0_sqr]).
    assert (X1 : / s * ((s * x - y) * (s * x - y)) = s * (x * x) - 2 * (x * y) + / s * (y * y)) by (field; lra).
    assert (X2 : / s * ((s * x + y) * (s * x + y)) = s * (x * x) + 2 * (x * y) + / s * (y * y)) by (field; lra).
    apply Rabs_le. lra. }
  pose proof (H (a1 - b1) (a1 + b1)) as H1. pose proof (H (a2 - b2) (a2 + b2)) as H2.
  replace (a1 * a1 + a2 * a2 - (b1 * b1 + b2 * b2)) with ((a1 - b1) * (a1 + b1) + (a2 - b2) * (a2 + b2)) by ring.
  pose proof (Rabs_triang ((a1 - b1) * (a1 + b1)) ((a2 - b2) * (a2 + b2))). replace (a1 + - b1) with (a1 - b1) by ring. replace (a2 + - b2) with (a2 - b2) by ring. lra.
Qed.
Lemma squares_gap : forall n phi psi e, norm n psi <= 1 -> dist n phi psi <= e -> Rsum (fun x => Rabs (Cnorm2 (phi x) - Cnorm2 (psi x))) (seq 0 (2 ^ n)) <= e * (2 + e).
Proof.
  intros n phi psi e N D. assert (E0 : 0 <= e) by (pose proof (norm_pos n (fun x => (phi x - psi x)%C)); unfold dist in D; lra).
  destruct (Req_EM_T e 0) as [->|NE].
  - rewrite Rsum_0; [lra|]. intros x I. apply in_seq in I. assert (Z : (phi x - psi x)%C = C0).
    { apply (norm2_zero n (fun x => (phi x - psi x)%C)); [|lia]. rewrite <- norm_sq. pose proof (norm_pos n (fun x => (phi x - psi x)%C)). unfold dist in D. nra. }
    replace (phi x) with (psi x) by (replace (phi x) with (psi x + (phi x - psi x))%C by ring; rewrite Z; ring). rewrite Rminus_diag_eq by reflexivity. apply Rabs_R0.
  - set (s := (2 + e) / e). assert (S : 0 < s) by (unfold s; apply Rdiv_lt_0_compat; lra).
    assert (Nd : norm2 n (fun x => (phi x - psi x)%C) <= e * e). { rewrite <- norm_sq. pose proof (norm_pos n (fun x => (phi x - psi x)%C)). unfold dist in D. nra. }
    assert (Na : norm n (fun x => (phi x + psi x)%C) <= 2 + e).
    { pose proof (norm_add n phi psi). pose proof (dist_norm n phi psi). lra. }
    assert (Ns : norm2 n (fun x => (phi x + psi x)%C) <= (2 + e) * (2 + e)). { rewrite <- norm_sq. pose proof (norm_pos n (fun x => (phi x + psi x)%C)). nra. }
    apply Rle_trans with (/ 2 * (s * norm2 n (fun x => (phi x - psi x)%C) + / s * norm2 n (fun x => (phi x + psi x)%C))).
    + unfold norm2. rewrite <- !Rsum_mul_l, <- Rsum_add, <- Rsum_mul_l. apply Rsum_mono. intros x _. apply square_gap; auto.
    + assert (I : 0 < / s) by (apply Rinv_0_lt_compat; auto). apply Rle_trans with (/ 2 * (s * (e * e) + / s * ((2 + e) * (2 + e)))); [nra|]. right. unfold s. field. split; lra.
Qed.

Section Expect.
Variables (A : arith) (u eta B : R) (sq : R -> R) (n : nat).
Hypothesis HA : rounds_within A u eta B.
Hypothesis HR : sum_ranges u eta B n.
Hypothesis HS : squares_within sq u eta.
Variables (phi psi : state) (e : R).
Hypothesis Hn : norm n psi <= 1.
Hypothesis Hd : dist n phi psi <= e.
Hypothesis He : e <= 1 / 10.
Let p (x : nat) : R := f_add A (sq (Cre (phi x))) (sq (Cim (phi x))).
Lemma e_pos : 0 <= e. Proof. pose proof (norm_pos n (fun x => (phi x - psi x)%C)). unfold dist in Hd. lra. Qed.
Lemma phi_norm2 : norm2 n phi <= 121 / 100.
Proof. rewrite <- norm_sq. pose proof (dist_norm n phi psi). pose proof (norm_pos n phi). nra. Qed.
Lemma p_near : forall x, (x < 2 ^ n)%nat -> Rabs (p x - Cnorm2 (phi x)) <= 4 * u * Cnorm2 (phi x) + 6 * eta.
Proof.
  intros x L. destruct HR as ((U0 & U1) & (E0 & E1) & B4 & _). pose proof (entry_norm n phi x L) as En. pose proof phi_norm2 as P2.
  assert (Sz : forall r, r * r <= Cnorm2 (phi x) -> Rabs r <= 2). { intros r H. apply Rabs_le. nra. }
  assert (Q : Cnorm2 (phi x) = Cre (phi x) * Cre (phi x) + Cim (phi x) * Cim (phi x)) by reflexivity.
  set (a := Cre (phi x)) in *. set (b := Cim (phi x)) in *. set (N := Cnorm2 (phi x)) in *.
  assert (Sa : 0 <= a * a) by nra. assert (Sb : 0 <= b * b) by nra.
  pose proof (HS a (Sz a ltac:(lra))) as Ha. pose proof (HS b (Sz b ltac:(lra))) as Hb. unfold p. fold a b.
  assert (Wa : Rabs (sq a) <= B). { apply ab_near in Ha. rewrite (Rabs_pos_eq (a * a)) in Ha by auto. nra. }
  assert (Wb : Rabs (sq b) <= B). { apply ab_near in Hb. rewrite (Rabs_pos_eq (b * b)) in Hb by auto. nra. }
  pose proof (w_add _ _ _ _ HA _ _ Wa Wb) as Hab. pose proof (ab_sum _ _ _ _ _ _ Ha Hb) as Hs. pose proof (ab_near _ _ _ Hs) as Hs'.
  rewrite (Rabs_pos_eq (a * a + b * b)) in Hs' by lra. pose proof (ab_tri _ _ _ _ _ Hab Hs) as F. rewrite <- Q in F. apply Rle_trans with (1 := F).
  assert (N0 : 0 <= N) by (rewrite Q; lra). rewrite <- Q in Hs'. assert (u * Rabs (sq a + sq b) <= u * (N + (2 * u * (a * a) + 2 * eta + (2 * u * (b * b) + 2 * eta)))) by (apply Rmult_le_compat_l; lra).
  assert (Z : u * (a * a) + u * (b * b) = u * N) by (rewrite Q; ring). assert (u * (u * N) <= / 1000 * (u * N)) by (apply Rmult_le_compat_r; nra). assert (u * eta <= / 1000 * eta) by (apply Rmult_le_compat_r; lra). nra.
Qed.
Lemma p_total : Rsum (fun x => Rabs (p x - Cnorm2 (phi x))) (seq 0 (2 ^ n)) <= 4 * u * norm2 n phi + 6 * (2 ^ n * eta).
Proof.
  apply Rle_trans with (Rsum (fun x => 4 * u * Cnorm2 (phi x) + 6 * eta) (seq 0 (2 ^ n))).
  - apply Rsum_mono. intros x I. apply in_seq in I. apply p_near. lia.
  - rewrite Rsum_add, Rsum_mul_l, sum_const, seq_length, pow_INR. change (INR 2) with 2. unfold norm2. lra.
Qed.
Lemma p_size : Rsum (fun x => Rabs (p x)) (seq 0 (2 ^ n)) <= 13 / 10.
Proof.
  apply Rle_trans with (Rsum (fun x => Cnorm2 (phi x) + Rabs (p x - Cnorm2 (phi x))) (seq 0 (2 ^ n))).
  - apply Rsum_mono. intros x _. pose proof (ab_near (p x) (Cnorm2 (phi x)) _ (Rle_refl _)) as H. rewrite (Rabs_pos_eq (Cnorm2 (phi x))) in H by apply Cnorm2_pos. lra.
  - rewrite Rsum_add. fold (norm2 n phi). pose proof p_total. pose proof phi_norm2. pose proof (norm2_pos n phi). destruct HR as ((U0 & U1) & (E0 & E1) & B4 & W).
    assert (0 < 2 ^ n) by (apply pow_lt; lra). assert (2 ^ n * eta <= 2 ^ n * (u / 1000)) by (apply Rmult_le_compat_l; lra). nra.
Qed.
Lemma p_gap : Rsum (fun x => Rabs (p x - Cnorm2 (psi x))) (seq 0 (2 ^ n)) <= 21 / 10 * e + 5 * u + 6 * (2 ^ n * eta).
Proof.
  apply Rle_trans with (Rsum (fun x => Rabs (p x - Cnorm2 (phi x)) + Rabs (Cnorm2 (phi x) - Cnorm2 (psi x))) (seq 0 (2 ^ n))).
  - apply Rsum_mono. intros x _. replace (p x - Cnorm2 (psi x)) with (p x - Cnorm2 (phi x) + (Cnorm2 (phi x) - Cnorm2 (psi x))) by ring. apply Rabs_triang.
  - rewrite Rsum_add. pose proof p_total. pose proof (squares_gap n phi psi e Hn Hd). pose proof phi_norm2. pose proof (norm2_pos n phi). pose proof e_pos.
    destruct HR as ((U0 & U1) & _). nra.
Qed.
Lemma power_bound : (1 + u) ^ (2 ^ n) <= 1 + 6 / 5 * (2 ^ n * u).
Proof.
  destruct HR as ((U0 & U1) & _ & _ & W).
  assert (H : forall k, INR k * u <= 1 / 10 -> (1 + u) ^ k <= 1 + 6 / 5 * (INR k * u)).
  { induction k as [|k IH]; intros Hk; [cbn [pow INR]; lra|]. rewrite S_INR in Hk |- *. cbn [pow]. assert (0 <= INR k) by apply pos_INR. specialize (IH ltac:(lra)).
    apply Rle_trans with ((1 + u) * (1 + 6 / 5 * (INR k * u))); [apply Rmult_le_compat_l; lra|]. nra. }
  specialize (H (2 ^ n)%nat). rewrite pow_INR in H. change (INR 2) with 2 in H. auto.
Qed.

Variable meas : list nat.
Let key (x : nat) : nat := Nat.land x (meas_mask meas).
Let K : list nat := nodup Nat.eq_dec (map key (seq 0 (2 ^ n))).
Lemma K_NoDup : NoDup K. Proof. apply NoDup_nodup. Qed.
Lemma K_in : forall k, In k K <-> exists x, (x < 2 ^ n)%nat /\ key x = k.
Proof.
  intros k. unfold K. rewrite nodup_In, in_map_iff. split; intros (x & H1 & H2).
  - apply in_seq in H2. exists x. split; [lia|auto].
  - exists x. split; auto. apply in_seq. lia.
Qed.
Lemma K_masked : forall k, In k K -> exists x, Nat.land x (meas_mask meas) = k.
Proof. intros k H. apply K_in in H as (x & _ & E). exists x. exact E. Qed.
Lemma K_once : forall x r, (x < 2 ^ n)%nat -> Rsum (fun k => if Nat.eq_dec (key x) k then r else 0) K = r.
Proof.
  intros x r L. rewrite (Rsum_one _ _ K (key x)); [destruct (Nat.eq_dec (key x) (key x)); congruence|apply K_NoDup|apply K_in; eauto|].
  intros y _ N. destruct (Nat.eq_dec (key x) y); congruence.
Qed.
Let cnt : list (nat * R) := fl_count_probs A sq (arr n phi) (meas_mask meas).
Lemma cnt_eq : cnt = fold_probs A key p (seq 0 (2 ^ n)) [].
Proof.
  unfold cnt, fl_count_probs, fold_probs. fold (numbered (arr n phi)). rewrite numbered_seq, arr_length.
  assert (H : forall l d, (forall x, In x l -> (x < 2 ^ n)%nat) -> fold_left (fun cnt iv => let q := f_add A (sq (Cre (snd iv))) (sq (Cim (snd iv))) in
      if Reqb q 0 then cnt else fl_add_prob A cnt (Nat.land (fst iv) (meas_mask meas)) q) (map (fun x => (x, nth x (arr n phi) C0)) l) d =
    fold_left (fun cnt x => if Reqb (p x) 0 then cnt else fl_add_prob A cnt (key x) (p x)) l d).
  { induction l as [|x l IH]; intros d F; [reflexivity|]. cbn [map fold_left fst snd]. cbv zeta. rewrite arr_nth by (apply F; left; auto). fold (p x). apply IH. intros y I. apply F. right; auto. }
  apply H. intros x I. apply in_seq in I. lia.
Qed.
Lemma cnt_spec : NoDup (map fst cnt) /\ (forall k, In k (map fst cnt) -> In k K) /\ errs K cnt (part key p (seq 0 (2 ^ n))) <= 8 / 5 * (2 ^ n * u).
Proof.
  pose proof HR as ((U0 & U1) & (E0 & E1) & B4 & W). pose proof power_bound as PB. assert (P2 : 0 < 2 ^ n) by (apply pow_lt; lra).
  assert (Q : eta / u <= / 1000). { apply Rmult_le_reg_r with u; [lra|]. unfold Rdiv. rewrite Rmult_assoc, Rinv_l by lra. lra. }
  assert (Q0 : 0 <= eta / u) by (apply Rmult_le_pos; [lra|]; left; apply Rinv_0_lt_compat; lra).
  assert (Wp : 0 < 2 ^ n * u) by (apply Rmult_lt_0_compat; lra). set (w := 2 ^ n * u) in *. set (q := eta / u) in *.
  assert (Z : errs K [] (fun _ => 0) = 0) by (unfold errs; apply Rsum_0; intros; unfold value; cbn; rewrite Rminus_0_r; apply Rabs_R0).
  destruct (collect_err A u eta B (13 / 10) HA U0 E0 key p K K_NoDup (seq 0 (2 ^ n)) [] (fun _ => 0) 0) as (R1 & R2 & R3).
  - constructor.
  - intros k [].
  - intros x I. apply in_seq in I. apply K_in. exists x. split; [lia|auto].
  - rewrite Z. lra.
  - lra.
  - rewrite (Rsum_0 _ (fun _ => Rabs 0)) by (intros; apply Rabs_R0). pose proof p_size. lra.
  - rewrite seq_length. fold q. apply Rle_trans with ((0 + (13 / 10 + q)) * (1 + 6 / 5 * w)); [apply Rmult_le_compat_l; lra|nra].
  - rewrite seq_length in R3. rewrite <- cnt_eq in *. split; [auto|]. split; [auto|].
    apply Rle_trans with (errs K cnt (fun k => 0 + part key p (seq 0 (2 ^ n)) k)).
    + right. unfold errs. apply Rsum_ext. intros k _. rewrite Rplus_0_l. reflexivity.
    + apply Rle_trans with (1 := R3). fold q. apply Rle_trans with ((0 + (13 / 10 + q)) * (1 + 6 / 5 * w) - (13 / 10 + q)); [|nra].
      apply Rplus_le_compat_r. apply Rmult_le_compat_l; lra.
Qed.
Lemma dict_sum : forall g, Rsum (fun kv : nat * R => g (fst kv) * snd kv) cnt = Rsum (fun k => g k * value cnt k) K.
Proof.
  intros g. destruct cnt_spec as (N & I & _).
  transitivity (Rsum (fun kv : nat * R => Rsum (fun j => if Nat.eq_dec (fst kv) j then g j * snd kv else 0) K) cnt).
  - apply Rsum_ext. intros [k v] Ik. cbn [fst snd]. rewrite (Rsum_one _ _ K k); [destruct (Nat.eq_dec k k); congruence|apply K_NoDup|apply I; apply in_map_iff; exists (k, v); auto|].
    intros y _ Ny. destruct (Nat.eq_dec k y); congruence.
  - rewrite Rsum_swap. apply Rsum_ext. intros j _. rewrite <- Rsum_ifs by auto. rewrite <- Rsum_mul_l. apply Rsum_ext. intros [k v] _. cbn [fst snd]. destruct (Nat.eq_dec k j); ring.
Qed.
Lemma to_key_inj : forall a b, In a K -> In b K -> to_key meas a = to_key meas b -> a = b.
Proof.
  intros a b Ia Ib E. apply K_masked in Ia. apply K_masked in Ib. rewrite !to_key_readout, outcome_mask in E. rewrite (masked_twice meas a), (masked_twice meas b) in E; auto.
Qed.
Lemma keys_NoDup : NoDup (map (to_key meas) (map fst cnt)).
Proof. destruct cnt_spec as (N & I & _). apply NoDup_map_inj; auto. intros a b Ia Ib. apply to_key_inj; auto. Qed.
Lemma fl_expect_eq : fl_expect A sq (arr n phi) (map Z.of_nat meas) = Ok (map (fun kv => (to_key meas (fst kv), snd kv)) cnt).
Proof.
  unfold fl_expect. replace (existsb (fun v0 => (v0 <? 0)%Z) (map Z.of_nat meas)) with false.
  2:{ symmetry. apply not_true_is_false. intro H. apply existsb_exists in H. destruct H as [z [I L]]. apply in_map_iff in I. destruct I as [m [<- _]].
      apply Z.ltb_lt in L. lia. }
  cbv zeta. replace (map Z.to_nat (map Z.of_nat meas)) with meas by (rewrite map_map; rewrite <- (map_id meas) at 1; apply map_ext; intros; rewrite Nat2Z.id; auto).
  fold cnt. f_equal. rewrite (dset_all_new _ key_eqb_ok _ (fun kv => to_key meas (fst kv)) snd); [reflexivity|].
  simpl. rewrite <- map_map with (f := fst). apply keys_NoDup.
Qed.
Definition gap (k : nat) : R := Rabs (value cnt k - part key p (seq 0 (2 ^ n)) k) + Rsum (fun x => if Nat.eq_dec (key x) k then Rabs (p x - Cnorm2 (psi x)) else 0) (seq 0 (2 ^ n)).
Lemma gap_pos : forall k, 0 <= gap k.
Proof. intros k. unfold gap. apply Rplus_le_le_0_compat; [apply Rabs_pos|]. apply Rsum_nonneg. intros x _. destruct (Nat.eq_dec (key x) k); [apply Rabs_pos|lra]. Qed.
Lemma gaps : Rsum gap K <= 3 * e + (2 * 2 ^ n + 5) * u.
Proof.
  unfold gap. rewrite Rsum_add, Rsum_swap. rewrite (Rsum_ext _ _ (fun x => Rabs (p x - Cnorm2 (psi x))) (seq 0 (2 ^ n))) by (intros x I; apply in_seq in I; apply K_once; lia).
  destruct cnt_spec as (_ & _ & E). unfold errs in E. pose proof p_gap. pose proof e_pos. destruct HR as ((U0 & U1) & (E0 & E1) & _).
  assert (P2 : 0 < 2 ^ n) by (apply pow_lt; lra). assert (2 ^ n * eta <= 2 ^ n * (u / 1000)) by (apply Rmult_le_compat_l; lra). nra.
Qed.
Lemma marginal_parts : forall o, marginal (arr n psi) meas o =
  Rsum (fun k => (if list_eq_dec Nat.eq_dec (to_key meas k) o then 1 else 0) * Rsum (fun x => if Nat.eq_dec (key x) k then Cnorm2 (psi x) else 0) (seq 0 (2 ^ n))) K.
Proof.
  intros o. unfold marginal. rewrite arr_length.
  transitivity (Rsum (fun x => Rsum (fun k => if Nat.eq_dec (key x) k then (if list_eq_dec Nat.eq_dec (readout meas x) o then Cnorm2 (psi x) else 0) else 0) K) (seq 0 (2 ^ n))).
  - apply Rsum_ext. intros x I. apply in_seq in I. rewrite K_once by lia. rewrite arr_nth by lia. reflexivity.
  - rewrite Rsum_swap. apply Rsum_ext. intros k Ik. rewrite <- Rsum_mul_l. apply Rsum_ext. intros x _. destruct (Nat.eq_dec (key x) k) as [E|E]; [|ring].
    replace (readout meas x) with (to_key meas k) by (rewrite <- E, to_key_readout; unfold key; rewrite outcome_masked; auto). destruct (list_eq_dec _ _ _); ring.
Qed.
Lemma chance_gap : forall o, Rabs (chance (map (fun kv => (to_key meas (fst kv), snd kv)) cnt) o - marginal (arr n psi) meas o) <=
  Rsum (fun k => (if list_eq_dec Nat.eq_dec (to_key meas k) o then 1 else 0) * gap k) K.
Proof.
  intros o. rewrite marginal_parts. unfold chance. rewrite Rsum_map. cbn [fst snd].
  rewrite (Rsum_ext _ _ (fun kv : nat * R => (if list_eq_dec Nat.eq_dec (to_key meas (fst kv)) o then 1 else 0) * snd kv)) by (intros [k v] _; cbn [fst snd]; destruct (list_eq_dec _ _ _); ring).
  rewrite (dict_sum (fun k => if list_eq_dec Nat.eq_dec (to_key meas k) o then 1 else 0)), <- Rsum_sub. eapply Rle_trans; [apply sum_abs|]. apply Rsum_mono. intros k _.
  destruct (list_eq_dec Nat.eq_dec (to_key meas k) o); [|rewrite !Rmult_0_l, Rminus_0_r, Rabs_R0; lra]. rewrite !Rmult_1_l. unfold gap.
  set (q := part key p (seq 0 (2 ^ n)) k). set (m := Rsum (fun x => if Nat.eq_dec (key x) k then Cnorm2 (psi x) else 0) (seq 0 (2 ^ n))).
  replace (value cnt k - m) with (value cnt k - q + (q - m)) by ring. eapply Rle_trans; [apply Rabs_triang|]. apply Rplus_le_compat_l. unfold q, m, part. rewrite <- Rsum_sub.
  eapply Rle_trans; [apply sum_abs|]. apply Rsum_mono. intros x _. destruct (Nat.eq_dec (key x) k); [lra|rewrite Rminus_0_r, Rabs_R0; lra].
Qed.
Lemma expect_close : exists d, fl_expect A sq (arr n phi) (map Z.of_nat meas) = Ok d /\ close_distribution (arr n psi) meas d (3 * e + (2 * 2 ^ n + 5) * u).
Proof.
  eexists. split; [apply fl_expect_eq|]. refine (conj _ (conj _ _)).
  - rewrite map_map. cbn [fst]. rewrite <- map_map with (f := fst) (g := to_key meas). apply keys_NoDup.
  - intros o q I. apply in_map_iff in I as ([k v] & E & I). cbn [fst snd] in E. injection E as <- <-. destruct cnt_spec as (_ & F & _).
    assert (Ik : In k K) by (apply F; apply in_map_iff; exists (k, v); auto). apply K_in in Ik as (x & L & <-). exists x. rewrite arr_length. split; auto.
    rewrite to_key_readout. unfold key. rewrite outcome_masked. auto.
  - intros os N. apply Rle_trans with (2 := gaps).
    apply Rle_trans with (Rsum (fun o => Rsum (fun k => (if list_eq_dec Nat.eq_dec (to_key meas k) o then 1 else 0) * gap k) K) os).
    { apply Rsum_mono. intros o _. apply chance_gap. }
    rewrite Rsum_swap. apply Rsum_mono. intros k _. rewrite Rsum_mul_r.
    assert (H : Rsum (fun o => if list_eq_dec Nat.eq_dec (to_key meas k) o then 1 else 0) os <= 1).
    { destruct (in_dec (list_eq_dec Nat.eq_dec) (to_key meas k) os) as [I|I].
      - rewrite (Rsum_one _ _ os (to_key meas k)); auto; [destruct (list_eq_dec _ _ _); lra|]. intros y _ Ny. destruct (list_eq_dec _ _ _); congruence.
      - rewrite Rsum_0; [lra|]. intros y Iy. destruct (list_eq_dec Nat.eq_dec (to_key meas k) y); congruence. }
    pose proof (gap_pos k). nra.
Qed.
End Expect.
