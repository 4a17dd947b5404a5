(** Proofs: the error of a rounded energy by a sparse matrix *)
From Coq Require Import List Arith NArith ZArith Bool Reals Lia Lra Permutation.
Import ListNotations.
From Verif Require Import Base Cplx Bits ModelTargets ModelGate ModelNumpy ModelPauli ModelPauliMatrix ModelVqe ModelFloat ModelFloatVqe ModelFloatSparse
  SpecQuantum SpecPauli SpecPauliMatrix SpecVqe SpecFloat SpecFinite SpecFloatNumba SpecFloatSparse ProofArray ProofPauli ProofPauliExpr ProofFloat ProofFinite ProofKron ProofPauliMatrix ProofFloatVqe ProofFloatVqeEnergy
  ProofFloatSparse ProofFloatSparseMat ProofFloatSparseErr.
Local Open Scope R_scope.

(** ** Sums over states *)
Lemma Rsum_xor : forall n m (f : nat -> R), (forall r, (r < 2 ^ n)%nat -> (Nat.lxor r m < 2 ^ n)%nat) -> Rsum (fun r => f (Nat.lxor r m)) (seq 0 (2 ^ n)) = Rsum f (seq 0 (2 ^ n)).
Proof.
  intros n m f H. transitivity (Rsum (fun r => Rsum (fun c => if (c =? Nat.lxor r m)%nat then f c else 0) (seq 0 (2 ^ n))) (seq 0 (2 ^ n))).
  - apply Rsum_ext. intros r I. apply in_seq in I. rewrite (Rsum_single _ _ (Nat.lxor r m)).
    + rewrite Nat.eqb_refl. auto.
    + apply seq_NoDup.
    + apply in_seq. specialize (H r ltac:(lia)). lia.
    + intros c _ Nc. destruct (Nat.eqb_spec c (Nat.lxor r m)); [contradiction|auto].
  - rewrite Rsum_swap. apply Rsum_ext. intros c I. apply in_seq in I. rewrite (Rsum_single _ _ (Nat.lxor c m)).
    + rewrite mask_involutive, Nat.eqb_refl. auto.
    + apply seq_NoDup.
    + apply in_seq. specialize (H c ltac:(lia)). lia.
    + intros r _ Nr. destruct (Nat.eqb_spec c (Nat.lxor r m)) as [->|]; [rewrite mask_involutive in Nr; congruence|auto].
Qed.
Lemma pairs_le : forall n m a b al be, (forall r, (r < 2 ^ n)%nat -> (Nat.lxor r m < 2 ^ n)%nat) -> norm n a <= al -> norm n b <= be ->
  Rsum (fun r => n1 (a r) * n1 (b (Nat.lxor r m))) (seq 0 (2 ^ n)) <= 2 * al * be.
Proof.
  intros n m a b al be H Ha Hb. pose proof (norm_pos n a) as Pa. pose proof (norm_pos n b) as Pb.
  assert (Z : forall c x, norm n c = 0 -> (x < 2 ^ n)%nat -> n1 (c x) = 0).
  { intros c x E L. rewrite (norm2_zero n c x); [apply n1_0| |auto]. rewrite <- norm_sq, E. ring. }
  assert (L0 : 0 <= 2 * al * be) by (apply Rmult_le_pos; lra).
  destruct (Rtotal_order (norm n a) 0) as [X|[X|X]]; [lra| |].
  { rewrite Rsum_0; auto. intros r I. apply in_seq in I. rewrite (Z a r) by (auto; lia). ring. }
  destruct (Rtotal_order (norm n b) 0) as [Y|[Y|Y]]; [lra| |].
  { rewrite Rsum_0; auto. intros r I. apply in_seq in I. rewrite (Z b (Nat.lxor r m)) by (auto; apply H; lia). ring. }
  set (p := norm n a) in *. set (q := norm n b) in *. set (t := q / p). assert (T0 : 0 < t) by (apply Rdiv_lt_0_compat; auto).
  apply Rle_trans with (Rsum (fun r => t * Cnorm2 (a r) + / t * Cnorm2 (b (Nat.lxor r m))) (seq 0 (2 ^ n))).
  - apply Rsum_mono. intros r _. pose proof (n1_sq2 (a r)) as Q1. pose proof (n1_sq2 (b (Nat.lxor r m))) as Q2. set (v := n1 (a r)) in *. set (w := n1 (b (Nat.lxor r m))) in *.
    assert (I0 : 0 < / t) by (apply Rinv_0_lt_compat; auto).
    assert (Sq : 0 <= t * (v - / t * w) * (v - / t * w)) by (rewrite Rmult_assoc; apply Rmult_le_pos; [lra|apply Rle_0_sqr]).
    replace (t * (v - / t * w) * (v - / t * w)) with (t * (v * v) - 2 * (v * w) + / t * (w * w)) in Sq by (field; lra).
    assert (t * (v * v) <= t * (2 * Cnorm2 (a r))) by (apply Rmult_le_compat_l; lra). assert (/ t * (w * w) <= / t * (2 * Cnorm2 (b (Nat.lxor r m)))) by (apply Rmult_le_compat_l; lra). lra.
  - rewrite Rsum_add, !Rsum_mul_l, (Rsum_xor n m (fun x => Cnorm2 (b x)) H). fold (norm2 n a). fold (norm2 n b). rewrite <- !norm_sq. fold p q. unfold t.
    replace (q / p * (p * p) + / (q / p) * (q * q)) with (2 * (p * q)) by (field; lra). assert (p * q <= al * be) by (apply Rmult_le_compat; lra). lra.
Qed.

Section Op.
Variables (n : nat) (ham : expr).
Hypothesis Hw : Forall (fun t => separate_word n (t_ops t)) ham.
Lemma in_groups : forall g, In g (sorted_groups ham) -> Forall (fun t => separate_word n (t_ops t)) g /\ g <> [] /\ same_mask g.
Proof.
  intros g I. pose proof (groups_same _ _ I) as Sm. split; [|split; auto; apply Sm]. apply Forall_forall. intros t J. pose proof (groups_in _ _ _ I J) as K. rewrite Forall_forall in Hw. apply (Hw t K).
Qed.
Lemma op_rows : forall b r, expr_op ham b r = Csum (fun g => gval g (Nat.lxor r (gmask g)) * b (Nat.lxor r (gmask g)))%C (sorted_groups ham).
Proof. intros. rewrite <- groups_op. apply Csum_ext. intros g I. destruct (in_groups g I) as [F [N Sm]]. symmetry. eapply group_row; eauto. Qed.
Lemma op_sub : forall a b r, expr_op ham (fun x => (a x - b x)%C) r = (expr_op ham a r - expr_op ham b r)%C.
Proof. intros. rewrite !op_rows, <- Csum_sub. apply Csum_ext. intros. ring. Qed.
Lemma op_size : forall b r, n1 (expr_op ham b r) <= vrow ham b r.
Proof.
  intros. rewrite op_rows. unfold vrow. eapply Rle_trans; [apply n1_Csum|]. apply Rsum_mono. intros g _. eapply Rle_trans; [apply n1_mul|]. apply Rmult_le_compat_r; [apply n1_pos|apply gval_size].
Qed.
Lemma vrow_pairs : forall a b al be, norm n a <= al -> norm n b <= be -> Rsum (fun r => n1 (a r) * vrow ham b r) (seq 0 (2 ^ n)) <= total ham * (2 * al * be).
Proof.
  intros a b al be Ha Hb. apply Rle_trans with (Rsum (fun g => wsum g * Rsum (fun r => n1 (a r) * n1 (b (Nat.lxor r (gmask g)))) (seq 0 (2 ^ n))) (sorted_groups ham)).
  - apply Req_le. transitivity (Rsum (fun r => Rsum (fun g => wsum g * (n1 (a r) * n1 (b (Nat.lxor r (gmask g))))) (sorted_groups ham)) (seq 0 (2 ^ n))).
    + apply Rsum_ext. intros r _. unfold vrow. rewrite <- Rsum_mul_l. apply Rsum_ext. intros. ring.
    + rewrite Rsum_swap. apply Rsum_ext. intros g _. apply Rsum_mul_l.
  - rewrite <- (groups_total ham), <- Rsum_mul_r. apply Rsum_mono. intros g I. destruct (in_groups g I) as [F [N Sm]]. apply Rmult_le_compat_l; [apply wsum_pos|]. apply pairs_le; auto. intros. apply gmask_lt; auto.
Qed.
Lemma op_inner : forall a b al be, norm n a <= al -> norm n b <= be -> n1 (inner n a (expr_op ham b)) <= total ham * (2 * al * be).
Proof.
  intros a b al be Ha Hb. eapply Rle_trans; [|apply (vrow_pairs a b al be Ha Hb)]. unfold inner. eapply Rle_trans; [apply n1_Csum|]. apply Rsum_mono. intros r _. eapply Rle_trans; [apply n1_mul|].
  rewrite n1_conj. apply Rmult_le_compat_l; [apply n1_pos|apply op_size].
Qed.
Lemma expval_close : forall phi psi e, norm n psi <= 1 -> dist n phi psi <= e -> 0 <= e <= 1 / 10 -> n1 (expval n (expr_op ham) phi - expval n (expr_op ham) psi)%C <= total ham * (5 * e).
Proof.
  intros phi psi e Np Nd He. unfold expval. set (d := fun x => (phi x - psi x)%C).
  replace (inner n phi (expr_op ham phi) - inner n psi (expr_op ham psi))%C with (inner n d (expr_op ham phi) + inner n psi (expr_op ham d))%C.
  - eapply Rle_trans; [apply n1_add|]. pose proof (dist_norm n phi psi) as Nf. pose proof (op_inner d phi e (1 + e) Nd ltac:(lra)) as O1. pose proof (op_inner psi d 1 e Np Nd) as O2.
    assert (T0 : 0 <= total ham) by (rewrite <- (groups_total ham); apply Rsum_nonneg; intros; apply wsum_pos).
    assert (K : 2 * e * (1 + e) + 2 * 1 * e <= 5 * e). { assert (e * e <= e * (1 / 10)) by (apply Rmult_le_compat_l; lra). lra. }
    assert (total ham * (2 * e * (1 + e) + 2 * 1 * e) <= total ham * (5 * e)) by (apply Rmult_le_compat_l; auto). lra.
  - unfold inner. rewrite <- Csum_sub, <- Csum_add. apply Csum_ext. intros r _. unfold d at 2. rewrite op_sub. unfold d. destruct (phi r), (psi r), (expr_op ham phi r), (expr_op ham psi r); ceq.
Qed.
End Op.

Lemma list_as_map : forall (y : list C) m, List.length y = m -> y = map (fun r => nth r y C0) (seq 0 m).
Proof.
  intros y m <-. apply (nth_ext _ _ C0 C0); [rewrite map_length, seq_length; auto|]. intros i L. rewrite nth_map_seq; auto.
Qed.
Lemma combine_maps : forall X Y Z (f : X -> Y) (g : X -> Z) l, combine (map f l) (map g l) = map (fun x => (f x, g x)) l.
Proof. induction l as [|a l IH]; auto. cbn. rewrite IH. auto. Qed.

Section Energy.
Variables (A : arith) (u eta B w g : R) (D : R -> Prop) (n : nat) (ham : expr) (dot : carr -> carr -> C).
Hypothesis HR : rounds_within A u eta B.
Hypothesis HK : keeps A D.
Hypothesis HS : sparse_ranges u eta B ham.
Hypothesis HD : dots_within dot n w g B.
Hypothesis Hwg : 0 <= w <= 1.
Hypothesis Hn : expr_qubits ham = n.
Hypothesis Hn0 : (0 < n)%nat.
Hypothesis Hw : Forall (fun t => separate_word n (t_ops t)) ham.
Hypothesis HC : coefficients_in D ham.
Let T := INR (List.length ham).
Lemma ham_ne : ham <> []. Proof. intro E. rewrite E in Hn. cbn in Hn. lia. Qed.
Lemma T_one : 1 <= T.
Proof. unfold T. pose proof ham_ne. destruct ham; [congruence|]. cbn [List.length]. rewrite S_INR. pose proof (pos_INR (List.length e)). lra. Qed.
Lemma two_n : 1 <= 2 ^ n. Proof. apply pow_R1_Rle. lra. Qed.
Lemma sparse_close : forall phi psi e, norm n psi <= 1 -> dist n phi psi <= e -> 0 <= e <= 1 / 10 -> exists m r, fl_make_sparse A ham = Ok m /\ fl_sparse_expectation A dot m (arr n phi) = Ok r /\
  Rabs (r - Cre (expval n (expr_op ham) psi)) <= total ham * (5 * e + 15 * T * u + 4 * w) + 400 * 2 ^ n * (T * T * eta) + g.
Proof.
  intros phi psi e Np Nd He'. pose proof HS as (Hu & He & HTu & HTe & HB). fold T in HTu, HTe. rewrite Hn in HTe. pose proof T_one as HT. pose proof two_n as P2.
  assert (S0 : 0 <= total ham) by (rewrite <- (groups_total ham); apply Rsum_nonneg; intros; apply wsum_pos).
  assert (E0 : 0 <= T * T * eta) by (apply Rmult_le_pos; [apply Rmult_le_pos|]; lra).
  assert (E1 : T * T * eta <= / 1000). { assert (1 * (T * T * eta) <= 2 ^ n * (T * T * eta)) by (apply Rmult_le_compat_r; auto). lra. }
  assert (Io : Forall (in_order D n) ham). { unfold coefficients_in in HC. rewrite Forall_forall in *. intros t I. split; [apply Hw, I|]. destruct (HC t I) as [X Y]. split; auto. }
  assert (TL : INR (List.length ham) <= T) by (unfold T; lra).
  set (dat := fun gr => match fl_group_data A gr n false with Ok d => d | Err _ => [] end).
  assert (Gd : forall gr, In gr (sorted_groups ham) -> dat_ok A n dat gr /\ forall c, (c < 2 ^ n)%nat -> n1 (nth c (dat gr) C0 - gval gr c)%C <= gerr u eta T (wsum gr)).
  { intros gr I. destruct (in_groups n ham Hw gr I) as [_ [Ne _]]. destruct (group_err A u eta B T (total ham) D n HR HK Hu He HT HTu E1 S0 HB Hn0 gr Ne) as [d [Ed [Ld Dd]]].
    - apply Forall_forall. intros t J. pose proof (groups_in _ _ _ I J) as Kt. rewrite Forall_forall in Io. auto.
    - eapply Rle_trans; [apply le_INR, (proj2 (groups_len ham) gr I)|]. exact TL.
    - apply (gs_small (total ham) ham (Rle_refl _) gr I).
    - unfold dat_ok, dat. rewrite Ed. auto. }
  destruct (fl_matrix A n dat ham Hn Hn0) as [vals [inds [Em Km]]]; [apply Forall_forall; intros gr I; apply (Gd gr I)|apply groups_nil, ham_ne|].
  destruct (fl_dot_rows A n dat (sorted_groups ham) vals inds (arr n phi) (arr_length n phi) Km) as [y [Ey [Ly Ny]]].
  eexists. exists (Cre (dot (arr n phi) y)). split; [exact Em|]. unfold fl_sparse_expectation. rewrite Ey. cbn [bind]. split; auto.
  pose proof (dist_norm n phi psi) as Nf. assert (Nphi : norm n phi <= 11 / 10) by lra.
  assert (Px : forall c, (c < 2 ^ n)%nat -> n1 (phi c) <= 6) by (intros; eapply entry_small; eauto; lra).
  assert (Rw : forall r, (r < 2 ^ n)%nat -> n1 (nth r y C0 - expr_op ham phi r)%C <= rerr u eta T (vrow ham phi r)).
  { intros r Lr. rewrite Ny by auto. apply (row_err A u eta B T (total ham) D n HR Hu He HT HTu E1 S0 HB dat ham Io TL (Rle_refl _) (fun gr I => proj2 (Gd gr I)) phi Px r Lr). }
  assert (Vs : forall r, (r < 2 ^ n)%nat -> vrow ham phi r <= 6 * total ham) by (intros; eapply (vrow_small (total ham) D n ham Io (Rle_refl _) phi Px); auto).
  set (W := Rsum (fun r => n1 (phi r) * vrow ham phi r) (seq 0 (2 ^ n))).
  assert (W1 : W <= total ham * (242 / 100)). { eapply Rle_trans; [apply (vrow_pairs n ham Hw phi phi _ _ Nphi Nphi)|]. lra. }
  assert (W0 : 0 <= W) by (apply Rsum_nonneg; intros; apply Rmult_le_pos; [apply n1_pos|apply vrow_pos]).
  assert (Er : forall r, rerr u eta T (vrow ham phi r) = 5 * (T * u) * vrow ham phi r + 26 * (T * T * eta)) by reflexivity.
  (* the sum of the rounding errors of the rows *)
  assert (Sp : Rsum (fun r => n1 (phi r) * rerr u eta T (vrow ham phi r)) (seq 0 (2 ^ n)) <= 5 * (T * u) * W + 156 * (2 ^ n * (T * T * eta))).
  { apply Rle_trans with (Rsum (fun r => 5 * (T * u) * (n1 (phi r) * vrow ham phi r) + 156 * (T * T * eta)) (seq 0 (2 ^ n))).
    - apply Rsum_mono. intros r I. apply in_seq in I. rewrite Er. pose proof (Px r ltac:(lia)) as P6. assert (n1 (phi r) * (T * T * eta) <= 6 * (T * T * eta)) by (apply Rmult_le_compat_r; lra). lra.
    - rewrite Rsum_add, Rsum_mul_l, sum_const, seq_length, pow_INR. fold W. change (INR 2) with 2. lra. }
  assert (TU : 0 <= T * u) by (apply Rmult_le_pos; lra). assert (TW : T * u * W <= 1 / 10 * W) by (apply Rmult_le_compat_r; lra). assert (TW0 : 0 <= T * u * W) by (apply Rmult_le_pos; lra).
  assert (TW2 : T * u * W <= T * u * (total ham * (242 / 100))) by (apply Rmult_le_compat_l; lra).
  set (X := 2 ^ n * (T * T * eta)) in *. assert (X0 : 0 <= X) by (apply Rmult_le_pos; lra).
  (* the sizes of the products *)
  assert (Cy : combine (arr n phi) y = map (fun r => (phi r, nth r y C0)) (seq 0 (2 ^ n))).
  { rewrite (list_as_map y (2 ^ n) Ly) at 1. unfold arr. apply combine_maps. }
  set (W2 := Rsum (fun p : C * C => SpecFloatNumba.size (fst p) * SpecFloatNumba.size (snd p)) (combine (arr n phi) y)).
  assert (W3 : W2 <= 3 / 2 * W + 156 * X).
  { unfold W2. rewrite Cy, Rsum_map. cbn [fst snd]. change (SpecFloatNumba.size) with n1.
    apply Rle_trans with (Rsum (fun r => n1 (phi r) * vrow ham phi r + n1 (phi r) * rerr u eta T (vrow ham phi r)) (seq 0 (2 ^ n))).
    - apply Rsum_mono. intros r I. apply in_seq in I. rewrite <- Rmult_plus_distr_l. apply Rmult_le_compat_l; [apply n1_pos|].
      pose proof (n1_near _ _ _ (Rw r ltac:(lia))). pose proof (op_size n ham Hw phi r). lra.
    - rewrite Rsum_add. fold W. lra. }
  assert (Dt : n1 (dot (arr n phi) y - Csum (fun p => Cconj (fst p) * snd p) (combine (arr n phi) y))%C <= w * W2 + g).
  { apply HD.
    - rewrite arr_length. auto.
    - rewrite arr_length. auto.
    - unfold arr. apply Forall_forall. intros z I. apply in_map_iff in I as (r & <- & I). apply in_seq in I. apply Px. lia.
    - rewrite (list_as_map y (2 ^ n) Ly). apply Forall_forall. intros z I. apply in_map_iff in I as (r & <- & I). apply in_seq in I.
      pose proof (n1_near _ _ _ (Rw r ltac:(lia))) as Nr. pose proof (op_size n ham Hw phi r) as Os. pose proof (Vs r ltac:(lia)) as Vr. pose proof (vrow_pos ham phi r) as V0. rewrite Er in Nr.
      assert (T * u * vrow ham phi r <= 1 / 10 * vrow ham phi r) by (apply Rmult_le_compat_r; lra). change (n1 (nth r y C0) <= B / 20). lra.
    - fold W2. lra. }
  rewrite Cy, Csum_map in Dt. cbn [fst snd] in Dt.
  assert (Ro : n1 (Csum (fun r => Cconj (phi r) * nth r y C0)%C (seq 0 (2 ^ n)) - expval n (expr_op ham) phi)%C <= 5 * (T * u) * W + 156 * X).
  { eapply Rle_trans; [|exact Sp]. unfold expval, inner. rewrite <- Csum_sub. eapply Rle_trans; [apply n1_Csum|]. apply Rsum_mono. intros r I. apply in_seq in I.
    replace (Cconj (phi r) * nth r y C0 - Cconj (phi r) * expr_op ham phi r)%C with (Cconj (phi r) * (nth r y C0 - expr_op ham phi r))%C by ring. eapply Rle_trans; [apply n1_mul|]. rewrite n1_conj.
    apply Rmult_le_compat_l; [apply n1_pos|]. apply Rw. lia. }
  pose proof (expval_close n ham Hw phi psi e Np Nd He') as Ex.
  pose proof (n1_tri _ _ _ _ _ (n1_tri _ _ _ _ _ Dt Ro) Ex) as Tr. pose proof (n1_fst (dot (arr n phi) y - expval n (expr_op ham) psi)%C) as Nr.
  change (fst (dot (arr n phi) y - expval n (expr_op ham) psi)%C) with (Cre (dot (arr n phi) y) - Cre (expval n (expr_op ham) psi)) in Nr.
  assert (WW : w * W2 <= 4 * (total ham * w) + 156 * X).
  { apply Rle_trans with (w * (3 / 2 * W + 156 * X)); [apply Rmult_le_compat_l; lra|]. assert (w * W <= w * (total ham * (242 / 100))) by (apply Rmult_le_compat_l; lra). assert (w * (156 * X) <= 1 * (156 * X)) by (apply Rmult_le_compat_r; lra).
    assert (0 <= w * total ham) by (apply Rmult_le_pos; lra). lra. }
  assert (0 <= T * u * total ham) by (apply Rmult_le_pos; lra). unfold X in *. lra.
Qed.
End Energy.

(** ** One product after the other *)
Lemma dot_seq : forall A u eta B n, rounds_within A u eta B -> 0 < u <= / 1000 -> 0 <= eta <= u / 1000 -> 2 ^ n * u <= 1 / 10 -> 6 <= B -> dots_within (sequential_dot A) n ((2 * 2 ^ n + 3) * u) (11 * 2 ^ n * eta) B.
Proof.
  intros A u eta B n HR Hu He Hn HB a b L Ln Fa Fb HW. unfold sequential_dot. set (W := Rsum (fun p => SpecFloatNumba.size (fst p) * SpecFloatNumba.size (snd p)) (combine a b)) in *.
  change (n1 (fold_left (fun s p => fc_add A s (fc_mul A (Cconj (fst p)) (snd p))) (combine a b) C0 - Csum (fun p => Cconj (fst p) * snd p) (combine a b))%C <= (2 * 2 ^ n + 3) * u * W + 11 * 2 ^ n * eta).
  set (l := combine a b) in *. assert (Ll : (List.length l <= 2 ^ n)%nat) by (unfold l; rewrite combine_length; lia).
  assert (LR : INR (List.length l) <= 2 ^ n) by (apply Rle_trans with (INR (2 ^ n)); [apply le_INR; auto|rewrite pow_INR; change (INR 2) with 2; lra]).
  pose proof (pos_INR (List.length l)) as K0. set (k := INR (List.length l)) in *.
  assert (W0 : 0 <= W) by (apply Rsum_nonneg; intros; apply Rmult_le_pos; apply n1_pos).
  assert (Kb : k * u <= 2 ^ n * u) by (apply Rmult_le_compat_r; lra). assert (Pw : (1 + u) ^ List.length l <= 112 / 100) by (pose proof (power_small u (List.length l) (proj1 Hu) ltac:(fold k; lra)) as Q; fold k in Q; lra).
  assert (Pw1 : 1 <= (1 + u) ^ List.length l) by (apply pow_R1_Rle; lra).
  set (dl := fun p : C * C => 21 / 10 * u * (SpecFloatNumba.size (fst p) * SpecFloatNumba.size (snd p)) + 7 * eta).
  assert (Sd : Rsum dl l = 21 / 10 * u * W + k * (7 * eta)) by (unfold dl; rewrite Rsum_add, Rsum_mul_l, sum_const; reflexivity).
  assert (P2 : 1 <= 2 ^ n) by (apply pow_R1_Rle; lra). assert (UW : 0 <= u * W) by (apply Rmult_le_pos; lra). assert (KW : k * (u * W) <= 2 ^ n * (u * W)) by (apply Rmult_le_compat_r; auto).
  assert (KE : k * eta <= 2 ^ n * eta) by (apply Rmult_le_compat_r; lra). assert (KE0 : 0 <= k * eta) by (apply Rmult_le_pos; lra). assert (KW0 : 0 <= k * (u * W)) by (apply Rmult_le_pos; lra).
  assert (NW : 2 ^ n * (u * W) <= 1 / 10 * W) by (rewrite <- Rmult_assoc; apply Rmult_le_compat_r; lra).
  assert (NE : 2 ^ n * eta <= / 10000) by (apply Rle_trans with (2 ^ n * (u / 1000)); [apply Rmult_le_compat_l; lra|lra]).
  assert (Uw : u * W <= / 1000 * W) by (apply Rmult_le_compat_r; lra).
  assert (Bd : (1 + u) ^ List.length l * (0 + Rsum dl l + k * (u * W + 2 * eta)) <= (2 * 2 ^ n + 3) * u * W + 11 * 2 ^ n * eta).
  { rewrite Sd. set (X := 0 + (21 / 10 * u * W + k * (7 * eta)) + k * (u * W + 2 * eta)). assert (0 <= X) by (unfold X; lra).
    assert ((1 + u) ^ List.length l * X <= 112 / 100 * X) by (apply Rmult_le_compat_r; lra). unfold X in *. lra. }
  rewrite <- (Cadd_0_l (Csum _ l)). eapply Rle_trans; [|exact Bd]. apply (sum_err A u eta B HR Hu He _ _ _ dl W).
  - rewrite n1_self. lra.
  - intros [x y] I. cbn [fst snd]. unfold dl. cbn [fst snd]. pose proof (in_combine_l _ _ _ _ I) as Ix. pose proof (in_combine_r _ _ _ _ I) as Iy. rewrite Forall_forall in Fa, Fb. specialize (Fa x Ix). specialize (Fb y Iy).
    change (SpecFloatNumba.size) with n1 in *. rewrite <- (n1_conj x) in *. pose proof (n1_pos (Cconj x)). pose proof (n1_pos y).
    assert (Q : n1 (Cconj x) * n1 y <= W). { rewrite n1_conj. apply (sum_member _ (fun p : C * C => n1 (fst p) * n1 (snd p)) l (x, y)); auto. intros. apply Rmult_le_pos; apply n1_pos. }
    apply (fmul_err A u eta B HR Hu He); lra.
  - rewrite n1_0, Rplus_0_l. apply Rsum_mono. intros p _. eapply Rle_trans; [apply n1_mul|]. rewrite n1_conj. apply Rle_refl.
  - fold k. lra.
Qed.
