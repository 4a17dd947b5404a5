(** Proofs: errors of rounded sparse matrices and of their products with states *)
From Coq Require Import List Arith NArith ZArith Bool Reals Lia Lra Permutation.
Import ListNotations.
From Verif Require Import Base Cplx Bits ModelTargets ModelGate ModelNumpy ModelPauli ModelPauliMatrix ModelVqe ModelFloat ModelFloatVqe ModelFloatSparse
  SpecQuantum SpecPauli SpecPauliMatrix SpecVqe SpecFloat SpecFinite SpecFloatNumba SpecFloatSparse ProofArray ProofPauli ProofPauliExpr ProofFloat ProofFinite ProofKron ProofPauliMatrix ProofFloatVqe ProofFloatVqeEnergy
  ProofFloatSparse ProofFloatSparseMat.
Local Open Scope R_scope.

Lemma n1_unit4 : forall z w, unit4 z -> n1 (z * w)%C = n1 w.
Proof.
  intros z [a b] [->|[->|[->| ->]]]; unfold n1, C1, Ci, Copp, Cmul; cbn [fst snd].
  - replace (1 * a - 0 * b) with a by ring. replace (1 * b + 0 * a) with b by ring. auto.
  - replace (- (1) * a - - 0 * b) with (- a) by ring. replace (- (1) * b + - 0 * a) with (- b) by ring. rewrite !Rabs_Ropp. auto.
  - replace (0 * a - 1 * b) with (- b) by ring. replace (0 * b + 1 * a) with a by ring. rewrite !Rabs_Ropp. lra.
  - replace (- 0 * a - - (1) * b) with b by ring. replace (- 0 * b + - (1) * a) with (- a) by ring. rewrite !Rabs_Ropp. lra.
Qed.
Lemma wordp_unit : forall rm w x, unit4 (wordp rm w x).
Proof.
  induction w as [|o w IH]; intros x; cbn [wordp fold_right]; [left; auto|]. apply unit_mul; [|apply IH]. unfold unit4. destruct (fst o), rm, (bit x (snd o)); cbn; auto.
Qed.
Lemma tval_size : forall rm t x, n1 (tval rm t x) = n1 (t_coeff t).
Proof. intros. unfold tval. apply n1_unit4, wordp_unit. Qed.
Definition wsum (g : list term) : R := Rsum (fun t => n1 (t_coeff t)) g.
Lemma wsum_pos : forall g, 0 <= wsum g. Proof. intros. apply Rsum_nonneg. intros. apply n1_pos. Qed.
Definition gval (g : list term) (c : nat) : C := Csum (fun t => tval false t c) g.
Lemma gval_size : forall g c, n1 (gval g c) <= wsum g.
Proof. intros. unfold gval, wsum. eapply Rle_trans; [apply n1_Csum|]. apply Req_le, Rsum_ext. intros. apply tval_size. Qed.
Lemma Rsum_concat : forall X (f : X -> R) l, Rsum f (concat l) = Rsum (fun g => Rsum f g) l.
Proof. induction l as [|g l IH]; auto. cbn [concat]. rewrite Rsum_app, IH. auto. Qed.
Lemma groups_total : forall ham, Rsum wsum (sorted_groups ham) = total ham.
Proof. intros. unfold wsum. rewrite <- Rsum_concat. unfold sorted_groups. rewrite (proj2 (groups_spec _)). apply Rsum_perm. apply sort_perm. Qed.
Lemma concat_length_le : forall X (l : list (list X)), Forall (fun g => g <> []) l -> (List.length l <= List.length (concat l))%nat /\ forall g, In g l -> (List.length g <= List.length (concat l))%nat.
Proof.
  induction l as [|g l IH]; intros F; [split; [auto|intros g []]|]. inversion F as [|x y N F']; subst x y. destruct (IH F') as [I1 I2]. cbn [concat List.length]. rewrite app_length. split.
  - destruct g; [congruence|]. simpl. lia.
  - intros h [<-|I]; [lia|]. specialize (I2 h I). lia.
Qed.
Lemma groups_len : forall ham, (List.length (sorted_groups ham) <= List.length ham)%nat /\ forall g, In g (sorted_groups ham) -> (List.length g <= List.length ham)%nat.
Proof.
  intros ham. destruct (groups_spec (sort_by (fun a b => xy_mask (t_ops a) <=? xy_mask (t_ops b))%nat ham)) as [F E]. fold (sorted_groups ham) in F, E.
  assert (L : List.length (concat (sorted_groups ham)) = List.length ham) by (rewrite E; apply Permutation_length; apply sort_perm). rewrite <- L. apply concat_length_le.
  apply Forall_forall. intros g I. rewrite Forall_forall in F. apply (F g I).
Qed.
Lemma groups_in : forall ham g t, In g (sorted_groups ham) -> In t g -> In t ham.
Proof.
  intros ham g t G I. apply (Permutation_in _ (sort_perm (fun a b => xy_mask (t_ops a) <=? xy_mask (t_ops b))%nat _)). rewrite <- (proj2 (groups_spec _)). apply in_concat. exists g. auto.
Qed.
Lemma groups_same : forall ham g, In g (sorted_groups ham) -> same_mask g.
Proof. intros ham g I. pose proof (proj1 (groups_spec (sort_by (fun a b => xy_mask (t_ops a) <=? xy_mask (t_ops b))%nat ham))) as F. rewrite Forall_forall in F. apply F, I. Qed.
Lemma groups_nil : forall ham, ham <> [] -> sorted_groups ham <> [].
Proof.
  intros ham N E. pose proof (proj2 (groups_spec (sort_by (fun a b => xy_mask (t_ops a) <=? xy_mask (t_ops b))%nat ham))) as G. fold (sorted_groups ham) in G. rewrite E in G. cbn [concat] in G.
  pose proof (sort_perm (fun a b => xy_mask (t_ops a) <=? xy_mask (t_ops b))%nat ham) as Q. rewrite <- G in Q. apply N, Permutation_nil. auto.
Qed.
(** what a group does to a state *)
Lemma group_row : forall n g phi r, Forall (fun t => separate_word n (t_ops t)) g -> same_mask g ->
  (gval g (Nat.lxor r (gmask g)) * phi (Nat.lxor r (gmask g)))%C = Csum (fun t => term_op t phi r) g.
Proof.
  intros n g phi r F [N M]. unfold gval. rewrite <- Csum_mul_r. apply Csum_ext. intros t I. rewrite Forall_forall in F. destruct (F t I) as [Nt Ft].
  assert (E : gmask g = maskr (t_ops t)). { rewrite <- mask_eq by auto. destruct g as [|s g]; [congruence|]. apply M; auto. left. auto. }
  rewrite E. unfold tval. rewrite word_col by auto. unfold term_op, op_scl. rewrite word_row by auto. ring.
Qed.
Lemma groups_op : forall ham phi r, Csum (fun g => Csum (fun t => term_op t phi r) g) (sorted_groups ham) = expr_op ham phi r.
Proof. intros. rewrite expr_op_sum, <- Csum_concat. unfold sorted_groups. rewrite (proj2 (groups_spec _)). apply Csum_perm. apply sort_perm. Qed.
Lemma gmask_lt : forall n g r, Forall (fun t => separate_word n (t_ops t)) g -> g <> [] -> (r < 2 ^ n)%nat -> (Nat.lxor r (gmask g) < 2 ^ n)%nat.
Proof. intros n [|t g] r F N L; [congruence|]. inversion F as [|x y [N1 F1] F2]; subst. cbn [gmask]. rewrite mask_eq by auto. apply mask_lt; auto. Qed.

Section Errors.
Variables (A : arith) (u eta B T St : R) (D : R -> Prop) (n : nat).
Hypothesis HR : rounds_within A u eta B.
Hypothesis HK : keeps A D.
Hypothesis Hu : 0 < u <= / 1000.
Hypothesis He : 0 <= eta <= u / 1000.
Hypothesis HT : 1 <= T.
Hypothesis HTu : T * u <= 1 / 10.
Hypothesis HTe : T * T * eta <= / 1000.
Hypothesis HS : 0 <= St.
Hypothesis HB : 1000 * (1 + St) <= B.
Hypothesis Hn : (0 < n)%nat.

Lemma T_eta : T * eta <= T * T * eta /\ eta <= T * eta /\ 0 <= eta.
Proof. assert (0 <= T * eta) by (apply Rmult_le_pos; lra). assert (1 * eta <= T * eta) by (apply Rmult_le_compat_r; lra). assert (1 * (T * eta) <= T * (T * eta)) by (apply Rmult_le_compat_r; lra). lra. Qed.
Lemma powers : forall k, INR k <= T -> 1 <= (1 + u) ^ k <= 112 / 100.
Proof.
  intros k L. split; [apply pow_R1_Rle; lra|]. assert (INR k * u <= T * u) by (apply Rmult_le_compat_r; lra). pose proof (power_small u k (proj1 Hu) ltac:(lra)). lra.
Qed.
Definition gerr (s : R) : R := 112 / 100 * (T * (u * s + 2 * eta)).
Lemma gerr_small : forall s, 0 <= s -> 0 <= gerr s /\ gerr s <= 112 / 1000 * s + 224 / 100 * (T * eta) /\ gerr s = 112 / 100 * (T * u * s) + 224 / 100 * (T * eta).
Proof.
  intros s P. unfold gerr. assert (0 <= T * u) by (apply Rmult_le_pos; lra). assert (T * u * s <= 1 / 10 * s) by (apply Rmult_le_compat_r; lra).
  assert (0 <= T * u * s) by (apply Rmult_le_pos; lra). assert (0 <= T * eta) by (apply Rmult_le_pos; lra). lra.
Qed.
Definition in_order (t : term) : Prop := separate_word n (t_ops t) /\ inD D (t_coeff t).
Lemma fl_vadd_nth : forall a b i, List.length a = List.length b -> (i < List.length a)%nat -> nth i (fl_vadd A a b) C0 = fc_add A (nth i a C0) (nth i b C0).
Proof.
  induction a as [|x a IH]; intros [|y b] i H L; simpl in H, L; try discriminate; [lia|]. destruct i; auto. simpl. apply IH; lia.
Qed.
Lemma fl_vadd_length : forall a b, List.length a = List.length b -> List.length (fl_vadd A a b) = List.length a.
Proof. intros. unfold fl_vadd. rewrite map_length, combine_length. lia. Qed.
Lemma group_fold : forall r acc (v : nat -> C), Forall in_order r -> List.length acc = (2 ^ n)%nat -> (forall k, (k < 2 ^ n)%nat -> nth k acc C0 = v k) -> exists d',
    for_list r (fun s acc => let* d := fl_term_data A s n false in Ok (fl_vadd A acc d)) acc = Ok d' /\ List.length d' = (2 ^ n)%nat /\
    forall k, (k < 2 ^ n)%nat -> nth k d' C0 = fold_left (fun s t => fc_add A s (tval false t k)) r (v k).
Proof.
  induction r as [|s r IH]; intros acc v F L V.
  - exists acc. auto.
  - inversion F as [|x y [[N1 F1] D1] F2]; subst x y. destruct (term_data_ok s n false N1 F1 Hn) as [d [E [L' Dd]]]. cbn [for_list]. rewrite (term_data_exact A D HK) by auto. rewrite E. cbn [bind].
    destruct (IH (fl_vadd A acc d) (fun k => fc_add A (v k) (tval false s k))) as [d' [E' [L2 D']]]; auto.
    + rewrite fl_vadd_length; lia.
    + intros k K. rewrite fl_vadd_nth, V, Dd by (auto; lia). auto.
    + exists d'. auto.
Qed.
Lemma group_err : forall g, g <> [] -> Forall in_order g -> INR (List.length g) <= T -> wsum g <= St -> exists d, fl_group_data A g n false = Ok d /\ List.length d = (2 ^ n)%nat /\
  forall c, (c < 2 ^ n)%nat -> n1 (nth c d C0 - gval g c)%C <= gerr (wsum g).
Proof.
  intros [|t r] N F LT LS; [congruence|]. inversion F as [|x y [[N1 F1] D1] F2]; subst x y. unfold fl_group_data. destruct (term_data_ok t n false N1 F1 Hn) as [d [E [L Dd]]].
  rewrite (term_data_exact A D HK) by auto. rewrite E. cbn [bind]. destruct (group_fold r d (tval false t) F2 L Dd) as [d' [E' [L' D']]]. exists d'. split; auto. split; auto.
  intros c Lc. rewrite D' by auto. change (gval (t :: r) c) with (tval false t c + Csum (fun t => tval false t c) r)%C. cbn [List.length] in LT. rewrite S_INR in LT.
  pose proof (wsum_pos (t :: r)) as P. set (s := wsum (t :: r)) in *. pose proof (pos_INR (List.length r)) as P0. destruct (powers (List.length r) ltac:(lra)) as [W1 W2]. destruct T_eta as [TE1 [TE2 TE3]].
  set (k := INR (List.length r)) in *. assert (U0 : 0 <= u * s) by (apply Rmult_le_pos; lra).
  assert (Bd : (1 + u) ^ List.length r * (0 + Rsum (fun _ : term => 0) r + k * (u * s + 2 * eta)) <= gerr s).
  { rewrite sum_const. fold k. replace (0 + k * 0 + k * (u * s + 2 * eta)) with (k * (u * s + 2 * eta)) by ring. unfold gerr.
    assert (k * (u * s + 2 * eta) <= T * (u * s + 2 * eta)) by (apply Rmult_le_compat_r; lra). assert (0 <= k * (u * s + 2 * eta)) by (apply Rmult_le_pos; lra).
    apply Rmult_le_compat; lra. }
  destruct (gerr_small s P) as [G1 [G2 G3]].
  eapply Rle_trans; [|exact Bd]. apply (sum_err A u eta B HR Hu He _ _ _ _ s).
  - rewrite n1_self. lra.
  - intros a _. rewrite n1_self. lra.
  - rewrite tval_size. rewrite (Rsum_ext _ _ (fun a => n1 (t_coeff a))) by (intros; apply tval_size). unfold s, wsum. rewrite sum_cons. lra.
  - fold k. lra.
Qed.

(** ** Rows *)
Variable dat : list term -> list C.
Variable ham : expr.
Let gs := sorted_groups ham.
Hypothesis Hham : Forall in_order ham.
Hypothesis HTl : INR (List.length ham) <= T.
Hypothesis HSt : total ham <= St.
Hypothesis Hdat : forall g, In g gs -> forall c, (c < 2 ^ n)%nat -> n1 (nth c (dat g) C0 - gval g c)%C <= gerr (wsum g).
Variable phi : state.
Hypothesis Hphi : forall c, (c < 2 ^ n)%nat -> n1 (phi c) <= 6.
Definition vrow (r : nat) : R := Rsum (fun g => wsum g * n1 (phi (Nat.lxor r (gmask g)))) gs.
Lemma gs_word : forall g, In g gs -> Forall (fun t => separate_word n (t_ops t)) g.
Proof. intros g I. apply Forall_forall. intros t J. pose proof (groups_in _ _ _ I J) as K. rewrite Forall_forall in Hham. apply (Hham t K). Qed.
Lemma gs_ne : forall g, In g gs -> g <> []. Proof. intros g I. apply (groups_same _ _ I). Qed.
Lemma gs_small : forall g, In g gs -> wsum g <= St.
Proof. intros g I. apply Rle_trans with (2 := HSt). rewrite <- (groups_total ham). apply (sum_member _ wsum); [intros; apply wsum_pos|exact I]. Qed.
Lemma vrow_pos : forall r, 0 <= vrow r.
Proof. intros. apply Rsum_nonneg. intros. apply Rmult_le_pos; [apply wsum_pos|apply n1_pos]. Qed.
Lemma vrow_small : forall r, (r < 2 ^ n)%nat -> vrow r <= 6 * St.
Proof.
  intros r L. unfold vrow. apply Rle_trans with (Rsum (fun g => wsum g * 6) gs).
  - apply Rsum_mono. intros g I. apply Rmult_le_compat_l; [apply wsum_pos|]. apply Hphi. apply gmask_lt; auto; [apply gs_word|apply gs_ne]; auto.
  - rewrite Rsum_mul_r. unfold gs. rewrite groups_total. lra.
Qed.
Definition rerr (v : R) : R := 5 * (T * u) * v + 26 * (T * T * eta).
Lemma row_err : forall r, (r < 2 ^ n)%nat ->
  n1 (fold_left (fun s cg => fc_add A s (fc_mul A (nth (fst cg) (dat (snd cg)) C0) (nth (fst cg) (arr n phi) C0))) (row_pairs n gs r) C0 - expr_op ham phi r)%C <= rerr (vrow r).
Proof.
  intros r Lr. destruct T_eta as [TE1 [TE2 TE3]]. assert (Gm : forall g, In g gs -> (Nat.lxor r (gmask g) < 2 ^ n)%nat) by (intros g I; apply gmask_lt; auto; [apply gs_word|apply gs_ne]; auto).
  assert (E : expr_op ham phi r = (C0 + Csum (fun cg => gval (snd cg) (fst cg) * phi (fst cg))%C (row_pairs n gs r))%C).
  { rewrite (row_Csum n gs r (fun c g => gval g c * phi c)%C Gm). rewrite <- groups_op. fold gs. rewrite Cadd_0_l. apply Csum_ext. intros g I. symmetry. eapply group_row; [apply gs_word; auto|apply (groups_same _ _ I)]. }
  rewrite E. pose proof (vrow_pos r) as V0. pose proof (vrow_small r Lr) as V1. set (V := vrow r) in *.
  set (dl := fun cg : nat * list term => 346 / 100 * (T * u) * (wsum (snd cg) * n1 (phi (fst cg))) + 205 / 10 * (T * eta)).
  pose proof (row_length n gs r Gm) as RL. assert (GT : INR (List.length gs) <= T) by (eapply Rle_trans; [apply le_INR, (proj1 (groups_len ham))|auto]).
  destruct (powers _ GT) as [W1 W2]. pose proof (pos_INR (List.length gs)) as P0. set (k := INR (List.length gs)) in *.
  assert (TU : 0 <= T * u) by (apply Rmult_le_pos; lra). assert (TV : 0 <= T * u * V) by (apply Rmult_le_pos; lra).
  assert (Sd : Rsum dl (row_pairs n gs r) = 346 / 100 * (T * u) * V + k * (205 / 10 * (T * eta))).
  { unfold dl. rewrite (row_Rsum n gs r (fun c g => 346 / 100 * (T * u) * (wsum g * n1 (phi c)) + 205 / 10 * (T * eta)) Gm). rewrite Rsum_add, sum_const, Rsum_mul_l. reflexivity. }
  assert (Bd : (1 + u) ^ List.length gs * (0 + Rsum dl (row_pairs n gs r) + k * (u * V + 2 * eta)) <= rerr V).
  { rewrite Sd. unfold rerr. assert (k * (205 / 10 * (T * eta)) <= T * (205 / 10 * (T * eta))) by (apply Rmult_le_compat_r; lra). assert (0 <= u * V) by (apply Rmult_le_pos; lra).
    assert (k * (u * V + 2 * eta) <= T * (u * V + 2 * eta)) by (apply Rmult_le_compat_r; lra). assert (0 <= k * (u * V + 2 * eta)) by (apply Rmult_le_pos; lra).
    assert (0 <= k * (205 / 10 * (T * eta))) by (apply Rmult_le_pos; lra).
    set (X := 0 + (346 / 100 * (T * u) * V + k * (205 / 10 * (T * eta))) + k * (u * V + 2 * eta)).
    assert (X0 : 0 <= X) by (unfold X; lra). assert (X1 : X <= 446 / 100 * (T * u * V) + 225 / 10 * (T * T * eta)) by (unfold X; lra).
    assert ((1 + u) ^ List.length gs * X <= 112 / 100 * X) by (apply Rmult_le_compat_r; lra). lra. }
  assert (Rg : rerr V <= 1 / 2 * V + / 10) by (unfold rerr; assert (T * u * V <= 1 / 10 * V) by (apply Rmult_le_compat_r; lra); lra).
  assert (EK : k = INR (List.length (row_pairs n gs r))) by (unfold k; rewrite RL; auto). rewrite <- RL, EK in Bd. eapply Rle_trans; [|exact Bd].
  assert (Item : forall cg, In cg (row_pairs n gs r) -> n1 (fc_mul A (nth (fst cg) (dat (snd cg)) C0) (nth (fst cg) (arr n phi) C0) - gval (snd cg) (fst cg) * phi (fst cg))%C <= dl cg).
  { intros [c g] I. apply row_in in I as [Ig [Lc _]]. unfold dl. cbn [fst snd]. rewrite arr_nth by auto. pose proof (Hdat g Ig c Lc) as Dg. pose proof (Hphi c Lc) as Px. pose proof (n1_pos (phi c)) as Px0.
    pose proof (wsum_pos g) as Pw. pose proof (gs_small g Ig) as Pw1. pose proof (gval_size g c) as Gz. pose proof (n1_near _ _ _ Dg) as Nd. destruct (gerr_small _ Pw) as [G1 [G2 G3]].
    set (v := nth c (dat g) C0) in *. set (x := phi c) in *. set (s := wsum g) in *. pose proof (n1_pos v) as Pv.
    assert (Vb : n1 v <= 1112 / 1000 * s + 224 / 100 * (T * eta)) by lra. assert (TT : T * eta <= / 1000) by lra.
    assert (Vx : n1 v * n1 x <= n1 v * 6) by (apply Rmult_le_compat_l; lra).
    pose proof (fmul_err A u eta B HR Hu He v x ltac:(lra) ltac:(lra) ltac:(lra)) as Mu.
    replace (fc_mul A v x - gval g c * x)%C with ((fc_mul A v x - v * x) + (v - gval g c) * x)%C by ring. eapply Rle_trans; [apply n1_add|].
    pose proof (n1_mul (v - gval g c)%C x) as Mx. assert (M2 : n1 (v - gval g c)%C * n1 x <= gerr s * n1 x) by (apply Rmult_le_compat_r; auto).
    assert (Q0 : 0 <= s * n1 x) by (apply Rmult_le_pos; auto). assert (Q1 : 0 <= T * eta * n1 x <= T * eta * 6) by (split; [apply Rmult_le_pos; lra|apply Rmult_le_compat_l; lra]).
    assert (Q2 : n1 v * n1 x <= 1112 / 1000 * (s * n1 x) + 224 / 100 * (T * eta * n1 x)).
    { replace (1112 / 1000 * (s * n1 x) + 224 / 100 * (T * eta * n1 x)) with ((1112 / 1000 * s + 224 / 100 * (T * eta)) * n1 x) by ring. apply Rmult_le_compat_r; auto. }
    assert (Q3 : u * (n1 v * n1 x) <= 1112 / 1000 * (u * (s * n1 x)) + / 1000 * (224 / 100 * (T * eta * 6))).
    { apply Rle_trans with (u * (1112 / 1000 * (s * n1 x)) + u * (224 / 100 * (T * eta * 6))); [rewrite <- Rmult_plus_distr_l; apply Rmult_le_compat_l; lra|].
      assert (u * (224 / 100 * (T * eta * 6)) <= / 1000 * (224 / 100 * (T * eta * 6))) by (apply Rmult_le_compat_r; lra). lra. }
    assert (Q4 : u * (s * n1 x) <= T * u * (s * n1 x)) by (apply Rmult_le_compat_r; [auto|]; assert (1 * u <= T * u) by (apply Rmult_le_compat_r; lra); lra).
    rewrite G3 in M2. replace ((112 / 100 * (T * u * s) + 224 / 100 * (T * eta)) * n1 x) with (112 / 100 * (T * u * (s * n1 x)) + 224 / 100 * (T * eta * n1 x)) in M2 by ring. assert (0 <= u * (s * n1 x)) by (apply Rmult_le_pos; lra). lra. }
  apply (sum_err A u eta B HR Hu He _ _ (fun cg => gval (snd cg) (fst cg) * phi (fst cg))%C dl V).
  - rewrite n1_self. lra.
  - exact Item.
  - rewrite n1_0. apply Rle_trans with (0 + Rsum (fun cg => wsum (snd cg) * n1 (phi (fst cg))) (row_pairs n gs r)).
    + apply Rplus_le_compat_l. apply Rsum_mono. intros [c g] _. cbn [fst snd]. eapply Rle_trans; [apply n1_mul|]. apply Rmult_le_compat_r; [apply n1_pos|apply gval_size].
    + rewrite (row_Rsum n gs r (fun c g => wsum g * n1 (phi c)) Gm). unfold V, vrow. lra.
  - lra.
Qed.
End Errors.
