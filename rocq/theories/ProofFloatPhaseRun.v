(** The removal of the global phase in rounded arithmetic *)
From Coq Require Import List Arith NArith ZArith Bool Reals Lia Lra Psatz FunctionalExtensionality.
Import ListNotations.
From Verif Require Import Base Cplx Bits ModelNumpy ModelFloat ModelFloatNumba ModelFloatPhase SpecQuantum SpecFloat SpecFinite SpecFloatNumba SpecFiniteMeasure SpecFloatPhase
  ProofArray ProofMeasure ProofPhase ProofFloat ProofFloatOps ProofFloatMeas ProofFinite ProofFloatTop ProofFloatPhase.
Local Open Scope R_scope.

(** ** Moduli *)
Lemma Cabs_0 : forall z, Cabs z = norm 0 (fun _ => z).
Proof. intros z. unfold Cabs, norm, norm2. f_equal. change (2 ^ 0)%nat with 1%nat. cbn [seq Rsum]. lra. Qed.
Lemma Cabs_add : forall z w, Cabs (z + w)%C <= Cabs z + Cabs w.
Proof. intros z w. rewrite !Cabs_0. apply (norm_add 0 (fun _ => z) (fun _ => w)). Qed.
Lemma Cabs_mul : forall z w, Cabs (z * w)%C = Cabs z * Cabs w.
Proof. intros. unfold Cabs. rewrite Cnorm2_mul. apply sqrt_mult; apply Cnorm2_pos. Qed.
Lemma Cabs_RtoC : forall r, Cabs (RtoC r) = Rabs r.
Proof. intros. unfold Cabs. rewrite Cnorm2_RtoC. apply sqrt_Rsqr_abs. Qed.
Lemma Cabs_opp : forall z, Cabs (- z)%C = Cabs z.
Proof. intros. unfold Cabs. rewrite Cnorm2_opp. reflexivity. Qed.
Lemma Cabs_sym : forall z w, Cabs (z - w)%C = Cabs (w - z)%C.
Proof. intros. rewrite <- Cabs_opp. f_equal. ring. Qed.
Lemma Cabs_near : forall z w, Rabs (Cabs z - Cabs w) <= Cabs (z - w)%C.
Proof.
  intros. pose proof (Cabs_add (z - w) w) as H1. pose proof (Cabs_add (w - z) z) as H2. rewrite (Cabs_sym w z) in H2.
  replace (z - w + w)%C with z in H1 by ring. replace (w - z + z)%C with w in H2 by ring. apply Rabs_le. lra.
Qed.
Lemma Cabs_neq : forall z, 0 < Cabs z -> z <> C0.
Proof. intros z H E. rewrite E in H. unfold Cabs in H. rewrite Cnorm2_C0, sqrt_0 in H. lra. Qed.
Lemma Cabs_inv : forall z, 0 < Cabs z -> Cabs (/ z)%C = / Cabs z.
Proof.
  intros z H. pose proof (Cabs_neq z H) as N. assert (E : (/ z * z)%C = C1) by (field; auto). apply (f_equal Cabs) in E. rewrite Cabs_mul in E.
  unfold Cabs at 3 in E. rewrite Cnorm2_C1, sqrt_1 in E. apply Rmult_eq_reg_r with (Cabs z); [|lra]. rewrite E, Rinv_l; lra.
Qed.
Lemma n1_Cabs : forall z, n1 z <= 3 / 2 * Cabs z.
Proof. intros z. pose proof (n1_sq2 z). rewrite <- Cabs_sq in H. pose proof (n1_pos z). pose proof (Cabs_nonneg z). nra. Qed.
Lemma unit_diff : forall a b, 0 < Cabs a -> 0 < Cabs b -> Cabs (RtoC (Cabs a) / a - RtoC (Cabs b) / b)%C <= 2 * (Cabs (a - b)%C / Cabs b).
Proof.
  intros a b Ha Hb. pose proof (Cabs_neq a Ha) as Na. pose proof (Cabs_neq b Hb) as Nb.
  replace (RtoC (Cabs a) / a - RtoC (Cabs b) / b)%C with ((RtoC (Cabs a) * (b - a) + RtoC (Cabs a - Cabs b) * a) * (/ a * / b))%C.
  2:{ unfold Rminus. rewrite RtoC_add. replace (RtoC (- Cabs b)) with (- RtoC (Cabs b))%C by (unfold RtoC, Copp; cbn [fst snd]; f_equal; ring). field. auto. }
  rewrite !Cabs_mul, !Cabs_inv by auto. pose proof (Cabs_add (RtoC (Cabs a) * (b - a)) (RtoC (Cabs a - Cabs b) * a)) as T.
  rewrite !Cabs_mul, !Cabs_RtoC, (Rabs_pos_eq (Cabs a)), (Cabs_sym b a) in T by lra. pose proof (Cabs_near a b) as NR. set (e := Cabs (a - b)%C) in *.
  assert (T2 : Cabs (RtoC (Cabs a) * (b - a) + RtoC (Cabs a - Cabs b) * a)%C <= 2 * (Cabs a * e)) by nra.
  apply Rle_trans with (2 * (Cabs a * e) * (/ Cabs a * / Cabs b)).
  - apply Rmult_le_compat_r; auto. left. apply Rmult_lt_0_compat; apply Rinv_0_lt_compat; auto.
  - right. unfold Rdiv. field. lra.
Qed.
Lemma norm_scl' : forall n k a, norm n (scl k a) = Cabs k * norm n a.
Proof. intros. unfold norm, Cabs. rewrite norm2_scl. apply sqrt_mult; [apply Cnorm2_pos|apply norm2_pos]. Qed.
Lemma dist_scl : forall n k a b, dist n (scl k a) (scl k b) = Cabs k * dist n a b.
Proof. intros. unfold dist. rewrite <- norm_scl'. apply norm_ext. intros. unfold scl. ring. Qed.
Lemma dist_scl2 : forall n k l a, dist n (scl k a) (scl l a) = Cabs (k - l)%C * norm n a.
Proof. intros. unfold dist. rewrite <- norm_scl'. apply norm_ext. intros. unfold scl. ring. Qed.
Lemma entry_dist : forall n a b x, (x < 2 ^ n)%nat -> Cabs (a x - b x)%C <= dist n a b.
Proof. intros n a b x L. apply (Cabs_le_norm n (fun x => (a x - b x)%C) x L). Qed.

(** ** The exact result *)
Lemma exact_turned : forall n psi j m, 0 < m -> leads n psi j m -> ignore_global_phase (arr n psi) = arr n (turned j psi).
Proof.
  intros n psi j m M (J & G & L). unfold ignore_global_phase.
  assert (E : first_nonzero (arr n psi) = Some (psi j)).
  { apply first_some. unfold arr. replace (2 ^ n)%nat with (j + S (2 ^ n - S j))%nat by lia. rewrite seq_app, map_app. cbn [seq map]. rewrite Nat.add_0_l.
    do 2 eexists. split; [reflexivity|]. split.
    - apply Forall_forall. intros z Z. apply in_map_iff in Z as (i & <- & I). apply in_seq in I. unfold small, threshold. specialize (L i ltac:(lia)). lra.
    - unfold threshold. lra. }
  rewrite E. cbv zeta. rewrite arr_map. apply arr_ext. intros x _. unfold turned, scl. ring.
Qed.

Section Phase.
Variables u eta w g : R.
Variable n : nat.
Hypothesis Hn : (0 < n)%nat.
Hypothesis Hu : 0 < u <= 1 / 10000.
Hypothesis He0 : 0 <= eta.
Hypothesis Hg : eta / u * sqrt (2 ^ n) <= g.
Variable habs : C -> R.
Variable quot : R -> C -> C.
Variable mul : N -> C -> C -> C.
Variable thr : R.
Hypothesis HA : abs_within habs w.
Hypothesis Hw : u <= w <= 1 / 1000.
Hypothesis HQ : quot_near u quot.
Hypothesis HM : forall i z f, n1 z <= 6 -> n1 f <= 2 -> n1 (mul i z f - z * f)%C <= 5 * u * (n1 z * n1 f) + 20 * eta.
Hypothesis HT : Rabs (thr - / 10 ^ 7) <= w * / 10 ^ 7.

Lemma mul_all_arr : forall ang phi, mul_all mul ang (arr n phi) = arr n (fun x => mul (N.of_nat x) (phi x) ang).
Proof.
  intros. unfold mul_all, arr. rewrite map_length, seq_length. generalize (seq 0 (2 ^ n)). induction l as [|x l IH]; [reflexivity|]. cbn [map combine]. f_equal. exact IH.
Qed.
(** the factor *)
Lemma factor_near : forall q, 9 / 10 ^ 8 <= Cabs q <= 3 / 2 -> n1 (quot (habs q) q - RtoC (Cabs q) / q)%C <= 23 * u + 16 / 10 * w.
Proof.
  intros q H. pose proof (HA q ltac:(lra)) as W. set (a := Cabs q) in *. set (h := habs q) in *.
  assert (W1 : Rabs (h - a) <= 1002 / 1000 * (w * a)). { eapply Rle_trans; [exact W|]. assert (w * (9 / 10 ^ 8) <= w * a) by (apply Rmult_le_compat_l; lra). lra. }
  assert (W2 : w * a <= 1 / 1000 * a) by (apply Rmult_le_compat_r; lra). apply Rabs_le_inv in W1 as W3.
  pose proof (HQ h q ltac:(lra) ltac:(fold a; lra)) as Q. fold a in Q.
  assert (IA : 0 < / a) by (apply Rinv_0_lt_compat; lra).
  assert (HA1 : h / a <= 1002 / 1000) by (apply Rmult_le_reg_r with a; [lra|]; unfold Rdiv at 1; rewrite Rmult_assoc, Rinv_l by lra; lra).
  assert (X : n1 (RtoC h / q - RtoC a / q)%C <= 16 / 10 * w).
  { eapply Rle_trans; [apply n1_Cabs|]. replace (RtoC h / q - RtoC a / q)%C with (RtoC (h - a) * / q)%C.
    2:{ unfold Rminus. rewrite RtoC_add. replace (RtoC (- a)) with (- RtoC a)%C by (unfold RtoC, Copp; cbn [fst snd]; f_equal; ring). field. apply Cabs_neq. fold a. lra. }
    rewrite Cabs_mul, Cabs_RtoC, Cabs_inv by (fold a; lra). fold a.
    apply Rle_trans with (3 / 2 * (1002 / 1000 * (w * a) * / a)); [apply Rmult_le_compat_l; [lra|]; apply Rmult_le_compat_r; lra|].
    replace (3 / 2 * (1002 / 1000 * (w * a) * / a)) with (3 / 2 * (1002 / 1000) * w) by (field; lra). lra. }
  pose proof (n1_tri _ _ _ _ _ Q X) as T. assert (u * (h / a) <= u * (1002 / 1000)) by (apply Rmult_le_compat_l; lra). lra.
Qed.
Lemma apply_factor : forall phi q, norm n phi <= 3 / 2 -> 9 / 10 ^ 8 <= Cabs q <= 3 / 2 ->
  dist n (fun x => mul (N.of_nat x) (phi x) (quot (habs q) q)) (scl (RtoC (Cabs q) / q) phi) <= (120 * u + 6 * w) * (norm n phi + g).
Proof.
  intros phi q NP H. pose proof (factor_near q H) as F. set (a := quot (habs q) q) in *. set (b := (RtoC (Cabs q) / q)%C) in *.
  assert (B1 : n1 b <= 3 / 2) by (apply n1_unit; unfold b; rewrite ang_unit; lra).
  assert (A1 : n1 a <= 151 / 100) by (pose proof (n1_near _ _ _ F); lra).
  pose proof (norm_pos n phi) as N0. pose proof (sqrt_pos (2 ^ n)) as SP. assert (G0 : 0 <= eta / u) by (apply Rmult_le_pos; [auto|left; apply Rinv_0_lt_compat; lra]).
  assert (UG : u * (eta / u) = eta) by (field; lra).
  apply Rle_trans with (3 * (40 * u + 2 * w) * (norm n phi + eta / u * sqrt (2 ^ n))); [|nra].
  unfold dist. apply (pair_bound_add n 0); auto; [lra|]. intros x L. pose proof (entry_small n phi x L ltac:(lra)) as ES. set (z := phi x) in *. pose proof (n1_pos z) as Z0. pose proof (n1_pos (phi (flip x 0))) as Z1.
  pose proof (HM (N.of_nat x) z a ES ltac:(lra)) as M.
  assert (X : n1 (z * a - scl b phi x)%C <= n1 z * (23 * u + 16 / 10 * w)).
  { unfold scl. fold z. replace (z * a - b * z)%C with (z * (a - b))%C by ring. eapply Rle_trans; [apply n1_mul|]. apply Rmult_le_compat_l; auto. }
  eapply Rle_trans; [apply (n1_tri _ _ _ _ _ M X)|].
  assert (Y : n1 z * n1 a <= n1 z * (151 / 100)) by (apply Rmult_le_compat_l; auto). assert (Y2 : u * (n1 z * n1 a) <= 151 / 100 * (u * n1 z)) by nra.
  assert (0 <= u * n1 z) by (apply Rmult_le_pos; lra). assert (0 <= w * n1 z) by (apply Rmult_le_pos; lra).
  assert (0 <= (40 * u + 2 * w) * n1 (phi (flip x 0))) by (apply Rmult_le_pos; lra). assert (0 <= w * (eta / u)) by (apply Rmult_le_pos; lra). nra.
Qed.

(** the entry that is chosen *)
Lemma first_above_some : forall v q, first_above habs thr v = Some q -> exists a b, v = a ++ q :: b /\ Forall (fun z => habs z <= thr) a /\ thr < habs q.
Proof.
  induction v as [|x v IH]; intros q H; [discriminate|]. cbn [first_above] in H. destruct (Rltb thr (habs x)) eqn:E.
  - injection H as ->. exists [], v. apply Rltb_true in E. auto.
  - apply IH in H as (a & b & -> & F & T). exists (x :: a), b. apply Rltb_false in E. auto.
Qed.
Lemma first_above_at : forall a q b, Forall (fun z => habs z <= thr) a -> thr < habs q -> first_above habs thr (a ++ q :: b) = Some q.
Proof.
  induction a as [|x a IH]; intros q b F T; cbn [app first_above].
  - destruct (Rltb thr (habs q)) eqn:E; auto. apply Rltb_false in E. lra.
  - inversion F; subst. destruct (Rltb thr (habs x)) eqn:E; auto. apply Rltb_true in E. lra.
Qed.
Lemma chosen_size : forall q, thr < habs q -> Cabs q <= 3 / 2 -> 9 / 10 ^ 8 <= Cabs q.
Proof.
  intros q H L. pose proof (HA q ltac:(lra)) as W. apply Rabs_le_inv in W. apply Rabs_le_inv in HT. pose proof (Cabs_nonneg q). nra.
Qed.

(** Whatever entry it is, the state is multiplied by a number of modulus 1, up to rounding. *)
Lemma phase_unit : forall phi, norm n phi <= 3 / 2 -> exists k phi', Cnorm2 k = 1 /\ fl_ignore_global habs quot mul thr (arr n phi) = arr n phi' /\
  dist n phi' (scl k phi) <= (120 * u + 6 * w) * (norm n phi + g) /\
  ((exists i, (i < 2 ^ n)%nat /\ thr < habs (phi i)) -> exists j, (j < 2 ^ n)%nat /\ thr < habs (phi j) /\ (forall i, (i < j)%nat -> habs (phi i) <= thr) /\ (k * phi j)%C = RtoC (Cabs (phi j))).
Proof.
  intros phi NP. unfold fl_ignore_global. destruct (first_above habs thr (arr n phi)) as [q|] eqn:E.
  - apply first_above_some in E as (a & b & E & F & T). 
    assert (LN : (List.length a < 2 ^ n)%nat). { apply (f_equal (@List.length C)) in E. unfold arr in E. rewrite map_length, seq_length, app_length in E. cbn [List.length] in E. lia. }
    assert (Q : q = phi (List.length a)). { rewrite <- (arr_nth n) by auto. rewrite E, app_nth2, Nat.sub_diag by lia. reflexivity. }
    assert (AI : forall i, (i < List.length a)%nat -> habs (phi i) <= thr).
    { intros i I. rewrite <- (arr_nth n) by lia. rewrite E, app_nth1 by auto. rewrite Forall_forall in F. apply F. apply nth_In. auto. }
    pose proof (Cabs_le_norm n phi _ LN) as CL. rewrite <- Q in CL. pose proof (chosen_size q T ltac:(lra)) as CS.
    exists (RtoC (Cabs q) / q)%C. eexists. split; [apply ang_unit; lra|]. split; [apply mul_all_arr|]. split; [apply apply_factor; auto; lra|].
    intros _. exists (List.length a). rewrite <- Q. repeat split; auto. rewrite Cmul_comm. apply ang_mul. lra.
  - exists C1, phi. split; [apply Cnorm2_C1|]. split; [reflexivity|]. split.
    + assert (Z : dist n phi (scl C1 phi) = 0). { rewrite <- (dist_self n phi). unfold dist. apply norm_ext. intros. unfold scl. ring. }
      rewrite Z. pose proof (norm_pos n phi). assert (0 <= g).
      { eapply Rle_trans; [|exact Hg]. apply Rmult_le_pos; [apply Rmult_le_pos; [auto|left; apply Rinv_0_lt_compat; lra]|apply sqrt_pos]. }
      apply Rmult_le_pos; lra.
    + intros (i & I & T). exfalso. apply (f_equal (fun o => match o with Some _ => true | None => false end)) in E. revert E.
      assert (IN : In (phi i) (arr n phi)) by (apply in_map, in_seq; lia). revert IN. generalize (arr n phi). induction l as [|x l IH]; intros IN; [destruct IN|]. cbn [first_above].
      destruct (Rltb thr (habs x)) eqn:X; [discriminate|]. apply IH. destruct IN as [->|?]; auto. apply Rltb_false in X. lra.
Qed.

(** If no modulus is close to the threshold, the result is close to the exact one. *)
Lemma phase_close : forall phi psi j e m, norm n psi <= 1 -> dist n phi psi <= e -> e <= 1 / 2 -> e + 3 * w * / 10 ^ 7 <= m -> leads n psi j m ->
  exists phi', fl_ignore_global habs quot mul thr (arr n phi) = arr n phi' /\
    dist n phi' (turned j psi) <= (1 + 2 / Cabs (psi j)) * e + (120 * u + 6 * w) * (3 / 2 + g).
Proof.
  intros phi psi j e m NP D E1 M (J & G & L). assert (E0 : 0 <= e) by (eapply Rle_trans; [apply norm_pos|exact D]).
  assert (EN : forall i, (i < 2 ^ n)%nat -> Rabs (Cabs (phi i) - Cabs (psi i)) <= e).
  { intros i I. eapply Rle_trans; [apply Cabs_near|]. pose proof (entry_dist n phi psi i I). lra. }
  pose proof (dist_norm n phi psi) as NF. apply Rabs_le_inv in HT as HT'.
  assert (CH : first_above habs thr (arr n phi) = Some (phi j)).
  { unfold arr. replace (2 ^ n)%nat with (j + S (2 ^ n - S j))%nat by lia. rewrite seq_app, map_app. cbn [seq map]. rewrite Nat.add_0_l. apply first_above_at.
    - apply Forall_forall. intros z Z. apply in_map_iff in Z as (i & <- & I). apply in_seq in I. specialize (L i ltac:(lia)). pose proof (EN i ltac:(lia)) as EI. apply Rabs_le_inv in EI.
      pose proof (Cabs_nonneg (phi i)). pose proof (HA (phi i) ltac:(lra)) as W. apply Rabs_le_inv in W. nra.
    - pose proof (EN j J) as EI. apply Rabs_le_inv in EI. pose proof (Cabs_le_norm n phi j J). pose proof (HA (phi j) ltac:(lra)) as W. apply Rabs_le_inv in W. nra. }
  unfold fl_ignore_global. rewrite CH, mul_all_arr. eexists. split; [reflexivity|].
  pose proof (EN j J) as EJ. apply Rabs_le_inv in EJ. pose proof (Cabs_le_norm n phi j J) as CL.
  assert (P1 : 9 / 10 ^ 8 <= Cabs (phi j)) by nra. assert (P2 : 0 < Cabs (psi j)) by nra.
  eapply Rle_trans; [apply (dist_tri n _ (scl (RtoC (Cabs (phi j)) / phi j) phi))|].
  assert (D1 := apply_factor phi (phi j) ltac:(lra) ltac:(lra)).
  assert (D2 : dist n (scl (RtoC (Cabs (phi j)) / phi j) phi) (turned j psi) <= (1 + 2 / Cabs (psi j)) * e).
  { unfold turned. eapply Rle_trans; [apply (dist_tri n _ (scl (RtoC (Cabs (phi j)) / phi j) psi))|]. rewrite dist_scl, dist_scl2.
    assert (U : Cabs (RtoC (Cabs (phi j)) / phi j)%C = 1) by (unfold Cabs at 1; rewrite ang_unit by lra; apply sqrt_1). rewrite U, Rmult_1_l.
    pose proof (unit_diff (phi j) (psi j) ltac:(lra) P2) as UD. pose proof (entry_dist n phi psi j J) as ED. assert (I2 : 0 < / Cabs (psi j)) by (apply Rinv_0_lt_compat; auto).
    assert (X : Cabs (phi j - psi j)%C / Cabs (psi j) <= e / Cabs (psi j)) by (unfold Rdiv; apply Rmult_le_compat_r; lra).
    set (k := Cabs (RtoC (Cabs (phi j)) / phi j - RtoC (Cabs (psi j)) / psi j)%C) in *. assert (0 <= k) by apply Cabs_nonneg. pose proof (norm_pos n psi).
    assert (k * norm n psi <= k) by nra. replace ((1 + 2 / Cabs (psi j)) * e) with (e + 2 * (e / Cabs (psi j))) by (unfold Rdiv; ring). lra. }
  assert ((120 * u + 6 * w) * (norm n phi + g) <= (120 * u + 6 * w) * (3 / 2 + g)) by (apply Rmult_le_compat_l; lra). lra.
Qed.
End Phase.
