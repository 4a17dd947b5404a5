(** Proofs for the sampling pool of the backend qgate. *)
From Coq Require Import List Arith ZArith Bool Reals Lia Lra FunctionalExtensionality Sorting.Sorted.
Import ListNotations.
From Verif Require Import Base Cplx Bits ModelTargets ModelGate ModelQgate SpecTargets SpecQuantum SpecCircuit SpecMeasure SpecRun SpecQasm SpecQasmRun SpecQgate
  ProofUnitary ProofFallback ProofMeasure ProofBorn ProofQasmOps ProofQasmRun ProofQgateRun.
Local Open Scope nat_scope.

(** ** Marginal probabilities *)
Definition agrees (k : nat) (qs : list nat) (v x : nat) : bool := forallb (fun e : nat * nat => Bool.eqb (bit x (snd e)) (bit v (fst e))) (combine (seq k (List.length qs)) qs).
Lemma agrees_shift : forall qs k v x, agrees (S k) qs v x = agrees k qs (Nat.div2 v) x.
Proof.
  unfold agrees. induction qs as [|q r IH]; intros k v x; [auto|]. cbn [List.length seq combine forallb fst snd]. rewrite IH. f_equal. 
Qed.
Lemma marginal_cons : forall n q r phi v, marginal n (q :: r) phi v = marginal n r (project q (Nat.odd v) phi) (Nat.div2 v).
Proof.
  intros n q r phi v. unfold marginal. f_equal. apply functional_extensionality. intros x. fold (agrees 0 (q :: r) v x). fold (agrees 0 r (Nat.div2 v) x).
  rewrite <- agrees_shift. unfold agrees. cbn [List.length seq combine forallb fst snd]. rewrite Nat.bit0_odd. unfold project. destruct (Bool.eqb (bit x q) (Nat.odd v)); cbn [andb]; auto. destruct (forallb _ _); auto.
Qed.
Lemma marginal_nil : forall n phi v, marginal n [] phi v = norm2 n phi.
Proof. intros. unfold marginal. cbn. f_equal. Qed.
(** [map f [0; ...; 2m - 1]] at even and odd places *)
Lemma odds_cons2 : forall {A} (a b : A) l, odds (a :: b :: l) = b :: odds l.
Proof. intros. cbn [odds]. destruct l; auto. Qed.
Lemma evens_seq : forall {A} (f : nat -> A) m k, evens (map f (seq k (2 * m))) = map (fun v => f (k + 2 * v)) (seq 0 m) /\ odds (map f (seq k (2 * m))) = map (fun v => f (S (k + 2 * v))) (seq 0 m).
Proof.
  intros A f m. induction m as [|m IH]; intros k; [auto|]. replace (2 * S m) with (S (S (2 * m))) by lia. cbn [seq map]. rewrite odds_cons2. cbn [evens]. destruct (IH (S (S k))) as [E1 E2]. rewrite E1, E2.
  rewrite <- seq_shift, !map_map. replace (k + 2 * 0) with k by lia. split; f_equal; apply map_ext; intros v; f_equal; lia.
Qed.
Local Open Scope R_scope.
Lemma marginal_evens : forall n q r phi, let l := map (marginal n (q :: r) phi) (seq 0 (2 ^ List.length (q :: r))) in
  evens l = map (marginal n r (project q false phi)) (seq 0 (2 ^ List.length r)) /\ odds l = map (marginal n r (project q true phi)) (seq 0 (2 ^ List.length r)).
Proof.
  intros n q r phi l. unfold l. cbn [List.length]. rewrite Nat.pow_succ_r'. destruct (evens_seq (marginal n (q :: r) phi) (2 ^ List.length r)%nat 0) as [E1 E2]. rewrite E1, E2.
  split; apply map_ext; intros v; rewrite marginal_cons.
  - rewrite Nat.add_0_l, Nat.div2_double. replace (Nat.odd (2 * v)) with false; auto. symmetry. rewrite Nat.odd_mul. auto.
  - rewrite Nat.add_0_l, Nat.div2_succ_double. replace (Nat.odd (S (2 * v))) with true; auto. symmetry. rewrite Nat.odd_succ, Nat.even_mul. auto.
Qed.
Lemma sum_split : forall l : list R, Rsum (fun p => p) (evens l) + Rsum (fun p => p) (odds l) = Rsum (fun p => p) l.
Proof.
  assert (G : forall k (l : list R), (List.length l <= k)%nat -> Rsum (fun p => p) (evens l) + Rsum (fun p => p) (odds l) = Rsum (fun p => p) l).
  { induction k as [|k IH]; intros [|a [|b l]] H; cbn [List.length] in H; try lia; try (cbn; ring). rewrite odds_cons2. cbn [evens Rsum]. rewrite <- (IH l) by lia. ring. }
  intros l. apply (G (List.length l)). lia.
Qed.
Lemma marginal_sum : forall n qs phi, Rsum (fun p => p) (map (marginal n qs phi) (seq 0 (2 ^ List.length qs))) = norm2 n phi.
Proof.
  intros n qs. induction qs as [|q r IH]; intros phi; [cbn [List.length Nat.pow seq map]; rewrite marginal_nil; cbn; ring|].
  rewrite <- sum_split. destruct (marginal_evens n q r phi) as [E1 E2]. rewrite E1, E2, !IH. apply prob_total.
Qed.
(** ** Sampling *)
Lemma add_lor : forall v k, (0 <= v < 2 ^ Z.of_nat k)%Z -> (v + 2 ^ Z.of_nat k = Z.lor v (2 ^ Z.of_nat k))%Z.
Proof.
  intros v k V. assert (D : (Z.land v (2 ^ Z.of_nat k) = 0)%Z); [|rewrite <- Z.lxor_lor, <- Z.add_nocarry_lxor by auto; auto].
  apply Z.bits_inj'. intros j Hj. rewrite Z.land_spec, Z.pow2_bits_eqb, Z.testbit_0_l by lia. destruct (Z.eqb_spec (Z.of_nat k) j) as [<-|]; [|apply andb_false_r]. rewrite andb_true_r.
  destruct (Z.eq_dec v 0) as [->|]; [apply Z.testbit_0_l|]. apply Z.bits_above_log2; [lia|]. apply Z.log2_lt_pow2; lia.
Qed.
Lemma each_pos : forall rng n qs w, w_pos (each (measure1 rng n) qs w) = (w_pos w + List.length qs)%nat.
Proof. intros rng n. unfold each. induction qs as [|q r IH]; intros w; cbn [fold_left List.length]; [lia|]. rewrite IH. cbn. lia. Qed.
Section Pool.
Variable rng : nat -> R.
Hypothesis Hrng : draws_ok rng.
Variable n : nat.
Lemma below_eq : forall r a b, 0 < b -> below_ratio r a b = Rltb r (a / b).
Proof. intros r a b H. unfold below_ratio. replace (Rltb 0 b) with true; auto. symmetry. apply Rltb_true. auto. Qed.
Lemma pool_bits_ok : forall qs bitpos phi k w v, NoDup qs -> w_psi w = scl k phi -> 0 < norm2 n phi -> Cnorm2 k * norm2 n phi = 1 -> (0 <= v < 2 ^ Z.of_nat bitpos)%Z ->
  let w' := each (measure1 rng n) (map Z.of_nat qs) w in
  pool_bits rng (List.length qs) bitpos (map (marginal n qs phi) (seq 0 (2 ^ List.length qs))) (norm2 n phi) v (w_pos w) = ((v + 2 ^ Z.of_nat bitpos * places qs w')%Z, w_pos w') /\
  0 < marginal n qs phi (Z.to_nat (places qs w')).
Proof.
  induction qs as [|q r IH]; intros bitpos phi k w v ND Ew P K V w'.
  - unfold w'. cbn [map each fold_left pool_bits List.length places]. rewrite Z.mul_0_r, Z.add_0_r, marginal_nil. auto.
  - inversion ND as [|? ? Nq NDr]; subst. cbn [List.length pool_bits]. destruct (marginal_evens n q r phi) as [E1 E2]. cbn [List.length] in E1, E2. rewrite E1, E2, marginal_sum.
    fold (prob n q false phi). rewrite below_eq by auto.
    assert (Pr : prob n q false phi / norm2 n phi = prob n q false (w_psi w)).
    { rewrite Ew, prob_scl. unfold Rdiv. rewrite Rmult_comm. f_equal. apply Rmult_eq_reg_r with (norm2 n phi); [|lra]. rewrite Rinv_l by lra. auto. }
    rewrite Pr. pose proof (prob_total n q phi) as T. pose proof (outcome_prob rng Hrng n q w) as Op. rewrite Ew, norm2_scl in Op. specialize (Op K). rewrite <- Ew in Op.
    unfold w'. rewrite each_cons. set (w1 := measure1 rng n q w). cbn [places].
    assert (Hb : w_bits (each (measure1 rng n) (map Z.of_nat r) w1) q = if outcome rng n q w then 1%nat else 0%nat).
    { rewrite each_bits_other by auto. unfold w1, measure1. cbn [w_bits]. unfold update. rewrite Nat.eqb_refl. auto. }
    rewrite Hb. set (b := outcome rng n q w) in *.
    assert (Pb : 0 < prob n q b phi). { rewrite Ew, prob_scl in Op. apply Rmult_lt_reg_l with (Cnorm2 k); [|lra]. apply Rmult_lt_reg_r with (norm2 n phi); lra. }
    assert (Kb : exists k', w_psi w1 = scl k' (project q b phi) /\ Cnorm2 k' * norm2 n (project q b phi) = 1).
    { exists (RtoC (/ sqrt (prob n q b (w_psi w))) * k)%C. assert (E : w_psi w1 = scl (RtoC (/ sqrt (prob n q b (w_psi w))) * k) (project q b phi)).
      { unfold w1, measure1. fold b. cbn [w_psi]. unfold collapse. rewrite Ew at 2. rewrite project_scl, scl_scl. auto. }
      split; auto. rewrite <- norm2_scl, <- E. unfold w1, measure1. fold b. apply (norm2_collapse n q b (w_psi w) Op). }
    destruct Kb as [k' [Ew1 K']]. change (S (w_pos w)) with (w_pos w1).
    destruct (Rltb (rng (w_pos w)) (prob n q false (w_psi w))) eqn:L; assert (Eb : b = negb (Rltb (rng (w_pos w)) (prob n q false (w_psi w)))) by reflexivity; rewrite L in Eb; cbn [negb] in Eb; clearbody b; subst b.
    + destruct (IH (S bitpos) (project q false phi) k' w1 v NDr Ew1 Pb K') as [I1 I2]. { rewrite Nat2Z.inj_succ, Z.pow_succ_r by lia. lia. }
      change (norm2 n (project q false phi)) with (prob n q false phi) in I1. rewrite I1. split.
      * f_equal. rewrite Nat2Z.inj_succ, Z.pow_succ_r by lia. cbn [Nat.eqb]. ring.
      * cbn [Nat.eqb]. rewrite Z.add_0_l. rewrite marginal_cons. set (p := places r _) in *. assert (0 <= p)%Z by (apply places_range). rewrite Z2Nat.inj_mul by lia. change (Z.to_nat 2) with 2%nat.
        rewrite Nat.div2_double. replace (Nat.odd (2 * Z.to_nat p)) with false by (symmetry; rewrite Nat.odd_mul; auto). exact I2.
    + destruct (IH (S bitpos) (project q true phi) k' w1 (v + 2 ^ Z.of_nat bitpos)%Z NDr Ew1 Pb K') as [I1 I2]. { rewrite Nat2Z.inj_succ, Z.pow_succ_r by lia. lia. }
      replace (norm2 n phi - prob n q false phi) with (norm2 n (project q true phi)) by (change (norm2 n (project q true phi)) with (prob n q true phi); lra).
      replace (Z.lor v (Z.shiftl 1 (Z.of_nat bitpos))) with (v + 2 ^ Z.of_nat bitpos)%Z.
      2: { rewrite Z.shiftl_1_l. apply add_lor. auto. }
      rewrite I1. split.
      * f_equal. rewrite Nat2Z.inj_succ, Z.pow_succ_r by lia. cbn [Nat.eqb]. ring.
      * cbn [Nat.eqb]. rewrite marginal_cons. set (p := places r _) in *. assert (0 <= p)%Z by (apply places_range). rewrite Z2Nat.inj_add, Z2Nat.inj_mul by lia. change (Z.to_nat 2) with 2%nat. change (Z.to_nat 1 + 2 * Z.to_nat p)%nat with (S (2 * Z.to_nat p)).
        rewrite Nat.div2_succ_double. replace (Nat.odd (S (2 * Z.to_nat p))) with true by (symmetry; rewrite Nat.odd_succ, Nat.even_mul; auto). exact I2.
Qed.
Lemma pool_samples_ok : forall qs psi, NoDup qs -> norm2 n psi = 1 -> forall N pos, exists us,
  pool_samples rng N (List.length qs) (map (marginal n qs psi) (seq 0 (2 ^ List.length qs))) pos = (map (places qs) us, pos + N * List.length qs)%nat /\
  pool_shots rng n psi qs pos us /\ List.length us = N /\ Forall (fun w => 0 < marginal n qs psi (Z.to_nat (places qs w))) us.
Proof.
  intros qs psi ND Hn. induction N as [|N IH]; intros pos.
  - exists []. cbn [pool_samples map]. rewrite Nat.add_0_r. repeat split; constructor.
  - set (w := each (measure1 rng n) (map Z.of_nat qs) (World psi (fun _ => 0%nat) pos)).
    destruct (pool_bits_ok qs 0 psi C1 (World psi (fun _ => 0%nat) pos) 0%Z ND) as [E P]; [cbn; rewrite scl_1; auto|lra|rewrite norm_C1; lra|cbn; lia|]. fold w in E, P. cbn [w_pos] in E. rewrite Hn in E.
    assert (Ep : w_pos w = (pos + List.length qs)%nat).
    { unfold w. rewrite each_pos, map_length. auto. }
    destruct (IH (w_pos w)) as [us [Es [Ps [Ls Fs]]]]. exists (w :: us). cbn [pool_samples]. rewrite E, Es. split; [|split; [econstructor; [reflexivity|exact Ps]|split; [cbn; lia|constructor; auto]]].
    cbn [map]. f_equal; [|rewrite Ep; lia]. f_equal. change (2 ^ Z.of_nat 0)%Z with 1%Z. lia.
Qed.
End Pool.

(** ** Empty lanes *)
Local Open Scope nat_scope.
Lemma lane_ones : forall a j, Z.testbit (lane_bit a - 1) (Z.of_nat j) = (j <? a).
Proof.
  intros a j. unfold lane_bit. rewrite Z.shiftl_1_l. replace (2 ^ Z.of_nat a - 1)%Z with (Z.ones (Z.of_nat a)) by (rewrite Z.ones_equiv; lia).
  rewrite Z.testbit_ones_nonneg by lia. destruct (Z.ltb_spec (Z.of_nat j) (Z.of_nat a)), (Nat.ltb_spec j a); auto; lia.
Qed.
Lemma lane_above : forall a j, Z.testbit (Z.lnot (lane_bit a * 2 - 1)) (Z.of_nat j) = (a <? j).
Proof.
  intros a j. rewrite Z.lnot_spec by lia. unfold lane_bit. rewrite Z.shiftl_1_l. replace (2 ^ Z.of_nat a * 2 - 1)%Z with (Z.ones (Z.of_nat (S a))) by (rewrite Z.ones_equiv, Nat2Z.inj_succ, Z.pow_succ_r; lia).
  rewrite Z.testbit_ones_nonneg by lia. destruct (Z.ltb_spec (Z.of_nat j) (Z.of_nat (S a))), (Nat.ltb_spec a j); auto; lia.
Qed.
Lemma lanes_below_0 : forall r j b, Forall (lt b) r -> j <= b -> lanes_below r j = 0.
Proof.
  intros r j b F H. unfold lanes_below. induction F as [|a r Ha F IH]; [auto|]. cbn [filter]. destruct (Nat.ltb_spec a j); [lia|auto].
Qed.
Lemma in_above : forall r j b, Forall (lt b) r -> j <= b -> existsb (Nat.eqb j) r = false.
Proof. intros r j b F H. induction F as [|a r Ha F IH]; [auto|]. cbn [existsb]. rewrite IH. destruct (Nat.eqb_spec j a); [lia|auto]. Qed.
Lemma last_map_cons : forall (a b : nat) r, last (map lane_bit (a :: b :: r)) 0%Z = last (map lane_bit (b :: r)) 0%Z.
Proof. reflexivity. Qed.
Lemma between_cons : forall a b r, between_masks (map lane_bit (a :: b :: r)) = Z.land (lane_bit b - 1) (Z.lnot (lane_bit a * 2 - 1)) :: between_masks (map lane_bit (b :: r)).
Proof. reflexivity. Qed.
Lemma masks_from : forall v j r a k acc, ascending (a :: r) ->
  let ms := (between_masks (map lane_bit (a :: r)) ++ [Z.lnot (last (map lane_bit (a :: r)) 0%Z * 2 - 1)])%list in
  Z.testbit (fold_left (fun acc (e : nat * Z) => Z.lor acc (Z.land (Z.shiftl v (Z.of_nat (fst e))) (snd e))) (combine (seq k (List.length ms)) ms) acc) (Z.of_nat j) =
  Z.testbit acc (Z.of_nat j) || ((a <? j) && negb (existsb (Nat.eqb j) r) && Z.testbit v (Z.of_nat j - Z.of_nat (k + lanes_below r j))).
Proof.
  intros v j. induction r as [|b r IH]; intros a k acc Asc ms.
  - unfold ms. cbn [map between_masks List.app last List.length seq combine fold_left fst snd existsb negb]. rewrite Z.lor_spec, Z.land_spec, Z.shiftl_spec, lane_above by lia.
    unfold lanes_below. cbn [filter List.length]. rewrite Nat.add_0_r, andb_true_r, andb_comm. auto.
  - inversion Asc as [|? ? Asc' F]; subst. inversion Asc' as [|? ? Asc'' F']; subst. inversion F as [|? ? Hab Fa]; subst.
    unfold ms. rewrite last_map_cons, between_cons. cbn [List.app List.length seq combine fold_left fst snd]. rewrite IH by auto. clear IH.
    rewrite Z.lor_spec, !Z.land_spec, Z.shiftl_spec, lane_above, lane_ones by lia. rewrite <- orb_assoc. f_equal. cbn [existsb].
    destruct (lt_eq_lt_dec j b) as [[H| ->]|H].
    + rewrite (proj2 (Nat.ltb_lt j b) H), (proj2 (Nat.ltb_ge b j)), (in_above r j b F'), andb_false_l, orb_false_r by lia.
      replace (j =? b) with false by (symmetry; apply Nat.eqb_neq; lia). cbn [orb negb andb]. rewrite andb_true_r.
      unfold lanes_below at 1. cbn [filter]. rewrite (proj2 (Nat.ltb_ge b j)) by lia. fold (lanes_below r j). rewrite (lanes_below_0 r j b F'), Nat.add_0_r by lia. rewrite andb_comm. auto.
    + rewrite !Nat.ltb_irrefl, Nat.eqb_refl. cbn. rewrite !andb_false_r. auto.
    + rewrite (proj2 (Nat.ltb_ge j b)), (proj2 (Nat.ltb_lt b j)), (proj2 (Nat.ltb_lt a j)) by lia. rewrite andb_false_l, andb_false_r.
      replace (j =? b) with false by (symmetry; apply Nat.eqb_neq; lia). cbn [orb negb andb]. f_equal. f_equal. unfold lanes_below. cbn [filter]. rewrite (proj2 (Nat.ltb_lt b j) H). cbn [List.length]. lia.
Qed.
Lemma lanes_below_le : forall lanes j, ascending lanes -> lanes_below lanes j <= j.
Proof.
  intros lanes j A. unfold lanes_below. eapply Nat.le_trans; [apply (NoDup_incl_length (l' := seq 0 j))|rewrite seq_length; auto].
  - apply NoDup_filter, asc_nodup. auto.
  - intros x I. apply filter_In in I. destruct I as [_ I]. apply Nat.ltb_lt in I. apply in_seq. lia.
Qed.
Lemma shift_ok : forall lanes, ascending lanes -> lanes <> [] -> exists masks, shift_masks lanes = Ok masks /\
  forall v j, Z.testbit (shift_value masks v) (Z.of_nat j) = if existsb (Nat.eqb j) lanes then false else Z.testbit v (Z.of_nat (j - lanes_below lanes j)).
Proof.
  intros lanes A N. destruct lanes as [|a r]; [contradiction|]. unfold shift_masks. cbn [map]. eexists. split; [reflexivity|]. intros v j.
  unfold shift_value. cbn [List.app List.length seq combine fold_left fst snd]. change (lane_bit a :: map lane_bit r) with (map lane_bit (a :: r)). rewrite masks_from by auto.
  inversion A as [|? ? A' F]; subst. rewrite Z.lor_spec, Z.testbit_0_l, Z.land_spec, lane_ones, Z.shiftl_spec, Z.sub_0_r by lia. cbn [orb].
  rewrite Nat2Z.inj_sub by (apply lanes_below_le; auto). cbn [existsb]. destruct (lt_eq_lt_dec j a) as [[H| ->]|H].
  - rewrite (in_above r j a F) by lia. replace (j =? a) with false by (symmetry; apply Nat.eqb_neq; lia). rewrite (proj2 (Nat.ltb_lt j a) H), (proj2 (Nat.ltb_ge a j)) by lia.
    cbn [andb orb]. rewrite andb_true_r, orb_false_r. rewrite (lanes_below_0 (a :: r) j (j)); [f_equal; lia| |lia].
    constructor; [auto|]. eapply Forall_impl; [|exact F]. cbn. intros. lia.
  - rewrite Nat.eqb_refl, Nat.ltb_irrefl. cbn. rewrite andb_false_r. auto.
  - replace (j =? a) with false by (symmetry; apply Nat.eqb_neq; lia). rewrite (proj2 (Nat.ltb_ge j a)), (proj2 (Nat.ltb_lt a j) H) by lia. rewrite andb_false_r. cbn [andb orb].
    unfold lanes_below. cbn [filter]. rewrite (proj2 (Nat.ltb_lt a j) H). cbn [List.length]. destruct (existsb (Nat.eqb j) r); cbn [negb andb]; [auto|]. f_equal.
Qed.
Lemma lanes_mask_0 : forall lanes, (lanes_mask lanes =? 0)%Z = match lanes with [] => true | _ => false end.
Proof.
  intros lanes. destruct lanes as [|a r]; [auto|]. apply Z.eqb_neq. unfold lanes_mask. cbn [fold_left]. 
  assert (G : forall r acc, Z.testbit acc (Z.of_nat a) = true -> Z.testbit (fold_left (fun m lane => Z.lor m (Z.shiftl 1 (Z.of_nat lane))) r acc) (Z.of_nat a) = true).
  { clear. induction r as [|b r IH]; intros acc H; cbn [fold_left]; [auto|]. apply IH. rewrite Z.lor_spec, H. auto. }
  intros E. assert (X := G r (Z.lor 0 (Z.shiftl 1 (Z.of_nat a)))). rewrite E, Z.testbit_0_l in X. discriminate X. rewrite Z.lor_0_l, Z.shiftl_1_l. apply Z.pow2_bits_true. lia.
Qed.
(** the values a pool gives *)
Lemma pool_sample_ok : forall rng, draws_ok rng -> forall n qs psi lanes, NoDup qs -> norm2 n psi = 1%R -> ascending lanes -> forall N pos, exists us obs,
  pool_sample rng N (List.length qs) (map (marginal n qs psi) (seq 0 (2 ^ List.length qs))) lanes pos = (Ok obs, pos + N * List.length qs)%nat /\
  pool_shots rng n psi qs pos us /\ List.length us = N /\
  Forall2 (fun w v => forall j, Z.testbit v (Z.of_nat j) = if existsb (Nat.eqb j) lanes then false else match nth_error qs (j - lanes_below lanes j) with Some q => negb (w_bits w q =? 0) | None => false end) us obs /\
  Forall (fun w => 0 < marginal n qs psi (Z.to_nat (places qs w)))%R us.
Proof.
  intros rng D n qs psi lanes ND Hn Asc N pos. destruct (pool_samples_ok rng D n qs psi ND Hn N pos) as [us [E [P [L F]]]].
  unfold pool_sample. rewrite E, lanes_mask_0. destruct lanes as [|a r].
  - exists us, (map (places qs) us). repeat (split; [auto; fail|]). split; [|auto]. clear. induction us as [|w us IH]; constructor; auto. intros j. rewrite places_bit. cbn [existsb]. unfold lanes_below. cbn [filter List.length]. rewrite Nat.sub_0_r. auto.
  - destruct (shift_ok (a :: r) Asc) as [masks [Em H]]; [discriminate|]. rewrite Em. cbn [bind]. exists us, (map (shift_value masks) (map (places qs) us)). repeat (split; [auto; fail|]). split; [|auto].
    clear - H. induction us as [|w us IH]; constructor; auto. intros j. rewrite H. destruct (existsb (Nat.eqb j) (a :: r)); [auto|]. apply places_bit.
Qed.
