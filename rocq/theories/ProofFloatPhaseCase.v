(** Runs, doubles, and states close to the threshold *)
From Coq Require Import String List Arith NArith ZArith Bool Reals Lia Lra Psatz FunctionalExtensionality.
Import ListNotations.
From Verif Require Import Base Cplx Bits ModelTargets ModelGate ModelNumpy ModelNumba ModelFloat ModelFloatMeasure ModelFloatNumba ModelFloatNumbaMeasure ModelFloatRun ModelFloatPhase
  SpecTargets SpecQuantum SpecCircuit SpecMeasure ProofBorn ProofFiniteTop ProofFiniteDouble SpecLaw SpecFloat SpecFloatMeasure SpecFinite SpecFloatNumba SpecFiniteMeasure SpecFloatRun SpecFloatPhase
  ProofArray ProofMeasure ProofPhase ProofFloat ProofFloatOps ProofFloatMeas ProofFinite ProofFloatTop ProofFiniteMeasRun ProofFloatNumba4 ProofFloatRuns ProofFloatPhase ProofFloatPhaseRun ProofFloatPhaseTop.
Local Open Scope R_scope.

Lemma signed_divides : forall A u eta B, 0 < B -> divides_signed A u eta B -> divides_within A u eta B.
Proof. intros A u eta B P H a b Ha Hb. apply H; auto. assert (0 < / B) by (apply Rinv_0_lt_compat; auto). rewrite Rabs_pos_eq; lra. Qed.
Lemma scaled_norm : forall n es s, 0 < SpecLaw.weight n es s -> norm n (scl (RtoC (/ sqrt (SpecLaw.weight n es s))) (branch es s (ket 0))) <= 1.
Proof.
  intros n es s W. rewrite norm_scl', Cabs_RtoC. unfold norm. fold (SpecLaw.weight n es s). pose proof (sqrt_lt_R0 _ W) as P.
  rewrite Rabs_pos_eq by (left; apply Rinv_0_lt_compat; auto). rewrite Rinv_l; lra.
Qed.

Lemma np_run_phase : forall A u eta B M N w g n gs es err habs wa thr, rounds_within A u eta B -> divides_signed A u eta B -> ranges u eta B M n g -> phase_ranges u eta B n g ->
  norms_within N n w g -> u <= w <= 1 / 100 -> abs_within habs wa -> u <= wa <= 1 / 1000 -> Rabs (thr - / 10 ^ 7) <= wa * / 10 ^ 7 ->
  (0 < n)%nat -> circuit_events n gs es -> Forall (angles_within M) gs -> shot_error u M g (6 * w) (List.length es) <= err ->
  forall rng b ss s returns pos j m, draws_ok rng -> np_cached A n gs b -> In returns ["statevector"; "shots"; "statevector_and_shots"]%string ->
  (forall i s', nth_error (ss ++ [s]) i = Some s' -> sure n es err s' rng (pos + i * draws es)) ->
  let W := SpecLaw.weight n es s in let psi := scl (RtoC (/ sqrt W)) (branch es s (ket 0)) in let e := (14 * INR (draws es) + 2) * err / W in
  e <= 1 / 2 -> e + 3 * wa * / 10 ^ 7 <= m -> leads n psi j m ->
  let r := fl_np_run A N (np_ignore_global A habs thr) rng b gs n (RunArgs (Some (Z.of_nat (List.length (ss ++ [s])))) (Some returns) true) pos in
  exists phi c, gives returns (arr n phi) c (fst (fst r)) /\ (forall k, lookup c k = hits n es k (ss ++ [s])) /\
    dist n phi (turned j psi) <= (1 + 2 / Cabs (psi j)) * e + (120 * u + 6 * wa) * (3 / 2 + g).
Proof.
  intros A u eta B M N w g n gs es err habs wa thr HR HS RG PR HN Hw HA Hwa HT Hn C F SE rng b ss s returns pos j m Hr CB IR SU W psi e E1 E2 LD r.
  assert (BP : 0 < B) by (destruct PR as (_ & _ & ? & _); lra). pose proof (signed_divides A u eta B BP HS) as HD.
  destruct (np_counts A u eta B M N w g n gs es err HR HD RG HN Hw Hn C F SE (np_ignore_global A habs thr) rng b (ss ++ [s]) returns true pos Hr CB IR SU) as (_ & _ & q & c & G & K & L).
  destruct (L ss s eq_refl) as (phi & -> & D). fold W psi e in D.
  assert (PW : 0 < W). { destruct (SU (List.length ss) s) as (_ & P & _); [|exact P]. rewrite nth_error_app2, Nat.sub_diag by lia. reflexivity. }
  destruct (np_phase u eta B g wa n Hn PR habs thr HA Hwa HT A HR HS) as [_ T].
  destruct (T phi psi j e m (scaled_norm n es s PW) D E1 E2 LD) as (phi' & X & Y). exists phi', c. rewrite <- X. auto.
Qed.
Lemma nb_run_phase : forall c P u eta B M S w g n gs es err habs wa thr, compiles c u eta B -> scales c u eta -> divides_signed (c_arith c) u eta B -> rounds_within P u eta B ->
  ranges u eta B M n g -> phase_ranges u eta B n g -> 1 / 10 ^ 16 <= u -> (0 < n <= 64)%nat -> sums_within S n w g -> u <= w <= 1 / 100 ->
  abs_within habs wa -> u <= wa <= 1 / 1000 -> Rabs (thr - / 10 ^ 7) <= wa * / 10 ^ 7 -> circuit_events n gs es -> Forall (angles_within M) gs ->
  shot_error u M g (2 * w) (List.length es) <= err ->
  forall rng b ss s returns ec pos j m, draws_ok rng -> (ec = true -> nb_cached c P n gs b) -> In returns ["statevector"; "shots"; "statevector_and_shots"]%string ->
  (forall i s', nth_error (ss ++ [s]) i = Some s' -> sure n es err s' rng (pos + i * draws es)) ->
  let W := SpecLaw.weight n es s in let psi := scl (RtoC (/ sqrt W)) (branch es s (ket 0)) in let e := (14 * INR (draws es) + 2) * err / W in
  e <= 1 / 2 -> e + 3 * wa * / 10 ^ 7 <= m -> leads n psi j m ->
  let r := fb_run c S P (nb_ignore_global c habs thr) rng b gs n (NbArgs (RunArgs (Some (Z.of_nat (List.length (ss ++ [s])))) (Some returns) true) ec) pos in
  exists phi t, gives returns (arr n phi) t (fst (fst r)) /\ (forall k, lookup t k = hits n es k (ss ++ [s])) /\
    dist n phi (turned j psi) <= (1 + 2 / Cabs (psi j)) * e + (120 * u + 6 * wa) * (3 / 2 + g).
Proof.
  intros c P u eta B M S w g n gs es err habs wa thr HC HSc HS HP RG PR U16 Hn HN Hw HA Hwa HT C F SE rng b ss s returns ec pos j m Hr CB IR SU W psi e E1 E2 LD r.
  assert (BP : 0 < B) by (destruct PR as (_ & _ & ? & _); lra). pose proof (signed_divides (c_arith c) u eta B BP HS) as HD.
  destruct (nb_counts c P u eta B M S w g n gs es err HC HSc HD HP RG U16 Hn HN Hw C F SE (nb_ignore_global c habs thr) rng b (ss ++ [s]) returns true ec pos Hr CB IR SU) as (_ & _ & q & t & G & K & L).
  destruct (L ss s eq_refl) as (phi & -> & D). fold W psi e in D.
  assert (PW : 0 < W). { destruct (SU (List.length ss) s) as (_ & Q & _); [|exact Q]. rewrite nth_error_app2, Nat.sub_diag by lia. reflexivity. }
  destruct (nb_phase u eta B g wa n (proj1 Hn) PR habs thr HA Hwa HT c HC HS) as [_ T].
  destruct (T phi psi j e m (scaled_norm n es s PW) D E1 E2 LD) as (phi' & X & Y). exists phi', t. rewrite <- X. auto.
Qed.

(** ** Doubles *)
Notation DU := (/ 2 ^ 53). Notation DE := (powerRZ 2 (-1075)). Notation DB := (powerRZ 2 500).
Lemma double_signed : forall over, divides_signed (double_arith over) DU DE DB.
Proof.
  intros over a b Ha [Hb1 Hb2]. cbn [double_arith finite_arith f_div]. apply (dbl_round over).
  assert (BP : 0 < / DB) by (apply Rinv_0_lt_compat, pz_pos). assert (IB : / Rabs b <= DB) by (rewrite <- (Rinv_inv DB); apply Rinv_le_contravar; auto).
  assert (0 < / Rabs b) by (apply Rinv_0_lt_compat; lra). unfold Rdiv. rewrite Rabs_mult, Rabs_inv.
  apply Rle_trans with (DB * DB); [apply Rmult_le_compat; auto; [apply Rabs_pos|lra]|]. rewrite <- pz_add. apply pz_le. lia.
Qed.
Lemma de_tiny : DE <= / 2 ^ 53 / 10 ^ 20.
Proof. 
  apply Rle_trans with (powerRZ 2 (-123)); [apply pz_le; lia|]. change (-123)%Z with (- (123))%Z. rewrite powerRZ_neg'. change 123%Z with (Z.of_nat (53 + 70)). rewrite <- pow_powerRZ, pow_add.
  rewrite Rinv_mult. unfold Rdiv. apply Rmult_le_compat_l; [left; apply Rinv_0_lt_compat, pow_lt; lra|]. apply Rinv_le_contravar; [apply pow_lt; lra|].
  replace 70%nat with (7 * 10)%nat by reflexivity. rewrite pow_mult. replace 20%nat with (2 * 10)%nat by reflexivity. rewrite pow_mult. apply pow_incr. lra.
Qed.
Lemma double_phase_ranges : forall n, (n <= 64)%nat -> phase_ranges DU DE DB n (powerRZ 2 (-400)).
Proof.
  intros n Hn. destruct (double_ranges n Hn) as (_ & _ & _ & _ & _ & G & _). split; [rewrite pow53; lra|]. split; [split; [left; apply pz_pos|apply de_tiny]|]. split; auto.
  apply Rle_trans with (powerRZ 2 40); [|apply pz_le; lia]. change 40%Z with (Z.of_nat (4 * 10)). rewrite <- pow_powerRZ, pow_mult. apply pow_incr. lra.
Qed.
Lemma pow50 : 2 ^ 50 = 1125899906842624. Proof. rewrite pow_IZR. f_equal. Qed.
Lemma double_abs : forall over, abs_within (fun q => double_lit over (Cabs q)) (/ 2 ^ 50).
Proof.
  intros over q Q. unfold double_lit. pose proof (Cabs_nonneg q) as P. assert (B1 : 2 <= powerRZ 2 1023) by (rewrite <- (powerRZ_1 2) at 1; apply pz_le; lia).
  eapply Rle_trans; [apply dbl_round; rewrite Rabs_pos_eq by auto; lra|]. rewrite (Rabs_pos_eq (Cabs q)) by auto. pose proof de_tiny as D. rewrite pow53 in *. rewrite pow50. lra.
Qed.
Lemma double_thr : forall over, Rabs (double_lit over (1 / 10000000) - / 10 ^ 7) <= / 2 ^ 50 * / 10 ^ 7.
Proof.
  intros over. unfold double_lit. replace (1 / 10000000) with (/ 10 ^ 7) by lra. assert (B1 : 2 <= powerRZ 2 1023) by (rewrite <- (powerRZ_1 2) at 1; apply pz_le; lia).
  assert (P7 : Rabs (/ 10 ^ 7) = / 10 ^ 7) by (apply Rabs_pos_eq; lra).
  eapply Rle_trans; [apply dbl_round; lra|]. rewrite P7. pose proof de_tiny as D. rewrite pow53 in *. rewrite pow50. lra.
Qed.
Lemma small_bound : (120 * / 2 ^ 53 + 6 * / 2 ^ 50) * (3 / 2 + powerRZ 2 (-400)) <= 3 / 10 ^ 14.
Proof. pose proof tiny_400. rewrite pow53, pow50. lra. Qed.
Lemma double_np_phase : forall over habs n phi psi j e m, abs_within habs (/ 2 ^ 50) -> (0 < n <= 64)%nat ->
  norm n psi <= 1 -> dist n phi psi <= e -> e <= 1 / 2 -> e + 3 * / 2 ^ 50 * / 10 ^ 7 <= m -> leads n psi j m ->
  exists phi', np_ignore_global (double_arith over) habs (double_lit over (1 / 10000000)) (arr n phi) = arr n phi' /\
    dist n phi' (turned j psi) <= (1 + 2 / Cabs (psi j)) * e + 3 / 10 ^ 14.
Proof.
  intros over habs n phi psi j e m HA Hn N1 D E1 E2 L.
  assert (W : DU <= / 2 ^ 50 <= 1 / 1000) by (rewrite pow53, pow50; lra).
  destruct (np_phase DU DE DB _ (/ 2 ^ 50) n (proj1 Hn) (double_phase_ranges n (proj2 Hn)) habs _ HA W (double_thr over) _ (double_rounds over) (double_signed over)) as [_ T].
  destruct (T phi psi j e m N1 D E1 E2 L) as (phi' & X & Y). exists phi'. split; auto. eapply Rle_trans; [exact Y|]. pose proof small_bound. lra.
Qed.
Lemma double_nb_phase : forall c habs thr n phi psi j e m, compiles c DU DE DB -> divides_signed (c_arith c) DU DE DB -> abs_within habs (/ 2 ^ 50) ->
  Rabs (thr - / 10 ^ 7) <= / 2 ^ 50 * / 10 ^ 7 -> (0 < n <= 64)%nat ->
  norm n psi <= 1 -> dist n phi psi <= e -> e <= 1 / 2 -> e + 3 * / 2 ^ 50 * / 10 ^ 7 <= m -> leads n psi j m ->
  exists phi', nb_ignore_global c habs thr (arr n phi) = arr n phi' /\ dist n phi' (turned j psi) <= (1 + 2 / Cabs (psi j)) * e + 3 / 10 ^ 14.
Proof.
  intros c habs thr n phi psi j e m HC HS HA HT Hn N1 D E1 E2 L.
  assert (W : DU <= / 2 ^ 50 <= 1 / 1000) by (rewrite pow53, pow50; lra).
  destruct (nb_phase DU DE DB _ (/ 2 ^ 50) n (proj1 Hn) (double_phase_ranges n (proj2 Hn)) habs _ HA W HT c HC HS) as [_ T].
  destruct (T phi psi j e m N1 D E1 E2 L) as (phi' & X & Y). exists phi'. split; auto. eapply Rle_trans; [exact Y|]. pose proof small_bound. lra.
Qed.

(** ** States close to the threshold *)
Definition jump (t : R) : state := fun x => match x with 0%nat => (0, sin t) | 1%nat => (cos t, 0) | _ => C0 end.
Lemma norm1 : forall a, norm 1 a = sqrt (Cnorm2 (a 0%nat) + Cnorm2 (a 1%nat)).
Proof. intros. unfold norm, norm2. change (2 ^ 1)%nat with 2%nat. cbn [seq Rsum]. f_equal. lra. Qed.
Lemma jump_norm : forall t, norm 1 (jump t) = 1.
Proof.
  intros. rewrite norm1. unfold jump, Cnorm2. cbn [fst snd]. pose proof (sin2_cos2 t) as E. unfold Rsqr in E.
  replace (0 * 0 + sin t * sin t + (cos t * cos t + 0 * 0)) with 1 by lra. apply sqrt_1.
Qed.
Lemma jump_dist : forall t d, 0 < d -> dist 1 (jump (t + d)) (jump t) <= d.
Proof.
  intros t d D. unfold dist. rewrite norm1. rewrite <- (sqrt_square d) at 3 by lra. apply sqrt_le_1_alt. unfold jump, Cnorm2, Csub, Cadd, Copp. cbn [fst snd].
  pose proof (sin2_cos2 t) as E1. pose proof (sin2_cos2 (t + d)) as E2. unfold Rsqr in *. pose proof (cos_minus (t + d) t) as CM. replace (t + d - t) with d in CM by ring.
  assert (X : 2 - 2 * cos d <= d * d).
  { replace d with (2 * (d / 2)) at 1 by field. rewrite cos_2a_sin. pose proof (sin_lt_x (d / 2) ltac:(lra)) as S1.
    assert (S2 : - (d / 2) < sin (d / 2)). { destruct (Rle_lt_dec (d / 2) PI) as [L|L]; [pose proof (sin_ge_0 (d / 2) ltac:(lra) L); lra|]. pose proof (SIN_bound (d / 2)). pose proof PI2_3_2. lra. }
    nra. }
  nra.
Qed.
Lemma jump_below : forall t, 0 <= sin t <= / 10 ^ 7 -> 1 / 2 <= cos t -> ignore_global_phase (arr 1 (jump t)) = arr 1 (jump t).
Proof.
  intros t S1 C1'. unfold ignore_global_phase, arr. change (2 ^ 1)%nat with 2%nat. cbn [seq map jump first_nonzero].
  assert (A0 : Cabs (0, sin t) = sin t) by (unfold Cabs, Cnorm2; cbn [fst snd]; replace (0 * 0 + sin t * sin t) with (sin t * sin t) by ring; apply sqrt_square; lra).
  assert (A1 : Cabs (cos t, 0) = cos t) by (unfold Cabs, Cnorm2; cbn [fst snd]; replace (cos t * cos t + 0 * 0) with (cos t * cos t) by ring; apply sqrt_square; lra).
  rewrite A0, A1. destruct (Rltb (1 / 10000000) (sin t)) eqn:E; [apply Rltb_true in E; lra|]. destruct (Rltb (1 / 10000000) (cos t)) eqn:E'; [|apply Rltb_false in E'; lra].
  cbv zeta. assert (U : (RtoC (Rtrigo_def.cos t) / (Rtrigo_def.cos t, 0))%C = Cplx.C1). { change (Rtrigo_def.cos t, 0) with (RtoC (cos t)). field. intros Z. apply (f_equal fst) in Z. cbn in Z. lra. }
  rewrite A1, U. f_equal; [ring|]. f_equal. ring.
Qed.
Lemma jump_above : forall t, / 10 ^ 7 < sin t -> ignore_global_phase (arr 1 (jump t)) = [RtoC (sin t); (0, - cos t)].
Proof.
  intros t S1. unfold ignore_global_phase, arr. change (2 ^ 1)%nat with 2%nat. cbn [seq map jump first_nonzero].
  assert (A0 : Cabs (0, sin t) = sin t) by (unfold Cabs, Cnorm2; cbn [fst snd]; replace (0 * 0 + sin t * sin t) with (sin t * sin t) by ring; apply sqrt_square; lra).
  rewrite A0. destruct (Rltb (1 / 10000000) (sin t)) eqn:E; [|apply Rltb_false in E; lra]. cbv zeta. rewrite A0.
  unfold Cdiv, Cinv, Cmul, RtoC, Cnorm2. cbn [fst snd]. f_equal; [|f_equal]; f_equal; field; nra.
Qed.
Lemma phase_jumps : forall e, 0 < e -> exists psi phi psi' phi', norm 1 psi = 1 /\ norm 1 phi = 1 /\ dist 1 phi psi <= e /\
  ignore_global_phase (arr 1 psi) = arr 1 psi' /\ ignore_global_phase (arr 1 phi) = arr 1 phi' /\ 1 <= dist 1 phi' psi'.
Proof.
  intros e E. set (t := asin (/ 10 ^ 7)). assert (ST : sin t = / 10 ^ 7) by (apply sin_asin; lra). pose proof (asin_bound (/ 10 ^ 7)) as AB. fold t in AB.
  assert (CT : cos t = sqrt (1 - (/ 10 ^ 7)²)) by (apply cos_asin; lra).
  assert (C2 : 1 / 2 <= cos t). { rewrite CT. replace (1 / 2) with (sqrt (1 / 2 * (1 / 2))) by (apply sqrt_square; lra). apply sqrt_le_1_alt. unfold Rsqr. lra. }
  assert (T2 : t < PI / 2). { destruct (Rlt_le_dec t (PI / 2)) as [?|L]; auto. assert (t = PI / 2) by lra. rewrite H, cos_PI2 in C2. lra. }
  set (d := Rmin e ((PI / 2 - t) / 2)). assert (D : 0 < d <= e /\ t + d < PI / 2).
  { unfold d. pose proof (Rmin_l e ((PI / 2 - t) / 2)). pose proof (Rmin_r e ((PI / 2 - t) / 2)). assert (0 < Rmin e ((PI / 2 - t) / 2)) by (apply Rmin_pos; lra). lra. }
  assert (SD : / 10 ^ 7 < sin (t + d)) by (rewrite <- ST; apply sin_increasing_1; lra).
  exists (jump t), (jump (t + d)), (jump t), (fun x => match x with 0%nat => RtoC (sin (t + d)) | _ => (0, - cos (t + d)) end).
  split; [apply jump_norm|]. split; [apply jump_norm|]. split; [pose proof (jump_dist t d ltac:(lra)); lra|]. split; [apply jump_below; lra|]. split; [rewrite jump_above by auto; reflexivity|].
  unfold dist. rewrite norm1. unfold jump, RtoC, Cnorm2, Csub, Cadd, Copp. cbn [fst snd]. rewrite <- sqrt_1 at 1. apply sqrt_le_1_alt.
  pose proof (sin2_cos2 t) as E1. pose proof (sin2_cos2 (t + d)) as E2. unfold Rsqr in *. nra.
Qed.

(** ** A case *)
Definition ex_state : state := fun x => match x with 1%nat => Ci | _ => C0 end.
Lemma ex_leads : norm 1 ex_state = 1 /\ leads 1 ex_state 1 (/ 10 ^ 7) /\ turned 1 ex_state 1%nat = C1.
Proof.
  assert (A1 : Cabs Ci = 1) by (unfold Cabs, Cnorm2, Ci; cbn [fst snd]; replace (0 * 0 + 1 * 1) with 1 by ring; apply sqrt_1).
  split; [rewrite norm1; unfold ex_state, Cnorm2, C0, Ci; cbn [fst snd]; replace (0 * 0 + 0 * 0 + (0 * 0 + 1 * 1)) with 1 by ring; apply sqrt_1|]. split.
  - split; [change (2 ^ 1)%nat with 2%nat; lia|]. cbn [ex_state]. rewrite A1. split; [lra|]. intros i I. replace i with 0%nat by lia. unfold Cabs, ex_state. rewrite Cnorm2_C0, sqrt_0. lra.
  - unfold turned, scl. cbn [ex_state]. rewrite A1. change (RtoC 1) with C1. field. unfold Ci, C0. intros Z. injection Z. lra.
Qed.
Lemma ex_hyps : forall over n, (0 < n <= 64)%nat -> rounds_within (double_arith over) (/ 2 ^ 53) (powerRZ 2 (-1075)) (powerRZ 2 500) /\
  divides_signed (double_arith over) (/ 2 ^ 53) (powerRZ 2 (-1075)) (powerRZ 2 500) /\ phase_ranges (/ 2 ^ 53) (powerRZ 2 (-1075)) (powerRZ 2 500) n (powerRZ 2 (-400)) /\
  abs_within (fun q => double_lit over (Cabs q)) (/ 2 ^ 50) /\ / 2 ^ 53 <= / 2 ^ 50 <= 1 / 1000 /\ Rabs (double_lit over (1 / 10000000) - / 10 ^ 7) <= / 2 ^ 50 * / 10 ^ 7.
Proof.
  intros over n Hn. split; [apply double_rounds|]. split; [apply double_signed|]. split; [apply double_phase_ranges; lia|]. split; [apply double_abs|]. split; [rewrite pow53, pow50; lra|apply double_thr].
Qed.
