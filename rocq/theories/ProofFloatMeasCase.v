(** Rounded measurements: cases *)
From Coq Require Import String List Arith ZArith Bool Reals Lia Lra Psatz FunctionalExtensionality.
Import ListNotations.
From Verif Require Import Base Cplx Bits ModelTargets ModelGate ModelNumpy ModelFloat ModelFloatMeasure SpecTargets SpecQuantum SpecCircuit SpecMeasure SpecLaw SpecFloat
  SpecFloatMeasure ProofTargets ProofArray ProofNumpy ProofUnitary ProofPauli ProofRun ProofMeasure ProofExamples ProofFloat ProofFloatTop ProofLaw ProofLawStat ProofFloatMeasTop.
Local Open Scope R_scope.

(** ** Rounding of given numbers *)
Lemma int_part_is : forall x m, IZR m <= x < IZR m + 1 -> Int_part x = m.
Proof.
  intros x m [L H]. pose proof (base_Int_part x) as [I1 I2].
  assert (Int_part x < m + 1)%Z by (apply lt_IZR; rewrite plus_IZR; lra). assert (m < Int_part x + 1)%Z by (apply lt_IZR; rewrite plus_IZR; lra). lia.
Qed.
Lemma pow_lt_exp : forall a b, powerRZ 2 a < powerRZ 2 b -> (a < b)%Z.
Proof.
  intros a b H. destruct (Z_lt_ge_dec a b) as [L|G]; auto. exfalso.
  assert (powerRZ 2 b <= powerRZ 2 a).
  { rewrite !powerRZ_Rpower by lra. destruct (Z.eq_dec a b) as [->|Q]; [lra|]. left. apply Rpower_lt; [lra|]. apply IZR_lt. lia. }
  lra.
Qed.
Lemma round_at : forall p x m e, powerRZ 2 (e + Z.of_nat p - 1) <= x < powerRZ 2 (e + Z.of_nat p) -> IZR m - 1 / 2 <= x / powerRZ 2 e < IZR m + 1 / 2 ->
  round_to p x = IZR m * powerRZ 2 e.
Proof.
  intros p x m e [B1 B2] [H1 H2]. pose proof (powerRZ_lt 2 (e + Z.of_nat p - 1) ltac:(lra)) as P. assert (X : 0 < x) by lra.
  unfold round_to. destruct (Req_EM_T x 0) as [Z|N]; [lra|]. cbv zeta. pose proof (log2_bounds x N) as [C1 C2]. cbv zeta in C1, C2. set (k := Int_part (ln (Rabs x) / ln 2)) in *.
  rewrite Rabs_pos_eq in C1, C2 by lra.
  assert (k < e + Z.of_nat p)%Z by (apply pow_lt_exp; lra). assert (e + Z.of_nat p - 1 < k + 1)%Z by (apply pow_lt_exp; lra).
  replace (k - Z.of_nat p + 1)%Z with e by lia. f_equal. f_equal. apply int_part_is. lra.
Qed.
Lemma round_0 : forall p, round_to p 0 = 0.
Proof. intros. unfold round_to. destruct (Req_EM_T 0 0); [reflexivity|contradiction]. Qed.

Notation rd := (round_to 53).
Lemma p52 : powerRZ 2 (-52) = / 4503599627370496. Proof. replace (-52)%Z with (- Z.of_nat 52)%Z by reflexivity. rewrite powerRZ_neg', <- pow_powerRZ, pow_IZR. reflexivity. Qed.
Lemma p53 : powerRZ 2 (-53) = / 9007199254740992. Proof. replace (-53)%Z with (- Z.of_nat 53)%Z by reflexivity. rewrite powerRZ_neg', <- pow_powerRZ, pow_IZR. reflexivity. Qed.
Lemma p0 : powerRZ 2 0 = 1. Proof. reflexivity. Qed.
Lemma p1 : powerRZ 2 1 = 2. Proof. simpl. ring. Qed.
Lemma m1 : powerRZ 2 (-1) = / 2. Proof. simpl. field. Qed.
(** numbers in [1/2, 1) and [1, 2) *)
Lemma rd_half : forall x m, / 2 <= x < 1 -> IZR m - 1 / 2 <= x * 9007199254740992 < IZR m + 1 / 2 -> rd x = IZR m / 9007199254740992.
Proof.
  intros x m B H. rewrite (round_at 53 x m (-53)).
  - rewrite p53. reflexivity.
  - change (-53 + Z.of_nat 53 - 1)%Z with (-1)%Z. change (-53 + Z.of_nat 53)%Z with 0%Z. rewrite m1, p0. exact B.
  - rewrite p53. unfold Rdiv at 2 3. rewrite Rinv_inv. exact H.
Qed.
Lemma rd_one : forall x m, 1 <= x < 2 -> IZR m - 1 / 2 <= x * 4503599627370496 < IZR m + 1 / 2 -> rd x = IZR m / 4503599627370496.
Proof.
  intros x m B H. rewrite (round_at 53 x m (-52)).
  - rewrite p52. reflexivity.
  - change (-52 + Z.of_nat 53 - 1)%Z with 0%Z. change (-52 + Z.of_nat 53)%Z with 1%Z. rewrite p1, p0. exact B.
  - rewrite p52. unfold Rdiv at 2 3. rewrite Rinv_inv. exact H.
Qed.
Lemma sqrt_between : forall a b x, 0 <= a -> 0 <= b -> a * a <= x -> x < b * b -> a <= sqrt x < b.
Proof.
  intros a b x A B H1 H2. split.
  - rewrite <- (sqrt_square a) by auto. apply sqrt_le_1_alt; auto.
  - rewrite <- (sqrt_square b) by auto. apply sqrt_lt_1_alt. split; auto. nra.
Qed.

Definition r2 : R := 6369051672525772 / 9007199254740992.
Definition a2 : R := 9007199254740990 / 9007199254740992.
Definition q2 : R := 9007199254740988 / 9007199254740992.
Lemma rd_sqrt2 : rd (sqrt 2) = 6369051672525773 / 4503599627370496.
Proof.
  assert (B : (12738103345051545 / 9007199254740992) <= sqrt 2 < (12738103345051547 / 9007199254740992)) by (apply sqrt_between; lra).
  apply rd_one; lra.
Qed.
Lemma rd_r2 : rd (1 / (6369051672525773 / 4503599627370496)) = r2.
Proof.
  replace (1 / (6369051672525773 / 4503599627370496)) with (4503599627370496 / 6369051672525773) by (field; lra). apply rd_half; lra.
Qed.
Lemma rd_1 : rd 1 = 1. Proof. rewrite (rd_one 1 4503599627370496) by lra. field. Qed.
Lemma rd_fix_half : forall m, (4503599627370496 <= m < 9007199254740992)%Z -> rd (IZR m / 9007199254740992) = IZR m / 9007199254740992.
Proof.
  intros m [A B]. apply IZR_le in A. apply IZR_lt in B. apply rd_half; [lra|].
  replace (IZR m / 9007199254740992 * 9007199254740992) with (IZR m) by field. lra.
Qed.
Lemma rd_r : rd r2 = r2. Proof. apply rd_fix_half. lia. Qed.
Lemma rd_a : rd a2 = a2. Proof. apply rd_fix_half. lia. Qed.
Lemma rd_q : rd q2 = q2. Proof. apply rd_fix_half. lia. Qed.
Lemma rd_2r : rd (r2 + r2) = r2 + r2.
Proof. unfold r2. rewrite (rd_one _ 6369051672525772) by lra. lra. Qed.
Lemma rd_rr : rd ((r2 + r2) * r2) = a2. Proof. unfold r2. apply rd_half; lra. Qed.
Lemma rd_aa : rd (a2 * a2) = q2. Proof. unfold a2. apply rd_half; lra. Qed.
Lemma rd_sq : rd (sqrt q2) = a2.
Proof.
  assert (B : 18014398509481979 / 18014398509481984 <= sqrt q2 < 18014398509481981 / 18014398509481984) by (unfold q2; apply sqrt_between; lra).
  apply rd_half; lra.
Qed.

(** H, H, measure on one qubit *)
Definition ex_hhm : list gate := [GOne KH (TInt 0); GOne KH (TInt 0); GMeasure (TInt 0)].
Definition ex_hhm_events : list event := [EOp (sem1 KH 0); EOp (sem1 KH 0); EMeasure 0].
Lemma hhm_events : circuit_events 1 ex_hhm ex_hhm_events.
Proof.
  apply (ce_cons 1 (GOne KH (TInt 0)) _ [EOp (sem1 KH 0)]).
  { apply (ge_ops 1 _ [sem1 KH 0]). apply (go_one 1 KH (TInt 0) [0%Z]); [den|ins]. }
  apply (ce_cons 1 (GOne KH (TInt 0)) _ [EOp (sem1 KH 0)]).
  { apply (ge_ops 1 _ [sem1 KH 0]). apply (go_one 1 KH (TInt 0) [0%Z]); [den|ins]. }
  apply (ce_cons 1 (GMeasure (TInt 0)) _ [EMeasure 0] []). { apply (ge_measure 1 (TInt 0) [0%Z]); [den|ins]. }
  constructor.
Qed.
Lemma hhm_weight : weight 1 ex_hhm_events [true] = 0.
Proof.
  unfold weight, norm2, ex_hhm_events, branch, project, sem1, ap1, ket. cbn. cunfold. ring.
Qed.
Section Case.
Notation B := (binary_arith 53).
Lemma fcm : forall a b, fc_mul B (RtoC a) (RtoC b) = RtoC (rd (rd (a * b))).
Proof.
  intros. unfold fc_mul, RtoC. cbn [f_mul f_sub f_add binary_arith fst snd]. rewrite Rmult_0_l, Rmult_0_r, Rmult_0_l, round_0, Rminus_0_r, Rplus_0_r, round_0. reflexivity.
Qed.
Lemma fca : forall a b, fc_add B (RtoC a) (RtoC b) = RtoC (rd (a + b)).
Proof. intros. unfold fc_add, RtoC. cbn [f_add binary_arith fst snd]. rewrite Rplus_0_l, round_0. reflexivity. Qed.
Lemma fcs : forall a b, fc_sub B (RtoC a) (RtoC b) = RtoC (rd (a - b)).
Proof. intros. unfold fc_sub, RtoC. cbn [f_sub binary_arith fst snd]. rewrite Rminus_0_r, round_0. reflexivity. Qed.
Lemma h_run : forall N rng fuel z0 z1 w0 w1 sv sh c pos,
  fl_run_single B N rng fuel (GOne KH (TInt 0)) (Ctx 1 [z0; z1] [w0; w1] sv sh c pos) =
  SOk (Ctx 1 [fc_mul B (fc_add B z0 z1) (RtoC (fl_rsqrt2 B)); fc_mul B (fc_sub B z0 z1) (RtoC (fl_rsqrt2 B))] [z0; z1] sv sh c pos).
Proof. intros. destruct fuel; reflexivity. Qed.
Lemma rs2 : fl_rsqrt2 B = r2.
Proof. unfold fl_rsqrt2. cbn [f_div f_sqrt binary_arith]. rewrite rd_sqrt2. apply rd_r2. Qed.
Lemma two_h : forall N rng sv sh c pos,
  run_list (fl_run_single B N rng recursion_limit) [GOne KH (TInt 0); GOne KH (TInt 0)] (Ctx 1 [RtoC 1; RtoC 0] [C0; C0] sv sh c pos) =
  SOk (Ctx 1 [RtoC a2; RtoC 0] [RtoC r2; RtoC r2] sv sh c pos).
Proof.
  intros. cbn [run_list]. rewrite h_run. rewrite fca, fcs, rs2, !fcm. rewrite Rplus_0_r, Rminus_0_r, rd_1, Rmult_1_l, !rd_r.
  rewrite h_run. rewrite fca, fcs, rs2, !fcm. rewrite rd_2r, rd_rr, rd_a. rewrite Rminus_eq_0, round_0, Rmult_0_l, !round_0. reflexivity.
Qed.
Lemma p_case : fl_norm2 B (sequential_norm B) [RtoC a2] = q2.
Proof.
  unfold fl_norm2, sequential_norm, RtoC. cbn [fold_left f_add f_mul f_sqrt binary_arith fst snd].
  rewrite Rmult_0_l, rd_aa, round_0, Rplus_0_r, rd_q, Rplus_0_l, rd_q, rd_sq. apply rd_aa.
Qed.
Lemma div_C0 : forall s, s <> 0 -> fl_div B s (RtoC 0) = RtoC 0.
Proof.
  intros s H. unfold fl_div, RtoC. cbn [f_div f_add f_sub f_mul binary_arith fst snd]. unfold Rdiv. repeat progress (rewrite ?Rmult_0_l, ?Rplus_0_l, ?Rminus_eq_0, ?round_0). reflexivity.
Qed.
Lemma measure_case : forall rng q z, Rltb (rng 0%nat) (fl_norm2 B (sequential_norm B) [q]) = false ->
  fl_measure B (sequential_norm B) rng 1 0 ([q; z], [0%nat], 0%nat) =
  (([fl_div B (f_sqrt B (f_sub B 1 (fl_norm2 B (sequential_norm B) [q]))) (RtoC 0); fl_div B (f_sqrt B (f_sub B 1 (fl_norm2 B (sequential_norm B) [q]))) z], [1%nat], 1%nat), None).
Proof.
  intros rng q z H.
  transitivity (if Rltb (rng 0%nat) (fl_norm2 B (sequential_norm B) [q])
    then (([fl_div B (f_sqrt B (fl_norm2 B (sequential_norm B) [q])) q; fl_div B (f_sqrt B (fl_norm2 B (sequential_norm B) [q])) C0], [0%nat], 1%nat), @None exn)
    else (([fl_div B (f_sqrt B (f_sub B 1 (fl_norm2 B (sequential_norm B) [q]))) (RtoC 0); fl_div B (f_sqrt B (f_sub B 1 (fl_norm2 B (sequential_norm B) [q]))) z], [1%nat], 1%nat), None)).
  - unfold fl_measure.
    change (mask_eq0 1 0) with (Ok [true; false]). change (mask_ne0 1 0) with (Ok [false; true]). cbv iota beta zeta.
    change (np_get [q; z] [true; false]) with [q]. destruct (Rltb (rng 0%nat) (fl_norm2 B (sequential_norm B) [q])); reflexivity.
  - rewrite H. reflexivity.
Qed.
Lemma impossible_lemma : exists rng, draws_ok rng /\ (forall i, exists k, rng i = IZR k * powerRZ 2 (-53)) /\
  circuit_events 1 ex_hhm ex_hhm_events /\ weight 1 ex_hhm_events [true] = 0 /\
  exists ctx, fl_shot B (sequential_norm B) rng ex_hhm 1 0 = SOk ctx /\ x_cregs ctx = [1%nat] /\ x_qubits ctx = [C0; C0].
Proof.
  exists (fun _ => IZR 9007199254740991 * powerRZ 2 (-53)).
  assert (RV : IZR 9007199254740991 * powerRZ 2 (-53) = 9007199254740991 / 9007199254740992) by (rewrite p53; reflexivity).
  split; [intros i; rewrite RV; lra|]. split; [intros i; exists 9007199254740991%Z; reflexivity|]. split; [exact hhm_events|]. split; [exact hhm_weight|].
  set (rng := fun _ : nat => IZR 9007199254740991 * powerRZ 2 (-53)). eexists. split; [|split].
  - unfold fl_shot, ex_hhm. change (prepare (new_ctx 1 0) None) with (Ctx 1 [RtoC 1; RtoC 0] [C0; C0] false [] [0%nat] 0) ||
      (unfold prepare, new_ctx; cbn [x_n x_buf x_shots x_pos]; unfold basis0, zeros; cbn [Nat.pow Nat.mul Nat.add repeat]).
    change [GOne KH (TInt 0); GOne KH (TInt 0); GMeasure (TInt 0)] with (([GOne KH (TInt 0); GOne KH (TInt 0)] ++ [GMeasure (TInt 0)])%list).
    rewrite ProofCache.run_list_app. rewrite two_h. cbn [run_list].
    match goal with |- context [fl_run_single ?a ?b ?c ?d (GMeasure ?t) ?x] => change (fl_run_single a b c d (GMeasure t) x) with (np_collapse (fl_measure a b c) t x) end.
    unfold np_collapse. cbn [x_n x_qubits x_cregs x_pos x_buf x_shots]. change (slicing (TInt 0) (Z.of_nat 1)) with (Gen [0%Z] None). cbn [yields raised loop_state].
    rewrite measure_case; [reflexivity|]. rewrite p_case. destruct (Rltb (rng 0%nat) q2) eqn:E; auto. apply Rltb_true in E. unfold rng in E. rewrite RV in E. unfold q2 in E. lra.
  - reflexivity.
  - cbn [x_qubits]. rewrite p_case. cbn [f_sub f_sqrt binary_arith].
    assert (Q : rd (sqrt (rd (1 - q2))) <> 0).
    { assert (Z : forall x, x <> 0 -> rd x <> 0).
      { intros x N E. pose proof (round_err 53 x) as K. rewrite E, pow53, Rminus_0_l, Rabs_Ropp in K. pose proof (Rabs_pos_lt x N). lra. }
      apply Z. apply Rgt_not_eq, sqrt_lt_R0. assert (X : 0 < 1 - q2) by (unfold q2; lra). pose proof (round_err 53 (1 - q2)) as K. rewrite pow53, (Rabs_pos_eq (1 - q2)) in K by lra.
      apply ProofFloatMeas.Rabs_le_inv in K. lra. }
    rewrite !div_C0 by auto. reflexivity.
Qed.
End Case.

(** ** A case of the theorem *)
Definition ex_draws : nat -> R := fun _ => 3 / 4.
Lemma sqrt2_sq : / sqrt 2 * / sqrt 2 = 1 / 2.
Proof. rewrite <- Rinv_mult, sqrt_sqrt by lra. lra. Qed.
Lemma ex_thresholds : thresholds 1 ex_events [true; true] (ket 0) = [1 / 2; 0].
Proof.
  unfold thresholds, ex_events.
  assert (N1 : norm2 1 (sem1 KH 0 (ket 0)) = 1).
  { unfold norm2, sem1, ap1, ket. cbn. cunfold. pose proof sqrt2_sq. ring_simplify. rewrite ?Rmult_1_r. simpl. nra. }
  assert (P1 : prob 1 0 false (sem1 KH 0 (ket 0)) = 1 / 2).
  { unfold prob, norm2, project, sem1, ap1, ket. cbn. cunfold. pose proof sqrt2_sq. ring_simplify. rewrite ?Rmult_1_r. simpl. nra. }
  assert (P2 : prob 1 0 false (project 0 true (sem1 KH 0 (ket 0))) = 0).
  { unfold prob, norm2, project. cbn. cunfold. ring. }
  rewrite N1, P1, P2. unfold Rdiv at 1 3. rewrite Rmult_0_l. f_equal. lra.
Qed.
Lemma ex_box : box 1 ex_events [true; true] (ket 0) = [(1 / 2, 1); (0, 1)].
Proof.
  pose proof ex_thresholds as H. unfold thresholds, ex_events in H. unfold box, ex_events. injection H as H1 H2. rewrite H1, H2. reflexivity.
Qed.
Lemma case_lemma : let u := 1 / 100000000 in let err := (1 + 256 * (u * 3)) ^ (7 * List.length ex_events) - 1 in let W := weight 1 ex_events [true; true] in
  rounds (biased_arith u) u /\ 1000 * u * 3 <= 1 /\ norms (fun v => sqrt (exact_norm2 v)) 1 u /\ draws_ok ex_draws /\ circuit_events 1 ex_law ex_events /\
  Forall (angles_within 3) ex_law /\ draws ex_events = 2%nat /\ 0 < W /\ 28 * (2 * 2) * err <= W /\ in_box (box 1 ex_events [true; true] (ket 0)) ex_draws 0 /\
  apart (14 * 2 * err / W) (thresholds 1 ex_events [true; true] (ket 0)) ex_draws 0.
Proof.
  cbv zeta. destruct ex_weights as (_ & -> & _).
  assert (E : (1 + 256 * (1 / 100000000 * 3)) ^ (7 * List.length ex_events) - 1 <= 1 / 1000).
  { change (7 * List.length ex_events)%nat with 21%nat. eapply Rle_trans; [apply pow_linear; [lra|]|]; simpl INR; lra. }
  set (err := (1 + 256 * (1 / 100000000 * 3)) ^ (7 * List.length ex_events) - 1) in *.
  split; [apply biased_rounds; lra|]. split; [lra|]. split; [apply exact_norms; lra|]. split; [intros i; unfold ex_draws; lra|]. split; [exact ex_law_events|].
  split; [repeat (apply Forall_cons; [unfold angles_within; cbn; apply Forall_nil|]); apply Forall_nil|]. split; [reflexivity|]. split; [lra|]. split; [lra|].
  rewrite ex_box, ex_thresholds. split.
  - intros [|[|i]] L; cbn [List.length] in L; [| |lia]; unfold ex_draws; cbn [nth fst snd]; lra.
  - intros [|[|i]] L; cbn [List.length] in L; [| |lia]; unfold ex_draws; cbn [nth]; rewrite Rabs_pos_eq by lra; lra.
Qed.
