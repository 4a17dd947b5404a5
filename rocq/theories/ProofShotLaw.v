(** Proofs: mean and spread of energies estimated from shots *)
From Coq Require Import List Arith ZArith Bool Reals Lia Lra FunctionalExtensionality.
Import ListNotations.
From Verif Require Import Base Cplx Bits ModelTargets ModelGate ModelPauli ModelVqe SpecTargets SpecQuantum SpecCircuit SpecMeasure SpecLaw SpecPauli SpecVqe SpecShots
  ProofUnitary ProofArray ProofMeasure ProofBorn ProofWhole ProofLaw ProofLawStat ProofEvolution ProofPauliComm ProofVqeRun.
From Verif Require ProofVqeSample ProofFallback.
Local Open Scope R_scope.

(** ** A finite law of values 1 and -1 *)
Section Signs.
Variable A : Type.
Variable l : list A.
Variable w x : A -> R.
Hypothesis H1 : Rsum w l = 1.
Hypothesis Hx : forall a, x a * x a = 1.
Let p : R := Rsum (fun a => w a * x a) l.
Lemma sign_var : forall N, ex A l w N (fun ss => (sx A x ss - INR N * p) * (sx A x ss - INR N * p)) = INR N * (1 - p * p).
Proof.
  induction N as [|N IH]; [unfold ex; cbn; lra|]. rewrite ex_S.
  rewrite (Rsum_ext _ _ (fun a => w a * (INR N * (1 - p * p)) + (w a * x a * (- 2 * p) + w a * (1 + p * p)))).
  - rewrite !Rsum_add, !Rsum_mul_r, H1. fold p. rewrite S_INR. ring.
  - intros a _.
    rewrite (ex_ext A l w N _ (fun ss => (sx A x ss - INR N * p) * (sx A x ss - INR N * p) + (2 * (x a - p) * sx A x ss + ((x a - p) * (x a - p) - 2 * (x a - p) * (INR N * p))))).
    + rewrite !ex_add, IH, ex_mul, (ex_mean A l w x H1), (ex_const A l w H1). fold p. replace ((x a - p) * (x a - p)) with (x a * x a - 2 * p * x a + p * p) by ring. rewrite Hx. ring.
    + intros ss. cbn [sx fold_right]. fold (sx A x ss). rewrite S_INR. ring.
Qed.
End Signs.
Lemma sx_sum : forall A (x : A -> R) ss, sx A x ss = Rsum x ss.
Proof. induction ss as [|s ss IH]; cbn; [reflexivity|]. unfold sx in IH. rewrite IH. reflexivity. Qed.
Lemma reading_square : forall s, reading s * reading s = 1.
Proof. induction s as [|b s IH]; [cbn; ring|]. cbn [reading fold_right]. fold (reading s). destruct b; lra. Qed.

(** ** Events *)
Lemma draws_app : forall a b, draws (a ++ b) = (draws a + draws b)%nat.
Proof. induction a as [|[U|t|t] a IH]; intros b; cbn; auto. Qed.
Lemma draws_ops : forall ops, draws (map EOp ops) = 0%nat.
Proof. induction ops; cbn; auto. Qed.
Lemma draws_measures : forall l, draws (map EMeasure l) = List.length l.
Proof. induction l; cbn; auto. Qed.
Lemma shot_draws : forall ops w, draws (shot_events ops w) = List.length w.
Proof. intros. unfold shot_events. rewrite draws_app, draws_ops, draws_measures, map_length. reflexivity. Qed.
Lemma branch_ops : forall ops es s psi, branch (map EOp ops ++ es) s psi = branch es s (apply_all ops psi).
Proof. induction ops as [|U r IH]; intros es s psi; cbn; [reflexivity|]. rewrite IH. reflexivity. Qed.
Lemma recorded_ops : forall ops es s bits, recorded (map EOp ops ++ es) s bits = recorded es s bits.
Proof. induction ops as [|U r IH]; intros es s bits; cbn; auto. Qed.
Lemma events_of_ops : forall n gs ops, circuit_ops n gs ops -> circuit_events n gs (map EOp ops).
Proof. intros n gs ops C. induction C; cbn; [constructor|]. rewrite map_app. constructor; [constructor; assumption|assumption]. Qed.
Lemma events_app : forall n a ea b eb, circuit_events n a ea -> circuit_events n b eb -> circuit_events n (a ++ b) (ea ++ eb).
Proof. intros n a ea b eb C D. induction C; cbn; [assumption|]. rewrite <- app_assoc. constructor; assumption. Qed.
Lemma turned_ops : forall n w, fits n w -> circuit_ops n (basis_change w) (flat_map turned w).
Proof.
  intros n w. rewrite basis_change_eq. unfold basis_gates. induction w as [|[l q] r IH]; intros F; [constructor|]. cbn [flat_map]. apply gates_app; [|apply IH; intros o I; apply F; right; exact I].
  assert (Q : (q < n)%nat) by (apply (F (l, q)); left; reflexivity).
  assert (D : forall k, circuit_ops n [GOne k (TInt (Z.of_nat q))] [sem1 k q]).
  { intros k. apply (co_cons n _ [] [sem1 k q] []); [|constructor]. replace [sem1 k q] with (map (fun t => sem1 k (Z.to_nat t)) [Z.of_nat q]) by (cbn; rewrite Nat2Z.id; reflexivity).
    apply go_one; [|apply Forall_cons; [unfold inside; lia|constructor]].
    replace [Z.of_nat q] with [rel (Z.of_nat n) (Z.of_nat q)]; [apply den_one, den_int|]. unfold rel. destruct (Z.ltb_spec (Z.of_nat q) 0); [lia|reflexivity]. }
  unfold turned. cbn [fst snd]. destruct l; [apply D|apply D|constructor].
Qed.
Lemma turned_bop : forall w psi, apply_all (flat_map turned w) psi = bop (- (PI / 2)) w psi.
Proof.
  unfold bop. induction w as [|[l q] r IH]; intros psi; [reflexivity|]. cbn [flat_map fold_left]. rewrite apply_app, IH. f_equal. unfold turned. cbn [fst snd].
  destruct l; try reflexivity. cbn [bmat]. rewrite ProofFallback.ap1_I. reflexivity.
Qed.
Lemma shot_circuit : forall n gs ops w, circuit_ops n gs ops -> fits n w ->
  circuit_events n ((gs ++ basis_change w) ++ [measure_gate_of (map snd w)]) (shot_events ops w).
Proof.
  intros n gs ops w C F. unfold shot_events. apply events_app; [apply events_of_ops, gates_app; [exact C|apply turned_ops, F]|].
  rewrite <- (app_nil_r (map EMeasure (map snd w))). constructor; [|constructor].
  replace (map EMeasure (map snd w)) with (map (fun t => EMeasure (Z.to_nat t)) (map Z.of_nat (map snd w))) by (rewrite map_map; apply map_ext; intros; rewrite Nat2Z.id; reflexivity).
  assert (B : Forall (fun m => m < n)%nat (map snd w)) by (apply Forall_map, Forall_forall; intros o I; apply F, I).
  apply ge_measure; [apply ProofVqeSample.measure_denotes, B|]. apply Forall_map. eapply Forall_impl; [|exact B]. intros m M. unfold inside. cbv beta in M. lia.
Qed.

(** ** The mean of the readings of a word *)
Lemma readings_sum : forall n meas psi, Rsum (fun s => norm2 n (branch (map EMeasure meas) s psi) * reading s) (values (List.length meas)) =
  Rsum (fun x => fold_right (fun q v => if bit x q then - v else v) 1 meas * Cnorm2 (psi x)) (seq 0 (2 ^ n)).
Proof.
  intros n. induction meas as [|t r IH]; intros psi.
  - cbn [List.length values map branch reading fold_right Rsum]. unfold norm2. rewrite Rmult_1_r, Rplus_0_r. apply Rsum_ext. intros; ring.
  - cbn [List.length values map branch]. rewrite Rsum_app, !Rsum_map.
    transitivity (Rsum (fun s => norm2 n (branch (map EMeasure r) s (project t false psi)) * reading s) (values (List.length r)) +
      -1 * Rsum (fun s => norm2 n (branch (map EMeasure r) s (project t true psi)) * reading s) (values (List.length r))).
    { f_equal. rewrite <- Rsum_mul_l. apply Rsum_ext. intros s _. cbn [reading fold_right]. fold (reading s). ring. }
    rewrite (IH (project t false psi)), (IH (project t true psi)). rewrite <- Rsum_mul_l, <- Rsum_add. apply Rsum_ext. intros x _. cbn [fold_right].
    unfold project. destruct (bit x t); cbn [Bool.eqb]; unfold Cnorm2, C0; cbn; ring.
Qed.
Lemma signs_word : forall w x, RtoC (fold_right (fun q v => if bit x q then - v else v) 1 (map snd w)) = zsign w x.
Proof.
  induction w as [|o r IH]; intros x; [reflexivity|]. cbn [map fold_right zsign]. rewrite <- IH. destruct (bit x (snd o)); unfold RtoC; ceq.
Qed.
Lemma word_mean : forall n ops w, separate_word n w ->
  RtoC (Rsum (fun s => weight n (shot_events ops w) s * reading s) (values (List.length w))) = (sgn (ycount w) * expval n (word_op w) (apply_all ops (ket 0)))%C.
Proof.
  intros n ops w S. rewrite <- rotated_average by exact S. rewrite <- turned_bop, <- apply_app.
  transitivity (RtoC (Rsum (fun x => fold_right (fun q v => if bit x q then - v else v) 1 (map snd w) * Cnorm2 (apply_all (ops ++ flat_map turned w) (ket 0) x)) (seq 0 (2 ^ n)))).
  - f_equal. rewrite <- readings_sum, map_length. apply Rsum_ext. intros s _. unfold weight, shot_events. rewrite branch_ops. reflexivity.
  - rewrite <- Csum_RtoC. unfold expval, inner. apply Csum_ext. intros x _. rewrite zword_apply, <- signs_word. set (k := fold_right _ 1 _). unfold Cnorm2, RtoC. ceq.
Qed.

(** ** All terms *)
Section Law.
Variables (n : nat) (ops : list oper) (gs : list gate) (N : nat).
Hypothesis Co : circuit_ops n gs ops.
Hypothesis HN : (0 < N)%nat.
Notation es t := (shot_events ops (t_ops t)).
Notation M := (mean_shots n ops N).
Definition fine (t : term) : Prop := separate_word n (t_ops t).
Lemma term_total : forall t, fine t -> Rsum (weight n (es t)) (values (List.length (t_ops t))) = 1.
Proof. intros t [_ F]. rewrite <- (shot_draws ops). eapply law_total. apply shot_circuit; [exact Co|exact F]. Qed.
Lemma mean_cons : forall t r f, fine t -> M (t :: r) f = ex _ (values (List.length (t_ops t))) (weight n (es t)) N (fun ss => M r (fun sss => f (ss :: sss))).
Proof.
  intros t r f [_ F]. unfold mean_shots, ex. cbn [all_shots]. rewrite Rsum_flat_map. apply Rsum_ext. intros ss I. rewrite Rsum_map, <- Rsum_mul_l. apply Rsum_ext. intros sss _.
  unfold energy_box. cbn [combine flat_map fst snd]. rewrite box_volume_app. apply sequences_spec in I. destruct I as [_ I].
  destruct (law_product n _ (es t) ss (shot_circuit n gs ops (t_ops t) Co F)) as [_ [V _]].
  { eapply Forall_impl; [|exact I]. intros s J. cbv beta in J. apply values_spec in J. rewrite shot_draws. exact J. }
  cbv zeta in V. rewrite V. unfold seq_weight, pw. ring.
Qed.
Lemma M_ext : forall ham f g, (forall sss, f sss = g sss) -> M ham f = M ham g.
Proof. intros ham f g H. unfold mean_shots. apply Rsum_ext. intros. rewrite H. reflexivity. Qed.
Lemma M_add : forall ham f g, M ham (fun s => f s + g s) = M ham f + M ham g.
Proof. intros. unfold mean_shots. rewrite <- Rsum_add. apply Rsum_ext. intros; ring. Qed.
Lemma M_mul : forall ham k f, M ham (fun s => k * f s) = k * M ham f.
Proof. intros. unfold mean_shots. rewrite <- Rsum_mul_l. apply Rsum_ext. intros; ring. Qed.
Lemma M_one : forall ham, Forall fine ham -> M ham (fun _ => 1) = 1.
Proof.
  intros ham F. induction F as [|t r Ft F IH]; [unfold mean_shots, energy_box; cbn; ring|]. rewrite mean_cons by exact Ft.
  rewrite (ex_ext _ _ _ N _ (fun _ => 1)) by (intros; exact IH). apply ex_1, term_total, Ft.
Qed.
Lemma M_const : forall ham k, Forall fine ham -> M ham (fun _ => k) = k.
Proof. intros ham k F. transitivity (M ham (fun _ => k * 1)); [apply M_ext; intros; ring|]. rewrite (M_mul ham k (fun _ => 1)), M_one by exact F. ring. Qed.
Lemma box_volume_nonneg : forall n0 gs0 es0 s, circuit_events n0 gs0 es0 -> List.length s = draws es0 -> 0 <= box_volume (box n0 es0 s (ket 0)).
Proof. intros n0 gs0 es0 s C L. destruct (law_box n0 gs0 es0 s C L) as [_ [_ ->]]. apply norm2_nonneg. Qed.
Lemma M_le : forall ham f g, Forall fine ham -> (forall sss, f sss <= g sss) -> M ham f <= M ham g.
Proof.
  intros ham f g F. revert f g. induction F as [|t r Ft F IH]; intros f g H.
  - unfold mean_shots, energy_box. cbn. specialize (H []). lra.
  - rewrite !mean_cons by exact Ft. unfold ex. apply Rsum_le. intros ss I. apply Rmult_le_compat_l; [|apply IH; intros; apply H].
    apply (pw_nonneg _ (values (List.length (t_ops t)))) with (N := N); [|exact I]. intros s _. apply norm2_nonneg.
Qed.
Definition term_mean (t : term) : R := Rsum (fun s => weight n (es t) s * reading s) (values (List.length (t_ops t))).
Definition all_mean (ham : expr) : R := Rsum (fun t => Cre (t_coeff t) * term_mean t) ham.
Lemma HN' : 0 < INR N. Proof. apply lt_0_INR, HN. Qed.
Lemma estimate_cons : forall t r ss sss, estimate N (t :: r) (ss :: sss) = Cre (t_coeff t) / INR N * sx _ reading ss + estimate N r sss.
Proof. intros. unfold estimate. cbn [combine Rsum fst snd]. rewrite sx_sum. unfold Rdiv. ring. Qed.
Lemma term_part : forall t, fine t -> ex _ (values (List.length (t_ops t))) (weight n (es t)) N (fun ss => Cre (t_coeff t) / INR N * sx _ reading ss) = Cre (t_coeff t) * term_mean t.
Proof. intros t Ft. rewrite ex_mul, (ex_mean _ _ _ reading (term_total t Ft)). fold (term_mean t). field. pose proof HN'. lra. Qed.
Lemma law_estimate : forall ham, Forall fine ham -> M ham (estimate N ham) = all_mean ham.
Proof.
  intros ham F. induction F as [|t r Ft F IH]; [unfold mean_shots, energy_box, estimate, all_mean; cbn; ring|]. rewrite mean_cons by exact Ft.
  rewrite (ex_ext _ _ _ N _ (fun ss => Cre (t_coeff t) / INR N * sx _ reading ss + all_mean r)).
  - rewrite ex_add, term_part, (ex_const _ _ _ (term_total t Ft)) by exact Ft. reflexivity.
  - intros ss. rewrite (M_ext r _ (fun sss => Cre (t_coeff t) / INR N * sx _ reading ss + estimate N r sss)) by (intros; apply estimate_cons).
    rewrite M_add, M_const, IH by exact F. reflexivity.
Qed.
Lemma law_deviation : forall ham, Forall fine ham -> M ham (fun sss => Rsqr (estimate N ham sss - all_mean ham)) <= squares ham / INR N.
Proof.
  intros ham F. pose proof HN' as P. induction F as [|t r Ft F IH].
  - unfold mean_shots, energy_box, estimate, all_mean, squares, Rsqr. cbn. unfold Rdiv. lra.
  - rewrite mean_cons by exact Ft. set (a := Cre (t_coeff t)). set (p := term_mean t).
    set (V := M r (fun sss => Rsqr (estimate N r sss - all_mean r))) in *.
    rewrite (ex_ext _ _ _ N _ (fun ss => a * a / (INR N * INR N) * ((sx _ reading ss - INR N * p) * (sx _ reading ss - INR N * p)) + V)).
    + rewrite ex_add, ex_mul, (ex_const _ _ _ (term_total t Ft)). unfold p, term_mean. rewrite (sign_var _ _ _ reading (term_total t Ft) reading_square). fold (term_mean t). fold p.
      unfold squares. cbn [Rsum]. fold (squares r). fold a. unfold Rsqr at 1.
      replace (a * a / (INR N * INR N) * (INR N * (1 - p * p))) with (a * a / INR N * (1 - p * p)) by (field; lra).
      assert (Q : 0 <= a * a / INR N) by (apply Rmult_le_pos; [apply Rle_0_sqr|left; apply Rinv_0_lt_compat, P]).
      assert (Q2 : a * a / INR N * (1 - p * p) <= a * a / INR N * 1) by (apply Rmult_le_compat_l; [exact Q|pose proof (Rle_0_sqr p) as S; unfold Rsqr in S; lra]).
      unfold Rdiv in *. lra.
    + intros ss. set (u := a / INR N * sx _ reading ss - a * p).
      rewrite (M_ext r _ (fun sss => u * u + (2 * u * (estimate N r sss + - all_mean r) + Rsqr (estimate N r sss - all_mean r)))).
      * rewrite M_add, M_const, M_add, M_mul by exact F. rewrite M_add, M_const, law_estimate by exact F. fold V. unfold u. field. lra.
      * intros sss. rewrite estimate_cons. unfold all_mean. cbn [Rsum]. fold (all_mean r). fold p. fold a. unfold Rsqr, u. ring.
Qed.
Lemma law_far : forall ham eps, Forall fine ham -> 0 < eps ->
  M ham (fun sss => if Rle_dec eps (Rabs (estimate N ham sss - all_mean ham)) then 1 else 0) <= squares ham / (INR N * Rsqr eps).
Proof.
  intros ham eps F He. pose proof HN' as P. assert (E2 : 0 < Rsqr eps) by (apply Rsqr_pos_lt; lra).
  apply Rle_trans with (M ham (fun sss => / Rsqr eps * Rsqr (estimate N ham sss - all_mean ham))).
  - apply M_le; [exact F|]. intros sss. destruct (Rle_dec eps (Rabs (estimate N ham sss - all_mean ham))) as [L|L].
    + rewrite (Rsqr_abs (estimate N ham sss - all_mean ham)). apply Rmult_le_reg_l with (Rsqr eps); [exact E2|]. rewrite <- Rmult_assoc, Rinv_r, Rmult_1_l, Rmult_1_r by lra.
      unfold Rsqr. apply Rmult_le_compat; lra.
    + apply Rmult_le_pos; [left; apply Rinv_0_lt_compat, E2|apply Rle_0_sqr].
  - rewrite M_mul. replace (squares ham / (INR N * Rsqr eps)) with (/ Rsqr eps * (squares ham / INR N)) by (field; lra).
    apply Rmult_le_compat_l; [left; apply Rinv_0_lt_compat, E2|apply law_deviation, F].
Qed.
Lemma all_mean_energy : forall ham, Forall fine ham -> all_mean ham = Cre (expval_y n ham (apply_all ops (ket 0))).
Proof.
  intros ham F. induction F as [|t r Ft F IH]; [reflexivity|]. unfold all_mean. cbn [Rsum expval_y]. fold (all_mean r). rewrite IH, sgn_coeff.
  pose proof (word_mean n ops (t_ops t) Ft) as W. fold (term_mean t) in W.
  replace (t_coeff t * sgn (ycount (t_ops t)) * expval n (word_op (t_ops t)) (apply_all ops (ket 0)))%C with (t_coeff t * RtoC (term_mean t))%C by (rewrite W; ring).
  destruct (t_coeff t) as [x y]. destruct (expval_y n r (apply_all ops (ket 0))) as [u v]. unfold RtoC, Cadd, Cmul, Cre. cbn. ring.
Qed.
End Law.
