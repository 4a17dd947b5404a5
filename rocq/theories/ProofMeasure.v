(** Measurement, reset and whole runs of the numpy backend. *)
From Coq Require Import List Arith ZArith Bool String Reals Lia Lra FunctionalExtensionality.
Import ListNotations.
From Verif Require Import Base Cplx Bits ModelTargets ModelGate ModelNumpy SpecTargets SpecQuantum SpecCircuit SpecMeasure
  SpecRun ProofTargets ProofArray ProofNumpy ProofFallback ProofRun ProofUnitary ProofCache.
Local Open Scope R_scope.

(** ** Probabilities *)
Lemma norm2_nonneg : forall n psi, 0 <= norm2 n psi.
Proof. intros. apply Rsum_nonneg. intros. apply Cnorm2_pos. Qed.
Lemma prob_nonneg : forall n t b psi, 0 <= prob n t b psi.
Proof. intros. apply norm2_nonneg. Qed.
Lemma prob_total : forall n t psi, prob n t false psi + prob n t true psi = norm2 n psi.
Proof.
  intros. unfold prob, norm2. rewrite <- Rsum_add. apply Rsum_ext. intros x _. unfold project.
  destruct (bit x t); simpl; rewrite Cnorm2_C0; ring.
Qed.
Lemma norm2_scl : forall n k psi, norm2 n (scl k psi) = Cnorm2 k * norm2 n psi.
Proof. intros. unfold norm2, scl. rewrite <- Rsum_mul_l. apply Rsum_ext. intros. apply Cnorm2_mul. Qed.
Lemma norm2_collapse : forall n t b psi, 0 < prob n t b psi -> norm2 n (collapse n t b psi) = 1.
Proof.
  intros n t b psi H. unfold collapse. rewrite norm2_scl, Cnorm2_RtoC. fold (prob n t b psi).
  rewrite <- Rinv_mult, sqrt_sqrt by lra. field. lra.
Qed.

Section Rng.
Variable rng : nat -> R.
Hypothesis Hrng : draws_ok rng.

Lemma outcome_prob : forall n t w, norm2 n (w_psi w) = 1 -> 0 < prob n t (outcome rng n t w) (w_psi w).
Proof.
  intros n t w H. unfold outcome. pose proof (Hrng (w_pos w)). pose proof (prob_total n t (w_psi w)).
  destruct (Rltb (rng (w_pos w)) (prob n t false (w_psi w))) eqn:E; simpl.
  - apply Rltb_true in E. lra.
  - apply Rltb_false in E. lra.
Qed.

Lemma measure1_norm : forall n t w, norm2 n (w_psi w) = 1 -> norm2 n (w_psi (measure1 rng n t w)) = 1.
Proof. intros. unfold measure1. simpl. apply norm2_collapse, outcome_prob; auto. Qed.
Lemma reset1_norm : forall n t w, (t < n)%nat -> norm2 n (w_psi w) = 1 -> norm2 n (w_psi (reset1 rng n t w)) = 1.
Proof.
  intros n t w Ht H. unfold reset1. simpl. pose proof (norm2_collapse n t _ _ (outcome_prob n t w H)) as E.
  destruct (outcome rng n t w); auto.
  rewrite (preserves_norm n (ap1 mX t)); auto. apply preserves_ap1; auto. apply mu_x.
Qed.

Lemma each_norm : forall n step l w, (forall t w, inside n t -> norm2 n (w_psi w) = 1 -> norm2 n (w_psi (step (Z.to_nat t) w)) = 1) ->
  Forall (inside n) l -> norm2 n (w_psi w) = 1 -> norm2 n (w_psi (each step l w)) = 1.
Proof.
  intros n step l w Hs HF. revert w. induction HF as [|t l Ht HF IH]; intros w Hw; auto.
  apply IH. apply Hs; auto.
Qed.

Lemma exec1_norm : forall n g w w', exec1 rng n g w w' -> norm2 n (w_psi w) = 1 -> norm2 n (w_psi w') = 1.
Proof.
  intros n g w w' H Hw. destruct H as [g ops w Hg|tg l w D F|tg l w D F].
  - simpl. rewrite (preserves_norm n (apply_all ops)); auto. apply preserves_all. eapply gate_preserves; eauto.
  - apply each_norm; auto. intros. apply measure1_norm; auto.
  - apply each_norm; auto. intros. apply reset1_norm; auto. apply inside_lt; auto.
Qed.
Lemma exec_norm : forall n gs w w', exec rng n gs w w' -> norm2 n (w_psi w) = 1 -> norm2 n (w_psi w') = 1.
Proof. induction 1; intros; auto. apply IHexec. eapply exec1_norm; eauto. Qed.

Lemma start_norm : forall n pos, norm2 n (w_psi (start pos)) = 1.
Proof. intros. apply norm2_ket. apply pow2_pos. Qed.

(** Every valid circuit can be executed. *)
Lemma exec_exists : forall n gs w, valid n gs -> exists w', exec rng n gs w w'.
Proof.
  intros n gs w H. revert w. induction H as [|g gs Hg HF IH]; intros w.
  - exists w. constructor.
  - assert (E : exists w1, exec1 rng n g w w1).
    { destruct g; simpl in Hg; destruct Hg as [o Hg]; try (eexists; eapply ex_ops; exact Hg);
      destruct Hg as [D F]; eexists; first [eapply ex_measure; eauto; fail | eapply ex_reset; eauto; fail]. }
    destruct E as [w1 E1]. destruct (IH w1) as [w2 E2]. exists w2. econstructor; eauto.
Qed.

(** ** The loop bodies *)
Lemma list_set_map : forall (f : nat -> nat) k v n s, (k < n)%nat ->
  list_set (map f (seq s n)) k v = Ok (map (fun j => if j =? (s + k)%nat then v else f j) (seq s n)).
Proof.
  intros f k v n. revert k. induction n as [|n IH]; intros k s Hk; [lia|].
  cbn [seq map list_set]. destruct k as [|k].
  - rewrite Nat.add_0_r, Nat.eqb_refl. do 2 f_equal. apply map_ext_in. intros a Ha. apply in_seq in Ha.
    destruct (Nat.eqb_spec a s); auto; lia.
  - rewrite IH by lia. simpl bind. destruct (Nat.eqb_spec s (s + S k)); [lia|]. do 2 f_equal.
    apply map_ext. intros a. rewrite Nat.add_succ_r. reflexivity.
Qed.

Lemma np_norm_filter : forall n f psi,
  np_norm2 (map psi (filter f (seq 0 (2 ^ n)))) = Rsum (fun x => if f x then Cnorm2 (psi x) else 0) (seq 0 (2 ^ n)).
Proof. intros. unfold np_norm2. rewrite Rsum_map, Rsum_filter. reflexivity. Qed.

Lemma p_zero_eq : forall n t psi, np_norm2 (map psi (filter (b0 t) (seq 0 (2 ^ n)))) = prob n t false psi.
Proof.
  intros. rewrite np_norm_filter. apply Rsum_ext. intros x _. unfold project, b0. destruct (bit x t); simpl; auto.
  symmetry. apply Cnorm2_C0.
Qed.

Lemma Cdiv_RtoC : forall a r, r <> 0 -> (a / RtoC r)%C = (RtoC (/ r) * a)%C.
Proof. intros [a1 a2] r H. apply C_ext; cunfold; field; auto. Qed.

Lemma arr_map : forall n f psi, map f (arr n psi) = arr n (fun x => f (psi x)).
Proof. intros. unfold arr. rewrite map_map. reflexivity. Qed.

Lemma step_measure_ok : forall n t w, inside n t -> norm2 n (w_psi w) = 1 ->
  step_measure rng n t (arr n (w_psi w), outcomes n w, w_pos w) =
  let w' := measure1 rng n (Z.to_nat t) w in ((arr n (w_psi w'), outcomes n w', w_pos w'), None).
Proof.
  intros n t w Ht Hw. pose proof (outcome_prob n (Z.to_nat t) w Hw) as Hp.
  pose proof (prob_total n (Z.to_nat t) (w_psi w)) as Tot. rewrite Hw in Tot.
  unfold step_measure. rewrite mask_eq0_ok, mask_ne0_ok by (unfold inside in Ht; lia).
  rewrite get_same, p_zero_eq.
  unfold measure1. unfold outcome in *.
  destruct (Rltb (rng (w_pos w)) (prob n (Z.to_nat t) false (w_psi w))); simpl negb in *; cbv iota in *; cbn zeta.
  - rewrite put_scalar_arr. simpl bind. unfold outcomes. rewrite list_set_map by (unfold inside in Ht; lia).
    cbn [bind w_psi w_bits w_pos]. rewrite arr_map. do 3 f_equal.
    apply arr_ext. intros x _. unfold collapse, scl, project, b1.
    rewrite Cdiv_RtoC by (apply Rgt_not_eq, sqrt_lt_R0; auto).
    destruct (bit x (Z.to_nat t)); reflexivity.
  - rewrite put_scalar_arr. simpl bind. unfold outcomes. rewrite list_set_map by (unfold inside in Ht; lia).
    cbn [bind w_psi w_bits w_pos]. rewrite arr_map. do 3 f_equal.
    apply arr_ext. intros x _. unfold collapse, scl, project, b0.
    replace (1 - prob n (Z.to_nat t) false (w_psi w)) with (prob n (Z.to_nat t) true (w_psi w)) by lra.
    rewrite Cdiv_RtoC by (apply Rgt_not_eq, sqrt_lt_R0; auto).
    destruct (bit x (Z.to_nat t)); reflexivity.
Qed.

Lemma step_reset_ok : forall n t w, inside n t -> norm2 n (w_psi w) = 1 ->
  step_reset rng n t (arr n (w_psi w), outcomes n w, w_pos w) =
  let w' := reset1 rng n (Z.to_nat t) w in ((arr n (w_psi w'), outcomes n w', w_pos w'), None).
Proof.
  intros n t w Ht Hw. pose proof (outcome_prob n (Z.to_nat t) w Hw) as Hp.
  pose proof (prob_total n (Z.to_nat t) (w_psi w)) as Tot. rewrite Hw in Tot.
  unfold step_reset. rewrite mask_eq0_ok, mask_ne0_ok by (unfold inside in Ht; lia).
  rewrite get_same, p_zero_eq.
  unfold reset1. unfold outcome in *.
  destruct (Rltb (rng (w_pos w)) (prob n (Z.to_nat t) false (w_psi w))); simpl negb in *; cbv iota in *; cbn zeta.
  - rewrite put_scalar_arr. cbn [bind w_psi w_bits w_pos]. rewrite arr_map. do 3 f_equal.
    apply arr_ext. intros x _. unfold collapse, scl, project, b1.
    rewrite Cdiv_RtoC by (apply Rgt_not_eq, sqrt_lt_R0; auto).
    destruct (bit x (Z.to_nat t)); reflexivity.
  - rewrite get_10, put_arr by (apply inside_lt; auto). simpl bind. rewrite put_scalar_arr.
    cbn [bind w_psi w_bits w_pos]. rewrite arr_map. do 3 f_equal.
    apply arr_ext. intros x _. rewrite ap1_flip. unfold collapse, scl, project, b0, b1.
    replace (1 - prob n (Z.to_nat t) false (w_psi w)) with (prob n (Z.to_nat t) true (w_psi w)) by lra.
    rewrite Cdiv_RtoC by (apply Rgt_not_eq, sqrt_lt_R0; auto).
    rewrite testbit_flip, Nat.eqb_refl. unfold mX, mk2.
    destruct (bit x (Z.to_nat t)); simpl; ring.
Qed.

Lemma loop_each : forall n (step : nat -> Z -> carr * list nat * nat -> (carr * list nat * nat) * option exn)
    (step1 : nat -> world -> world) l w,
  (forall t w, inside n t -> norm2 n (w_psi w) = 1 -> step n t (arr n (w_psi w), outcomes n w, w_pos w) =
     let w' := step1 (Z.to_nat t) w in ((arr n (w_psi w'), outcomes n w', w_pos w'), None)) ->
  (forall t w, inside n t -> norm2 n (w_psi w) = 1 -> norm2 n (w_psi (step1 (Z.to_nat t) w)) = 1) ->
  Forall (inside n) l -> norm2 n (w_psi w) = 1 ->
  loop_state l (step n) (arr n (w_psi w), outcomes n w, w_pos w) =
  let w' := each step1 l w in ((arr n (w_psi w'), outcomes n w', w_pos w'), None).
Proof.
  intros n step step1 l w Hs Hn HF. revert w. induction HF as [|t l Ht HF IH]; intros w Hw; [reflexivity|].
  cbn [loop_state]. rewrite Hs by auto. cbv beta iota zeta. rewrite IH by auto. reflexivity.
Qed.

(** the context of the numpy backend shows the world [w] *)
Definition shows (n : nat) (ctx : npctx) (w : world) : Prop :=
  x_n ctx = n /\ x_qubits ctx = arr n (w_psi w) /\ List.length (x_buf ctx) = (2 ^ n)%nat /\
  x_cregs ctx = outcomes n w /\ x_pos ctx = w_pos w.

Lemma exec1_shows : forall n g w w' ctx, exec1 rng n g w w' -> norm2 n (w_psi w) = 1 -> shows n ctx w ->
  exists ctx', np_run_single rng recursion_limit g ctx = SOk ctx' /\ shows n ctx' w' /\ x_shots ctx' = x_shots ctx.
Proof.
  intros n g w w' ctx H Hw [S1 [S2 [S3 [S4 S5]]]]. destruct H as [g ops w Hg|tg l w D F|tg l w D F].
  - destruct (arr_exists n _ S3) as [beta Hb].
    destruct (gate_runs rng n g ops Hg ctx (w_psi w) beta S1 S2 Hb) as [beta' E].
    eexists. split; [exact E|]. split; [|reflexivity]. repeat split; simpl; auto. apply arr_length.
  - assert (E : np_run_single rng recursion_limit (GMeasure tg) ctx = np_collapse (step_measure rng) tg ctx) by reflexivity.
    rewrite E. unfold np_collapse. rewrite S1, S2, S4, S5. apply slicing_iff in D; [|lia]. rewrite D. cbn [yields raised].
    rewrite (loop_each n (step_measure rng) (measure1 rng n) l w); auto using step_measure_ok.
    + cbn zeta. eexists. split; [reflexivity|]. repeat split; auto.
    + intros. apply measure1_norm; auto.
  - assert (E : np_run_single rng recursion_limit (GReset tg) ctx = np_collapse (step_reset rng) tg ctx) by reflexivity.
    rewrite E. unfold np_collapse. rewrite S1, S2, S4, S5. apply slicing_iff in D; [|lia]. rewrite D. cbn [yields raised].
    rewrite (loop_each n (step_reset rng) (reset1 rng n) l w); auto using step_reset_ok.
    + cbn zeta. eexists. split; [reflexivity|]. repeat split; auto.
    + intros. apply reset1_norm; auto. apply inside_lt; auto.
Qed.

Lemma exec_shows : forall n gs w w', exec rng n gs w w' -> forall ctx, norm2 n (w_psi w) = 1 -> shows n ctx w ->
  exists ctx', run_list (np_run_single rng recursion_limit) gs ctx = SOk ctx' /\ shows n ctx' w' /\ x_shots ctx' = x_shots ctx.
Proof.
  induction 1 as [w|g gs w w1 w2 H1 H2 IH]; intros ctx Hw Hs.
  - exists ctx. auto.
  - destruct (exec1_shows n g w w1 ctx H1 Hw Hs) as [c1 [E1 [S1 Sh1]]].
    destruct (IH c1) as [c2 [E2 [S2 Sh2]]]; auto.
    { eapply exec1_norm; eauto. }
    exists c2. cbn [run_list]. rewrite E1. split; [exact E2|]. split; [auto|congruence].
Qed.

Lemma arr_basis0 : forall n, basis0 n = arr n (ket 0).
Proof.
  intros n. unfold basis0, zeros, arr. pose proof (pow2_pos n). destruct (2 ^ n)%nat as [|k]; [lia|].
  simpl. f_equal. rewrite <- seq_shift, map_map.
  assert (G : forall s, repeat C0 k = map (fun x => ket 0 (S x)) (seq s k)).
  { clear. induction k; intros; simpl; f_equal; auto. }
  apply G.
Qed.

Lemma prepare_shows : forall n ctx, x_n ctx = n -> List.length (x_buf ctx) = (2 ^ n)%nat ->
  shows n (prepare ctx None) (start (x_pos ctx)).
Proof.
  intros n ctx Hn Hb. unfold prepare. repeat split; simpl; auto.
  - rewrite Hn. apply arr_basis0.
  - rewrite Hn. unfold outcomes. simpl. clear.
    assert (G : forall s, repeat 0%nat n = map (fun _ => 0%nat) (seq s n)).
    { induction n; intros; simpl; f_equal; auto. }
    apply G.
Qed.

(** ** Shots and counting *)
Definition tally (n : nat) (d : counter) (ws : list world) : counter :=
  match n with O => d | _ => fold_left (fun d w => counter_incr d (outcomes n w)) ws d end.

Lemma ideal_shots_ok : forall n gs ws pos, shots rng n gs pos ws -> forall ctx, x_n ctx = n ->
  List.length (x_buf ctx) = (2 ^ n)%nat -> x_pos ctx = pos ->
  exists ctx', ideal_shots rng (List.length ws) gs ctx = SOk ctx' /\ x_n ctx' = n /\
    x_shots ctx' = tally n (x_shots ctx) ws /\ x_pos ctx' = w_pos (last ws (start pos)) /\
    (ws <> [] -> x_qubits ctx' = arr n (w_psi (last ws (start pos)))) /\
    (ws = [] -> ctx' = ctx).
Proof.
  induction 1 as [pos|pos w ws Hex Hsh IH]; intros ctx Hn Hb Hpos.
  - exists ctx. simpl. repeat split; auto; [destruct n; auto|congruence].
  - cbn [List.length ideal_shots].
    destruct (exec_shows n gs _ _ Hex (prepare ctx None)) as [c1 [E1 [[S1 [S2 [S3 [S4 S5]]]] Sh1]]].
    { apply start_norm. }
    { rewrite <- Hpos. apply prepare_shows; auto. }
    rewrite E1.
    set (c2 := match x_cregs c1 with [] => c1 | _ => store_shot c1 end).
    assert (C2 : x_n c2 = n /\ List.length (x_buf c2) = (2 ^ n)%nat /\ x_pos c2 = w_pos w /\ x_qubits c2 = arr n (w_psi w) /\
                 x_shots c2 = match n with O => x_shots ctx | _ => counter_incr (x_shots ctx) (outcomes n w) end).
    { simpl in Sh1. unfold c2. rewrite S4. unfold outcomes. destruct n; simpl; repeat split; auto.
      rewrite S4, Sh1. reflexivity. }
    destruct C2 as [C1' [C2' [C3 [C4 C5]]]].
    destruct (IH c2 C1' C2' C3) as [c3 [E3 [N3 [T3 [P3 [Q3 L3]]]]]].
    exists c3. split; [exact E3|]. split; [exact N3|].
    assert (LE : forall d, last (w :: ws) d = last ws w).
    { clear. revert w. induction ws as [|a ws IHw]; intros w d; [reflexivity|].
      change (last (a :: ws) d = last (a :: ws) w). rewrite !IHw. reflexivity. }
    rewrite LE. split; [|split; [|split]].
    + rewrite T3, C5. destruct n; reflexivity.
    + rewrite P3. destruct ws; [reflexivity|]. f_equal. clear. revert w0. induction ws; intros; auto. apply IHws.
    + intros _. destruct ws as [|w' ws].
      * rewrite (L3 eq_refl). exact C4.
      * rewrite Q3 by discriminate. f_equal. f_equal. clear. revert w'. induction ws; intros; auto. apply IHws.
    + discriminate.
Qed.

Lemma shots_exist : forall n gs, valid n gs -> forall k pos, exists ws, List.length ws = k /\ shots rng n gs pos ws.
Proof.
  intros n gs Hv. induction k; intros pos.
  - exists []. split; [auto|constructor].
  - destruct (exec_exists n gs (start pos) Hv) as [w Hw]. destruct (IHk (w_pos w)) as [ws [HL HS]].
    exists (w :: ws). split; [simpl; congruence|econstructor; eauto].
Qed.
End Rng.
