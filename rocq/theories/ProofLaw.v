From Coq Require Import List Arith ZArith Bool String Reals Lia Lra FunctionalExtensionality.
Import ListNotations.
From Verif Require Import Base Cplx Bits ModelTargets ModelGate ModelNumpy SpecTargets SpecQuantum SpecCircuit SpecMeasure SpecRun SpecLaw
  ProofRun ProofUnitary ProofCache ProofMeasure ProofBorn ProofWhole ProofDagger.
Local Open Scope R_scope.

(** ** Operators are linear *)
Lemma swp_scl : forall a b k psi, swp a b (scl k psi) = scl k (swp a b psi).
Proof. reflexivity. Qed.
Lemma rot2_scl : forall P th a b k psi, rot2 P th a b (scl k psi) = scl k (rot2 P th a b psi).
Proof.
  intros. apply functional_extensionality; intro x. unfold rot2. rewrite !ap1_scl. unfold scl. ring.
Qed.
Lemma sem2_scl : forall g c t k psi, sem2 g c t (scl k psi) = scl k (sem2 g c t psi).
Proof.
  intros. destruct g; cbn [sem2]; try (apply ctl_scl; intros; apply ap1_scl); try apply rot2_scl; [apply swp_scl|].
  rewrite (ctl_scl c (ap1 (mPhase lambd) t)) by (intros; apply ap1_scl). apply functional_extensionality; intro x. unfold scl. ring.
Qed.
Lemma sem3_scl : forall g a b c k psi, sem3 g a b c (scl k psi) = scl k (sem3 g a b c psi).
Proof.
  intros. destruct g; cbn [sem3]; [| |apply ctl_scl; intros; apply swp_scl];
    apply ctl_scl; intros; apply ctl_scl; intros; apply ap1_scl.
Qed.
Definition homog (U : oper) : Prop := forall k psi, U (scl k psi) = scl k (U psi).
Lemma gate_homog : forall n g ops, gate_ops n g ops -> Forall homog ops.
Proof.
  intros n g ops H. destruct H.
  - apply Forall_map, Forall_forall. intros t _ k0 psi. apply sem1_scl.
  - apply Forall_map, Forall_forall. intros t _ k0 psi. apply sem2_scl.
  - constructor; auto. intros k0 psi. apply sem3_scl.
Qed.

Definition event_ok (n : nat) (e : event) : Prop :=
  match e with EOp U => preserves n U /\ homog U | EMeasure t | EReset t => (t < n)%nat end.
Lemma gate_events_ok : forall n g es, gate_events n g es -> Forall (event_ok n) es.
Proof.
  intros n g es H. destruct H as [g ops H|tg l D F|tg l D F].
  - apply Forall_map. generalize (gate_preserves _ _ _ H) (gate_homog _ _ _ H). intros P Q.
    rewrite Forall_forall in *. intros U I. split; auto.
  - apply Forall_map. eapply Forall_impl; [|exact F]. intros t I. apply inside_lt. exact I.
  - apply Forall_map. eapply Forall_impl; [|exact F]. intros t I. apply inside_lt. exact I.
Qed.
Lemma circuit_events_ok : forall n gs es, circuit_events n gs es -> Forall (event_ok n) es.
Proof. induction 1; [constructor|]. apply Forall_app. split; auto. eapply gate_events_ok; eauto. Qed.
Lemma circuit_events_valid : forall n gs es, circuit_events n gs es -> valid n gs.
Proof.
  induction 1 as [|g gs e es G C IH]; constructor; auto. destruct G as [g ops G|tg l D F|tg l D F].
  - destruct G; cbn; eexists; econstructor; eauto.
  - exists l. auto.
  - exists l. auto.
Qed.

(** ** Execution event by event *)
Section Rng.
Variable rng : nat -> R.
Definition do1 (n : nat) (w : world) (e : event) : world :=
  match e with
  | EOp U => World (U (w_psi w)) (w_bits w) (w_pos w)
  | EMeasure t => measure1 rng n t w
  | EReset t => reset1 rng n t w
  end.
Definition doall (n : nat) (es : list event) (w : world) : world := fold_left (do1 n) es w.
Lemma world_eta : forall w, World (w_psi w) (w_bits w) (w_pos w) = w. Proof. destruct w. reflexivity. Qed.
Lemma do_ops : forall n ops w, doall n (map EOp ops) w = World (apply_all ops (w_psi w)) (w_bits w) (w_pos w).
Proof. intros n. induction ops as [|U ops IH]; intros w; [symmetry; apply world_eta|]. unfold doall, apply_all in *. cbn [map fold_left]. rewrite IH. reflexivity. Qed.
Lemma do_gate : forall n g es w, gate_events n g es -> exec1 rng n g w (doall n es w).
Proof.
  intros n g es w H. destruct H as [g ops H|tg l D F|tg l D F].
  - rewrite do_ops. constructor. auto.
  - replace (doall n (map (fun t => EMeasure (Z.to_nat t)) l) w) with (each (measure1 rng n) l w); [constructor; auto|].
    clear. revert w. induction l as [|t l IH]; intros w; auto. apply IH.
  - replace (doall n (map (fun t => EReset (Z.to_nat t)) l) w) with (each (reset1 rng n) l w); [constructor; auto|].
    clear. revert w. induction l as [|t l IH]; intros w; auto. apply IH.
Qed.
Lemma do_circuit : forall n gs es, circuit_events n gs es -> forall w, exec rng n gs w (doall n es w).
Proof.
  induction 1 as [|g gs e es G C IH]; intros w; [constructor|]. unfold doall. rewrite fold_left_app. econstructor; [apply do_gate; exact G|]. apply IH.
Qed.

(** ** Which branch the draws choose *)
Hypothesis Hrng : draws_ok rng.
Definition unit_scl (n : nat) (psi : state) : state := scl (RtoC (/ sqrt (norm2 n psi))) psi.
Lemma unit_collapse : forall n t b psi, 0 < norm2 n psi -> 0 < norm2 n (project t b psi) -> collapse n t b (unit_scl n psi) = unit_scl n (project t b psi).
Proof.
  intros n t b psi H H1. unfold collapse, unit_scl. rewrite prob_scl, project_scl, scl_scl. unfold prob. f_equal. rewrite Cnorm2_RtoC.
  rewrite <- RtoC_mul. f_equal. rewrite sqrt_mult; [|apply Rle_0_sqr|lra].
  rewrite sqrt_square by (left; apply Rinv_0_lt_compat, sqrt_lt_R0; auto).
  pose proof (sqrt_lt_R0 _ H). pose proof (sqrt_lt_R0 _ H1). field. split; lra.
Qed.
Lemma prob_unit : forall n t b psi, 0 < norm2 n psi -> prob n t b (unit_scl n psi) = prob n t b psi / norm2 n psi.
Proof.
  intros n t b psi H. unfold unit_scl. rewrite prob_scl, Cnorm2_RtoC. pose proof (sqrt_lt_R0 _ H). rewrite <- Rinv_mult, sqrt_sqrt by lra.
  unfold Rdiv. ring.
Qed.
Lemma norm_unit : forall n psi, 0 < norm2 n psi -> norm2 n (unit_scl n psi) = 1.
Proof. intros n psi H. unfold unit_scl. rewrite norm2_scl, Cnorm2_RtoC. rewrite <- Rinv_mult, sqrt_sqrt by lra. field. lra. Qed.

(** what the draw finds *)
Lemma found : forall n t psi bits pos, 0 < norm2 n psi ->
  let q := prob n t false psi / norm2 n psi in let o := outcome rng n t (World (unit_scl n psi) bits pos) in
  0 < norm2 n (project t o psi) /\ (o = true <-> q <= rng pos < 1) /\ (o = false <-> 0 <= rng pos < q).
Proof.
  intros n t psi bits pos H q o.
  pose proof (outcome_prob rng Hrng n t (World (unit_scl n psi) bits pos) (norm_unit n psi H)) as P. fold o in P. cbn [w_psi] in P.
  rewrite prob_unit in P by auto. split.
  - unfold prob in P. apply (Rmult_lt_reg_r (/ norm2 n psi)); [apply Rinv_0_lt_compat; auto|]. rewrite Rmult_0_l. exact P.
  - unfold o, outcome. cbn [w_psi w_pos]. rewrite prob_unit by auto. fold q. pose proof (Hrng pos).
    destruct (Rltb (rng pos) q) eqn:E; [apply Rltb_true in E|apply Rltb_false in E]; cbn; split; split; intros; try discriminate; auto; lra.
Qed.

Lemma in_box_cons : forall iv ivs pos, in_box (iv :: ivs) rng pos <-> (fst iv <= rng pos < snd iv) /\ in_box ivs rng (S pos).
Proof.
  intros. unfold in_box. split.
  - intros H. split.
    + specialize (H 0%nat). cbn in H. rewrite Nat.add_0_r in H. apply H. lia.
    + intros i L. specialize (H (S i)). cbn in H. replace (pos + S i)%nat with (S pos + i)%nat in H by lia. apply H. lia.
  - intros [H0 H] [|i] L; cbn in *; [rewrite Nat.add_0_r; auto|]. replace (pos + S i)%nat with (S pos + i)%nat by lia. apply H. lia.
Qed.

Lemma branch_found : forall n es, Forall (event_ok n) es -> forall psi bits pos, 0 < norm2 n psi ->
  exists s, List.length s = draws es /\ in_box (box n es s psi) rng pos /\ 0 < norm2 n (branch es s psi) /\
    doall n es (World (unit_scl n psi) bits pos) = World (unit_scl n (branch es s psi)) (recorded es s bits) (pos + draws es) /\
    forall s', List.length s' = draws es -> in_box (box n es s' psi) rng pos -> s' = s.
Proof.
  intros n es F. induction F as [|e es E F IH]; intros psi bits pos H.
  - exists []. cbn. rewrite Nat.add_0_r. split; auto. split; [intros i L; cbn in L; lia|]. split; auto. split; auto. intros [|] L _; [auto|discriminate].
  - assert (HX : forall t, (t < n)%nat -> forall phi, norm2 n (ap1 mX t phi) = norm2 n phi).
    { intros t T phi. apply (preserves_norm n (ap1 mX t)). apply preserves_ap1; auto. apply mu_x. }
    destruct e as [U|t|t]; cbn [event_ok] in E.
    + destruct E as [E1 E2]. destruct (IH (U psi) bits pos) as (s & A1 & A2 & A3 & A4 & A5); [rewrite (preserves_norm n U); auto|].
      exists s. cbn [draws box branch recorded]. split; auto. split; auto. split; auto. split; auto.
      rewrite <- A4. unfold doall. cbn [fold_left do1 w_psi w_bits w_pos]. unfold unit_scl. rewrite E2. rewrite (preserves_norm n U) by auto. reflexivity.
    + destruct (found n t psi bits pos H) as (P & Q1 & Q2).
      set (o := outcome rng n t (World (unit_scl n psi) bits pos)) in *.
      destruct (IH (project t o psi) (update bits t (if o then 1 else 0)%nat) (S pos) P) as (s & A1 & A2 & A3 & A4 & A5).
      exists (o :: s). cbn [draws box branch recorded List.length]. split; [congruence|]. split; [|split; [exact A3|split]].
      * apply in_box_cons. split; auto. clear - Q1 Q2. destruct o; cbn; tauto.
      * replace (pos + S (draws es))%nat with (S pos + draws es)%nat by lia. rewrite <- A4. unfold doall. cbn [fold_left do1]. f_equal.
        unfold measure1. fold o. cbn [w_psi w_bits w_pos]. rewrite unit_collapse by auto. reflexivity.
      * intros [|o' s'] L B; [discriminate|]. apply in_box_cons in B. destruct B as [B0 B].
        assert (o' = o). { destruct o'; cbn in B0; symmetry; [apply Q1|apply Q2]; auto. } subst o'. f_equal. apply A5; auto.
    + destruct (found n t psi bits pos H) as (P & Q1 & Q2).
      set (o := outcome rng n t (World (unit_scl n psi) bits pos)) in *.
      assert (P' : 0 < norm2 n (if o then ap1 mX t (project t o psi) else project t o psi)) by (destruct o; rewrite ?HX; auto).
      destruct (IH _ bits (S pos) P') as (s & A1 & A2 & A3 & A4 & A5).
      exists (o :: s). cbn [draws box branch recorded List.length]. split; [congruence|]. split; [|split; [exact A3|split]].
      * apply in_box_cons. split; auto. clear - Q1 Q2. destruct o; cbn; tauto.
      * replace (pos + S (draws es))%nat with (S pos + draws es)%nat by lia. rewrite <- A4. unfold doall. cbn [fold_left do1]. f_equal.
        unfold reset1. fold o. cbn [w_psi w_bits w_pos]. rewrite unit_collapse by auto. f_equal.
        destruct o; auto. unfold unit_scl. rewrite HX by auto. apply ap1_scl.
      * intros [|o' s'] L B; [discriminate|]. apply in_box_cons in B. destruct B as [B0 B].
        assert (o' = o). { destruct o'; cbn in B0; symmetry; [apply Q1|apply Q2]; auto. } subst o'. f_equal. apply A5; auto.
Qed.
End Rng.

(** ** Volumes *)
Lemma norm2_proj1 : forall n t b psi, norm2 n (project t b psi) <= norm2 n psi.
Proof. intros. pose proof (prob_total n t psi). pose proof (prob_nonneg n t false psi). pose proof (prob_nonneg n t true psi). unfold prob in *. destruct b; lra. Qed.
Lemma branch_norm : forall n es, Forall (event_ok n) es -> forall s psi, norm2 n (branch es s psi) <= norm2 n psi.
Proof.
  intros n es F. induction F as [|e es E F IH]; intros s psi; [cbn; lra|].
  assert (Z0 : norm2 n (fun _ => C0) <= norm2 n psi) by (rewrite norm2_zero; apply norm2_nonneg).
  destruct e as [U|t|t]; cbn [event_ok branch] in *.
  - eapply Rle_trans; [apply IH|]. right. apply (preserves_norm n U). apply E.
  - destruct s as [|b s]; auto. eapply Rle_trans; [apply IH|]. apply norm2_proj1.
  - destruct s as [|b s]; auto. eapply Rle_trans; [apply IH|]. destruct b; [rewrite (preserves_norm n (ap1 mX t)) by (apply preserves_ap1; auto; apply mu_x)|]; apply norm2_proj1.
Qed.
Definition step_iv (n t : nat) (b : bool) (psi : state) : R * R :=
  if b then (prob n t false psi / norm2 n psi, 1) else (0, prob n t false psi / norm2 n psi).
Lemma step_iv_len : forall n t b psi, 0 < norm2 n psi -> (snd (step_iv n t b psi) - fst (step_iv n t b psi)) * norm2 n psi = norm2 n (project t b psi).
Proof.
  intros n t b psi H. pose proof (prob_total n t psi) as T. unfold step_iv. unfold prob in *. destruct b; cbn [fst snd]; field_simplify; lra.
Qed.
Lemma step_iv_unit : forall n t b psi, 0 <= fst (step_iv n t b psi) /\ snd (step_iv n t b psi) <= 1 /\ fst (step_iv n t b psi) <= snd (step_iv n t b psi).
Proof.
  intros n t b psi. pose proof (prob_total n t psi) as T. pose proof (prob_nonneg n t false psi) as P0. pose proof (prob_nonneg n t true psi) as P1.
  assert (Q : 0 <= prob n t false psi / norm2 n psi <= 1).
  { destruct (Req_dec (norm2 n psi) 0) as [Z|NZ].
    - replace (prob n t false psi) with 0 by lra. unfold Rdiv. rewrite Rmult_0_l. lra.
    - assert (0 < norm2 n psi) by (pose proof (norm2_nonneg n psi); lra). split.
      + apply Rmult_le_pos; auto. left. apply Rinv_0_lt_compat. auto.
      + apply (Rmult_le_reg_r (norm2 n psi)); auto. unfold Rdiv. rewrite Rmult_assoc, Rinv_l by auto. lra. }
  unfold step_iv. destruct b; cbn; lra.
Qed.
Lemma volume_branch : forall n es, Forall (event_ok n) es -> forall s psi, List.length s = draws es ->
  List.length (box n es s psi) = draws es /\ Forall (fun iv => 0 <= fst iv /\ snd iv <= 1 /\ fst iv <= snd iv) (box n es s psi) /\
  box_volume (box n es s psi) * norm2 n psi = norm2 n (branch es s psi).
Proof.
  intros n es F. induction F as [|e es E F IH]; intros s psi L.
  - cbn. split; auto. split; [constructor|]. lra.
  - destruct e as [U|t|t]; cbn [event_ok branch box draws] in *.
    + destruct (IH s (U psi) L) as (A & B & C). split; auto. split; auto. rewrite (preserves_norm n U) in C by apply E. exact C.
    + destruct s as [|b s]; [discriminate|]. injection L as L. destruct (IH s (project t b psi) L) as (A & B & C).
      fold (step_iv n t b psi). cbn [List.length box_volume fold_right]. fold (box_volume (box n es s (project t b psi))).
      split; [congruence|]. split; [constructor; [apply step_iv_unit|auto]|].
      destruct (Req_dec (norm2 n psi) 0) as [Z|NZ].
      * rewrite Z, Rmult_0_r. pose proof (branch_norm n es F s (project t b psi)). pose proof (norm2_proj1 n t b psi).
        pose proof (norm2_nonneg n (branch es s (project t b psi))). lra.
      * assert (H : 0 < norm2 n psi) by (pose proof (norm2_nonneg n psi); lra). rewrite <- C. rewrite <- (step_iv_len n t b psi H). ring.
    + destruct s as [|b s]; [discriminate|]. injection L as L.
      assert (HX : forall phi, norm2 n (ap1 mX t phi) = norm2 n phi) by (intros phi; apply (preserves_norm n (ap1 mX t)); apply preserves_ap1; auto; apply mu_x).
      destruct (IH s (if b then ap1 mX t (project t b psi) else project t b psi) L) as (A & B & C).
      assert (HN : norm2 n (if b then ap1 mX t (project t b psi) else project t b psi) = norm2 n (project t b psi)) by (destruct b; auto).
      fold (step_iv n t b psi). cbn [List.length box_volume fold_right]. fold (box_volume (box n es s (if b then ap1 mX t (project t b psi) else project t b psi))).
      split; [congruence|]. split; [constructor; [apply step_iv_unit|auto]|].
      destruct (Req_dec (norm2 n psi) 0) as [Z|NZ].
      * rewrite Z, Rmult_0_r. pose proof (branch_norm n es F s (if b then ap1 mX t (project t b psi) else project t b psi)). pose proof (norm2_proj1 n t b psi).
        pose proof (norm2_nonneg n (branch es s (if b then ap1 mX t (project t b psi) else project t b psi))). lra.
      * assert (H : 0 < norm2 n psi) by (pose proof (norm2_nonneg n psi); lra). rewrite <- C, HN. rewrite <- (step_iv_len n t b psi H). ring.
Qed.
Lemma ket_norm : forall n, norm2 n (ket 0) = 1.
Proof. intros. apply norm2_ket. apply pow2_pos. Qed.
Lemma law_box : forall n gs es s, circuit_events n gs es -> List.length s = draws es ->
  List.length (box n es s (ket 0)) = draws es /\ Forall (fun iv => 0 <= fst iv /\ snd iv <= 1 /\ fst iv <= snd iv) (box n es s (ket 0)) /\
  box_volume (box n es s (ket 0)) = weight n es s.
Proof.
  intros n gs es s C L. destruct (volume_branch n es (circuit_events_ok _ _ _ C) s (ket 0) L) as (A & B & D).
  split; auto. split; auto. rewrite ket_norm, Rmult_1_r in D. exact D.
Qed.

(** ** Runs *)
Lemma unit_ket : forall n, unit_scl n (ket 0) = ket 0.
Proof. intros. unfold unit_scl. rewrite ket_norm, sqrt_1, Rinv_1. apply scl_1. Qed.
Lemma shot_found : forall rng n gs es pos, draws_ok rng -> circuit_events n gs es ->
  exists s w, exec rng n gs (start pos) w /\ List.length s = draws es /\ in_box (box n es s (ket 0)) rng pos /\ 0 < weight n es s /\
    w_psi w = unit_scl n (branch es s (ket 0)) /\ outcomes n w = record n es s /\ w_pos w = (pos + draws es)%nat /\
    forall s', List.length s' = draws es -> in_box (box n es s' (ket 0)) rng pos -> s' = s.
Proof.
  intros rng n gs es pos Hr C.
  destruct (branch_found rng Hr n es (circuit_events_ok _ _ _ C) (ket 0) (fun _ => 0%nat) pos) as (s & A1 & A2 & A3 & A4 & A5); [rewrite ket_norm; lra|].
  exists s, (doall rng n es (start pos)). split; [apply do_circuit; auto|]. rewrite unit_ket in A4. change (World (ket 0) (fun _ => 0%nat) pos) with (start pos) in A4.
  rewrite A4. cbn [w_psi w_pos].
  exact (conj A1 (conj A2 (conj A3 (conj eq_refl (conj eq_refl (conj eq_refl A5)))))).
Qed.
Lemma law_state : forall rng n gs es pos b, draws_ok rng -> circuit_events n gs es -> cache_ok n gs (clear_cache_if_invalid b n) ->
  exists s b', List.length s = draws es /\ in_box (box n es s (ket 0)) rng pos /\ 0 < weight n es s /\
    (forall s', List.length s' = draws es -> in_box (box n es s' (ket 0)) rng pos -> s' = s) /\
    np_run rng b gs n (RunArgs None None false) pos = (Ok (RState (arr n (scl (RtoC (/ sqrt (weight n es s))) (branch es s (ket 0))))), b', (pos + draws es)%nat).
Proof.
  intros rng n gs es pos b Hr C K. destruct (shot_found rng n gs es pos Hr C) as (s & w & E & L & B & P & SP & O & W & U).
  destruct (run_valid rng n gs (RunArgs None None false) pos 1 "statevector" false [w] b Hr eq_refl ltac:(discriminate) (sh_cons _ _ _ _ _ _ E (sh_nil _ _ _ _)) eq_refl K) as [b' R].
  exists s, b'. split; auto. split; auto. split; auto. split; auto. rewrite R. unfold result_of. cbn [String.eqb last]. cbn. rewrite SP, W. reflexivity.
Qed.
Lemma law_shots : forall rng n gs es N pos, draws_ok rng -> circuit_events n gs es ->
  exists ss ws, shots rng n gs pos ws /\ List.length ws = N /\ List.length ss = N /\ map (outcomes n) ws = map (record n es) ss /\
    (w_pos (last ws (start pos)) = pos + N * draws es)%nat /\
    (forall i s, (i < N)%nat -> (nth_error ss i = Some s <-> List.length s = draws es /\ in_box (box n es s (ket 0)) rng (pos + i * draws es))).
Proof.
  intros rng n gs es N pos Hr C. revert pos. induction N as [|N IH]; intros pos.
  - exists [], []. split; [constructor|]. split; auto. split; auto. split; auto. split; [cbn; lia|]. intros; lia.
  - destruct (shot_found rng n gs es pos Hr C) as (s & w & E & L & B & P & SP & O & W & U).
    destruct (IH (pos + draws es)%nat) as (ss & ws & A1 & A2 & A3 & A4 & A5 & A6).
    exists (s :: ss), (w :: ws). split; [econstructor; eauto; rewrite W; auto|]. cbn [List.length map]. split; [congruence|]. split; [congruence|]. split; [congruence|]. split.
    + destruct ws as [|w' ws].
      * destruct N; [|discriminate]. cbn [last]. rewrite W. lia.
      * clear - A5. assert (H : forall a b (l : list world) d d', last (a :: b :: l) d = last (b :: l) d').
        { intros a b l. revert a b. induction l as [|c l IHl]; intros; auto. cbn [last] in *. apply (IHl b c). }
        rewrite (H w w' ws (start pos) (start (pos + draws es))). rewrite A5. lia.
    + intros [|i] s' I; cbn [nth_error].
      * rewrite Nat.mul_0_l, Nat.add_0_r. split; [intros K; injection K as <-; auto|]. intros [K1 K2]. f_equal. symmetry. apply U; auto.
      * rewrite A6 by lia. replace (pos + draws es + i * draws es)%nat with (pos + S i * draws es)%nat by lia. tauto.
Qed.
Lemma law_counts : forall rng n gs es N pos b, draws_ok rng -> (0 < n)%nat -> circuit_events n gs es -> cache_ok n gs (clear_cache_if_invalid b n) ->
  exists ss c b', np_run rng b gs n (RunArgs (Some (Z.of_nat N)) None false) pos = (Ok (RShots c), b', (pos + N * draws es)%nat) /\ List.length ss = N /\
    (forall i s, (i < N)%nat -> (nth_error ss i = Some s <-> List.length s = draws es /\ in_box (box n es s (ket 0)) rng (pos + i * draws es))) /\
    forall k, lookup c k = hits n es k ss.
Proof.
  intros rng n gs es N pos b Hr Hn C K. destruct (law_shots rng n gs es N pos Hr C) as (ss & ws & A1 & A2 & A3 & A4 & A5 & A6).
  assert (Hp : parse_run_args (RunArgs (Some (Z.of_nat N)) None false) = Ok (Z.of_nat N, "shots"%string, false)) by reflexivity.
  destruct (run_valid rng n gs _ pos (Z.of_nat N) _ _ ws b Hr Hp ltac:(discriminate) A1 ltac:(rewrite Nat2Z.id; auto) K) as [b' E].
  exists ss, (tally n [] ws), b'. rewrite A5 in E. split; [rewrite E; reflexivity|]. split; auto. split; auto.
  intros k. rewrite tally_as_list by auto. destruct (tally_list_spec (map (outcomes n) ws) []) as [T _]. rewrite T. unfold hits. rewrite A4. reflexivity.
Qed.
