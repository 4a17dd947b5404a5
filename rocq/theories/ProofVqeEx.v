(** Circuits on which the samplers and the energy go wrong, and circuits that meet the hypotheses. *)
From Coq Require Import List Arith ZArith Bool String Reals Lia Lra.
Import ListNotations.
From Verif Require Import Base Cplx Bits ModelTargets ModelGate ModelNumpy ModelNumba ModelCircuit ModelPauli ModelVqe
  SpecTargets SpecQuantum SpecCircuit SpecMeasure SpecRun SpecAPI SpecPauli SpecVqe
  ProofTargets ProofArray ProofRun ProofUnitary ProofMeasure ProofFallback ProofBorn ProofWhole ProofNumbaProps ProofAPI ProofProgram ProofReach ProofExamples
  ProofPauli ProofPauliTrace ProofPauliExpr ProofPauliArith ProofPauliComm ProofEvolution ProofPauliEx ProofVqe ProofVqeRun ProofVqeSparse ProofVqeSample ProofQaoa ProofVqeRes.
Local Open Scope nat_scope.

Lemma prepared : forall rng n gs, Forall (small (Z.of_nat n)) gs -> exists h c, reachable rng [] h /\ circuit_is h c (VCirc gs (Z.of_nat n) None) /\
  h_default h = "numpy"%string /\ h_pos h = 0.
Proof.
  intros rng n gs F. destruct (new_step rng [] _ n (reach_start rng 0)) as [c [h1 [E1 [R1 [C1' [D1 [P1 K1]]]]]]].
  destruct (gates_steps rng gs [] h1 c _ R1 C1' F) as [h2 [E2 [R2 [P2 [D2 [C2 K2]]]]]]. exists h2, c. split; auto. split; auto.
  rewrite D2, D1, P2, P1. auto.
Qed.
Lemma numpy_simulated : forall rng h v, h_default h = "numpy"%string -> v_default v = None -> simulated rng h v.
Proof. intros rng h v H D. unfold simulated. rewrite D, H. auto. Qed.
Definition on (k : g1) (q : nat) : gate := GOne k (TInt (Z.of_nat q)).
Lemma on_small : forall k q n, q < n -> small (Z.of_nat n) (on k q).
Proof. intros. split; simpl; auto. lia. Qed.

(** ** Execution of a gate and a measurement *)
Lemma exec_on : forall rng n k q meas w w', q < n -> Forall (fun m => m < n) meas -> exec rng n [on k q; measure_gate_of meas] w w' ->
  w' = each (measure1 rng n) (map Z.of_nat meas) (World (ap1 (mat1 k) q (w_psi w)) (w_bits w) (w_pos w)).
Proof.
  intros rng n k q meas w w' L F E. inversion E as [|? ? ? w1 ? E1 E2]; subst. inversion E2 as [|? ? ? w2 ? E3 E4]; subst. inversion E4; subst.
  assert (W1 : w1 = World (ap1 (mat1 k) q (w_psi w)) (w_bits w) (w_pos w)).
  { inversion E1 as [? ops ? G| |]; subst. inversion G as [? ? l Dn In| |]; subst. pose proof (denotes_int n (Z.of_nat q) ltac:(unfold inside; lia)) as Dn'.
    pose proof (denotes_fun (Z.of_nat n) _ _ _ ltac:(lia) Dn Dn') as ->. simpl. rewrite Nat2Z.id. reflexivity. }
  subst w1. inversion E3 as [? ops ? G|? l ? Dn In|]; subst; [inversion G|].
  pose proof (denotes_fun (Z.of_nat n) _ _ _ ltac:(lia) Dn (measure_denotes n meas F)) as ->. reflexivity.
Qed.
Local Open Scope R_scope.
Lemma x_certain : forall rng n w w', draws_ok rng -> (0 < n)%nat -> w_psi w = ket 0 -> exec rng n [on KX 0; measure_gate_of [0%nat]] w w' ->
  w_bits w' 0%nat = 1%nat /\ (forall q, q <> 0%nat -> w_bits w' q = w_bits w q).
Proof.
  intros rng n w w' Dr L Ps E. apply exec_on in E; auto. subst w'. unfold each. simpl. unfold update. simpl. split; [|intros [|q] H; [congruence|auto]].
  unfold outcome. simpl w_psi. rewrite Ps. replace (prob n 0 false (ap1 mX 0 (ket 0))) with 0.
  - unfold Rltb. destruct (Rlt_dec _ 0); auto. pose proof (Dr (w_pos w)). simpl in *. lra.
  - unfold prob, norm2. symmetry. apply Rsum_0. intros x _. unfold project. destruct (bit x 0) eqn:B; simpl; [unfold Cnorm2; simpl; ring|].
    unfold ap1, mX, mk2. rewrite B. unfold ket. assert (setb x 0 true <> 0%nat).
    { intro H. pose proof (f_equal (fun y => bit y 0) H) as Q. cbv beta in Q. rewrite testbit_setb_eq in Q. discriminate. }
    destruct (Nat.eqb_spec (setb x 0 true) 0); [contradiction|]. unfold Cnorm2, Cadd, Cmul. simpl. ring.
Qed.

(** ** x[0] on two qubits, measured by the sampler: every key belongs to qubit 1 *)
Definition x0 : vcirc := VCirc [on KX 0] 2 None.
Lemma x0_ops : circuit_ops 2 [on KX 0] [sem1 KX 0].
Proof. apply gates_one, one_gate. lia. Qed.
Lemma x0_valid : valid 2 [on KX 0].
Proof. eapply ops_valid, x0_ops. Qed.
Lemma x0_prepared : forall rng, exists h c, reachable rng [] h /\ circuit_is h c x0 /\ h_default h = "numpy"%string /\ h_pos h = 0%nat.
Proof. intros rng. apply (prepared rng 2 [on KX 0]). apply Forall_cons; [apply on_small; lia|constructor]. Qed.
Lemma all_shots : forall rng n gs (P : world -> Prop), (forall pos w, exec rng n gs (start pos) w -> P w) -> forall pos ws, shots rng n gs pos ws -> Forall P ws.
Proof. intros rng n gs P H. induction 1; constructor; eauto. Qed.
Lemma one_entry : forall (d : list (list nat * R)) k, NoDup (map fst d) -> (forall o, In o (map fst d) <-> o = k) -> exists p, d = [(k, p)].
Proof.
  intros [|[a p] [|[b q] d]] k N H.
  - exfalso. apply (proj2 (H k) eq_refl).
  - exists p. assert (a = k) as -> by (apply H; simpl; auto). auto.
  - exfalso. assert (a = k) as -> by (apply H; simpl; auto). assert (b = k) as -> by (apply H; simpl; auto). inversion N; subst. apply H2. simpl. auto.
Qed.
Lemma frequency_all : forall l k, l <> [] -> Forall (fun o => o = k) l -> frequency l k = 1.
Proof.
  intros l k Ne F. unfold frequency. replace (count_occ (list_eq_dec Nat.eq_dec) l k) with (List.length l).
  - unfold Rdiv. apply Rinv_r. apply not_0_INR. destruct l; simpl; congruence.
  - clear Ne. induction F as [|o l -> F IH]; simpl; auto. destruct (list_eq_dec Nat.eq_dec k k); congruence.
Qed.
Lemma mirrored_x0 : forall rng N h c, draws_ok rng -> (0 < N)%nat -> reachable rng [] h -> circuit_is h c x0 -> h_default h = "numpy"%string -> exists ws h',
  measurement_sampler rng (Z.of_nat N) h c [0%Z] = (Ok [([0%nat], 1)], h') /\
  shots rng 2 (v_gates x0 ++ [measure_gate_of [0%nat]]) (h_pos h) ws /\ List.length ws = N /\ Forall (fun w => requested [0%nat] w = [1%nat]) ws.
Proof.
  intros rng N h c Dr PN Re Ci D.
  assert (F1 : Forall (fun m => m < 2)%nat [0%nat]) by (apply Forall_cons; auto).
  destruct (measured_run rng [] h c x0 N [0%nat] Re Ci (numpy_simulated _ _ x0 D eq_refl) Dr x0_valid (le_S _ _ (le_n 1)) PN F1)
    as [ws [d [h' [E [Sh [Lw [Nd [Ks [Vs _]]]]]]]]].
  change (Z.to_nat (v_n x0)) with 2%nat in *.
  assert (B : Forall (fun w => w_bits w 0%nat = 1%nat /\ w_bits w 1%nat = 0%nat) ws).
  { refine (all_shots rng 2 _ _ _ _ _ Sh). intros pos w X. destruct (x_certain rng 2 (start pos) w Dr ltac:(lia) eq_refl X) as [A B]. split; auto. rewrite B by lia. auto. }
  assert (Q : forall w, In w ws -> mirrored 2 [0%nat] w = [0%nat] /\ outcomes 2 w = [1%nat; 0%nat]).
  { intros w I. rewrite Forall_forall in B. destruct (B w I) as [b0 b1]. unfold mirrored, outcomes. simpl. rewrite b0, b1. auto. }
  assert (Ne : ws <> []) by (intros ->; simpl in Lw; lia).
  destruct (one_entry d [0%nat] Nd) as [p ->].
  { intros o. rewrite Ks, in_map_iff. split.
    - intros [w [<- I]]. apply Q. auto.
    - intros ->. destruct ws as [|w ws]; [congruence|]. exists w. split; [apply Q|]; simpl; auto. }
  destruct (Vs [0%nat] p (or_introl eq_refl)) as [w [I [_ ->]]]. rewrite (frequency_all (map (outcomes 2) ws)) in E.
  - exists ws, h'. split; auto. split; auto. split; auto. eapply Forall_impl; [|exact B]. intros w0 [b0 _]. unfold requested. simpl. rewrite b0. auto.
  - destruct ws; simpl; congruence.
  - apply Forall_forall. intros o J. apply in_map_iff in J. destruct J as [w0 [<- J]]. rewrite (proj2 (Q w I)). apply Q. auto.
Qed.
Lemma mirrored_refuted : forall rng N, draws_ok rng -> (0 < N)%nat -> exists h c ws h', reachable rng [] h /\ circuit_is h c x0 /\
  measurement_sampler rng (Z.of_nat N) h c [0%Z] = (Ok [([0%nat], 1)], h') /\
  shots rng 2 (v_gates x0 ++ [measure_gate_of [0%nat]]) (h_pos h) ws /\ List.length ws = N /\ Forall (fun w => requested [0%nat] w = [1%nat]) ws.
Proof.
  intros rng N Dr PN. destruct (x0_prepared rng) as [h [c [Re [Ci [D P]]]]]. destruct (mirrored_x0 rng N h c Dr PN Re Ci D) as [ws [h' K]]. exists h, c, ws, h'. auto.
Qed.

(** ** h[0] on two qubits: outcomes that differ only in other qubits overwrite each other *)
Definition h0 : vcirc := VCirc [on KH 0] 2 None.
Definition coin : nat -> R := fun i => if Nat.even i then 0 else 1 / 2.
Lemma h_prob : prob 2 0 false (ap1 mH 0 (ket 0)) = 1 / 2.
Proof.
  assert (E : (/ sqrt 2 * / sqrt 2 = 1 / 2)%R) by (rewrite <- Rinv_mult, sqrt_sqrt by lra; lra).
  unfold prob, norm2. simpl. unfold project, ap1, mH, mscale, mk2, ket. simpl. unfold Cnorm2, C0, C1, Cadd, Cmul, RtoC. simpl.
  set (q := / sqrt 2) in *. ring_simplify. nra.
Qed.
Lemma h_coin : forall pos w, exec coin 2 [on KH 0; measure_gate_of [0%nat]] (start pos) w ->
  w_bits w 0%nat = (if Nat.even pos then 0 else 1)%nat /\ w_bits w 1%nat = 0%nat /\ w_pos w = S pos.
Proof.
  intros pos w E. apply exec_on in E; [|lia|apply Forall_cons; [lia|constructor]]. subst w. unfold each. simpl. unfold update. simpl. split; auto.
  unfold outcome. simpl w_psi. rewrite h_prob. simpl w_pos. unfold coin, Rltb. destruct (Nat.even pos); destruct (Rlt_dec _ _); auto; lra.
Qed.
Lemma overwritten : exists h c ws d h', draws_ok coin /\ reachable coin [] h /\ circuit_is h c h0 /\
  measurement_sampler coin 2 h c [0%Z] = (Ok d, h') /\ shots coin 2 (v_gates h0 ++ [measure_gate_of [0%nat]]) (h_pos h) ws /\ List.length ws = 2%nat /\ mass d = 1 / 2.
Proof.
  destruct (prepared coin 2 [on KH 0]) as [h [c [Re [Ci [D P]]]]]; [apply Forall_cons; [apply on_small; lia|constructor]|].
  assert (F1 : Forall (fun m => m < 2)%nat [0%nat]) by (apply Forall_cons; auto).
  assert (Va : valid 2 [on KH 0]) by (eapply ops_valid, gates_one, one_gate; lia).
  destruct (measured_run coin [] h c h0 2 [0%nat] Re Ci (numpy_simulated _ _ h0 D eq_refl) ex_draws Va (le_S _ _ (le_n 1)) (le_S _ _ (le_n 1)) F1)
    as [ws [d [h' [E [Sh [Lw [Nd [Ks [Vs _]]]]]]]]].
  change (Z.to_nat (v_n h0)) with 2%nat in *. exists h, c, ws, d, h'. split; [exact ex_draws|]. split; auto. split; auto. split; auto. split; auto. split; auto.
  rewrite P in Sh. destruct ws as [|w1 [|w2 [|]]]; try discriminate. inversion Sh as [|? ? ? X1 Sh2]; subst. inversion Sh2 as [|? ? ? X2 _]; subst.
  destruct (h_coin _ _ X1) as [a1 [a2 a3]]. rewrite a3 in X2. destruct (h_coin _ _ X2) as [b1 [b2 _]]. simpl in a1, b1.
  destruct (one_entry d [0%nat] Nd) as [p ->].
  { intros o. rewrite Ks. simpl. unfold mirrored. simpl. rewrite a2, b2. split; intuition. }
  destruct (Vs [0%nat] p (or_introl eq_refl)) as [w [I [_ ->]]]. unfold mass. simpl.
  assert (Fq : frequency (map (outcomes 2) [w1; w2]) (outcomes 2 w) = 1 / 2).
  { unfold frequency, outcomes. simpl. rewrite a1, a2, b1, b2. destruct I as [<-|[<-|[]]]; [rewrite a1, a2|rewrite b1, b2]; simpl; lra. }
  simpl in Fq. rewrite Fq. lra.
Qed.

(** ** Energies *)
Definition z0 : expr := [Term [(LZ, 0%nat)] C1].
Lemma x0_energy : forall psi, psi = apply_all [sem1 KX 0] (ket 0) -> expval 2 (expr_op z0) psi = (- C1)%C.
Proof.
  intros psi ->. unfold expval, inner, z0. simpl. unfold op_add, term_op, op_scl, op_mul, op_one. simpl. unfold ap1, mX, mZ, mk2, ket. simpl.
  unfold C0, C1, Ci, Cadd, Cmul, Copp, Cconj, RtoC. simpl. f_equal; ring.
Qed.
Lemma sampled_energy : forall rng N, draws_ok rng -> (0 < N)%nat -> exists h c h1 h2, reachable rng [] h /\ circuit_is h c x0 /\
  get_energy rng h z0 c (measurement_sampler rng (Z.of_nat N)) = (Ok 1, h1) /\
  get_energy rng h z0 c (non_sampling_sampler rng) = (Ok (-1), h2).
Proof.
  intros rng N Dr PN. destruct (x0_prepared rng) as [h [c [Re [Ci [D P]]]]].
  destruct (copy_ok rng _ _ _ _ true true Re Ci) as [h1 [E1 [R1 [C1' P1]]]].
  assert (D1 : h_default h1 = "numpy"%string) by (rewrite <- D; eapply global_keep; eauto; intros name; discriminate).
  destruct (mirrored_x0 rng N h1 _ Dr PN R1 C1' D1) as [ws [h2 [E2 _]]].
  assert (Sw : Forall (fun t => separate_word 2 (t_ops t)) z0).
  { apply Forall_cons; [|constructor]. split; simpl; [constructor; [intros []|constructor]|]. intros o [<-|[]]. simpl. lia. }
  destruct (get_energy_exact rng [] h c x0 [sem1 KX 0] z0 Re Ci (numpy_simulated _ _ x0 D eq_refl) x0_ops Sw) as [h3 [E3 _]].
  exists h, c, h2, h3. split; auto. split; auto. split.
  - unfold get_energy, z0. cbn [energy_terms]. rewrite E1. cbn [t_ops t_coeff].
    change (basis_change [(LZ, 0%nat)]) with (@nil gate). cbn [add_gates]. change (map (fun o : letter * nat => Z.of_nat (snd o)) [(LZ, 0%nat)]) with [0%Z]. rewrite E2.
    unfold add_measured. simpl. f_equal. f_equal. ring.
  - rewrite E3. f_equal. f_equal. change (Z.to_nat (v_n x0)) with 2%nat. rewrite expval_even; [|apply Forall_cons; auto]. rewrite (x0_energy _ eq_refl). simpl. ring.
Qed.
(** Y[0] in the state (|0> + i|1>)/sqrt 2 *)
Definition yplus : vcirc := VCirc [on KH 0; on KS 0] 1 None.
Definition y0 : expr := [Term [(LY, 0%nat)] C1].
Lemma yplus_ops : circuit_ops 1 [on KH 0; on KS 0] [sem1 KH 0; sem1 KS 0].
Proof. apply (co_cons 1 _ _ [sem1 KH 0]); [apply one_gate; lia|]. apply gates_one, one_gate. lia. Qed.
Lemma y_value : expval 1 (expr_op y0) (apply_all [sem1 KH 0; sem1 KS 0] (ket 0)) = C1.
Proof.
  assert (E : (/ sqrt 2 * / sqrt 2 = 1 / 2)%R) by (rewrite <- Rinv_mult, sqrt_sqrt by lra; lra).
  change (expval 1 (expr_op y0) (ap1 (mPhase (PI / 2)) 0 (ap1 mH 0 (ket 0))) = C1).
  unfold expval, inner, y0. simpl. unfold op_add, term_op, op_scl, op_mul, op_one. simpl. unfold ap1, mH, mPhase, mY, mscale, mk2, ket. simpl. rewrite cis_PI2.
  unfold C0, C1, Ci, Cadd, Cmul, Copp, Cconj, RtoC. simpl. set (q := / sqrt 2) in *. f_equal; ring_simplify; [|ring].
  nra.
Qed.
Lemma y_energy : forall rng, exists h c h1 h2 m, reachable rng [] h /\ circuit_is h c yplus /\ get_energy rng h y0 c (non_sampling_sampler rng) = (Ok (-1), h1) /\
  make_sparse y0 = Ok m /\ get_energy_sparse rng h m c = (Ok 1, h2) /\ Cre (expval 1 (expr_op y0) (apply_all [sem1 KH 0; sem1 KS 0] (ket 0))) = 1.
Proof.
  intros rng. destruct (prepared rng 1 [on KH 0; on KS 0]) as [h [c [Re [Ci [D P]]]]]; [repeat (apply Forall_cons; [apply on_small; lia|]); constructor|].
  assert (Sw : Forall (fun t => separate_word 1 (t_ops t)) y0).
  { apply Forall_cons; [|constructor]. split; simpl; [constructor; [intros []|constructor]|]. intros o [<-|[]]. simpl. lia. }
  destruct (get_energy_exact rng [] h c yplus _ y0 Re Ci (numpy_simulated _ _ yplus D eq_refl) yplus_ops Sw) as [h1 [E1 _]].
  assert (Ms : exists m, make_sparse y0 = Ok m).
  { destruct (make_sparse_ok y0) as [m [Q _]]; eauto. right. intro Z. pose proof y_value as V.
    rewrite <- (op_eq _ _ (expr_simplify_op y0)), Z in V. unfold expval, inner in V. simpl in V. injection V as V _. lra. }
  destruct Ms as [m Ms].
  destruct (energy_sparse rng [] h c yplus _ y0 m Re Ci (numpy_simulated _ _ yplus D eq_refl) yplus_ops Ms) as [h2 [E2 _]].
  exists h, c, h1, h2, m. split; auto. split; auto. split; [|split; [auto|split]].
  - rewrite E1. f_equal. f_equal. change (Z.to_nat (v_n yplus)) with 1%nat. pose proof y_value as V. unfold y0 in *. cbn [expval_y t_ops t_coeff]. cbn [ycount Nat.even].
    cbn [expr_op] in V. rewrite expval_add in V. unfold term_op in V. rewrite expval_scl in V. cbn [t_ops t_coeff] in V.
    set (a := expval 1 (word_op [(LY, 0%nat)]) _) in *. set (b := expval 1 _ _) in V.
    assert (b = C0) as Eb by (unfold b, expval, inner; apply Csum_0; intros; ring). rewrite Eb in V. assert (a = C1) as Ea by (rewrite <- V; ring). rewrite Ea. simpl. ring.
  - rewrite E2. change (Z.to_nat (v_n yplus)) with 1%nat. change (expr_qubits y0) with 1%nat. destruct (Nat.eq_dec 1 1); [|congruence]. rewrite y_value. auto.
  - rewrite y_value. auto.
Qed.

(** ** Hamiltonians for QAOA *)
Lemma commuting_check : forall ham, pairwise_commuting (expr_simplify ham) -> is_all_terms_commutable (expr_simplify ham) = true.
Proof.
  intros ham H. apply all_terms_commutable. assert (N := simplify_nonzero ham). induction H as [|t e F H IH]; constructor.
  - apply Forall_forall. intros s I. rewrite Forall_forall in F. apply term_is_commutable; [apply N; simpl; auto|apply N; simpl; auto|].
    specialize (F s I). apply terms_commute in F; [|apply N; simpl; auto|apply N; simpl; auto]. rewrite F. unfold default_eps. lra.
  - apply IH. intros s I. apply N. right. auto.
Qed.
Lemma opposed_check : forall ham, ~ ForallOrdPairs (fun a b => ~ opposed a b) (expr_simplify ham) -> is_all_terms_commutable (expr_simplify ham) = false.
Proof.
  intros ham H. apply not_true_is_false. intros E. apply H. clear H. apply all_terms_commutable in E. assert (N := simplify_nonzero ham). induction E as [|t e F H IH]; constructor.
  - apply Forall_forall. intros s I [A B]. rewrite Forall_forall in F. specialize (F s I). apply term_is_commutable in F; [|apply N; simpl; auto|apply N; simpl; auto].
    rewrite A in F. unfold default_eps in F. lra.
  - apply IH. intros s I. apply N. right. auto.
Qed.
Lemma qaoa_plain_commuting : forall rng seen h ham step_ betas gammas, let n := expr_qubits (expr_simplify ham) in reachable rng seen h ->
  simulated rng h (VCirc [] (Z.of_nat n) None) -> pairwise_commuting (expr_simplify ham) -> Forall (fun t => Cim (t_coeff t) = 0) (expr_simplify ham) ->
  List.length betas = step_ ->
  exists q h1 d h' gs ops', qaoa_new rng h ham step_ None None = (Ok q, h1) /\ qa_n q = Z.of_nat n /\ qaoa_circuit rng h1 q (betas ++ gammas) = (Ok d, h') /\
    circuit_is h' d (VCirc gs (Z.of_nat n) None) /\ circuit_ops n gs ops' /\
    apply_all ops' (ket 0) = fold_left (qaoa_round n (expr_simplify ham) None) (combine betas gammas) (everywhere n mH (ket 0)) /\
    (forall c' v', circuit_is h c' v' -> circuit_is h' c' v').
Proof. intros. eapply qaoa_plain; eauto. apply commuting_check. auto. Qed.
Lemma qaoa_init_commuting : forall rng seen h ham step_ c mixer v ops betas gammas, reachable rng seen h -> circuit_is h c v -> simulated rng h v ->
  circuit_ops (Z.to_nat (v_n v)) (v_gates v) ops -> pairwise_commuting (expr_simplify ham) -> Forall (fun t => Cim (t_coeff t) = 0) (expr_simplify ham) ->
  (Z.of_nat (expr_qubits (expr_simplify ham)) <= v_n v)%Z -> match mixer with Some ts => suits (v_n v) ts | None => True end -> List.length betas = step_ ->
  exists q h1 d h' gs ops', qaoa_new rng h ham step_ (Some c) mixer = (Ok q, h1) /\ qa_n q = v_n v /\ qaoa_circuit rng h1 q (betas ++ gammas) = (Ok d, h') /\
    circuit_is h' d (VCirc (v_gates v ++ gs) (v_n v) (v_default v)) /\ circuit_ops (Z.to_nat (v_n v)) (v_gates v ++ gs) ops' /\
    apply_all ops' (ket 0) = fold_left (qaoa_round (Z.to_nat (v_n v)) (expr_simplify ham) mixer) (combine betas gammas) (apply_all ops (ket 0)) /\
    (forall c' v', circuit_is h c' v' -> circuit_is h' c' v').
Proof. intros. eapply qaoa_init; eauto. apply commuting_check. auto. Qed.
Lemma qaoa_refusals : forall rng h ham step_ init mixer,
  (~ ForallOrdPairs (fun a b => ~ opposed a b) (expr_simplify ham) -> qaoa_new rng h ham step_ init mixer = (Err ValueError, h)) /\
  (forall t ts, init = None -> mixer = Some (t :: ts) -> qaoa_new rng h ham step_ init mixer = (Err ValueError, h)).
Proof.
  intros rng h ham step_ init mixer. destruct (qaoa_refused rng h ham step_ init mixer) as [A B]. split; auto. intros H. apply A, opposed_check. auto.
Qed.
(** Z[0]*Z[1] *)
Definition zz : expr := [Term [(LZ, 0%nat); (LZ, 1%nat)] C1].
Lemma zz_simplified : expr_simplify zz = zz.
Proof.
  unfold zz. rewrite simplify_single by (intro Z; injection Z as Z; lra). rewrite simplify_id; auto. simpl. repeat constructor.
Qed.
Lemma zz_fine : forall rng, simulated rng (empty_heap 0) (VCirc [] (Z.of_nat (expr_qubits (expr_simplify zz))) None) /\
  pairwise_commuting (expr_simplify zz) /\ Forall (fun t => Cim (t_coeff t) = 0) (expr_simplify zz).
Proof.
  intros rng. rewrite zz_simplified. split; [apply numpy_simulated; auto|]. split; [repeat constructor|]. apply Forall_cons; auto.
Qed.
(** X[0] and Z[0] *)
Lemma xz_opposed : opposed (Term [(LX, 0%nat)] C1) (Term [(LZ, 0%nat)] C1).
Proof. split; auto. simpl. unfold Cnorm2, C1. simpl. assert (/ 10 ^ 8 <= 1) by (rewrite <- Rinv_1; apply Rinv_le_contravar; lra). simpl in *. lra. Qed.

(** ** VqeResult with the sampler that measures *)
Lemma result_measured : forall rng N, draws_ok rng -> (0 < N)%nat -> exists h r d h' r' v',
  vr_vqe r = Some (Some (measurement_sampler rng (Z.of_nat N))) /\ reachable rng [] h /\ circuit_is h (vr_circuit r) x0 /\
  get_probs rng h r None None true = (Ok d, h', r') /\ circuit_is h' (vr_circuit r) v' /\ v_gates v' = v_gates x0 ++ [measure_gate_of [0; 1]%nat].
Proof.
  intros rng N Dr PN. destruct (x0_prepared rng) as [h [c [Re [Ci [D P]]]]].
  assert (F1 : Forall (fun m => m < 2)%nat [0; 1]%nat) by (repeat (apply Forall_cons; [lia|]); constructor).
  destruct (measured_run rng [] h c x0 N [0; 1]%nat Re Ci (numpy_simulated _ _ x0 D eq_refl) Dr x0_valid (le_S _ _ (le_n 1)) PN F1)
    as [ws [d [h' [E [_ [_ [_ [_ [_ [_ [_ [R' C']]]]]]]]]]]].
  exists h, (VqeResult (Some (Some (measurement_sampler rng (Z.of_nat N)))) c None), d, h', (VqeResult (Some (Some (measurement_sampler rng (Z.of_nat N)))) c (Some d)).
  eexists. split; auto. split; auto. split; auto. split; [|split; [exact C'|auto]].
  destruct Ci as [x [Hx [_ [Hn _]]]]. unfold get_probs. cbn [vr_probs vr_vqe vr_circuit]. unfold ModelCircuit.get. rewrite Hx, Hn.
  change (map Z.of_nat (seq 0 (Z.to_nat (v_n x0)))) with (map Z.of_nat [0; 1]%nat). rewrite E. auto.
Qed.

(** ** Cases *)
Lemma x0_case : forall rng, exists h c, reachable rng [] h /\ circuit_is h c x0 /\ simulated rng h x0 /\ circuit_ops 2 (v_gates x0) [sem1 KX 0].
Proof.
  intros rng. destruct (x0_prepared rng) as [h [c [Re [Ci [D P]]]]]. exists h, c. split; auto. split; auto. split; [apply numpy_simulated; auto|exact x0_ops].
Qed.
Lemma zz_case : forall rng, exists h c m, reachable rng [] h /\ circuit_is h c x0 /\ simulated rng h x0 /\ circuit_ops 2 (v_gates x0) [sem1 KX 0] /\
  Forall (fun t => separate_word 2 (t_ops t)) zz /\ Forall (fun t => Nat.even (ycount (t_ops t)) = true) zz /\ make_sparse zz = Ok m /\ expr_qubits zz = 2%nat.
Proof.
  intros rng. destruct (x0_case rng) as [h [c [A [B [D E]]]]]. destruct (make_sparse_ok zz) as [m [Hm _]]; [right; rewrite zz_simplified; discriminate|].
  exists h, c, m. repeat (split; auto).
  - apply Forall_cons; [|constructor]. split; simpl; [repeat constructor; simpl; intuition congruence|]. intros o [<-|[<-|[]]]; simpl; lia.
  - apply Forall_cons; auto.
Qed.
Lemma sampler_case : draws_ok coin /\ valid 2 (v_gates x0) /\ Forall (fun m => m < 2)%nat [1; 0]%nat.
Proof. split; [exact ex_draws|]. split; [exact x0_valid|]. repeat (apply Forall_cons; [lia|]). constructor. Qed.
Lemma result_case : forall rng, exists h c r, reachable rng [] h /\ circuit_is h c x0 /\ r = VqeResult (Some None) c None /\ rerun_of (vr_probs r) (Some true) = true /\
  best [([0%nat], 1); ([1%nat], 3); ([2%nat], 3)]%R 2 [([1%nat], 3); ([2%nat], 3)]%R.
Proof.
  intros rng. destruct (x0_case rng) as [h [c [A [B _]]]]. exists h, c. eexists. split; auto. split; auto. split; [reflexivity|]. split; auto.
  exists [([0%nat], 1)]. simpl. split; [|split; [auto|split]].
  - apply Permutation.perm_trans with [([1%nat], 3); ([0%nat], 1); ([2%nat], 3)]; [apply Permutation.perm_swap|apply Permutation.perm_skip, Permutation.perm_swap].
  - repeat constructor; simpl; lra.
  - intros q. destruct (Req_EM_T 3 q), (Req_EM_T 1 q); auto. lra.
Qed.
