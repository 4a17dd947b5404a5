(** Vqe.run *)
From Coq Require Import List Arith ZArith Bool String Reals Lia Lra FunctionalExtensionality.
Import ListNotations.
From Verif Require Import Base Cplx Bits ModelTargets ModelGate ModelNumpy ModelNumba ModelCircuit ModelPauli ModelPauliMatrix ModelVqe ModelVqeLoop
  SpecTargets SpecQuantum SpecCircuit SpecMeasure SpecRun SpecAPI SpecPauli SpecPauliMatrix SpecVqe SpecVqeLoop
  ProofTargets ProofArray ProofRun ProofUnitary ProofMeasure ProofBorn ProofWhole ProofNumbaProps ProofAPI ProofProgram ProofReach
  ProofPauli ProofPauliExpr ProofEvolution ProofPauliMatrix ProofPauliEx ProofVqe ProofVqeRun ProofVqeSparse ProofQaoa.
Local Open Scope nat_scope.

Lemma nth_combine : forall A (d : A) i a b, i < List.length a -> i < List.length b -> nth i (combine a b) (d, d) = (nth i a d, nth i b d).
Proof. intros A d. induction i as [|i IH]; intros [|x a] [|y b] La Lb; simpl in *; try lia; auto. apply IH; lia. Qed.
Lemma nth_firstn : forall A (d : A) k i l, i < k -> nth i (firstn k l) d = nth i l d.
Proof. intros A d. induction k as [|k IH]; intros [|i] [|x l] L; simpl; auto; try lia. apply IH. lia. Qed.
Lemma nth_skipn : forall A (d : A) k i l, nth i (skipn k l) d = nth (k + i) l d.
Proof. intros A d. induction k as [|k IH]; intros i [|x l]; simpl; auto. destruct i; auto. Qed.
Lemma angles_eq : forall k ps, combine (firstn k ps) (skipn k ps) = angles k ps.
Proof.
  intros k ps. unfold angles. apply nth_ext with (d := (0%R, 0%R)) (d' := (0%R, 0%R)).
  - rewrite combine_length, firstn_length, skipn_length, map_length, seq_length. lia.
  - intros i L. rewrite combine_length, firstn_length, skipn_length in L. set (g := fun i => (nth i ps 0%R, nth (k + i) ps 0%R)).
    rewrite (nth_indep (map g _) (0%R, 0%R) (g 0)) by (rewrite map_length, seq_length; lia).
    rewrite (map_nth g), seq_nth by lia. simpl plus. unfold g.
    rewrite nth_combine by (rewrite ?firstn_length, ?skipn_length; lia). rewrite nth_firstn, nth_skipn by lia. auto.
Qed.

Lemma minimize_plays : forall f (E : list R -> R) (P : heap -> Prop), (forall h ps, P h -> exists h', f h ps = (Ok (E ps), h') /\ P h') ->
  forall t h, P h -> exists ps asked h', plays E t ps asked /\ minimize f t h = (Ok ps, h', map (fun p => (p, E p)) asked) /\ P h'.
Proof.
  intros f E P H. induction t as [ps|ps next IH]; intros h Ph.
  - exists ps, [], h. split; [constructor|]. split; auto.
  - destruct (H h ps Ph) as [h1 [E1 P1]]. destruct (IH (E ps) h1 P1) as [ps' [asked [h2 [Pl [E2 P2]]]]].
    exists ps', (ps :: asked), h2. split; [constructor; auto|]. split; auto. simpl. rewrite E1, E2. auto.
Qed.
Lemma plays_fun : forall E t ps asked, plays E t ps asked -> forall ps' asked', plays E t ps' asked' -> ps' = ps /\ asked' = asked.
Proof.
  induction 1 as [ps|p next ps asked Pl IH]; intros ps' asked' H; inversion H; subst; auto.
  destruct (IH _ _ H4) as [-> ->]. auto.
Qed.
Lemma plays_total : forall E t, exists ps asked, plays E t ps asked.
Proof. intros E. induction t as [ps|p next IH]; [exists ps, []; constructor|]. destruct (IH (E p)) as [ps [asked Pl]]. exists ps, (p :: asked). constructor. auto. Qed.

Section Random.
Variable rng : nat -> R.

(** what the constructor stores *)
Lemma qaoa_new_inv : forall h0 ham step_ init mixer q h1, qaoa_new rng h0 ham step_ init mixer = (Ok q, h1) -> exists n c evos ms,
  q = Qaoa (expr_simplify ham) step_ n c mixer evos ms /\ map_res time_evolution (expr_simplify ham) = Ok evos /\
  match mixer with Some ts => map_res time_evolution ts | None => Ok [] end = Ok ms.
Proof.
  intros h0 ham step_ init mixer q h1 H. unfold qaoa_new in H. destruct (negb _); [discriminate|].
  match type of H with (match ?m with _ => _ end) = _ => destruct m as [[[c n]|] h2]; [|discriminate] end.
  destruct (step rng h2 (OMakeCache c None)) as [[o|] h3]; [|discriminate].
  destruct (map_res time_evolution (expr_simplify ham)) as [evos|]; [|discriminate]. cbn [bind] in H.
  destruct (match mixer with Some ts => map_res time_evolution ts | None => Ok [] end) as [ms|]; [|discriminate]. cbn [bind] in H.
  injection H as <- <-. exists n, c, evos, ms. auto.
Qed.
Lemma evos_real : forall ts evos, Forall (fun t => canonical (t_ops t)) ts -> map_res time_evolution ts = Ok evos -> Forall (fun t => (Cim (t_coeff t) = 0)%R) ts.
Proof.
  induction ts as [|t ts IH]; intros evos C H; constructor; inversion C; subst.
  - simpl in H. destruct (time_evolution t) as [f|] eqn:E; [|discriminate]. unfold time_evolution in E. rewrite (simplify_id t) in E by auto.
    unfold Reqb in E. destruct (Req_EM_T (Cim (t_coeff t)) 0); auto. discriminate.
  - simpl in H. destruct (time_evolution t); [|discriminate]. cbn [bind] in H. destruct (map_res time_evolution ts) eqn:E; [|discriminate]. eapply IH; eauto.
Qed.

Section Ansatz.
Variables (seen : list nat) (h0 h1 : heap) (ham : expr) (step_ : nat) (init : option nat) (mixer : option (list term)) (q : qaoa).
Hypothesis Hq : qaoa_new rng h0 ham step_ init mixer = (Ok q, h1).
Variables (h : heap) (v : vcirc) (ops : list oper).
Let n := Z.to_nat (v_n v).
Hypothesis Re : reachable rng seen h.
Hypothesis Ci : circuit_is h (qa_init q) v.
Hypothesis Si : simulated rng h v.
Hypothesis Co : circuit_ops n (v_gates v) ops.
Hypothesis Wd : expr_qubits (expr_simplify ham) <= n.
Hypothesis Sm : match mixer with Some ts => suits (v_n v) ts | None => True end.
Let psi := apply_all ops (ket 0).

Definition kept (h' : heap) : Prop := reachable rng seen h' /\ h_default h' = h_default h /\ forall c' v', circuit_is h c' v' -> circuit_is h' c' v'.
Lemma kept_trans : forall h2 h3, kept h2 -> reachable rng seen h3 -> h_default h3 = h_default h2 -> (forall c' v', circuit_is h2 c' v' -> circuit_is h3 c' v') -> kept h3.
Proof. intros h2 h3 [A [B C]] A' B' C'. split; auto. split; [congruence|auto]. Qed.

Lemma circuit_at : forall h2 ps, kept h2 -> exists d h3 gs ops', qaoa_circuit rng h2 q ps = (Ok d, h3) /\ kept h3 /\
  circuit_is h3 d (VCirc (v_gates v ++ gs) (v_n v) (v_default v)) /\ circuit_ops n (v_gates v ++ gs) ops' /\
  apply_all ops' (ket 0) = qaoa_state n (expr_simplify ham) mixer step_ psi ps.
Proof.
  intros h2 ps K. destruct (qaoa_new_inv _ _ _ _ _ _ _ Hq) as [m [c [evos [ms [-> [Ee Em]]]]]]. destruct K as [R2 [D2 K2]]. pose proof (K2 _ _ Ci) as C2.
  assert (Se : suits (v_n v) (expr_simplify ham)).
  { apply simplified_suits; [eapply evos_real; eauto; apply expr_simplify_canonical|]. pose proof (width_nonneg rng _ _ _ _ Re Ci). unfold n in Wd. lia. }
  destruct (qaoa_at rng seen h2 _ step_ m c mixer evos ms v ops ps R2 C2 Co Ee Se Sm Em) as [d [h3 [gs [ops' [E3 [R3 [D3 [C3 [Co3 [Ap K3]]]]]]]]]].
  exists d, h3, gs, ops'. split; auto. split; [apply (kept_trans h2); auto; split; auto|]. split; auto. split; auto. rewrite Ap, angles_eq. auto.
Qed.
Lemma objective_at : forall energy (E : state -> R),
  (forall h2 d v' ops', reachable rng seen h2 -> circuit_is h2 d v' -> simulated rng h2 v' -> v_n v' = v_n v -> circuit_ops n (v_gates v') ops' ->
    exists h3, energy h2 d = (Ok (E (apply_all ops' (ket 0))), h3) /\ reachable rng seen h3 /\ h_default h3 = h_default h2 /\
      (forall c' v', circuit_is h2 c' v' -> circuit_is h3 c' v')) ->
  forall h2 ps, kept h2 -> exists h3, objective_with rng energy q h2 ps = (Ok (E (qaoa_state n (expr_simplify ham) mixer step_ psi ps)), h3) /\ kept h3.
Proof.
  intros energy E HE h2 ps K. destruct (circuit_at h2 ps K) as [d [h3 [gs [ops' [E3 [K3 [C3 [Co3 Ap]]]]]]]].
  set (v' := VCirc (v_gates v ++ gs) (v_n v) (v_default v)) in *.
  assert (S3 : simulated rng h3 v') by (destruct K3 as [_ [D3 _]]; unfold simulated in *; cbn [v_default v_n v']; rewrite D3; auto).
  destruct (cache_step rng seen h3 d v' ops' (proj1 K3) C3 S3 Co3) as [h4 [E4 [R4 [P4 [D4 K4]]]]].
  assert (S4 : simulated rng h4 v') by (unfold simulated in *; rewrite D4; auto).
  destruct (HE h4 d v' ops' R4 (K4 _ _ C3) S4 eq_refl Co3) as [h5 [E5 [R5 [D5 K5]]]].
  exists h5. unfold objective_with. rewrite E3, E4, E5, Ap. split; auto. apply (kept_trans h3); auto. congruence.
Qed.
Lemma run_at : forall s f (E : list R -> R) a a' minim verbose, an_qaoa a = q -> get_objective rng a s = (Ok f, a') -> an_qaoa a' = q ->
  (forall h2 ps, kept h2 -> exists h3, f h2 ps = (Ok (E ps), h3) /\ kept h3) ->
  exists ps asked c h' gs ops', plays E (minim (2 * step_)) ps asked /\
    vqe_run rng h (Vqe a minim s) verbose = (Ok (ps, VqeResult (Some s) c None), h', a', if verbose then map (fun p => (p, E p)) asked else []) /\
    circuit_is h' c (VCirc (v_gates v ++ gs) (v_n v) (v_default v)) /\ circuit_ops n (v_gates v ++ gs) ops' /\
    apply_all ops' (ket 0) = qaoa_state n (expr_simplify ham) mixer step_ psi ps /\
    reachable rng seen h' /\ h_default h' = h_default h /\ (forall c' v', circuit_is h c' v' -> circuit_is h' c' v').
Proof.
  intros s f E a a' minim verbose Ea Eo Ea' Hf.
  assert (K : kept h) by (split; auto).
  destruct (minimize_plays f E kept Hf (minim (2 * step_)) h K) as [ps [asked [h2 [Pl [Em K2]]]]].
  destruct (circuit_at h2 ps K2) as [c [h3 [gs [ops' [E3 [K3 [C3 [Co3 Ap]]]]]]]].
  exists ps, asked, c, h3, gs, ops'. split; auto. destruct K3 as [R3 [D3 K3]]. repeat (split; [|auto]); auto.
  unfold vqe_run. cbn [vq_ansatz vq_sampler vq_minimizer]. rewrite Eo.
  assert (En : n_params a' = 2 * step_).
  { unfold n_params. rewrite Ea'. destruct (qaoa_new_inv _ _ _ _ _ _ _ Hq) as [m [c' [evos [ms [-> _]]]]]. simpl. lia. }
  rewrite En, Em, Ea', E3. auto.
Qed.
End Ansatz.

Lemma simplified_sparse : forall e, exists m, make_sparse (expr_simplify e) = Ok m.
Proof.
  intros e. destruct (make_sparse_ok (expr_simplify e)) as [m [E _]]; [|eauto]. rewrite simplify_simplify.
  destruct (expr_simplify e) as [|t r]; [left; reflexivity|right; discriminate].
Qed.

(** with the matrix *)
Lemma run_sparse : forall seen h0 h1 ham step_ init mixer q h v ops a minim verbose, let n := Z.to_nat (v_n v) in let e := expr_simplify ham in
  qaoa_new rng h0 ham step_ init mixer = (Ok q, h1) ->
  reachable rng seen h -> circuit_is h (qa_init q) v -> simulated rng h v -> circuit_ops n (v_gates v) ops -> n = expr_qubits e ->
  match mixer with Some ts => suits (v_n v) ts | None => True end ->
  an_qaoa a = q -> an_sparse a = None \/ (exists m, make_sparse e = Ok m /\ an_sparse a = Some m) ->
  let psi := qaoa_state n e mixer step_ (apply_all ops (ket 0)) in let E := fun ps => Cre (expval n (expr_op e) (psi ps)) in
  exists ps asked m c h' gs ops', plays E (minim (2 * step_)) ps asked /\ make_sparse e = Ok m /\
    vqe_run rng h (Vqe a minim None) verbose = (Ok (ps, VqeResult (Some None) c None), h', Ansatz q (Some m), if verbose then map (fun p => (p, E p)) asked else []) /\
    circuit_is h' c (VCirc (v_gates v ++ gs) (v_n v) (v_default v)) /\ circuit_ops n (v_gates v ++ gs) ops' /\ apply_all ops' (ket 0) = psi ps /\
    reachable rng seen h' /\ h_default h' = h_default h /\ (forall c' v', circuit_is h c' v' -> circuit_is h' c' v').
Proof.
  intros seen h0 h1 ham step_ init mixer q h v ops a minim verbose n e Hq Re Ci Si Co Wd Sm Ea Es psi E.
  destruct (simplified_sparse ham) as [m Em]. fold e in Em.
  assert (Eo : get_objective rng a None = (Ok (objective_with rng (fun h c => get_energy_sparse rng h m c) q), Ansatz q (Some m))).
  { unfold get_objective. destruct Es as [Es|[m' [Em' Es]]]; rewrite Es.
    - rewrite Ea. destruct (qaoa_new_inv _ _ _ _ _ _ _ Hq) as [k [c' [evos [ms [-> _]]]]]. cbn [qa_ham]. fold e. rewrite Em. auto.
    - assert (m' = m) as -> by congruence. rewrite Ea. destruct a as [qa sa]. simpl in *. subst. auto. }
  destruct (run_at seen h0 h1 ham step_ init mixer q Hq h v ops Re Ci Co (Nat.eq_le_incl _ _ (eq_sym Wd)) Sm None _ E a _ minim verbose Ea Eo eq_refl) as
    [ps [asked [c [h' [gs [ops' [Pl [Er R]]]]]]]].
  - apply (objective_at seen h0 h1 ham step_ init mixer q Hq h v ops Re Ci Si Co (Nat.eq_le_incl _ _ (eq_sym Wd)) Sm _ (fun phi => Cre (expval n (expr_op e) phi))).
    intros h2 d v' ops' R2 C2 S2 N2 Co2. unfold n in Co2. rewrite <- N2 in Co2.
    destruct (energy_sparse rng seen h2 d v' ops' e m R2 C2 S2 Co2 Em) as [h3 [E3 [R3 [P3 [D3 K3]]]]]. exists h3. split; auto.
    rewrite E3. rewrite N2. fold n. destruct (Nat.eq_dec n (expr_qubits e)); [|contradiction]. rewrite <- Wd. auto.
  - exists ps, asked, m, c, h', gs, ops'. split; auto.
Qed.
(** with the exact sampler *)
Lemma run_exact : forall seen h0 h1 ham step_ init mixer q h v ops a minim verbose, let n := Z.to_nat (v_n v) in let e := expr_simplify ham in
  qaoa_new rng h0 ham step_ init mixer = (Ok q, h1) ->
  reachable rng seen h -> circuit_is h (qa_init q) v -> simulated rng h v -> circuit_ops n (v_gates v) ops -> expr_qubits e <= n ->
  match mixer with Some ts => suits (v_n v) ts | None => True end -> an_qaoa a = q ->
  let psi := qaoa_state n e mixer step_ (apply_all ops (ket 0)) in let E := fun ps => Cre (expval_y n e (psi ps)) in
  exists ps asked c h' gs ops', plays E (minim (2 * step_)) ps asked /\
    vqe_run rng h (Vqe a minim (Some (non_sampling_sampler rng))) verbose =
      (Ok (ps, VqeResult (Some (Some (non_sampling_sampler rng))) c None), h', a, if verbose then map (fun p => (p, E p)) asked else []) /\
    circuit_is h' c (VCirc (v_gates v ++ gs) (v_n v) (v_default v)) /\ circuit_ops n (v_gates v ++ gs) ops' /\ apply_all ops' (ket 0) = psi ps /\
    reachable rng seen h' /\ h_default h' = h_default h /\ (forall c' v', circuit_is h c' v' -> circuit_is h' c' v').
Proof.
  intros seen h0 h1 ham step_ init mixer q h v ops a minim verbose n e Hq Re Ci Si Co Wd Sm Ea psi E.
  assert (Eo : get_objective rng a (Some (non_sampling_sampler rng)) = (Ok (objective_with rng (fun h c => get_energy rng h e c (non_sampling_sampler rng)) q), a)).
  { unfold get_objective. rewrite Ea. destruct (qaoa_new_inv _ _ _ _ _ _ _ Hq) as [k [c' [evos [ms [-> _]]]]]. auto. }
  apply (run_at seen h0 h1 ham step_ init mixer q Hq h v ops Re Ci Co Wd Sm _ _ E a _ minim verbose Ea Eo Ea).
  apply (objective_at seen h0 h1 ham step_ init mixer q Hq h v ops Re Ci Si Co Wd Sm _ (fun phi => Cre (expval_y n e phi))).
  intros h2 d v' ops' R2 C2 S2 N2 Co2. unfold n in Co2. rewrite <- N2 in Co2.
  destruct (get_energy_exact rng seen h2 d v' ops' e R2 C2 S2 Co2) as [h3 [E3 [R3 [P3 [D3 K3]]]]].
  { rewrite N2. fold n. apply Forall_forall. intros t I. split; [|exact (proj1 (Forall_forall _ _) (expr_fit e n Wd) t I)].
    pose proof (expr_simplify_canonical ham) as Cn. rewrite Forall_forall in Cn. apply canonical_NoDup. apply Cn. auto. }
  exists h3. split; auto. rewrite E3, N2. auto.
Qed.
(** an initial circuit that is wider than the Hamiltonian *)
Lemma run_wide : forall seen h0 h1 ham step_ init mixer q h v ops minim verbose ps next, let n := Z.to_nat (v_n v) in let e := expr_simplify ham in
  qaoa_new rng h0 ham step_ init mixer = (Ok q, h1) ->
  reachable rng seen h -> circuit_is h (qa_init q) v -> simulated rng h v -> circuit_ops n (v_gates v) ops -> expr_qubits e < n ->
  match mixer with Some ts => suits (v_n v) ts | None => True end -> minim (2 * step_) = Evaluate ps next ->
  exists h' a', vqe_run rng h (Vqe (ansatz_of q) minim None) verbose = (Err ValueError, h', a', []) /\
    reachable rng seen h' /\ h_default h' = h_default h /\ (forall c' v', circuit_is h c' v' -> circuit_is h' c' v').
Proof.
  intros seen h0 h1 ham step_ init mixer q h v ops minim verbose ps next n e Hq Re Ci Si Co Wd Sm Em.
  destruct (simplified_sparse ham) as [m Es]. fold e in Es.
  destruct (circuit_at seen h0 h1 ham step_ init mixer q Hq h v ops Re Ci Co (Nat.lt_le_incl _ _ Wd) Sm h ps) as [d [h3 [gs [ops' [E3 [[R3 [D3 K3]] [C3 [Co3 Ap]]]]]]]]; [split; auto|].
  set (v' := VCirc (v_gates v ++ gs) (v_n v) (v_default v)) in *.
  assert (S3 : simulated rng h3 v') by (unfold simulated in *; cbn [v_default v_n v']; rewrite D3; auto).
  destruct (cache_step rng seen h3 d v' ops' R3 C3 S3 Co3) as [h4 [E4 [R4 [P4 [D4 K4]]]]].
  assert (S4 : simulated rng h4 v') by (unfold simulated in *; rewrite D4; auto).
  destruct (energy_sparse rng seen h4 d v' ops' e m R4 (K4 _ _ C3) S4 Co3 Es) as [h5 [E5 [R5 [P5 [D5 K5]]]]].
  exists h5, (Ansatz q (Some m)). split; [|split; [auto|split; [congruence|auto]]].
  unfold vqe_run, get_objective, ansatz_of. cbn [vq_ansatz vq_sampler vq_minimizer an_qaoa an_sparse].
  assert (Eq : qa_ham q = e /\ qa_step q = step_).
  { destruct (qaoa_new_inv _ _ _ _ _ _ _ Hq) as [k [c' [evos [ms [-> _]]]]]. auto. }
  destruct Eq as [-> Eq]. rewrite Es. unfold n_params. cbn [an_qaoa]. rewrite Eq, (Nat.mul_comm step_ 2), Em. cbn [minimize]. unfold objective_with.
  rewrite E3, E4, E5. cbn [v' v_n]. fold n. destruct (Nat.eq_dec n (expr_qubits e)); [lia|]. destruct verbose; auto.
Qed.
End Random.

(** ** The variational bound *)
Lemma state_norm : forall z e mixer step_ psi ps, (0 <= z)%Z -> suits z e -> match mixer with Some ts => suits z ts | None => True end ->
  norm2 (Z.to_nat z) psi = 1%R -> norm2 (Z.to_nat z) (qaoa_state (Z.to_nat z) e mixer step_ psi ps) = 1%R.
Proof.
  intros z e mixer step_ psi ps P Se Sm N. destruct (evos_ok e z (proj1 Se) (proj1 (proj2 Se))) as [evos [Ee _]]. destruct (mixers_ok mixer z Sm) as [ms [Em _]].
  destruct (round_ok e step_ z 0 mixer evos ms z P Ee Se Sm Em (angles step_ ps)) as [_ [ops [Co Ap]]].
  unfold qaoa_state. rewrite <- Ap, preserves_norm; auto. eapply circuit_preserves; eauto.
Qed.
Lemma energy_bound : forall n e mixer step_ gs ops g ps, suits (Z.of_nat n) e -> match mixer with Some ts => suits (Z.of_nat n) ts | None => True end ->
  circuit_ops n gs ops -> below_spectrum n (expr_op e) g -> (g <= Cre (expval n (expr_op e) (qaoa_state n e mixer step_ (apply_all ops (ket 0)) ps)))%R.
Proof.
  intros n e mixer step_ gs ops g ps Se Sm Co B. apply B. pose proof (state_norm (Z.of_nat n) e mixer step_ (apply_all ops (ket 0)) ps) as H. rewrite Nat2Z.id in H.
  apply H; auto; [lia|]. rewrite preserves_norm by (eapply circuit_preserves; eauto). apply norm2_ket. apply Nat.neq_0_lt_0, Nat.pow_nonzero. lia.
Qed.
