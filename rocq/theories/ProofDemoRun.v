(** Proofs about QAOA with a diagonal Hamiltonian, from the ansatz to the probabilities. *)
From Coq Require Import String List Arith ZArith Bool Reals Lra Lia FunctionalExtensionality.
Import ListNotations.
From Verif Require Import Base Cplx Bits ModelTargets ModelGate ModelNumpy ModelCircuit ModelPauli ModelPauliMatrix ModelVqe ModelVqeLoop ModelDemo SpecTargets SpecQuantum SpecCircuit
  SpecMeasure SpecRun SpecAPI SpecPauli SpecPauliMatrix SpecVqe SpecVqeLoop SpecWq SpecDemo ProofPauli ProofPauliTrace ProofPauliExpr ProofPauliArith ProofPauliMatrix
  ProofQaoa ProofVqeRun ProofVqeRes ProofVqeLoop ProofVqeLoopEx ProofWq ProofDemo ProofVqeEx.
Local Open Scope R_scope.

Section Run.
Variables (rng random : nat -> R) (powell : list R -> strategy).
Lemma plays_ext : forall E F t ps asked, (forall p, E p = F p) -> plays E t ps asked -> plays F t ps asked.
Proof. intros E F t ps asked H P. induction P; constructor. rewrite <- H. auto. Qed.
Lemma minimizer_or_some : forall m, minimizer_or random powell (Some m) = m.
Proof. reflexivity. Qed.
Lemma diag_run : forall seen h ham d step_ m s verbose, let e := expr_simplify (v_expr ham) in let n := expr_qubits e in reachable rng seen h ->
  simulated rng h (VCirc [] (Z.of_nat n) None) -> same_op (expr_op (v_expr ham)) (diag_op d) -> s = None \/ s = Some (non_sampling_sampler rng) ->
  let E := fun ps => mean_value n d (qaoa_state n e None step_ (everywhere n mH (ket 0)) ps) in
  exists v h1 ps asked r h2 a l h3 r', make_vqe rng random powell h ham step_ m s = (Ok v, h1) /\ qa_n (an_qaoa (vq_ansatz v)) = Z.of_nat n /\
    plays E (minimizer_or random powell m (2 * step_)%nat) ps asked /\
    vqe_run rng h1 v verbose = (Ok (ps, r), h2, a, if verbose then map (fun p => (p, E p)) asked else []) /\
    get_probs rng h2 r None None true = (Ok l, h3, r') /\
    distribution (arr n (qaoa_state n e None step_ (everywhere n mH (ket 0)) ps)) (seq 0 n) l /\
    mass l = 1 /\ Forall (fun op => List.length (fst op) = n /\ Forall is_bit (fst op) /\ 0 < snd op) l /\ mean_cost d l = E ps /\
    (forall g, (forall x, g <= d x) -> g <= E ps /\ (E ps = g -> Forall (fun op => d (number (fst op)) = g) l)) /\
    (forall c' v', circuit_is h c' v' -> circuit_is h3 c' v').
Proof.
  intros seen h ham d step_ m s verbose e n Re Si Sd Hs E.
  pose proof (diag_terms _ d Sd) as T. fold e in T.
  assert (Cm : pairwise_commuting e) by (apply diag_commuting; exact T).
  assert (Im : Forall (fun t => Cim (t_coeff t) = 0) e) by (eapply Forall_impl; [|exact T]; intros t [_ H]; exact H).
  assert (Ev : Forall (fun t => Nat.even (ycount (t_ops t)) = true) e).
  { eapply Forall_impl; [|exact T]. intros t [Z _]. unfold ycount. replace (filter (fun o => letter_eqb (fst o) LY) (t_ops t)) with (@nil pop); auto.
    symmetry. clear -Z. induction Z as [|[l q] w H Z IH]; auto. cbn in H. subst l. cbn. auto. }
  destruct (plain_ready rng seen h (v_expr ham) step_ Re Si Cm Im) as [q [h1 [Eq [R1 [C1' [S1 [Co [D1 K1]]]]]]]].
  fold e in Eq, C1', S1, Co. fold n in C1', S1, Co.
  set (v := VCirc [GOne KH (TSlice None None None)] (Z.of_nat n) None) in *.
  assert (N : Z.to_nat (v_n v) = n) by (simpl; apply Nat2Z.id).
  assert (Nq : qa_n q = Z.of_nat n).
  { destruct (qaoa_plain_commuting rng seen h (v_expr ham) step_ (repeat 0 step_) [] Re Si Cm Im (repeat_length _ _)) as [q' [h1' [_ [_ [_ [_ [Eq' [Nq _]]]]]]]].
    rewrite Eq in Eq'. injection Eq' as -> _. exact Nq. }
  set (minim := minimizer_or random powell m).
  assert (X : exists ps asked r h2 a gs ops', plays E (minim (2 * step_)%nat) ps asked /\
    vqe_run rng h1 (Vqe (ansatz_of q) minim s) verbose = (Ok (ps, r), h2, a, if verbose then map (fun p => (p, E p)) asked else []) /\
    vr_vqe r = Some s /\ vr_probs r = None /\ circuit_is h2 (vr_circuit r) (VCirc (v_gates v ++ gs) (v_n v) (v_default v)) /\ circuit_ops n (v_gates v ++ gs) ops' /\
    apply_all ops' (ket 0) = qaoa_state n e None step_ (everywhere n mH (ket 0)) ps /\ reachable rng seen h2 /\ h_default h2 = h_default h1 /\
    (forall c' v', circuit_is h1 c' v' -> circuit_is h2 c' v')).
  { destruct Hs as [-> | ->].
    - pose proof (run_sparse rng seen h h1 (v_expr ham) step_ None None q h1 v (map (fun q => sem1 KH q) (seq 0 n)) (ansatz_of q) minim verbose Eq R1 C1' S1) as H.
      cbv zeta in H. rewrite N in H. specialize (H Co eq_refl I eq_refl (or_introl eq_refl)). rewrite apply_everywhere in H. change (mat1 KH) with mH in H. fold e in H.
      assert (EE : forall ps, Cre (expval n (expr_op e) (qaoa_state n e None step_ (everywhere n mH (ket 0)) ps)) = E ps).
      { intros ps. unfold E. rewrite <- diag_energy. unfold expval. do 2 f_equal. apply functional_extensionality. intros x. unfold e. rewrite expr_simplify_op. apply Sd. }
      destruct H as [ps [asked [mm [c [h' [gs [ops' [Pl [Em [Er [C2 [Co2 [Ap [R2 [D2 K2]]]]]]]]]]]]]]].
      exists ps, asked, (VqeResult (Some None) c None), h', (Ansatz q (Some mm)), gs, ops'. split; [eapply plays_ext; [|exact Pl]; exact EE|]. split.
      { rewrite Er. destruct verbose; auto. f_equal. apply map_ext. intros p. rewrite EE. auto. }
      repeat (split; [solve [auto]|]). auto.
    - pose proof (run_exact rng seen h h1 (v_expr ham) step_ None None q h1 v (map (fun q => sem1 KH q) (seq 0 n)) (ansatz_of q) minim verbose Eq R1 C1' S1) as H.
      cbv zeta in H. rewrite N in H. specialize (H Co (Nat.le_refl _) I eq_refl). rewrite apply_everywhere in H. change (mat1 KH) with mH in H. fold e in H.
      assert (EE : forall ps, Cre (expval_y n e (qaoa_state n e None step_ (everywhere n mH (ket 0)) ps)) = E ps).
      { intros ps. rewrite expval_even by exact Ev. unfold E. rewrite <- diag_energy. unfold expval. do 2 f_equal. apply functional_extensionality. intros x. unfold e. rewrite expr_simplify_op. apply Sd. }
      destruct H as [ps [asked [c [h' [gs [ops' [Pl [Er [C2 [Co2 [Ap [R2 [D2 K2]]]]]]]]]]]]].
      exists ps, asked, (VqeResult (Some (Some (non_sampling_sampler rng))) c None), h', (ansatz_of q), gs, ops'. split; [eapply plays_ext; [|exact Pl]; exact EE|]. split.
      { rewrite Er. destruct verbose; auto. f_equal. apply map_ext. intros p. rewrite EE. auto. }
      repeat (split; [solve [auto]|]). auto. }
  destruct X as [ps [asked [r [h2 [a [gs [ops' [Pl [Er [V1 [V2 [C2 [Co2 [Ap [R2 [D2 K2]]]]]]]]]]]]]]]].
  assert (S2 : simulated rng h2 (VCirc (v_gates v ++ gs) (v_n v) (v_default v))) by (unfold simulated in *; cbn [v_default v_n] in *; rewrite D2; auto).
  destruct (exact_probs rng seen h2 r _ ops' None None true R2 C2 S2) as [l [h3 [Ep [Dl [Ml [R3 [_ [_ K3]]]]]]]].
  { cbn [v_gates v_n]. change (v_n v) with (Z.of_nat n). rewrite Nat2Z.id. exact Co2. }
  { left. exact V2. }
  { right. split; auto. rewrite V1. destruct Hs as [-> | ->]; auto. }
  cbn [v_n] in Dl. change (v_n v) with (Z.of_nat n) in Dl. rewrite Nat2Z.id, Ap in Dl.
  exists (Vqe (ansatz_of q) minim s), h1, ps, asked, r, h2, a, l, h3, (VqeResult (vr_vqe r) (vr_circuit r) (Some l)).
  pose proof (dist_keys n _ l Dl) as Kl. pose proof (dist_mean n d _ l Dl) as Mn.
  split; [unfold make_vqe; rewrite Eq; reflexivity|]. split; [exact Nq|]. repeat (split; [solve [auto]|]). split; [|intros c' v' H; apply K3, K2, K1; auto].
  intros g G. change (E ps) with (mean_value n d (qaoa_state n e None step_ (everywhere n mH (ket 0)) ps)). rewrite <- Mn. apply mean_bound; auto. eapply Forall_impl; [|exact Kl]. intros op [_ [_ P]]. exact P.
Qed.
End Run.
