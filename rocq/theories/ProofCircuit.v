(** The remaining lemmas and the concrete cases for the properties of circuits. *)
From Coq Require Import List Arith NArith ZArith Bool String Reals Lia Lra FunctionalExtensionality.
Import ListNotations.
From Verif Require Import Base Cplx Bits ModelTargets ModelGate ModelNumpy ModelNumba ModelCircuit ModelCrash SpecTargets SpecQuantum SpecCircuit
  SpecMeasure SpecRun SpecAPI SpecCrash ProofTargets ProofArray ProofNumpy ProofRun ProofUnitary ProofCache ProofMeasure ProofDagger ProofWhole
  ProofExamples ProofKernel ProofNumba ProofNumbaRun ProofAPI ProofProgram ProofReach ProofInverse ProofCrash.

(** ** The register holds the targets of the gates *)
Definition fits (w : Z) (g : gate) : Prop := flat (targets g) -> holds w (targets g).
Lemma fits_mono : forall w w' gs, (w <= w')%Z -> Forall (fits w) gs -> Forall (fits w') gs.
Proof. intros w w' gs L. apply Forall_impl. intros g H F. eapply holds_mono; eauto. Qed.
Lemma dagger_targets : forall g g', gate_dagger g = Ok g' -> targets g' = targets g.
Proof. intros g g' E. destruct g; simpl in E; try discriminate; injection E as <-; reflexivity. Qed.
Lemma reversed_fits : forall w gs r, reversed gs r -> Forall (fits w) gs -> Forall (fits w) r.
Proof.
  induction 1 as [|g g' gs r E H IH|g gs r Hi H IH]; intros F; auto; inversion F; subst; auto.
  apply Forall_app. split; auto. constructor; auto. unfold fits in *. rewrite (dagger_targets _ _ E). auto.
Qed.

Section Fits.
Variable rng : nat -> R.
Definition all_fit (s : vheap) : Prop := forall c v, nth_error (vh_circs s) c = Some v -> Forall (fits (v_n v)) (v_gates v).
Lemma vstep_fits : forall s o r s', vstep rng s o r s' -> all_fit s -> all_fit s'.
Proof.
  intros s o r s' H A.
  assert (Put : forall c v gs n d, nth_error (vh_circs s) c = Some v -> Forall (fits n) gs -> all_fit (set_circ s c (VCirc gs n d))).
  { intros c v gs n d Hv F i x Hi. simpl in Hi. destruct (Nat.eq_dec c i) as [<-|N].
    - rewrite (nth_put_eq _ _ _ _ _ Hv) in Hi. injection Hi as <-. exact F.
    - rewrite nth_put_neq in Hi by auto. eapply A; eauto. }
  assert (Add : forall gs n d, Forall (fits n) gs -> all_fit (add_circ s (VCirc gs n d))).
  { intros gs n d F i x Hi. simpl in Hi. apply nth_snoc in Hi. destruct Hi as [[_ Hi]|[_ ->]]; [exact (A _ _ Hi)|exact F]. }
  assert (Sum : forall a b va vb, nth_error (vh_circs s) a = Some va -> nth_error (vh_circs s) b = Some vb ->
    Forall (fits (Z.max (v_n va) (v_n vb))) (v_gates va ++ v_gates vb)).
  { intros a b va vb Ha Hb. apply Forall_app. split; [eapply fits_mono; [|eapply A; eauto]|eapply fits_mono; [|eapply A; eauto]]; lia. }
  induction H; auto.
  - eapply Put; eauto. apply Forall_app. destruct H1 as [L [Hh _]]. split; [eapply fits_mono; [exact L|eapply A; eauto]|].
    constructor; auto. intros _. exact Hh.
  - eapply Put; eauto. apply Forall_app. split; [eapply A; eauto|]. constructor; auto. intros F. contradiction.
  - eapply Put; eauto.
  - eapply Add. eauto.
  - eapply Add. eauto.
  - eapply Add. eapply reversed_fits; eauto.
  - eapply Put; eauto.
Qed.

Lemma reach_fits : forall seen h, reachable rng seen h -> forall c v, circuit_is h c v -> Forall (fits (v_n v)) (v_gates v).
Proof.
  intros seen h H.
  assert (K : exists s, sim rng h s /\ vh_user s = seen /\ all_fit s).
  { induction H as [pos|seen h o r h' H [s [S [U A]]] P E].
    - exists (vstart pos). split; [apply sim_start|]. split; [reflexivity|]. intros c v Hc. simpl in Hc. destruct c; discriminate.
    - rewrite <- U in P. destruct (step_sim rng _ _ _ _ _ S P E) as [s' [V S']]. exists s'. split; auto.
      rewrite (vstep_user _ _ _ _ _ V), U. split; auto. eapply vstep_fits; eauto. }
  destruct K as [s [S [_ A]]]. intros c v Hv. apply (shows_sim _ _ _ _ _ S) in Hv. eapply A; eauto.
Qed.

Lemma gate_inside : forall seen h c v g, reachable rng seen h -> circuit_is h c v -> In g (v_gates v) -> flat (targets g) -> forward (targets g) ->
  (forall l, denotes (v_n v) (targets g) l -> Forall (fun z => 0 <= z < v_n v)%Z l) /\
  (forall ps, denotes_pairs (v_n v) (targets g) ps -> Forall (fun p => 0 <= fst p < v_n v /\ 0 <= snd p < v_n v)%Z ps).
Proof.
  intros seen h c v g H Hv Hg Hf Hw. pose proof (width_nonneg rng _ _ _ _ H Hv) as N.
  pose proof (reach_fits _ _ H _ _ Hv) as F. rewrite Forall_forall in F. specialize (F g Hg Hf). split; intros.
  - eapply forward_inside; eauto.
  - eapply pairs_inside; eauto.
Qed.

(** ** Refused gate calls *)
Lemma refused : forall h c v g r h', circuit_is h c v -> step rng h (OGate c g) = (r, h') ->
  ((exists e, r = Err e) <-> ~ flat (targets g)) /\
  ((exists e, r = Err e) -> r = Err AttributeError /\ h_circs h' = h_circs h /\ circuit_is h' c (VCirc (v_gates v ++ [g]) (v_n v) (v_default v))).
Proof.
  intros h c v g r h' [x [Hx [Hg [Hn Hd]]]] E. simpl in E. unfold get_circ, get in E. rewrite Hx, Hg in E.
  destruct (get_maximum_index (targets g)) as [m|e] eqn:Em.
  - injection E as <- <-. destruct (max_index _ _ Em) as [F _]. split; [split; [intros [? ?]; discriminate|contradiction]|].
    intros [? ?]; discriminate.
  - injection E as <- <-. destruct (max_index_err _ _ Em) as [-> F]. split; [split; eauto|]. intros _. split; auto. split; auto.
    exists x. split; auto. simpl. split; auto. eapply nth_put_eq; eauto.
Qed.
End Fits.

(** ** dagger *)
Section Inverse.
Variable rng : nat -> R.

Lemma run_both : forall n a b oa ob ctx psi, circuit_ops n a oa -> circuit_ops n b ob -> undoes (apply_all ob) (apply_all oa) ->
  x_n ctx = n -> x_qubits ctx = arr n psi -> List.length (x_buf ctx) = (2 ^ n)%nat ->
  exists ctx', run_list (np_run_single rng recursion_limit) (a ++ b) ctx = SOk ctx' /\ x_qubits ctx' = x_qubits ctx.
Proof.
  intros n a b oa ob ctx psi Ha Hb Hu Hn Hq Hl. 
  pose proof (ctx_acts_list n (np_run_single rng recursion_limit) (a ++ b) (oa ++ ob) (circuit_ops_app _ _ _ _ _ Ha Hb) (fun g o _ Hg => gate_runs rng n g o Hg)) as CA.
  destruct (arr_exists n _ Hl) as [bu Hbu]. destruct (CA ctx psi bu Hn Hq Hbu) as [x E].
  eexists. split; [exact E|]. simpl. rewrite Hq, apply_all_app, Hu. reflexivity.
Qed.

Lemma dagger_undoes : forall n gs ops gs', circuit_ops n gs ops -> Forall (separate_call n) gs -> reversed gs gs' ->
  forall ctx psi, x_n ctx = n -> x_qubits ctx = arr n psi -> List.length (x_buf ctx) = (2 ^ n)%nat ->
  (exists ctx', run_list (np_run_single rng recursion_limit) (gs ++ gs') ctx = SOk ctx' /\ x_qubits ctx' = x_qubits ctx) /\
  (exists ctx', run_list (np_run_single rng recursion_limit) (gs' ++ gs) ctx = SOk ctx' /\ x_qubits ctx' = x_qubits ctx).
Proof.
  intros n gs ops gs' H S Hr ctx psi Hn Hq Hl. destruct (inverse_ops n gs ops gs' H S Hr) as [ops' [H' [U1 U2]]].
  split; eapply run_both; eauto.
Qed.

Lemma dagger_program : forall seen h c v ops cd, reachable rng seen h -> circuit_is h c v -> circuit_ops (Z.to_nat (v_n v)) (v_gates v) ops ->
  Forall (separate_call (Z.to_nat (v_n v))) (v_gates v) ->
  exists d h1 e h2 h3, step rng h (ODagger c false false cd) = (Ok (OutCirc d), h1) /\ step rng h1 (OAdd c d) = (Ok (OutCirc e), h2) /\
    step rng h2 (ORun e (SelName "numpy") (NbArgs no_args true)) = (Ok (OutRun (RState (arr (Z.to_nat (v_n v)) (ket 0)))), h3).
Proof.
  intros seen h c v ops cd H Hv Ho Hs.
  destruct (dagger_step rng seen h c v false false cd H Hv) as [[_ [X _]]|[_ [gs' [h1 [E1 [Hr [S1 K1]]]]]]].
  { exfalso. apply Exists_exists in X. destruct X as [g [Hg X]]. pose proof (unitary_reversible _ _ _ Ho) as F. rewrite Forall_forall in F. exact (F g Hg X). }
  pose proof (reach_step rng seen h _ _ h1 H (eq_refl : proper_op seen (ODagger c false false cd)) E1) as R1. simpl in R1.
  destruct (add_ok rng _ _ _ _ _ _ R1 (K1 _ _ Hv) S1) as [h2 [E2 [R2 [S2 _]]]]. simpl in S2. rewrite Z.max_id in S2.
  destruct (step rng h2 (ORun (List.length (h_circs h1)) (SelName "numpy") (NbArgs no_args true))) as [r h3] eqn:E3.
  destruct (run_numpy_fresh rng _ _ _ _ _ _ _ R2 S2 E3) as [r0 [b [E4 Same]]]. simpl in E4.
  destruct (inverse_ops _ _ _ _ Ho Hs Hr) as [ops' [Ho' [U1 _]]].
  destruct (run_unitary_app rng _ _ _ _ _ (h_pos h2) Ho Ho') as [b' E5]. rewrite E5 in E4. rewrite U1 in E4. injection E4 as <- _ _.
  exists (List.length (h_circs h)), h1, (List.length (h_circs h1)), h2, h3. split; auto. split; auto.
  destruct r as [[]|]; simpl in Same; try contradiction. destruct r; simpl in Same; try contradiction; try discriminate. rewrite Same in E3. exact E3.
Qed.

(** dagger twice *)
Lemma dagger_twice : forall seen h c v cd cd', reachable rng seen h -> circuit_is h c v -> Forall (fun g => ~ irreversible g) (v_gates v) ->
  exists d h1 e h2 gs, step rng h (ODagger c false false cd) = (Ok (OutCirc d), h1) /\ step rng h1 (ODagger d false false cd') = (Ok (OutCirc e), h2) /\
    circuit_is h2 e (VCirc gs (v_n v) (if cd' then (if cd then v_default v else None) else None)) /\
    (forall n ops, circuit_ops n (v_gates v) ops -> circuit_ops n gs ops).
Proof.
  intros seen h c v cd cd' H Hv F.
  destruct (dagger_step rng seen h c v false false cd H Hv) as [[_ [X _]]|[_ [gs1 [h1 [E1 [Hr1 [S1 _]]]]]]].
  { exfalso. apply Exists_exists in X. destruct X as [g [Hg X]]. rewrite Forall_forall in F. exact (F g Hg X). }
  pose proof (reach_step rng seen h _ _ h1 H (eq_refl : proper_op seen (ODagger c false false cd)) E1) as R1. simpl in R1.
  destruct (dagger_step rng seen h1 _ _ false false cd' R1 S1) as [[_ [X _]]|[_ [gs2 [h2 [E2 [Hr2 [S2 _]]]]]]].
  { exfalso. simpl in X. pose proof (reversed_reversible _ _ Hr1) as F1. apply Exists_exists in X. destruct X as [g [Hg X]].
    rewrite Forall_forall in F1. exact (F1 g Hg X). }
  exists (List.length (h_circs h)), h1, (List.length (h_circs h1)), h2, gs2. split; auto. split; auto. split; [exact S2|].
  intros n ops Ho. exact (reversed_twice _ _ _ _ _ Ho Hr1 Hr2).
Qed.
End Inverse.

(** ** Sums *)
Section Sums.
Variable rng : nat -> R.
Lemma add_unit : forall seen h a va e ve, reachable rng seen h -> circuit_is h a va -> circuit_is h e ve -> v_gates ve = [] -> v_n ve = 0%Z ->
  exists l h1 r h2, step rng h (OAdd a e) = (Ok (OutCirc l), h1) /\ step rng h1 (OAdd e a) = (Ok (OutCirc r), h2) /\
    circuit_is h2 l va /\ circuit_is h2 r (VCirc (v_gates va) (v_n va) (v_default ve)).
Proof.
  intros seen h a va e ve H Ha He Hg Hn. pose proof (width_nonneg rng _ _ _ _ H Ha) as N.
  destruct (add_ok rng _ _ _ _ _ _ H Ha He) as [h1 [E1 [R1 [S1 [K1 _]]]]].
  destruct (add_ok rng _ _ _ _ _ _ R1 (K1 _ _ He) (K1 _ _ Ha)) as [h2 [E2 [R2 [S2 [K2 _]]]]].
  exists (List.length (h_circs h)), h1, (List.length (h_circs h1)), h2. split; auto. split; auto. split.
  - apply K2 in S1. rewrite Hg, Hn, app_nil_r, Z.max_l in S1 by lia. destruct va; exact S1.
  - rewrite Hg, Hn in S2. simpl in S2. rewrite Z.max_r in S2 by lia. exact S2.
Qed.

Lemma iadd_is_add : forall seen h a b va vb, reachable rng seen h -> circuit_is h a va -> circuit_is h b vb ->
  exists s h1 h2 v, step rng h (OAdd a b) = (Ok (OutCirc s), h1) /\ circuit_is h1 s v /\
    step rng h (OIAdd a b) = (Ok (OutCirc a), h2) /\ circuit_is h2 a v /\
    v_gates v = v_gates va ++ v_gates vb /\ v_n v = Z.max (v_n va) (v_n vb) /\ v_default v = v_default va.
Proof.
  intros seen h a b va vb H Ha Hb.
  destruct (add_ok rng _ _ _ _ _ _ H Ha Hb) as [h1 [E1 [_ [S1 _]]]].
  destruct (iadd_ok rng _ _ _ _ _ _ H Ha Hb) as [h2 [E2 [_ S2]]].
  exists (List.length (h_circs h)), h1, h2. eexists. split; [exact E1|]. split; [exact S1|]. split; [exact E2|]. split; [exact S2|]. auto.
Qed.

Lemma none_refused : forall h c v, circuit_is h c v -> step rng h (OSetDefault c None) = (Err ValueError, h).
Proof. intros h c v [x [Hx [Hg _]]]. simpl. unfold get_circ, get. rewrite Hx, Hg. reflexivity. Qed.

Lemma default_name_of : forall h c v, circuit_is h c v ->
  step rng h (OGetDefault c) = (Ok (OutName (match v_default v with Some d => d | None => h_default h end)), h).
Proof.
  intros h c v [x [Hx [Hg [Hn Hd]]]]. simpl. unfold get_circ, get. rewrite Hx, Hg. unfold default_name. rewrite Hd. destruct (v_default v); reflexivity.
Qed.
Lemma run_unknown : forall h c v name a, circuit_is h c v -> ~ known name ->
  (exists seen, reachable rng seen h) -> step rng h (ORun c (SelName name) a) = (Err ValueError, h).
Proof.
  intros h c v name a [x [Hx [Hg [Hn Hd]]]] Hk [seen H]. destruct (reach_sim rng _ _ H) as [s [S U]]. simpl.
  unfold do_run, get_circ, get. rewrite Hx, Hg. unfold get_backend.
  destruct (lookup backends_table name) as [k|] eqn:E; [exfalso; apply Hk; exists k; apply kind_lookup; auto|].
  destruct (lookup (c_backends x) name) as [o|] eqn:Eo; [|reflexivity].
  destruct (sim_get rng _ _ _ _ S Hx) as [w [_ W]]. destruct (sc_objs rng _ _ _ W _ _ (lookup_In _ _ _ _ Eo)) as [b [_ [K _]]]. congruence.
Qed.

Lemma step_keeps_default : forall h o r h' c v, (exists seen, reachable rng seen h /\ proper_op seen o) -> step rng h o = (r, h') -> circuit_is h c v ->
  (forall s, o <> OSetDefault c s) -> exists v', circuit_is h' c v' /\ v_default v' = v_default v /\ (v_n v <= v_n v')%Z.
Proof.
  intros h o r h' c v [seen [H P]] E Hv Ho. destruct (reach_sim rng _ _ H) as [s [S U]]. rewrite <- U in P.
  destruct (step_sim rng _ _ _ _ _ S P E) as [s' [_ S']]. destruct Hv as [x [Hx [Hg [Hn Hd]]]].
  destruct (step_keeps rng _ _ _ _ _ _ E Hx) as [x' [Hx' [L D]]]. destruct (sim_get rng _ _ _ _ S' Hx') as [v' [Hv' W]].
  exists v'. split; [apply (shows_sim _ _ _ _ _ S'); auto|]. destruct W as [_ W2 W3 _ _]. rewrite <- W2, <- W3, (D Ho), <- Hn. auto.
Qed.
Lemma width_keeps : forall h o r h' c v, (exists seen, reachable rng seen h /\ proper_op seen o) -> step rng h o = (r, h') -> circuit_is h c v ->
  exists v', circuit_is h' c v' /\ (v_n v <= v_n v')%Z.
Proof.
  intros h o r h' c v [seen [H P]] E Hv. destruct (reach_sim rng _ _ H) as [s [S U]]. rewrite <- U in P.
  destruct (step_sim rng _ _ _ _ _ S P E) as [s' [_ S']]. destruct Hv as [x [Hx [Hg [Hn Hd]]]].
  destruct (step_keeps rng _ _ _ _ _ _ E Hx) as [x' [Hx' [L D]]]. destruct (sim_get rng _ _ _ _ S' Hx') as [v' [Hv' W]].
  exists v'. split; [apply (shows_sim _ _ _ _ _ S'); auto|]. destruct W as [_ W2 W3 _ _]. rewrite <- W2, <- Hn. auto.
Qed.
End Sums.
