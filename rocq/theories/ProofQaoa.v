(** The QAOA ansatz. *)
From Coq Require Import List Arith ZArith Bool String Reals Lia Lra FunctionalExtensionality.
Import ListNotations.
From Verif Require Import Base Cplx Bits ModelTargets ModelGate ModelNumpy ModelNumba ModelCircuit ModelPauli ModelVqe
  SpecTargets SpecQuantum SpecCircuit SpecMeasure SpecRun SpecAPI SpecPauli SpecVqe
  ProofTargets ProofArray ProofRun ProofUnitary ProofMeasure ProofBorn ProofWhole ProofNumbaProps ProofAPI ProofProgram ProofReach
  ProofPauli ProofPauliExpr ProofEvolution ProofPauliMatrix ProofPauliEx ProofVqe ProofVqeRun.
Local Open Scope nat_scope.

Section Random.
Variable rng : nat -> R.

Lemma cache_step : forall seen h c v ops, reachable rng seen h -> circuit_is h c v -> simulated rng h v -> circuit_ops (Z.to_nat (v_n v)) (v_gates v) ops ->
  exists h', step rng h (OMakeCache c None) = (Ok OutNone, h') /\ reachable rng seen h' /\ h_pos h' = h_pos h /\ h_default h' = h_default h /\
    (forall c' v', circuit_is h c' v' -> circuit_is h' c' v').
Proof.
  intros seen h c v ops Re Ci Si Co. destruct (step rng h (OMakeCache c None)) as [r h'] eqn:E. exists h'.
  destruct (reach_sim rng _ _ Re) as [s [S U]]. pose proof Ci as Ci0. apply (shows_sim rng _ _ _ _ S) in Ci.
  destruct (step_sim2 rng _ _ _ _ _ S E I) as [s' [V S']].
  assert (Dn : sel_name s v None = match v_default v with Some d => d | None => h_default h end).
  { unfold sel_name. rewrite <- (sm_default rng _ _ S). auto. }
  assert (Run : exists b, np_run rng new_backend (v_gates v) (Z.to_nat (v_n v)) no_args (h_pos h) = (Ok (RState (arr (Z.to_nat (v_n v)) (apply_all ops (ket 0)))), b, h_pos h)).
  { exact (run_unitary_new rng _ (v_gates v) ops (h_pos h) Co). }
  assert (Hs : h_pos h = vh_pos s) by apply (sm_pos rng _ _ S).
  assert (K : r = Ok OutNone /\ vh_pos s' = h_pos h).
  { destruct Run as [b Rb]. unfold simulated in Si. rewrite <- Dn in Si.
    assert (Fr : forall k p, kind_of (sel_name s v None) k -> fresh rng v (NbArgs no_args true) (h_pos h) finished_like k r p -> r = Ok OutNone /\ p = h_pos h).
    { intros k p Hk F. destruct Si as [D|[D [Dr Le]]].
      - rewrite D in Hk. destruct F as [r r0 b0 p Hr Sm|r r1 r0 b0 p0 p Hr Sm Hn].
        + simpl na_args in Hr. rewrite Rb in Hr. injection Hr as <- <- <-. split; auto. destruct r as [[]|]; simpl in Sm; auto; contradiction.
        + exfalso. unfold kind_of in Hk. clear -Hk. intuition discriminate.
      - rewrite D in Hk. destruct F as [r r0 b0 p Hr Sm|r r1 r0 b0 p0 p Hr Sm Hn].
        + exfalso. unfold kind_of in Hk. clear -Hk. intuition discriminate.
        + assert (No : numba_ok rng v (NbArgs no_args true)).
          { split; auto. split; auto. split; [eapply ops_valid; eauto|]. discriminate. }
          destruct (Hn No) as [-> ->].
          destruct (run_agree rng (Z.to_nat (v_n v)) (v_gates v) no_args true (h_pos h) ltac:(lia) Dr (ops_valid _ _ _ Co)) as [r2 [p2 [b1 [b2 [A1 A2]]]]]; [discriminate|].
          rewrite Hr in A1. rewrite Rb in A2. injection A2 as <- <- <-. injection A1 as -> _ ->. split; auto. destruct r as [[]|]; simpl in Sm; auto; contradiction. }
    assert (Kn : forall k, ~ kind_of (sel_name s v None) (BOther k)).
    { intros k Hk. destruct Si as [D|[D _]]; rewrite D in Hk; unfold kind_of in Hk; clear -Hk; intuition discriminate. }
    assert (Kk : known (sel_name s v None)).
    { destruct Si as [D|[D _]]; rewrite D; eexists; unfold kind_of; [left|right; left]; auto. }
    inversion V; subst; try congruence.
    all: try match goal with H : nth_error _ _ = Some _ |- _ => rewrite Ci in H; injection H as <- end.
    - simpl. rewrite <- Hs in *. eapply Fr; eauto.
    - exfalso. eapply Kn; eauto.
    - exfalso. match goal with H : In _ _ |- _ => simpl in H; destruct H as [<-|[]] end. congruence. }
  destruct K as [-> Hp]. split; auto.
  assert (Re' : reachable rng seen h') by (exact (reach_step rng seen h (OMakeCache c None) _ h' Re I E)).
  split; auto. split; [rewrite (sm_pos rng _ _ S'); auto|]. split; [eapply global_keep; eauto; intros name; discriminate|].
  intros c' v' H. exact (frame rng seen h (OMakeCache c None) _ h' c' v' Re I E (fun x => x) H).
Qed.

(** ** The gates *)
Definition small (z : Z) (g : gate) : Prop := flat (targets g) /\ holds z (targets g).
Lemma slice_all : forall n, denotes (Z.of_nat n) (TSlice None None None) (map Z.of_nat (seq 0 n)).
Proof.
  intros n. apply den_one, den_slice. split; [discriminate|]. split.
  - intros x. rewrite in_map_iff. unfold in_slice. simpl. split.
    + intros [k [<- I]]. apply in_seq in I. repeat split; try lia. exists (Z.of_nat k - 0)%Z. lia.
    + intros [[A B] _]. exists (Z.to_nat x). split; [lia|]. apply in_seq. lia.
  - unfold before. simpl. generalize 0 as k. induction n as [|n IH]; intros k; simpl; constructor; auto.
    apply Forall_forall. intros x I. apply in_map_iff in I. destruct I as [j [<- I]]. apply in_seq in I. lia.
Qed.
Lemma everywhere_ops : forall n k, gate_ops n (GOne k (TSlice None None None)) (map (fun q => sem1 k q) (seq 0 n)).
Proof.
  intros n k. replace (map (fun q => sem1 k q) (seq 0 n)) with (map (fun t => sem1 k (Z.to_nat t)) (map Z.of_nat (seq 0 n))) by (rewrite map_map; apply map_ext; intros; rewrite Nat2Z.id; auto).
  apply go_one; [apply slice_all|]. apply Forall_map, Forall_forall. intros q I. apply in_seq in I. unfold inside. lia.
Qed.
Lemma apply_everywhere : forall n k psi, apply_all (map (fun q => sem1 k q) (seq 0 n)) psi = everywhere n (mat1 k) psi.
Proof.
  intros n k. unfold everywhere, apply_all. generalize (seq 0 n). induction l as [|q l IH]; intros psi; simpl; auto.
Qed.
Lemma slice_small : forall z k, small z (GOne k (TSlice None None None)).
Proof. intros. split; simpl; auto. split; intros; discriminate. Qed.
Lemma basis_small : forall ang w z, fits (Z.to_nat z) w -> (0 <= z)%Z -> Forall (small z) (basis_gates ang w).
Proof.
  intros ang w z F P. apply Forall_forall. intros g I. unfold basis_gates in I. apply in_flat_map in I. destruct I as [o [Io I]]. specialize (F o Io).
  destruct (fst o); simpl in I; try contradiction; destruct I as [<-|[]]; split; simpl; auto; lia.
Qed.
Lemma ladder_small : forall w z, fits (Z.to_nat z) w -> (0 <= z)%Z -> Forall (small z) (ladder w).
Proof.
  induction w as [|a [|b w] IH]; intros z F P; simpl; auto. constructor.
  - assert (A := F a ltac:(simpl; auto)). assert (B := F b ltac:(simpl; auto)). split; simpl; repeat (apply Forall_cons; [simpl; auto; lia|]); constructor.
  - apply IH; auto. intros o I. apply F. right. auto.
Qed.
Lemma evolution_small : forall w c t z, fits (Z.to_nat z) w -> (0 <= z)%Z -> Forall (small z) (evolution_gates w c t).
Proof.
  intros [|o r] c t z F P; [constructor|]. unfold evolution_gates. apply Forall_app; split; [apply basis_small; auto|].
  apply Forall_app; split; [apply ladder_small; auto|]. apply Forall_cons.
  - assert (I : In (last r o) (o :: r)).
    { clear. revert o. induction r as [|b r IH]; intros o; [left; auto|]. rewrite last_first. right. apply IH. }
    specialize (F _ I). split; simpl; auto. lia.
  - apply Forall_app; split; [|apply basis_small; auto]. apply Forall_rev, ladder_small; auto.
Qed.
Lemma evo_ok : forall t z, canonical (t_ops t) -> (Cim (t_coeff t) = 0)%R -> exists f, time_evolution t = Ok f /\
  forall s, (0 <= z)%Z -> fits (Z.to_nat z) (t_ops t) -> Forall (small z) (f s) /\ exists ops, circuit_ops (Z.to_nat z) (f s) ops /\ forall psi, apply_all ops psi = evolved s t psi.
Proof.
  intros t z Ct Im. destruct (evolution_whole t) as [_ H]. rewrite (simplify_id t Ct) in H. destruct (H Im) as [f [E K]]. exists f. split; auto.
  intros s P F. split.
  - unfold time_evolution in E. rewrite (simplify_id t Ct) in E. destruct (negb _); [discriminate|]. injection E as <-. apply evolution_small; auto.
  - destruct (K _ s F) as [ops [Co [A B]]]. exists ops. split; auto. intros psi. unfold evolved. destruct (t_ops t) as [|o w].
    + rewrite A; auto.
    + apply functional_extensionality. intros x. apply B. discriminate.
Qed.
Lemma evos_ok : forall ts z, Forall (fun t => canonical (t_ops t)) ts -> Forall (fun t => (Cim (t_coeff t) = 0)%R) ts -> exists fs, map_res time_evolution ts = Ok fs /\
  forall s, (0 <= z)%Z -> Forall (fun t => fits (Z.to_nat z) (t_ops t)) ts -> Forall (small z) (flat_map (fun f => f s) fs) /\
    exists ops, circuit_ops (Z.to_nat z) (flat_map (fun f => f s) fs) ops /\ forall psi, apply_all ops psi = evolved_all s ts psi.
Proof.
  induction ts as [|t ts IH]; intros z Ct Im.
  - exists []. split; auto. intros. split; [constructor|]. exists []. split; [constructor|auto].
  - inversion Ct; inversion Im; subst. destruct (evo_ok t z) as [f [E K]]; auto. destruct (IH z) as [fs [E2 K2]]; auto.
    exists (f :: fs). split; [simpl; rewrite E; cbn [bind]; rewrite E2; auto|]. intros s P F. inversion F; subst.
    destruct (K s P) as [A [ops [Co Ap]]]; auto. destruct (K2 s P) as [A2 [ops2 [Co2 Ap2]]]; auto.
    simpl flat_map. split; [apply Forall_app; auto|]. exists (ops ++ ops2). split; [apply gates_app; auto|]. intros psi. rewrite apply_app, Ap, Ap2. auto.
Qed.

(** ** The circuit of the ansatz *)
Lemma mixers_ok : forall mixer z, match mixer with Some ts => suits z ts | None => True end ->
  exists ms, match mixer with Some ts => map_res time_evolution ts | None => Ok [] end = Ok ms /\
  forall beta, (0 <= z)%Z ->
    let gs := match mixer with None => [GOne (KRX beta) (TSlice None None None)] | Some _ => flat_map (fun evo : R -> list gate => evo beta) ms end in
    Forall (small z) gs /\ exists ops, circuit_ops (Z.to_nat z) gs ops /\ forall psi, apply_all ops psi = mixed (Z.to_nat z) mixer beta psi.
Proof.
  intros [ts|] z H.
  - destruct H as [A [B D]]. destruct (evos_ok ts z A B) as [ms [E K]]. exists ms. split; auto. intros beta P. apply K; auto.
  - exists []. split; auto. intros beta P. split; [apply Forall_cons; [apply slice_small|constructor]|].
    exists (map (fun q => sem1 (KRX beta) q) (seq 0 (Z.to_nat z))). split; [apply gates_one, everywhere_ops|]. intros psi. apply apply_everywhere.
Qed.
Lemma round_ok : forall e step_ n c mixer evos ms z, (0 <= z)%Z ->
  map_res time_evolution e = Ok evos -> suits z e -> match mixer with Some ts => suits z ts | None => True end ->
  match mixer with Some ts => map_res time_evolution ts | None => Ok [] end = Ok ms ->
  forall bgs, Forall (small z) (flat_map (qaoa_step_gates (Qaoa e step_ n c mixer evos ms)) bgs) /\
    exists ops, circuit_ops (Z.to_nat z) (flat_map (qaoa_step_gates (Qaoa e step_ n c mixer evos ms)) bgs) ops /\
      forall psi, apply_all ops psi = fold_left (qaoa_round (Z.to_nat z) e mixer) bgs psi.
Proof.
  intros e step_ n c mixer evos ms z P E [A [B D]] Sm Em. destruct (evos_ok e z A B) as [evos' [E' K]]. rewrite E in E'. injection E' as <-.
  destruct (mixers_ok mixer z Sm) as [ms' [Em' Km]]. rewrite Em in Em'. injection Em' as <-.
  induction bgs as [|[b g] bgs [IH1 [ops2 [Co2 Ap2]]]].
  - split; [constructor|]. exists []. split; [constructor|auto].
  - destruct (K (g * (2 * PI))%R P D) as [S1 [ops [Co Ap]]]. destruct (Km (b * PI)%R P) as [S2 [ops1 [Co1 Ap1]]].
    simpl flat_map. unfold qaoa_step_gates at 1 3. cbn [fst snd qa_evos qa_mixer qa_mixer_evos]. split.
    + apply Forall_app. split; auto. apply Forall_app. split; auto.
    + exists ((ops ++ ops1) ++ ops2). split; [apply gates_app; auto; apply gates_app; auto|]. intros psi. rewrite !apply_app, Ap, Ap1, Ap2.
      simpl. unfold qaoa_round at 2. cbn [fst snd]. f_equal. rewrite (Rmult_comm b PI), (Rmult_comm g). auto.
Qed.
Lemma simplified_suits : forall ham z, Forall (fun t => (Cim (t_coeff t) = 0)%R) (expr_simplify ham) -> (Z.of_nat (expr_qubits (expr_simplify ham)) <= z)%Z -> suits z (expr_simplify ham).
Proof.
  intros ham z Im L. split; [apply expr_simplify_canonical|]. split; auto. apply expr_fit. lia.
Qed.
Lemma params_split : forall A (bs gs : list A) k, List.length bs = k -> combine (firstn k (bs ++ gs)) (skipn k (bs ++ gs)) = combine bs gs.
Proof. intros A bs gs k <-. rewrite firstn_app, skipn_app, Nat.sub_diag, firstn_all, skipn_all. simpl. rewrite app_nil_r. auto. Qed.

(** the circuit of an ansatz whose initial circuit is known *)
Lemma qaoa_at : forall seen h e step_ n c mixer evos ms v ops params, reachable rng seen h -> circuit_is h c v -> circuit_ops (Z.to_nat (v_n v)) (v_gates v) ops ->
  map_res time_evolution e = Ok evos -> suits (v_n v) e -> match mixer with Some ts => suits (v_n v) ts | None => True end ->
  match mixer with Some ts => map_res time_evolution ts | None => Ok [] end = Ok ms ->
  exists d h' gs ops', qaoa_circuit rng h (Qaoa e step_ n c mixer evos ms) params = (Ok d, h') /\ reachable rng seen h' /\ h_default h' = h_default h /\
    circuit_is h' d (VCirc (v_gates v ++ gs) (v_n v) (v_default v)) /\ circuit_ops (Z.to_nat (v_n v)) (v_gates v ++ gs) ops' /\
    apply_all ops' (ket 0) = fold_left (qaoa_round (Z.to_nat (v_n v)) e mixer) (combine (firstn step_ params) (skipn step_ params)) (apply_all ops (ket 0)) /\
    (forall c' v', circuit_is h c' v' -> circuit_is h' c' v').
Proof.
  intros seen h e step_ n c mixer evos ms v ops params Re Ci Co Ee Se Sm Em.
  pose proof (width_nonneg rng _ _ _ _ Re Ci) as Wn.
  destruct (copy_ok rng _ _ _ _ true true Re Ci) as [h1 [E1 [R1 [C1' P1]]]]. cbn [v_gates v_n v_default] in C1'.
  assert (D1 : h_default h1 = h_default h) by (eapply global_keep; eauto; intros name; discriminate).
  assert (K1 : forall c' v', circuit_is h c' v' -> circuit_is h1 c' v') by (intros c' v' H; exact (frame rng seen h (OCopy c true true) _ h1 c' v' Re I E1 (fun x => x) H)).
  assert (Nd : forall c' v', circuit_is h c' v' -> c' <> List.length (h_circs h)).
  { intros c' v' [x [Hx _]] ->. apply nth_lt in Hx. lia. }
  destruct (round_ok e step_ n c mixer evos ms (v_n v) Wn Ee Se Sm Em (combine (firstn step_ params) (skipn step_ params))) as [Sg [ops2 [Co2 Ap2]]].
  destruct (gates_steps rng _ seen h1 _ _ R1 C1' Sg) as [h2 [E2 [R2 [P2 [D2 [C2 K2]]]]]]. cbn [v_gates v_n v_default] in C2.
  exists (List.length (h_circs h)), h2, (flat_map (qaoa_step_gates (Qaoa e step_ n c mixer evos ms)) (combine (firstn step_ params) (skipn step_ params))), (ops ++ ops2).
  unfold qaoa_circuit. cbn [qa_init]. rewrite E1. unfold qaoa_gates. cbn [qa_step].  rewrite E2.
  split; auto. split; auto. split; [congruence|]. split; auto. split; [apply gates_app; auto|]. split; [rewrite apply_app, Ap2; auto|].
  intros c' v' H. apply K2; eauto.
Qed.

Lemma qaoa_get : forall seen h e step_ n c mixer evos ms v ops betas gammas, reachable rng seen h -> circuit_is h c v -> circuit_ops (Z.to_nat (v_n v)) (v_gates v) ops ->
  map_res time_evolution e = Ok evos -> suits (v_n v) e -> match mixer with Some ts => suits (v_n v) ts | None => True end ->
  match mixer with Some ts => map_res time_evolution ts | None => Ok [] end = Ok ms -> List.length betas = step_ ->
  exists d h' gs ops', qaoa_circuit rng h (Qaoa e step_ n c mixer evos ms) (betas ++ gammas) = (Ok d, h') /\ reachable rng seen h' /\ h_default h' = h_default h /\
    circuit_is h' d (VCirc (v_gates v ++ gs) (v_n v) (v_default v)) /\ circuit_ops (Z.to_nat (v_n v)) (v_gates v ++ gs) ops' /\
    apply_all ops' (ket 0) = fold_left (qaoa_round (Z.to_nat (v_n v)) e mixer) (combine betas gammas) (apply_all ops (ket 0)) /\
    (forall c' v', circuit_is h c' v' -> circuit_is h' c' v').
Proof.
  intros seen h e step_ n c mixer evos ms v ops betas gammas Re Ci Co Ee Se Sm Em Lb. rewrite <- (params_split _ betas gammas step_ Lb). apply qaoa_at; auto.
Qed.

(** with an initial circuit *)
Lemma qaoa_init : forall seen h ham step_ c mixer v ops betas gammas, reachable rng seen h -> circuit_is h c v -> simulated rng h v ->
  circuit_ops (Z.to_nat (v_n v)) (v_gates v) ops -> is_all_terms_commutable (expr_simplify ham) = true -> Forall (fun t => (Cim (t_coeff t) = 0)%R) (expr_simplify ham) ->
  (Z.of_nat (expr_qubits (expr_simplify ham)) <= v_n v)%Z -> match mixer with Some ts => suits (v_n v) ts | None => True end -> List.length betas = step_ ->
  exists q h1 d h' gs ops', qaoa_new rng h ham step_ (Some c) mixer = (Ok q, h1) /\ qa_n q = v_n v /\ qaoa_circuit rng h1 q (betas ++ gammas) = (Ok d, h') /\
    circuit_is h' d (VCirc (v_gates v ++ gs) (v_n v) (v_default v)) /\ circuit_ops (Z.to_nat (v_n v)) (v_gates v ++ gs) ops' /\
    apply_all ops' (ket 0) = fold_left (qaoa_round (Z.to_nat (v_n v)) (expr_simplify ham) mixer) (combine betas gammas) (apply_all ops (ket 0)) /\
    (forall c' v', circuit_is h c' v' -> circuit_is h' c' v').
Proof.
  intros seen h ham step_ c mixer v ops betas gammas Re Ci Si Co Cm Im Ln Sm Lb.
  pose proof (simplified_suits ham (v_n v) Im Ln) as Se.
  destruct (evos_ok (expr_simplify ham) (v_n v) (proj1 Se) (proj1 (proj2 Se))) as [evos [Ee _]].
  destruct (mixers_ok mixer (v_n v) Sm) as [ms [Em _]].
  destruct (cache_step seen h c v ops Re Ci Si Co) as [h1 [E1 [R1 [P1 [D1 K1]]]]].
  destruct (qaoa_get seen h1 (expr_simplify ham) step_ (v_n v) c mixer evos ms v ops betas gammas R1 (K1 _ _ Ci) Co Ee Se Sm Em Lb) as [d [h2 [gs [ops' [E2 [R2 [D2 [C2 [Co2 [Ap K2]]]]]]]]]].
  exists (Qaoa (expr_simplify ham) step_ (v_n v) c mixer evos ms), h1, d, h2, gs, ops'.
  split; [|split; [auto|split; [auto|split; [auto|split; [auto|split; auto]]]]].
  unfold qaoa_new. rewrite Cm. cbn [negb]. destruct Ci as [x [Hx [Hg [Hn Hd]]]].
  unfold ModelCircuit.get. rewrite Hx. cbv iota. rewrite E1. rewrite Ee. cbn [bind]. rewrite Em. cbn [bind].
  rewrite Hn. destruct (Z.ltb_spec (Z.of_nat (expr_qubits (expr_simplify ham))) (v_n v)); auto. replace (Z.of_nat (expr_qubits (expr_simplify ham))) with (v_n v) by lia. auto.
Qed.

(** with the default initial circuit *)
Lemma new_step : forall seen h n, reachable rng seen h -> exists c h', step rng h (ONew n) = (Ok (OutCirc c), h') /\ reachable rng seen h' /\
  circuit_is h' c (VCirc [] (Z.of_nat n) None) /\ h_default h' = h_default h /\ h_pos h' = h_pos h /\ (forall c' v', circuit_is h c' v' -> circuit_is h' c' v' /\ c' <> c).
Proof.
  intros seen h n Re. destruct (step rng h (ONew n)) as [r h'] eqn:E.
  assert (K : r = Ok (OutCirc (List.length (h_circs h)))) by (cbn in E; injection E as <- <-; auto). subst r. exists (List.length (h_circs h)), h'.
  split; auto. split; [exact (reach_step rng seen h (ONew n) _ h' Re I E)|]. split; [|split].
  - cbn in E. injection E as <-. eexists. simpl. split; [apply nth_new|]. simpl. split; [|split; reflexivity]. apply nth_new.
  - cbn in E. injection E as <-. auto.
  - split; [cbn in E; injection E as <-; auto|]. intros c' v' H. split; [exact (frame rng seen h (ONew n) _ h' c' v' Re I E (fun x => x) H)|].
    destruct H as [x [Hx _]]. apply nth_lt in Hx. lia.
Qed.
Lemma qaoa_plain : forall seen h ham step_ betas gammas, let n := expr_qubits (expr_simplify ham) in reachable rng seen h ->
  simulated rng h (VCirc [] (Z.of_nat n) None) -> is_all_terms_commutable (expr_simplify ham) = true -> Forall (fun t => (Cim (t_coeff t) = 0)%R) (expr_simplify ham) ->
  List.length betas = step_ ->
  exists q h1 d h' gs ops', qaoa_new rng h ham step_ None None = (Ok q, h1) /\ qa_n q = Z.of_nat n /\ qaoa_circuit rng h1 q (betas ++ gammas) = (Ok d, h') /\
    circuit_is h' d (VCirc gs (Z.of_nat n) None) /\ circuit_ops n gs ops' /\
    apply_all ops' (ket 0) = fold_left (qaoa_round n (expr_simplify ham) None) (combine betas gammas) (everywhere n mH (ket 0)) /\
    (forall c' v', circuit_is h c' v' -> circuit_is h' c' v').
Proof.
  intros seen h ham step_ betas gammas n Re Si Cm Im Lb.
  destruct (new_step seen h n Re) as [c [h1 [E1 [R1 [C1' [D1 [P1 K1]]]]]]].
  destruct (gate_step rng seen h1 c _ (GOne KH (TSlice None None None)) R1 C1') as [h2 [E2 [R2 [P2 [D2 [C2 K2]]]]]]; [apply (slice_small 0)|apply slice_small|].
  cbn [v_gates v_n v_default app] in C2.
  set (v := VCirc [GOne KH (TSlice None None None)] (Z.of_nat n) None) in *.
  assert (Co : circuit_ops (Z.to_nat (v_n v)) (v_gates v) (map (fun q => sem1 KH q) (seq 0 n))) by (simpl; rewrite Nat2Z.id; apply gates_one, everywhere_ops).
  assert (Si2 : simulated rng h2 v) by (unfold simulated in *; simpl; rewrite D2, D1; auto).
  destruct (cache_step seen h2 c v _ R2 C2 Si2 Co) as [h3 [E3 [R3 [P3 [D3 K3]]]]].
  pose proof (simplified_suits ham (Z.of_nat n) Im (Z.le_refl _)) as Se.
  destruct (evos_ok (expr_simplify ham) (Z.of_nat n) (proj1 Se) (proj1 (proj2 Se))) as [evos [Ee _]].
  destruct (qaoa_get seen h3 (expr_simplify ham) step_ (Z.of_nat n) c None evos [] v _ betas gammas R3 (K3 _ _ C2) Co Ee Se I eq_refl Lb) as [d [h4 [gs [ops' [E4 [R4 [D4 [C4 [Co4 [Ap K4]]]]]]]]]].
  exists (Qaoa (expr_simplify ham) step_ (Z.of_nat n) c None evos []), h3, d, h4, (v_gates v ++ gs), ops'.
  simpl v_n in *. rewrite Nat2Z.id in *.
  split; [|split; [auto|split; [auto|split; [auto|split; [auto|split]]]]].
  - unfold qaoa_new. rewrite Cm. cbn [negb]. fold n. rewrite E1. rewrite E2. rewrite E3, Ee. auto.
  - rewrite Ap, apply_everywhere. auto.
  - intros c' v' H. destruct (K1 c' v' H) as [H1 N1]. apply K4, K3, K2; auto.
Qed.
Lemma qaoa_refused : forall h ham step_ init mixer, (is_all_terms_commutable (expr_simplify ham) = false -> qaoa_new rng h ham step_ init mixer = (Err ValueError, h)) /\
  (forall t ts, init = None -> mixer = Some (t :: ts) -> qaoa_new rng h ham step_ init mixer = (Err ValueError, h)).
Proof.
  intros h ham step_ init mixer. split.
  - intros E. unfold qaoa_new. rewrite E. auto.
  - intros t ts -> ->. unfold qaoa_new. destruct (negb _); auto.
Qed.
End Random.
