(** Runs of circuits with the samplers of vqe.py, and energies. *)
From Coq Require Import List Arith ZArith Bool String Reals Lia Lra.
Import ListNotations.
From Verif Require Import Base Cplx Bits ModelTargets ModelGate ModelNumpy ModelNumba ModelCircuit ModelPauli ModelPauliMatrix ModelVqe
  SpecTargets SpecQuantum SpecCircuit SpecMeasure SpecRun SpecAPI SpecPauli SpecPauliMatrix SpecVqe
  ProofArray ProofRun ProofUnitary ProofWhole ProofNumbaProps ProofAPI ProofProgram ProofReach ProofPauli ProofPauliComm ProofEvolution ProofPauliMatrix ProofVqe.
Local Open Scope nat_scope.

Section Random.
Variable rng : nat -> R.

(** ** Runs *)
Lemma ops_valid : forall n gs ops, circuit_ops n gs ops -> valid n gs.
Proof.
  induction 1; [constructor|]. apply Forall_cons; auto. inversion H; subst; simpl; eexists; eauto.
Qed.
Lemma run_args_same : forall b gs n pos, np_run rng b gs n (RunArgs None (Some "statevector"%string) false) pos = np_run rng b gs n no_args pos.
Proof. reflexivity. Qed.
Lemma same_state : forall r x, result_same r (RState x) -> r = RState x.
Proof. intros [] x H; simpl in H; try contradiction; auto. Qed.
Lemma circuit_run : forall seen h c v ops returns, reachable rng seen h -> circuit_is h c v -> simulated rng h v ->
  circuit_ops (Z.to_nat (v_n v)) (v_gates v) ops -> returns = None \/ returns = Some "statevector"%string ->
  exists h', step rng h (ORun c SelDefault (NbArgs (RunArgs None returns false) true)) = (Ok (OutRun (RState (arr (Z.to_nat (v_n v)) (apply_all ops (ket 0))))), h') /\
    reachable rng seen h' /\ h_pos h' = h_pos h /\ h_default h' = h_default h /\ (forall c' v', circuit_is h c' v' -> circuit_is h' c' v').
Proof.
  intros seen h c v ops returns Re Ci Si Co Rt. set (a := NbArgs (RunArgs None returns false) true).
  set (n := Z.to_nat (v_n v)) in *.
  assert (Run : exists b, np_run rng new_backend (v_gates v) n (na_args a) (h_pos h) = (Ok (RState (arr n (apply_all ops (ket 0)))), b, h_pos h)).
  { destruct (run_unitary_new rng n (v_gates v) ops (h_pos h) Co) as [b E]. exists b. destruct Rt as [->| ->]; exact E. }
  destruct (step rng h (ORun c SelDefault a)) as [r h'] eqn:E. exists h'.
  assert (K : r = Ok (OutRun (RState (arr n (apply_all ops (ket 0))))) /\ h_pos h' = h_pos h).
  { destruct Run as [b Rb]. pose proof E as E0. rewrite (default_run rng h c v a Ci) in E. unfold simulated in Si.
    set (d := match v_default v with Some d => d | None => h_default h end) in *.
    destruct Si as [D|[D [Dr Le]]]; rewrite D in E.
    - destruct (run_numpy_fresh rng _ _ _ _ _ _ _ Re Ci E) as [r0 [b' [X Y]]]. fold n in X. rewrite Rb in X. injection X as <- <- <-.
      split; auto. destruct r as [[]|]; simpl in Y; try contradiction. apply same_state in Y. subst. auto.
    - assert (No : numba_ok rng v a).
      { split; auto. split; auto. split; [eapply ops_valid; eauto|]. destruct Rt as [->| ->]; simpl; discriminate. }
      assert (L : n <= 64) by (unfold n; lia).
      destruct (run_numba_fresh rng _ _ _ _ _ _ _ Re Ci No E) as [r0 [b' [X Y]]]. fold n in X.
      destruct (run_agree rng n (v_gates v) (na_args a) true (h_pos h) L Dr (ops_valid _ _ _ Co)) as [r1 [p1 [b1 [b2 [A1 A2]]]]].
      { destruct Rt as [->| ->]; simpl; discriminate. }
      change (NbArgs (na_args a) true) with a in A1. rewrite X in A1. rewrite Rb in A2. injection A2 as <- <- <-. injection A1 as -> _ ->.
      split; auto. destruct r as [[]|]; simpl in Y; try contradiction. apply same_state in Y. subst. auto. }
  destruct K as [-> Hp]. split; auto.
  assert (Re' : reachable rng seen h') by (exact (reach_step rng seen h (ORun c SelDefault a) _ h' Re I E)).
  split; auto. split; auto. split.
  - eapply global_keep; eauto. intros name. discriminate.
  - intros c' v' H. exact (frame rng seen h (ORun c SelDefault a) _ h' c' v' Re I E (fun x => x) H).
Qed.

(** ** Gates that fit into the register *)
Lemma gate_step : forall seen h c v g, reachable rng seen h -> circuit_is h c v -> flat (targets g) -> holds (v_n v) (targets g) ->
  exists h', step rng h (OGate c g) = (Ok (OutCirc c), h') /\ reachable rng seen h' /\ h_pos h' = h_pos h /\ h_default h' = h_default h /\
    circuit_is h' c (VCirc (v_gates v ++ [g]) (v_n v) (v_default v)) /\ (forall c' v', c' <> c -> circuit_is h c' v' -> circuit_is h' c' v').
Proof.
  intros seen h c v g Re Ci Fl Ho. destruct (step rng h (OGate c g)) as [r h'] eqn:E. exists h'.
  destruct (reach_sim rng _ _ Re) as [s [S U]]. pose proof Ci as Ci0. apply (shows_sim rng _ _ _ _ S) in Ci.
  destruct (step_sim2 rng _ _ _ _ _ S E I) as [s' [V S']].
  assert (K : r = Ok (OutCirc c) /\ s' = set_circ s c (VCirc (v_gates v ++ [g]) (v_n v) (v_default v))).
  { inversion V as [|? ? v1 w1 Hv1 Hf1 Hg1| | | | | | | | | | | | | | | | | | | | | | | |? c1 Hin Hn]; subst; try congruence.
    - rewrite Ci in Hv1. injection Hv1 as <-. split; auto. destruct Hg1 as [G1 [G2 G3]].
      replace w1 with (v_n v); auto. specialize (G3 (v_n v) (Z.le_refl _) Ho). lia.
    - exfalso. simpl in Hin. destruct Hin as [<-|[]]. congruence. }
  destruct K as [-> ->]. split; auto. assert (Re' : reachable rng seen h') by (exact (reach_step rng seen h (OGate c g) _ h' Re I E)).
  split; auto. split; [rewrite (sm_pos rng _ _ S'), (sm_pos rng _ _ S); reflexivity|]. split; [eapply global_keep; eauto; intros name; discriminate|]. split.
  - apply (shows_sim rng _ _ _ _ S'). simpl. eapply nth_put_eq; eauto.
  - intros c' v' N H. refine (frame rng seen h (OGate c g) _ h' c' v' Re I E _ H). simpl. auto.
Qed.
Lemma gates_steps : forall gs seen h c v, reachable rng seen h -> circuit_is h c v -> Forall (fun g => flat (targets g) /\ holds (v_n v) (targets g)) gs ->
  exists h', add_gates rng h c gs = (Ok tt, h') /\ reachable rng seen h' /\ h_pos h' = h_pos h /\ h_default h' = h_default h /\
    circuit_is h' c (VCirc (v_gates v ++ gs) (v_n v) (v_default v)) /\ (forall c' v', c' <> c -> circuit_is h c' v' -> circuit_is h' c' v').
Proof.
  induction gs as [|g gs IH]; intros seen h c v Re Ci F.
  - exists h. cbn [add_gates]. rewrite app_nil_r. destruct v as [a b d]. simpl in *. auto 8.
  - inversion F as [|? ? [Fl Ho] F']; subst. destruct (gate_step _ _ _ _ _ Re Ci Fl Ho) as [h1 [E1 [R1 [P1 [D1 [C1 K1]]]]]].
    destruct (IH seen h1 c _ R1 C1 F') as [h2 [E2 [R2 [P2 [D2 [C2 K2]]]]]]. exists h2. cbn [add_gates]. rewrite E1. split; auto.
    split; auto. split; [congruence|]. split; [congruence|]. cbn [v_gates v_n v_default] in C2. rewrite <- app_assoc in C2. split; auto.
Qed.

(** ** The exact sampler *)
Lemma exact_sampler : forall seen h c v ops meas, reachable rng seen h -> circuit_is h c v -> simulated rng h v ->
  circuit_ops (Z.to_nat (v_n v)) (v_gates v) ops ->
  exists h' d, non_sampling_sampler rng h c (map Z.of_nat meas) = (Ok d, h') /\ distribution (arr (Z.to_nat (v_n v)) (apply_all ops (ket 0))) meas d /\
    reachable rng seen h' /\ h_pos h' = h_pos h /\ h_default h' = h_default h /\ (forall c' v', circuit_is h c' v' -> circuit_is h' c' v').
Proof.
  intros seen h c v ops meas Re Ci Si Co. destruct (circuit_run _ _ _ _ _ (Some "statevector"%string) Re Ci Si Co (or_intror eq_refl)) as [h' [E [R1 [P1 [D1 K1]]]]].
  destruct (expect_distribution (arr (Z.to_nat (v_n v)) (apply_all ops (ket 0))) meas) as [d [Ed [Dd _]]]. exists h', d.
  unfold non_sampling_sampler, run_state. rewrite E. rewrite Ed. auto 8.
Qed.

(** ** Averages over a distribution *)
Lemma Rsum_one : forall A (f : A -> R) l x, NoDup l -> In x l -> (forall y, In y l -> y <> x -> f y = 0%R) -> Rsum f l = f x.
Proof.
  induction l as [|a l IH]; intros x N I Z; [destruct I|]. inversion N; subst. simpl. destruct I as [->|I].
  - rewrite Rsum_0; [lra|]. intros y Iy. apply Z; [right; auto|]. intros ->. auto.
  - rewrite (IH x); auto; [|intros; apply Z; [right|]; auto]. rewrite (Z a); [lra|left; auto|]. intros ->. auto.
Qed.
Lemma average : forall v meas d (f : list nat -> R), distribution v meas d ->
  Rsum (fun op => f (fst op) * snd op)%R d = Rsum (fun x => f (readout meas x) * Cnorm2 (nth x v C0))%R (seq 0 (List.length v)).
Proof.
  intros v meas d f [N D].
  transitivity (Rsum (fun op : list nat * R => Rsum (fun x => if list_eq_dec Nat.eq_dec (readout meas x) (fst op) then f (readout meas x) * Cnorm2 (nth x v C0) else 0)%R (seq 0 (List.length v))) d).
  { apply Rsum_ext. intros [o p] I. apply D in I. destruct I as [-> _]. cbn [fst snd]. unfold marginal. rewrite <- Rsum_mul_l. apply Rsum_ext. intros x _.
    destruct (list_eq_dec Nat.eq_dec (readout meas x) o) as [->|]; lra. }
  rewrite Rsum_swap. apply Rsum_ext. intros x Ix.
  set (g := fun o : list nat => if list_eq_dec Nat.eq_dec (readout meas x) o then (f (readout meas x) * Cnorm2 (nth x v C0))%R else 0%R).
  transitivity (Rsum g (map fst d)); [rewrite Rsum_map; auto|].
  destruct (Req_EM_T (Cnorm2 (nth x v C0)) 0) as [Z|Z].
  - rewrite Rsum_0; [rewrite Z; lra|]. intros o _. unfold g. destruct (list_eq_dec _ _ _); rewrite ?Z; lra.
  - assert (Pm : marginal v meas (readout meas x) <> 0%R).
    { intro M. unfold marginal in M. apply Rsum_0_inv with (a := x) in M; auto.
      - destruct (list_eq_dec Nat.eq_dec (readout meas x) (readout meas x)); congruence.
      - intros y _. destruct (list_eq_dec _ _ _); [apply Cnorm2_pos|lra]. }
    rewrite (Rsum_one _ g (map fst d) (readout meas x)); auto.
    + unfold g. destruct (list_eq_dec Nat.eq_dec (readout meas x) (readout meas x)); congruence.
    + apply in_map_iff. exists (readout meas x, marginal v meas (readout meas x)). split; auto. apply D. auto.
    + intros y _ Ny. unfold g. destruct (list_eq_dec _ _ _); congruence.
Qed.

(** ** The parity of an outcome *)
Definition parity (o : list nat) : R := if Nat.eqb (fold_left Nat.add o 0%nat mod 2) 0 then 1%R else (-1)%R.
Lemma fold_add : forall l a, fold_left Nat.add l a = a + fold_left Nat.add l 0.
Proof. induction l as [|x l IH]; intros a; simpl; [lia|]. rewrite IH, (IH x). lia. Qed.
Lemma parity_even : forall o, parity o = if Nat.even (fold_left Nat.add o 0) then 1%R else (-1)%R.
Proof.
  intros. unfold parity. destruct (Nat.even (fold_left Nat.add o 0)) eqn:E.
  - apply Nat.even_spec in E. destruct E as [k ->]. rewrite Nat.mul_comm, Nat.mod_mul by lia. auto.
  - destruct (Nat.eqb_spec (fold_left Nat.add o 0 mod 2) 0) as [F|F]; auto. exfalso.
    apply Nat.mod_divides in F; [|lia]. destruct F as [k F]. rewrite F, Nat.even_mul in E. discriminate.
Qed.
Lemma parity_readout : forall w x, RtoC (parity (readout (map snd w) x)) = zsign w x.
Proof.
  induction w as [|o w IH]; intros x; rewrite parity_even; [reflexivity|]. cbn [map readout fold_left zsign]. rewrite <- IH, parity_even, fold_add.
  fold (readout (map snd w) x). rewrite Nat.even_add. destruct (bit x (snd o)); cbn [Nat.add]; destruct (Nat.even (fold_left Nat.add (readout (map snd w) x) 0)); simpl; unfold RtoC, C1, Copp, Cmul; simpl; f_equal; ring.
Qed.
Lemma add_measured_eq : forall d coeff val, add_measured d coeff val = (val + RtoC (Rsum (fun op => parity (fst op) * snd op)%R d) * coeff)%C.
Proof.
  induction d as [|[o p] d IH]; intros coeff val.
  - unfold add_measured. simpl. unfold RtoC, Cadd, Cmul. destruct val, coeff. simpl. f_equal; ring.
  - change (add_measured ((o, p) :: d) coeff val) with (add_measured d coeff (if Nat.eqb (fold_left Nat.add o 0%nat mod 2) 0 then (val + RtoC p * coeff)%C else (val - RtoC p * coeff)%C)).
    rewrite IH. cbn [Rsum fst snd]. change (Rsum ?f ((o, p) :: d)) with (f (o, p) + Rsum f d)%R. cbn [fst snd]. unfold parity at 2.
    set (q := Rsum _ d). destruct (Nat.eqb (fold_left Nat.add o 0%nat mod 2) 0); unfold RtoC; ceq.
Qed.
Lemma diagonal_average : forall n w phi, RtoC (Rsum (fun x => parity (readout (map snd w) x) * Cnorm2 (nth x (arr n phi) C0))%R (seq 0 (List.length (arr n phi)))) =
  expval n (word_op (zword w)) phi.
Proof.
  intros. rewrite arr_length, <- Csum_RtoC. unfold expval, inner. apply Csum_ext. intros x I. apply in_seq in I. rewrite arr_nth by lia.
  rewrite zword_apply, <- parity_readout. unfold Cnorm2, RtoC. ceq.
Qed.
Lemma bop_preserves : forall n ang w, fits n w -> preserves n (bop ang w).
Proof.
  intros n ang w F. destruct (basis_ops n ang w F) as [ops [Co E]]. apply preserves_eq with (U := apply_all ops); auto. eapply circuit_preserves; eauto.
Qed.
Lemma rotated_average : forall n w psi, separate_word n w ->
  expval n (word_op (zword w)) (bop (- (PI / 2)) w psi) = (sgn (ycount w) * expval n (word_op w) psi)%C.
Proof.
  intros n w psi [N F]. unfold expval. rewrite <- (bop_preserves n (PI / 2) w F), bop_back by auto. unfold inner. rewrite <- Csum_mul_l.
  apply Csum_ext. intros x _. rewrite bop_conj by auto. ring.
Qed.

(** ** get_energy with the exact sampler *)
Lemma half_pi : (- PI / 2 = - (PI / 2))%R. Proof. field. Qed.
Lemma basis_change_eq : forall w, basis_change w = basis_gates (- (PI / 2)) w.
Proof. intros. unfold basis_change. rewrite half_pi. reflexivity. Qed.
Lemma basis_fits : forall w z, fits (Z.to_nat z) w -> (0 <= z)%Z -> Forall (fun g => flat (targets g) /\ holds z (targets g)) (basis_change w).
Proof.
  intros w z F P. apply Forall_forall. intros g I. unfold basis_change in I. apply in_flat_map in I. destruct I as [o [Io I]]. specialize (F o Io).
  destruct (fst o); simpl in I; try contradiction; destruct I as [<-|[]]; simpl; split; auto; lia.
Qed.
Lemma sgn_coeff : forall k (c : C), (if Nat.even k then c else - c)%C = (c * sgn k)%C.
Proof. intros. unfold sgn. destruct (Nat.even k); ring. Qed.
Lemma energy_exact : forall ham seen h c v ops val, reachable rng seen h -> circuit_is h c v -> simulated rng h v ->
  circuit_ops (Z.to_nat (v_n v)) (v_gates v) ops -> Forall (fun t => separate_word (Z.to_nat (v_n v)) (t_ops t)) ham ->
  exists h', energy_terms rng h ham c (non_sampling_sampler rng) val = (Ok (val + expval_y (Z.to_nat (v_n v)) ham (apply_all ops (ket 0)))%C, h') /\
    reachable rng seen h' /\ h_pos h' = h_pos h /\ h_default h' = h_default h /\ (forall c' v', circuit_is h c' v' -> circuit_is h' c' v').
Proof.
  induction ham as [|t ham IH]; intros seen h c v ops val Re Ci Si Co F.
  - exists h. cbn [energy_terms expval_y]. split; auto. f_equal. f_equal. ring.
  - inversion F as [|? ? St F']; subst. set (n := Z.to_nat (v_n v)) in *.
    destruct (copy_ok rng _ _ _ _ true true Re Ci) as [h1 [E1 [R1 [C1' P1]]]]. cbn [v_gates v_n v_default] in C1'. set (d := List.length (h_circs h)) in *.
    assert (D1 : h_default h1 = h_default h) by (eapply global_keep; eauto; intros name; discriminate).
    assert (K1 : forall c' v', circuit_is h c' v' -> circuit_is h1 c' v') by (intros c' v' H; exact (frame rng seen h (OCopy c true true) _ h1 c' v' Re I E1 (fun x => x) H)).
    assert (Nd : forall c' v', circuit_is h c' v' -> c' <> d).
    { intros c' v' [x [Hx _]] ->. apply nth_lt in Hx. unfold d in Hx. lia. }
    pose proof (width_nonneg rng _ _ _ _ Re Ci) as Wn.
    destruct (gates_steps (basis_change (t_ops t)) seen h1 d _ R1 C1') as [h2 [E2 [R2 [P2 [D2 [C2 K2]]]]]]; [apply basis_fits; auto; apply St|].
    cbn [v_gates v_n v_default] in C2.
    destruct (basis_ops n (- (PI / 2)) (t_ops t) (proj2 St)) as [bops [Bo Be]]. rewrite <- basis_change_eq in Bo.
    assert (Co2 : circuit_ops n (v_gates v ++ basis_change (t_ops t)) (ops ++ bops)) by (apply gates_app; auto).
    destruct (exact_sampler seen h2 d _ (ops ++ bops) (map snd (t_ops t)) R2 C2) as [h3 [dd [E3 [Dd [R3 [P3 [D3 K3]]]]]]].
    { unfold simulated in *. cbn [v_default v_n]. rewrite D2, D1. auto. }
    { cbn [v_n v_gates]. auto. }
    cbn [v_n] in Dd. fold n in Dd. rewrite map_map in E3.
    assert (K : forall c' v', circuit_is h c' v' -> circuit_is h3 c' v') by (intros c' v' H; apply K3, K2; eauto).
    destruct (IH seen h3 c v ops (add_measured dd (t_coeff t) val) R3 (K _ _ Ci)) as [h4 [E4 [R4 [P4 [D4 K4]]]]]; auto.
    { unfold simulated in *. rewrite D3, D2, D1. auto. }
    exists h4. cbn [energy_terms]. rewrite E1. cbv iota. fold d. rewrite E2. cbv iota. rewrite E3. rewrite E4. split.
    + f_equal. f_equal. cbn [expval_y]. rewrite add_measured_eq, (average _ _ _ parity Dd), diagonal_average, apply_app, Be, rotated_average by auto.
      rewrite sgn_coeff. fold n. set (a := expval n _ _). set (b := expval_y n ham _). set (k := sgn _). ring.
    + split; auto. split; [congruence|]. split; [congruence|]. intros; auto.
Qed.
Lemma get_energy_exact : forall seen h c v ops ham, reachable rng seen h -> circuit_is h c v -> simulated rng h v ->
  circuit_ops (Z.to_nat (v_n v)) (v_gates v) ops -> Forall (fun t => separate_word (Z.to_nat (v_n v)) (t_ops t)) ham ->
  exists h', get_energy rng h ham c (non_sampling_sampler rng) = (Ok (Cre (expval_y (Z.to_nat (v_n v)) ham (apply_all ops (ket 0)))), h') /\
    reachable rng seen h' /\ h_pos h' = h_pos h /\ h_default h' = h_default h /\ (forall c' v', circuit_is h c' v' -> circuit_is h' c' v').
Proof.
  intros seen h c v ops ham Re Ci Si Co F. destruct (energy_exact ham _ _ _ _ _ C0 Re Ci Si Co F) as [h' [E [R1 [P1 [D1 K1]]]]]. exists h'.
  unfold get_energy. rewrite E. assert (Z : forall z, (C0 + z)%C = z) by (intros; ring). rewrite Z. auto.
Qed.
Lemma expval_add : forall n U V psi, expval n (op_add U V) psi = (expval n U psi + expval n V psi)%C.
Proof. intros. unfold expval, inner. rewrite <- Csum_add. apply Csum_ext. intros. unfold op_add. ring. Qed.
Lemma expval_scl : forall n k U psi, expval n (op_scl k U) psi = (k * expval n U psi)%C.
Proof. intros. unfold expval, inner. rewrite <- Csum_mul_l. apply Csum_ext. intros. unfold op_scl. ring. Qed.
Lemma expval_even : forall n ham psi, Forall (fun t => Nat.even (ycount (t_ops t)) = true) ham -> expval_y n ham psi = expval n (expr_op ham) psi.
Proof.
  induction 1 as [|t ham E F IH]; cbn [expval_y expr_op].
  - unfold expval, inner. rewrite Csum_0; auto. intros. ring.
  - rewrite E, IH, expval_add. unfold term_op. rewrite expval_scl. auto.
Qed.
End Random.
