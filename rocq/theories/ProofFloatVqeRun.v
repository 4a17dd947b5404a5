(** Proofs: rounded energies of circuits *)
From Coq Require Import String List Arith NArith ZArith Bool Reals Lia Lra Psatz.
Import ListNotations.
From Verif Require Import Base Cplx Bits ModelTargets ModelGate ModelNumpy ModelNumba ModelCircuit ModelPauli ModelVqe ModelFloat ModelFloatNumba ModelFloatMeasure ModelFloatNumbaMeasure ModelFloatRun ModelFloatVqe
  SpecTargets SpecQuantum SpecCircuit SpecMeasure SpecRun SpecAPI SpecPauli SpecVqe SpecFloat SpecFinite SpecFloatNumba SpecFloatRun SpecFloatVqe
  ProofFallback ProofPauli ProofArray ProofNumpy ProofRun ProofMeasure ProofCache ProofUnitary ProofPauliComm ProofEvolution ProofReach ProofVqe ProofVqeRun ProofFloat ProofFloatCoef ProofFloatTop ProofFinite ProofFiniteTop ProofFloatNumbaTop
  ProofFloatShots ProofFloatNbShots ProofFloatVqe ProofFloatVqeEnergy.
Local Open Scope R_scope.

(** ** A run of a copy *)
Lemma fl_shot_unitary : forall A N rng gs n pos q, fl_run A gs n = Ok q -> np_result (fl_shot A N rng gs n pos) = inl (q, repeat 0%nat n, pos).
Proof.
  intros A N rng gs n pos q H. unfold fl_run in H. destruct (fl_list (fl_single A recursion_limit n) gs (basis0 n, zeros n)) as [[q' bb]|] eqn:E; [|discriminate].
  cbn in H. injection H as <-. unfold fl_shot. rewrite (many_lift A N rng n gs (prepare (new_ctx n pos) None) (many_unitary A n gs _ _ E) eq_refl).
  change (x_qubits (prepare (new_ctx n pos) None)) with (basis0 n). change (x_buf (prepare (new_ctx n pos) None)) with (zeros n). rewrite E. reflexivity.
Qed.
Lemma np_copy_run : forall A N glob rng b n pos gs q, (0 < n)%nat -> np_cached A n gs b -> fl_run A gs n = Ok q -> np_copy A N glob rng b n pos gs = Ok q.
Proof.
  intros A N glob rng b n pos gs q Hn Hb H.
  destruct (np_run_shots A N glob rng n gs b 1 "statevector" false pos Hn Hb (or_introl eq_refl)) as [R _]. unfold np_copy.
  change (fl_np_run A N glob rng b gs n (RunArgs None (Some "statevector"%string) false) pos) with (fl_np_run A N glob rng b gs n (RunArgs (Some (Z.of_nat 1)) (Some "statevector"%string) false) pos).
  unfold runs_as in R. cbn [repeated] in R. rewrite (fl_shot_unitary A N rng gs n pos q H) in R. destruct R as (_ & c & _ & [[_ R]|[[X _]|[X _]]]); try discriminate. rewrite R. reflexivity.
Qed.
Lemma fn_shot_unitary : forall c psum P rng gs n pos q, fn_run c P gs n = Ok q -> nb_result (fn_shot c psum P rng gs n pos) = inl (q, repeat 0%nat n, pos).
Proof. intros c psum P rng gs n pos q H. unfold fn_shot. unfold fn_run in H. rewrite (fn_many c psum P rng n gs _ _ _ _ H). reflexivity. Qed.
Lemma nb_copy_run : forall c psum P glob rng b n pos gs q, (0 < n)%nat -> nb_cached c P n gs b -> fn_run c P gs n = Ok q -> nb_copy c psum P glob rng b n pos gs = Ok q.
Proof.
  intros c psum P glob rng b n pos gs q Hn Hb H.
  destruct (nb_run_shots c psum P glob rng n gs b true 1 "statevector" false pos Hn (fun _ => Hb) (or_introl eq_refl)) as [R _]. unfold nb_copy.
  change (fb_run c psum P glob rng b gs n (NbArgs (RunArgs None (Some "statevector"%string) false) true) pos) with (fb_run c psum P glob rng b gs n (NbArgs (RunArgs (Some (Z.of_nat 1)) (Some "statevector"%string) false) true) pos).
  unfold runs_as in R. cbn [repeated] in R. rewrite (fn_shot_unitary c psum P rng gs n pos q H) in R. destruct R as (_ & k & _ & [[_ R]|[[X _]|[X _]]]); try discriminate. rewrite R. reflexivity.
Qed.

(** ** The change of basis *)
Lemma basis_short : forall n ang w, fits n w -> exists ops, circuit_ops n (basis_gates ang w) ops /\ (forall psi, apply_all ops psi = bop ang w psi) /\ (List.length ops <= List.length w)%nat.
Proof.
  induction w as [|[l q] w IH]; intros F.
  - exists []. split; [constructor|]. split; auto.
  - destruct IH as (ops & H & E & L); [intros o I; apply F; right; auto|]. assert (Lq : (q < n)%nat) by (apply (F (l, q)); left; auto).
    destruct l.
    + exists (sem1 KH q :: ops). split; [apply (co_cons n _ _ [sem1 KH q]); auto; apply one_gate; auto|]. split; [intros psi; apply (E (sem1 KH q psi))|cbn; lia].
    + exists (sem1 (KRX ang) q :: ops). split; [apply (co_cons n _ _ [sem1 (KRX ang) q]); auto; apply one_gate; auto|]. split; [intros psi; apply (E (sem1 (KRX ang) q psi))|cbn; lia].
    + exists ops. split; auto. split; [|cbn; lia]. intros psi. rewrite E. unfold bop. cbn [fold_left fst snd bmat]. rewrite ap1_I. auto.
Qed.
Lemma basis_angles : forall M ang w, Rabs ang <= M -> Forall (angles_within M) (basis_gates ang w).
Proof.
  intros M ang w H. induction w as [|[l q] w IH]; [constructor|]. destruct l; cbn [basis_gates flat_map fst snd List.app]; fold (basis_gates ang w); auto; apply Forall_cons; auto; unfold angles_within; cbn.
  - constructor.
  - constructor; auto.
Qed.
Lemma bmat_preserves : forall n ang l q, (q < n)%nat -> preserves n (ap1 (bmat ang l) q).
Proof.
  intros n ang l q L. pose proof (bop_preserves n ang [(l, q)]) as P. unfold bop in P. cbn [fold_left fst snd] in P. apply P. intros o [<-|[]]. exact L.
Qed.
Lemma bop_good : forall n ang w, fits n w -> good n (bop ang w).
Proof. intros. split; [apply linear_bop|apply bop_preserves; auto]. Qed.
Lemma bop_lip : forall n a b d w psi, fits n w -> Rabs (a - b) <= d -> dist n (bop a w psi) (bop b w psi) <= 9 * d * INR (List.length w) * norm n psi.
Proof.
  intros n a b d w. induction w as [|[l q] w IH]; intros psi F Hd.
  - unfold bop. cbn [fold_left List.length INR]. rewrite dist_self. pose proof (norm_pos n psi). lra.
  - assert (Lq : (q < n)%nat) by (apply (F (l, q)); left; auto). assert (F' : fits n w) by (intros o I; apply F; right; auto). assert (D0 : 0 <= d) by (pose proof (Rabs_pos (a - b)); lra).
    change (bop a ((l, q) :: w) psi) with (bop a w (ap1 (bmat a l) q psi)). change (bop b ((l, q) :: w) psi) with (bop b w (ap1 (bmat b l) q psi)).
    assert (N : norm n (ap1 (bmat b l) q psi) = norm n psi) by (unfold norm; f_equal; apply preserves_norm, bmat_preserves; auto).
    assert (S : dist n (ap1 (bmat a l) q psi) (ap1 (bmat b l) q psi) <= 9 * d * norm n psi).
    { destruct l; cbn [bmat].
      - rewrite dist_self. pose proof (norm_pos n psi). nra.
      - assert (X : close n (ap1 (mRX a) q) (ap1 (mRX b) q) (3 * (3 * d))) by (apply close_ap1; auto; [lra|apply rx_lip; auto]). specialize (X psi). lra.
      - rewrite dist_self. pose proof (norm_pos n psi). nra. }
    apply Rle_trans with (1 := dist_tri n _ (bop a w (ap1 (bmat b l) q psi)) _). rewrite (good_dist n (bop a w)) by (apply bop_good; auto).
    specialize (IH (ap1 (bmat b l) q psi) F' Hd). rewrite N in IH. cbn [List.length]. rewrite S_INR. lra.
Qed.

(** ** The error of a run with a change of basis *)
Section Runs.
Variables (A : arith) (u eta B M : R) (n : nat) (gs : list gate) (ops : list oper) (k : nat).
Hypothesis HA : rounds_within A u eta B.
Hypothesis Hu : 0 < u <= / 1000.
Hypothesis He : 0 <= eta <= u / 1000.
Hypothesis HM : 3 <= M.
Hypothesis HB : 128 * M <= B.
Hypothesis HC : circuit_ops n gs ops.
Hypothesis HW : Forall (angles_within M) gs.
Hypothesis Hg : eta / u * sqrt (2 ^ n) <= 1 / 10.
Hypothesis Hl : 5000 * u * M * INR (List.length ops + k) <= 1 / 10.
Let ang := f_div A (- f_pi A) 2.
Let e := 5000 * u * M * INR (List.length ops + k).
Lemma pi_small : 0 < PI <= 4. Proof. split; [apply PI_RGT_0|apply PI_4]. Qed.
Lemma ang_near : Rabs (ang - - (PI / 2)) <= 5 * u.
Proof.
  pose proof pi_small as P. pose proof (w_pi _ _ _ _ HA) as W. pose proof (ab_near _ _ _ W) as Wn. rewrite (Rabs_pos_eq PI) in Wn by lra.
  assert (U : u * PI <= u * 4) by (apply Rmult_le_compat_l; lra).
  assert (Bp : Rabs (- f_pi A) <= B) by (rewrite Rabs_Ropp; lra).
  pose proof (w_div _ _ _ _ HA (- f_pi A) 2 Bp ltac:(lra)) as D. fold ang in D.
  assert (Q : Rabs (- f_pi A / 2) <= 201 / 100). { replace (- f_pi A / 2) with (- (f_pi A / 2)) by field. rewrite Rabs_Ropp. unfold Rdiv. rewrite Rabs_mult, (Rabs_pos_eq (/ 2)) by lra. lra. }
  assert (E : Rabs (- f_pi A / 2 - - (PI / 2)) <= u * 2). { replace (- f_pi A / 2 - - (PI / 2)) with (- ((f_pi A - PI) * / 2)) by field. rewrite Rabs_Ropp, Rabs_mult, (Rabs_pos_eq (/ 2)) by lra. lra. }
  pose proof (ab_tri _ _ _ _ _ D E). assert (u * Rabs (- f_pi A / 2) <= u * (201 / 100)) by (apply Rmult_le_compat_l; lra). lra.
Qed.
Lemma ang_small : Rabs ang <= M.
Proof. pose proof ang_near as H. apply ab_near in H. pose proof pi_small. rewrite Rabs_Ropp, (Rabs_pos_eq (PI / 2)) in H by lra. lra. Qed.
Lemma basis_run : forall w, fits n w -> (List.length w <= k)%nat -> exists ops', circuit_ops n (gs ++ basis_gates ang w) ops' /\ Forall (angles_within M) (gs ++ basis_gates ang w) /\
  (List.length ops' <= List.length ops + k)%nat /\ dist n (apply_all ops' (ket 0)) (bop (- (PI / 2)) w (apply_all ops (ket 0))) <= 45 * u * INR (List.length w).
Proof.
  intros w F L. destruct (basis_short n ang w F) as (o & C1 & E1 & L1). exists (ops ++ o). split; [apply gates_app; auto|]. split; [apply Forall_app; split; auto; apply basis_angles, ang_small|].
  split; [rewrite app_length; lia|]. rewrite apply_app, E1. pose proof (bop_lip n ang (- (PI / 2)) (5 * u) w (apply_all ops (ket 0)) F ang_near) as X.
  rewrite (exact_norm n gs ops HC) in X. lra.
Qed.
Lemma run_close : forall w ops' phi, (List.length w <= k)%nat -> (List.length ops' <= List.length ops + k)%nat ->
  dist n (apply_all ops' (ket 0)) (bop (- (PI / 2)) w (apply_all ops (ket 0))) <= 45 * u * INR (List.length w) ->
  dist n phi (apply_all ops' (ket 0)) <= 4200 * u * M * INR (List.length ops') * (1 + eta / u * sqrt (2 ^ n)) ->
  dist n phi (bop (- (PI / 2)) w (apply_all ops (ket 0))) <= e.
Proof.
  intros w ops' phi Lw Lo D1 D2. apply Rle_trans with (1 := dist_tri n _ (apply_all ops' (ket 0)) _). unfold e.
  apply le_INR in Lo. assert (Lk : INR (List.length w) <= INR (List.length ops + k)) by (apply le_INR; lia). pose proof (pos_INR (List.length w)). pose proof (pos_INR (List.length ops')).
  set (l := INR (List.length ops + k)) in *. set (l' := INR (List.length ops')) in *. set (lw := INR (List.length w)) in *.
  assert (UM : 3 * u <= u * M) by nra. set (m := u * M) in *.
  assert (G0 : 0 <= eta / u * sqrt (2 ^ n)). { apply Rmult_le_pos; [|apply sqrt_pos]. apply Rmult_le_pos; [lra|left; apply Rinv_0_lt_compat; lra]. }
  assert (X1 : m * l' <= m * l) by (apply Rmult_le_compat_l; lra). assert (X0 : 0 <= m * l') by (apply Rmult_le_pos; lra).
  assert (X2 : 4200 * u * M * l' * (1 + eta / u * sqrt (2 ^ n)) <= 4620 * (m * l)).
  { replace (4200 * u * M * l' * (1 + eta / u * sqrt (2 ^ n))) with (4200 * (m * l' * (1 + eta / u * sqrt (2 ^ n)))) by (unfold m; ring).
    assert (m * l' * (1 + eta / u * sqrt (2 ^ n)) <= m * l' * (11 / 10)) by (apply Rmult_le_compat_l; lra). lra. }
  assert (X3 : u * lw <= m / 3 * l) by (apply Rmult_le_compat; lra). replace (5000 * u * M * l) with (5000 * (m * l)) by (unfold m; ring). lra.
Qed.
Lemma e_small : 0 <= e <= 1 / 10.
Proof. unfold e. pose proof (pos_INR (List.length ops + k)). split; [|lra]. repeat apply Rmult_le_pos; lra. Qed.
Lemma linear_room : forall ops' : list oper, (List.length ops' <= List.length ops + k)%nat -> 4200 * u * M * INR (List.length ops') <= 1.
Proof.
  intros o L. apply le_INR in L. assert (0 <= u * M) by (apply Rmult_le_pos; lra). pose proof (pos_INR (List.length o)).
  assert (u * M * INR (List.length o) <= u * M * INR (List.length ops + k)) by (apply Rmult_le_compat_l; lra). assert (0 <= u * M * INR (List.length o)) by (apply Rmult_le_pos; lra). lra.
Qed.
End Runs.

Lemma np_energy : forall A u eta B M sq n gs ops ham k norm glob rng b pos, rounds_within A u eta B -> sum_ranges u eta B n -> squares_within sq u eta -> energy_ranges u B ham ->
  3 <= M -> 128 * M <= B -> 1000 * u * M <= 1 -> (0 < n)%nat -> circuit_ops n gs ops -> Forall (angles_within M) gs -> Forall (fun t => separate_word n (t_ops t) /\ (List.length (t_ops t) <= k)%nat) ham ->
  eta / u * sqrt (2 ^ n) <= 1 / 10 -> 5000 * u * M * INR (List.length ops + k) <= 1 / 10 -> np_cached A n gs b ->
  exists r, fl_energy A sq (np_copy A norm glob rng b n pos) gs ham = Ok r /\
    Rabs (r - Cre (expval_y n ham (apply_all ops (ket 0)))) <= strength ham * (3 * (5000 * u * M * INR (List.length ops + k)) + (2 * 2 ^ n + 5 + 10 * all_outcomes ham) * u) + 8 * all_outcomes ham * eta.
Proof.
  intros A u eta B M sq n gs ops ham k N glob rng b pos HA HR HS HE HM HB H1 Hn HC HW Hw Hg Hl Hb. pose proof HR as (Hu & He & _).
  apply (energy_close A u eta B sq _ n gs (apply_all ops (ket 0)) (5000 * u * M * INR (List.length ops + k)) ham HA HR HS HE).
  - rewrite (exact_norm n gs ops HC). lra.
  - exact (e_small u M ops k Hu HM Hl).
  - revert Hw. apply Forall_impl. tauto.
  - revert Hw. apply Forall_impl. intros t [Sw Lw]. change (fl_basis_change A (t_ops t)) with (basis_gates (f_div A (- f_pi A) 2) (t_ops t)).
    destruct (basis_run A u eta B M n gs ops k HA Hu He HM HB HC HW (t_ops t) (proj2 Sw) Lw) as (o & C1 & W1 & L1 & D1).
    destruct (finite_linear A u eta B M n _ o HA (proj1 Hu) ltac:(lra) HM HB H1 C1 W1 ltac:(lra) (linear_room u M ops k Hu HM Hl o L1)) as (phi & R1 & D2).
    exists phi. split; [apply np_copy_run; auto; apply np_cached_more; auto|]. eapply run_close; eauto.
Qed.
Lemma nb_energy : forall c psum P u eta B M sq n gs ops ham k glob rng b pos, compiles c u eta B -> rounds_within P u eta B -> 1 / 10 ^ 16 <= u -> sum_ranges u eta B n -> squares_within sq u eta -> energy_ranges u B ham ->
  3 <= M -> 128 * M <= B -> 1000 * u * M <= 1 -> (0 < n <= 64)%nat -> circuit_ops n gs ops -> Forall (angles_within M) gs -> Forall (fun t => separate_word n (t_ops t) /\ (List.length (t_ops t) <= k)%nat) ham ->
  eta / u * sqrt (2 ^ n) <= 1 / 10 -> 5000 * u * M * INR (List.length ops + k) <= 1 / 10 -> nb_cached c P n gs b ->
  exists r, fl_energy P sq (nb_copy c psum P glob rng b n pos) gs ham = Ok r /\
    Rabs (r - Cre (expval_y n ham (apply_all ops (ket 0)))) <= strength ham * (3 * (5000 * u * M * INR (List.length ops + k)) + (2 * 2 ^ n + 5 + 10 * all_outcomes ham) * u) + 8 * all_outcomes ham * eta.
Proof.
  intros c psum A u eta B M sq n gs ops ham k glob rng b pos Hc HA U16 HR HS HE HM HB H1 Hn HC HW Hw Hg Hl Hb. pose proof HR as (Hu & He & _).
  apply (energy_close A u eta B sq _ n gs (apply_all ops (ket 0)) (5000 * u * M * INR (List.length ops + k)) ham HA HR HS HE).
  - rewrite (exact_norm n gs ops HC). lra.
  - exact (e_small u M ops k Hu HM Hl).
  - revert Hw. apply Forall_impl. tauto.
  - revert Hw. apply Forall_impl. intros t [Sw Lw]. change (fl_basis_change A (t_ops t)) with (basis_gates (f_div A (- f_pi A) 2) (t_ops t)).
    destruct (basis_run A u eta B M n gs ops k HA Hu He HM HB HC HW (t_ops t) (proj2 Sw) Lw) as (o & C1 & W1 & L1 & D1).
    destruct (fn_linear_lemma c A u eta B M n _ o Hc HA U16 ltac:(lra) HM HB H1 (proj2 Hn) C1 W1 ltac:(lra) (linear_room u M ops k Hu HM Hl o L1)) as (phi & R1 & D2).
    exists phi. split; [apply nb_copy_run; auto; [lia|apply nb_cached_more; auto]|]. eapply run_close; eauto.
Qed.
