(** Runs of the numba backend. *)
From Coq Require Import List Arith NArith Nnat ZArith Bool String Reals Lia Lra FunctionalExtensionality.
Import ListNotations.
From Verif Require Import Base Cplx Bits ModelTargets ModelGate ModelNumpy ModelNumba SpecTargets SpecQuantum SpecCircuit SpecMeasure
  SpecRun SpecNumba ProofTargets ProofArray ProofNumpy ProofFallback ProofRun ProofUnitary ProofCache ProofMeasure ProofBorn ProofWhole
  ProofIndex ProofKernel ProofPair ProofNumba.
Local Open Scope R_scope.

Lemma inside_reg : forall n z, inside n z -> in_reg n z = true /\ (Z.to_N z < N.of_nat n)%N /\ N.to_nat (Z.to_N z) = Z.to_nat z.
Proof.
  intros n z H. unfold inside in H. unfold in_reg. split; [|split; [lia|apply Z_N_nat]].
  apply andb_true_intro. split; [apply Z.leb_le|apply Z.ltb_lt]; lia.
Qed.

Lemma nb_loop1_ok : forall n tg l k U, (n <= 64)%nat -> denotes (Z.of_nat n) tg l -> Forall (inside n) l ->
  (forall t, (t < N.of_nat n)%N -> kacts n (k (N.of_nat n) t) (U (N.to_nat t))) ->
  forall psi, nb_loop1 n tg k (arr n psi) = Ok (arr n (apply_all (map (fun t => U (Z.to_nat t)) l) psi)).
Proof.
  intros n tg l k U Hn D F H. unfold nb_loop1, for_gen. apply slicing_iff in D; [|lia]. rewrite D. cbn [yields raised]. clear D.
  induction F as [|t l Ht F IH]; intros psi; [reflexivity|].
  destruct (inside_reg n t Ht) as [R [L E]]. cbn [for_list]. rewrite R. destruct (H (Z.to_N t) L) as [_ A]. rewrite A, E. cbn [bind map].
  rewrite apply_all_cons. apply IH.
Qed.

Lemma nb_loop2_ok : forall n tg ps k U, (n <= 64)%nat -> denotes_pairs (Z.of_nat n) tg ps ->
  Forall (fun p => inside n (fst p) /\ inside n (snd p)) ps ->
  (forall c t, (c < N.of_nat n)%N -> (t < N.of_nat n)%N -> c <> t ->
     exists K, k (N.of_nat n) [c; t] = Ok K /\ kacts n K (U (N.to_nat c) (N.to_nat t))) ->
  forall psi, nb_loop2 n tg k (arr n psi) = Ok (arr n (apply_all (map (fun p => U (Z.to_nat (fst p)) (Z.to_nat (snd p))) ps) psi)).
Proof.
  intros n tg ps k U Hn D F H. unfold nb_loop2.
  pose proof (proj2 (pairs_iff (Z.of_nat n) tg ps ltac:(lia)) D) as E. rewrite E. cbn [bind].
  destruct D as [a [b [la [lb [_ [_ [_ [_ [_ Hd]]]]]]]]]. clear E.
  induction F as [|p ps Hp F IH]; intros psi; [reflexivity|].
  inversion Hd; subst. destruct Hp as [Hc Ht]. destruct (inside_reg n _ Hc) as [Rc [Lc Ec]]. destruct (inside_reg n _ Ht) as [Rt [Lt Et]].
  cbn [for_list]. rewrite Rc, Rt. cbn [andb].
  destruct (H (Z.to_N (fst p)) (Z.to_N (snd p)) Lc Lt) as [K [EK [_ A]]].
  { intros E. assert (fst p = snd p); [|congruence]. unfold inside in *. lia. }
  rewrite EK. cbn [bind]. rewrite A, Ec, Et. cbn [bind map]. rewrite apply_all_cons. apply IH; auto.
Qed.

Lemma nb_raw_ok : forall n a b c k U, (n <= 64)%nat -> inside n a -> inside n b -> inside n c -> a <> b -> a <> c -> b <> c ->
  (forall x y z, (x < N.of_nat n)%N -> (y < N.of_nat n)%N -> (z < N.of_nat n)%N -> x <> y -> x <> z -> y <> z ->
     exists K, k (N.of_nat n) [x; y; z] = Ok K /\ kacts n K (U (N.to_nat x) (N.to_nat y) (N.to_nat z))) ->
  forall psi, nb_raw n (TTuple [TInt a; TInt b; TInt c]) k (arr n psi) = Ok (arr n (U (Z.to_nat a) (Z.to_nat b) (Z.to_nat c) psi)).
Proof.
  intros n a b c k U Hn Ha Hb Hc Hab Hac Hbc H psi. unfold nb_raw, raw_targets. cbn [map_res].
  destruct (inside_reg n _ Ha) as [Ra [La Ea]]. destruct (inside_reg n _ Hb) as [Rb [Lb Eb]]. destruct (inside_reg n _ Hc) as [Rc [Lc Ec]].
  rewrite Ra, Rb, Rc. cbn [bind].
  destruct (H (Z.to_N a) (Z.to_N b) (Z.to_N c) La Lb Lc) as [K [EK [_ A]]]; try (unfold inside in *; lia).
  rewrite EK. cbn [bind]. rewrite A, Ea, Eb, Ec. reflexivity.
Qed.

Lemma pair_ct : forall n c t, (c < N.of_nat n)%N -> (t < N.of_nat n)%N -> c <> t ->
  NoDup ([c] ++ [t]) /\ Forall (fun q => q < N.of_nat n)%N ([c] ++ [t]).
Proof.
  intros. split.
  - constructor; [intros [E|[]]; auto|]. constructor; [intros []|constructor].
  - repeat (constructor; auto).
Qed.
Lemma triple_ct : forall n x y z, (x < N.of_nat n)%N -> (y < N.of_nat n)%N -> (z < N.of_nat n)%N -> x <> y -> x <> z -> y <> z ->
  NoDup ([x; y] ++ [z]) /\ Forall (fun q => q < N.of_nat n)%N ([x; y] ++ [z]).
Proof.
  intros. split.
  - constructor; [intros [E|[E|[]]]; auto|]. constructor; [intros [E|[]]; auto|]. constructor; [intros []|constructor].
  - repeat (constructor; auto).
Qed.

Lemma cis_npi2 : cis (- (PI / 2)) = (- Ci)%C.
Proof. unfold cis, Ci. rewrite cos_neg, sin_neg, cos_PI2, sin_PI2. apply C_ext; cunfold; ring. Qed.

Lemma nb_native_acts : forall n g ops f, (n <= 64)%nat -> gate_ops n g ops -> nb_unitary g n = Some f ->
  forall psi, f (arr n psi) = Ok (arr n (apply_all ops psi)).
Proof.
  intros n g ops f Hn H Hf. destruct H as [k tg l D F|k tg ps D F|k a b c Ha Hb Hc Hab Hac Hbc].
  - destruct k; simpl in Hf; try discriminate; injection Hf; intros <-; clear Hf;
    match goal with |- forall psi, nb_loop1 ?m ?tg0 ?kk _ = Ok (arr _ (apply_all (map (fun t => sem1 ?g0 (Z.to_nat t)) ?l0) _)) =>
      apply (nb_loop1_ok m tg0 l0 kk (sem1 g0)); auto; intros t Ht; unfold sem1; cbn [mat1] end.
    + apply k_x_ok; auto.
    + apply k_y_ok; auto.
    + apply k_z_ok; auto.
    + apply k_h_ok; auto.
    + apply k_diag_ok; auto.
    + apply k_diag_ok; auto.
    + eapply kacts_ext; [apply k_diag_ok; auto|]. intros. apply ap1_eq_mat. unfold mPhase. rewrite cis_PI2. reflexivity.
    + eapply kacts_ext; [apply k_diag_ok; auto|]. intros. apply ap1_eq_mat. unfold mPhase. rewrite cis_npi2. reflexivity.
    + apply k_rx_ok; auto.
    + apply k_ry_ok; auto.
    + apply k_rz_ok; auto.
    + apply k_diag_ok; auto.
    + apply k_rz_ok; auto.
    + apply k_u3_ok; auto.
  - destruct k; simpl in Hf; try discriminate; injection Hf; intros <-; clear Hf;
    match goal with |- forall psi, nb_loop2 ?m ?tg0 ?kk _ = Ok (arr _ (apply_all (map (fun p => sem2 ?g0 (Z.to_nat (fst p)) (Z.to_nat (snd p))) ?l0) _)) =>
      apply (nb_loop2_ok m tg0 l0 kk (sem2 g0)); auto; intros c t Hc Ht Hct; destruct (pair_ct m c t Hc Ht Hct) as [ND FA] end.
    + apply (k_cx_ok n [c] t Hn ND FA).
    + apply (k_cz_ok n [c] t Hn ND FA).
    + apply (k_crx_ok n [c] t Hn ND FA).
    + apply (k_cry_ok n [c] t Hn ND FA).
    + apply (k_crz_ok n [c] t Hn ND FA).
    + apply (k_cphase_ok n [c] t Hn ND FA).
  - destruct k; simpl in Hf; try discriminate; injection Hf; intros <-; clear Hf.
    + apply (nb_raw_ok n a b c k_cx (sem3 KCCX)); auto. intros x y z Hx Hy Hz Hxy Hxz Hyz.
      destruct (triple_ct n x y z Hx Hy Hz Hxy Hxz Hyz) as [ND FA]. apply (k_cx_ok n [x; y] z Hn ND FA).
    + apply (nb_raw_ok n a b c k_cz (sem3 KCCZ)); auto. intros x y z Hx Hy Hz Hxy Hxz Hyz.
      destruct (triple_ct n x y z Hx Hy Hz Hxy Hxz Hyz) as [ND FA]. apply (k_cz_ok n [x; y] z Hn ND FA).
Qed.

(** ** Fallbacks *)
Definition nb_native (g : gate) : bool := match nb_unitary g 0 with Some _ => true | None => false end.

Lemma nb_native_some : forall g n, nb_native g = true -> exists f, nb_unitary g n = Some f.
Proof.
  intros g n H. unfold nb_native in H. destruct g as [k tg|k tg|k tg|tg|tg]; try destruct k; simpl in *; try discriminate; eexists; reflexivity.
Qed.
Lemma nb_native_none : forall g n, nb_native g = false -> nb_unitary g n = None.
Proof.
  intros g n H. unfold nb_native in H. destruct g as [k tg|k tg|k tg|tg|tg]; try destruct k; simpl in *; try discriminate; reflexivity.
Qed.

Definition nb_rank (g : gate) : nat :=
  if nb_native g then 0 else
  match g with GTwo KCY _ | GTwo (KRXX _) _ | GTwo (KRYY _) _ | GTwo (KCU2 _ _) _ => 2 | _ => 1 end.

Lemma nb_rank_decreases : forall g gs n, nb_native g = false -> fallback g n = Ok gs ->
  Forall (fun g' => nb_rank g' < nb_rank g)%nat gs.
Proof.
  intros g gs n Hn Hf.
  assert (FM : forall A (f : A -> list gate) l, (forall a, Forall (fun g' => nb_rank g' < nb_rank g)%nat (f a)) ->
    Forall (fun g' => nb_rank g' < nb_rank g)%nat (flat_map f l)).
  { induction l; intros; simpl; auto. apply Forall_app; auto. }
  destruct g as [k tg|k tg|k tg|tg|tg]; try discriminate.
  - destruct k; try discriminate Hn; simpl in Hf; try (injection Hf; intros <-; constructor; fail);
    destruct (gen_list (slicing tg n)); simpl in Hf; try discriminate; injection Hf; intros <-;
    apply FM; intros; repeat (apply Forall_cons || apply Forall_nil); unfold nb_rank, nb_native; simpl; lia.
  - destruct k; try discriminate Hn; simpl in Hf;
    destruct (qubit_pairs tg n); simpl in Hf; try discriminate; injection Hf; intros <-;
    apply FM; intros; repeat (apply Forall_cons || apply Forall_nil); unfold nb_rank, nb_native; simpl; lia.
  - destruct k; try discriminate Hn; simpl in Hf; destruct (unpack3 tg) as [[[a b] c]|]; simpl in Hf; try discriminate;
    injection Hf; intros <-; repeat constructor.
Qed.

Lemma nb_fallback_exists : forall n g ops, gate_ops n g ops -> nb_native g = false ->
  exists gs, fallback g (Z.of_nat n) = Ok gs.
Proof.
  intros n g ops H Hn. destruct H as [k tg l D F|k tg ps D F|k a b c Ha Hb Hc Hab Hac Hbc].
  - apply slicing_iff in D; [|lia].
    destruct k; try discriminate Hn; simpl; rewrite ?D; simpl; eexists; reflexivity.
  - apply pairs_iff in D; [|lia].
    destruct k; try discriminate Hn; simpl; rewrite ?D; simpl; eexists; reflexivity.
  - destruct k; try discriminate Hn; simpl; eexists; reflexivity.
Qed.

Section Rng.
Variable rng : nat -> R.

Definition nctx_acts (n : nat) (run : npctx -> backend -> nres) (U : oper) : Prop :=
  forall ctx b psi, x_n ctx = n -> x_qubits ctx = arr n psi -> run ctx b = NOk (set_bufs ctx (arr n (U psi), x_buf ctx)) b.

Lemma nctx_native : forall n g ops f fuel, (n <= 64)%nat -> gate_ops n g ops -> nb_unitary g n = Some f ->
  nctx_acts n (nb_run_single rng fuel g) (apply_all ops).
Proof.
  intros n g ops f fuel Hn H Hf ctx b psi En Hq.
  pose proof (nb_native_acts n g ops f Hn H Hf psi) as E.
  assert (Ha : nb_action rng g (x_n ctx) = Some (fun ctx b => match f (x_qubits ctx) with
                                      | Ok a => NOk (set_bufs ctx (a, x_buf ctx)) b | Err e => NErr e (x_pos ctx) b end)).
  { unfold nb_action. rewrite En. inversion H; subst; rewrite Hf; reflexivity. }
  destruct fuel; simpl; rewrite Ha, Hq, E; reflexivity.
Qed.

Lemma nctx_list : forall n (run : gate -> npctx -> backend -> nres) gs ops,
  circuit_ops n gs ops -> (forall g o, In g gs -> gate_ops n g o -> nctx_acts n (run g) (apply_all o)) ->
  nctx_acts n (nb_run_list run gs) (apply_all ops).
Proof.
  induction 1 as [|g gs o os Hg Hgs IH]; intros Hrun ctx b psi Hn Hq.
  - simpl. destruct ctx; simpl in *; subst. reflexivity.
  - simpl. rewrite (Hrun g o (or_introl eq_refl) Hg ctx b psi Hn Hq).
    rewrite (IH (fun g' o' I => Hrun g' o' (or_intror I)) (set_bufs ctx (arr n (apply_all o psi), x_buf ctx)) b (apply_all o psi) Hn eq_refl).
    rewrite apply_all_app. reflexivity.
Qed.

Lemma nb_single_ok : forall fuel n g ops, (n <= 64)%nat -> gate_ops n g ops -> (nb_rank g <= fuel)%nat ->
  nctx_acts n (nb_run_single rng fuel g) (apply_all ops).
Proof.
  induction fuel as [|fuel IH]; intros n g ops Hn H Hr.
  - assert (N : nb_native g = true).
    { unfold nb_rank in Hr. destruct (nb_native g); auto. destruct g as [k tg|k tg|k tg|tg|tg]; try destruct k; simpl in Hr; lia. }
    destruct (nb_native_some g n N) as [f Hf]. eapply nctx_native; eauto.
  - destruct (nb_native g) eqn:N.
    + destruct (nb_native_some g n N) as [f Hf]. eapply nctx_native; eauto.
    + destruct (nb_fallback_exists n g ops H N) as [gs Hg].
      destruct (fallback_sound n g gs ops Hg H) as [os [C E]].
      { destruct H as [k tg l D F| |]; auto. destruct k; auto; discriminate N. }
      intros ctx b psi En Hq. cbn [nb_run_single].
      assert (Ha : nb_action rng g (x_n ctx) = None).
      { unfold nb_action. rewrite (nb_native_none g (x_n ctx) N). inversion H; subst; reflexivity. }
      rewrite Ha, En, Hg.
      pose proof (nb_rank_decreases g gs (Z.of_nat n) N Hg) as RD. rewrite Forall_forall in RD.
      rewrite (nctx_list n (nb_run_single rng fuel) gs os C) with (psi := psi); auto.
      * rewrite E. reflexivity.
      * intros g' o' I Ho. apply IH; auto. specialize (RD g' I). lia.
Qed.

Lemma nb_rank_le : forall g, (nb_rank g <= 2)%nat.
Proof. intros. unfold nb_rank. destruct (nb_native g); [lia|]. destruct g as [k tg|k tg|k tg|tg|tg]; try destruct k; lia. Qed.

Lemma nb_gate_runs : forall n g ops, (n <= 64)%nat -> gate_ops n g ops ->
  nctx_acts n (nb_run_single rng recursion_limit g) (apply_all ops).
Proof. intros. apply nb_single_ok; auto. pose proof (nb_rank_le g). unfold recursion_limit. lia. Qed.

(** ** Measurement and reset *)
Hypothesis Hrng : draws_ok rng.

Lemma sqrt_inv_ok : forall p, 0 < p -> sqrt_inv p = Ok (/ sqrt p).
Proof.
  intros p H. unfold sqrt_inv. rewrite (proj2 (Rltb_false p 0)) by lra.
  destruct (Reqb p 0) eqn:E; [apply Reqb_true in E; lra|reflexivity].
Qed.

Lemma nb_step_measure_ok : forall n t w, (n <= 64)%nat -> inside n t -> norm2 n (w_psi w) = 1 ->
  nb_step_measure rng n t (arr n (w_psi w), outcomes n w, w_pos w) =
  let w' := measure1 rng n (Z.to_nat t) w in ((arr n (w_psi w'), outcomes n w', w_pos w'), None).
Proof.
  intros n t w Hn Ht Hw. pose proof (outcome_prob rng Hrng n (Z.to_nat t) w Hw) as Hp.
  pose proof (prob_total n (Z.to_nat t) (w_psi w)) as Tot. rewrite Hw in Tot.
  destruct (inside_reg n t Ht) as [R [L E]].
  unfold nb_step_measure. rewrite R, p0calc_ok, E by auto. cbn [bind].
  unfold measure1. unfold outcome in *.
  destruct (Rltb (rng (w_pos w)) (prob n (Z.to_nat t) false (w_psi w))); simpl negb in *; cbv iota in *; cbn zeta.
  - rewrite sqrt_inv_ok by auto. cbn [bind].
    rewrite (proj2 (k_reduce0_ok n (Z.to_N t) Hn L _)). cbn [bind]. unfold outcomes. rewrite list_set_map by (unfold inside in Ht; lia).
    cbn [bind w_psi w_bits w_pos]. rewrite E. reflexivity.
  - replace (1 - prob n (Z.to_nat t) false (w_psi w)) with (prob n (Z.to_nat t) true (w_psi w)) by lra.
    rewrite sqrt_inv_ok by auto. cbn [bind].
    rewrite (proj2 (k_reduce1_ok n (Z.to_N t) Hn L _)). cbn [bind]. unfold outcomes. rewrite list_set_map by (unfold inside in Ht; lia).
    cbn [bind w_psi w_bits w_pos]. rewrite E. reflexivity.
Qed.

Lemma nb_step_reset_ok : forall n t w, (n <= 64)%nat -> inside n t -> norm2 n (w_psi w) = 1 ->
  nb_step_reset rng n t (arr n (w_psi w), outcomes n w, w_pos w) =
  let w' := reset1 rng n (Z.to_nat t) w in ((arr n (w_psi w'), outcomes n w', w_pos w'), None).
Proof.
  intros n t w Hn Ht Hw. pose proof (outcome_prob rng Hrng n (Z.to_nat t) w Hw) as Hp.
  pose proof (prob_total n (Z.to_nat t) (w_psi w)) as Tot. rewrite Hw in Tot.
  destruct (inside_reg n t Ht) as [R [L E]].
  unfold nb_step_reset. rewrite R, p0calc_ok, E by auto. cbn [bind].
  unfold reset1. unfold outcome in *.
  destruct (Rltb (rng (w_pos w)) (prob n (Z.to_nat t) false (w_psi w))); simpl negb in *; cbv iota in *; cbn zeta.
  - rewrite sqrt_inv_ok by auto. cbn [bind].
    rewrite (proj2 (k_reduce0_ok n (Z.to_N t) Hn L _)). cbn [w_psi w_bits w_pos]. rewrite E. reflexivity.
  - replace (1 - prob n (Z.to_nat t) false (w_psi w)) with (prob n (Z.to_nat t) true (w_psi w)) by lra.
    rewrite sqrt_inv_ok by auto. cbn [bind].
    rewrite (proj2 (k_reset1_ok n (Z.to_N t) Hn L _)). cbn [w_psi w_bits w_pos]. rewrite E. reflexivity.
Qed.

(** the context shows the world [w] *)
Definition nshows (n : nat) (ctx : npctx) (w : world) : Prop :=
  x_n ctx = n /\ x_qubits ctx = arr n (w_psi w) /\ x_cregs ctx = outcomes n w /\ x_pos ctx = w_pos w.

Definition measuring (g : gate) : bool := match g with GMeasure _ | GReset _ => true | _ => false end.

Lemma nb_exec1 : forall n g w w' ctx b, (n <= 64)%nat -> exec1 rng n g w w' -> norm2 n (w_psi w) = 1 -> nshows n ctx w ->
  exists ctx' b', nb_run_single rng recursion_limit g ctx b = NOk ctx' b' /\ nshows n ctx' w' /\ x_shots ctx' = x_shots ctx /\
    (if measuring g then x_save ctx' = false /\ b' = (if x_save ctx then Backend (Some (x_qubits ctx)) (b_idx b) else b)
     else x_save ctx' = x_save ctx /\ b' = b /\ exists ops, gate_ops n g ops /\ w_psi w' = apply_all ops (w_psi w)).
Proof.
  intros n g w w' ctx b Hn H Hw [S1 [S2 [S4 S5]]]. destruct H as [g ops w Hg|tg l w D F|tg l w D F].
  - pose proof (nb_gate_runs n g ops Hn Hg ctx b (w_psi w) S1 S2) as E.
    eexists _, _. split; [exact E|]. split; [repeat split; simpl; auto|]. split; [reflexivity|].
    assert (M : measuring g = false) by (inversion Hg; reflexivity). rewrite M. repeat split. exists ops. auto.
  - assert (E : nb_run_single rng recursion_limit (GMeasure tg) ctx b = nb_collapse (nb_step_measure rng) tg ctx b) by reflexivity.
    rewrite E. unfold nb_collapse. rewrite S1, S2, S4, S5. apply slicing_iff in D; [|lia]. rewrite D. cbn [yields raised].
    rewrite (loop_each n (nb_step_measure rng) (measure1 rng n) l w); auto.
    + cbn zeta. eexists _, _. split; [reflexivity|]. split; [repeat split; auto|]. split; [reflexivity|]. split; reflexivity.
    + intros. apply nb_step_measure_ok; auto.
    + intros. apply measure1_norm; auto.
  - assert (E : nb_run_single rng recursion_limit (GReset tg) ctx b = nb_collapse (nb_step_reset rng) tg ctx b) by reflexivity.
    rewrite E. unfold nb_collapse. rewrite S1, S2, S4, S5. apply slicing_iff in D; [|lia]. rewrite D. cbn [yields raised].
    rewrite (loop_each n (nb_step_reset rng) (reset1 rng n) l w); auto.
    + cbn zeta. eexists _, _. split; [reflexivity|]. split; [repeat split; auto|]. split; [reflexivity|]. split; reflexivity.
    + intros. apply nb_step_reset_ok; auto.
    + intros. apply reset1_norm; auto. apply inside_lt; auto.
Qed.

(** the first [m] gates of [gs] contain no measurement and produce [psi] *)
Definition prefix (n : nat) (gs : list gate) (m : nat) (psi : state) : Prop :=
  (m <= List.length gs)%nat /\ exists ops, circuit_ops n (firstn m gs) ops /\ psi = apply_all ops (ket 0).

Lemma firstn_snoc : forall A m (gs rest : list A) g, skipn m gs = g :: rest -> firstn (S m) gs = firstn m gs ++ [g] /\
  skipn (S m) gs = rest /\ (S m <= List.length gs)%nat.
Proof.
  induction m as [|m IH]; intros gs rest g H; destruct gs as [|x gs]; simpl in *; try discriminate.
  - injection H; intros; subst. repeat split; auto. lia.
  - destruct (IH gs rest g H) as [A1 [A2 A3]]. simpl in A1. rewrite A1. repeat split; auto. lia.
Qed.

Lemma prefix_snoc : forall n gs m psi g rest ops, prefix n gs m psi -> skipn m gs = g :: rest -> gate_ops n g ops ->
  prefix n gs (S m) (apply_all ops psi).
Proof.
  intros n gs m psi g rest ops [L [o [C E]]] Hs Hg. destruct (firstn_snoc _ m gs rest g Hs) as [F [_ L1]].
  split; auto. exists (o ++ ops). rewrite F. split.
  - apply circuit_ops_app; auto. rewrite <- (app_nil_r ops). constructor; auto. constructor.
  - rewrite E, apply_all_app. reflexivity.
Qed.

(** without saving *)
Lemma nb_gates_unsaved : forall n rest w w', (n <= 64)%nat -> exec rng n rest w w' -> forall ctx b idx,
  norm2 n (w_psi w) = 1 -> nshows n ctx w -> x_save ctx = false ->
  exists ctx', nb_run_gates rng rest ctx b idx = (NOk ctx' b, idx) /\ nshows n ctx' w' /\ x_shots ctx' = x_shots ctx /\ x_save ctx' = false.
Proof.
  intros n rest w w' Hn H. induction H as [w|g rest w w1 w2 H1 H2 IH]; intros ctx b idx Hw Hs Sv.
  - exists ctx. auto.
  - destruct (nb_exec1 n g w w1 ctx b Hn H1 Hw Hs) as [c1 [b1 [E1 [S1 [Sh1 K]]]]].
    assert (K' : x_save c1 = false /\ b1 = b).
    { destruct (measuring g); [destruct K as [A B]; rewrite Sv in B; auto|destruct K as [A [B _]]; split; congruence]. }
    destruct K' as [Sv1 ->]. cbn [nb_run_gates]. rewrite E1, Sv1.
    pose proof (exec1_norm rng Hrng n g w w1 H1 Hw) as Hw1.
    destruct (IH c1 b idx Hw1 S1 Sv1) as [c2 [E2 [S2 [Sh2 Sv2]]]]. exists c2. rewrite E2. repeat split; auto; try apply S2. congruence.
Qed.

Lemma nb_gates_saved : forall n gs rest w w', (n <= 64)%nat -> exec rng n rest w w' -> forall ctx b m,
  norm2 n (w_psi w) = 1 -> nshows n ctx w -> skipn m gs = rest -> x_save ctx = true -> prefix n gs m (w_psi w) ->
  exists ctx' b' m', nb_run_gates rng rest ctx b (Z.of_nat m - 1) = (NOk ctx' b', (Z.of_nat m' - 1)%Z) /\ nshows n ctx' w' /\
    x_shots ctx' = x_shots ctx /\ (m <= m')%nat /\
    ((x_save ctx' = true /\ b' = b /\ prefix n gs m' (w_psi w') /\ (m' = m -> rest = [])) \/
     (x_save ctx' = false /\ exists psi, prefix n gs m' psi /\ b' = Backend (Some (arr n psi)) (b_idx b))).
Proof.
  intros n gs rest w w' Hn H. induction H as [w|g rest w w1 w2 H1 H2 IH]; intros ctx b m Hw Hs Hsk Sv Hp.
  - exists ctx, b, m. simpl. split; auto. split; auto. split; auto. split; auto.
  - destruct (nb_exec1 n g w w1 ctx b Hn H1 Hw Hs) as [c1 [b1 [E1 [S1 [Sh1 K]]]]].
    cbn [nb_run_gates]. rewrite E1.
    pose proof (exec1_norm rng Hrng n g w w1 H1 Hw) as Hw1.
    destruct (firstn_snoc _ m gs rest g Hsk) as [_ [Sk1 _]].
    destruct (measuring g) eqn:M.
    + destruct K as [Sv1 Eb]. rewrite Sv in Eb. rewrite Sv1.
      destruct (nb_gates_unsaved n rest w1 w2 Hn H2 c1 b1 (Z.of_nat m - 1) Hw1 S1 Sv1) as [c2 [E2 [S2 [Sh2 Sv2]]]].
      exists c2, b1, m. split; auto. split; auto. split; [congruence|]. split; auto. right. split; auto.
      exists (w_psi w). split; auto. rewrite Eb. destruct Hs as [_ [-> _]]. reflexivity.
    + destruct K as [Sv1 [-> [ops [Hg Ew]]]]. rewrite Sv in Sv1. rewrite Sv1.
      replace (Z.of_nat m - 1 + 1)%Z with (Z.of_nat (S m) - 1)%Z by lia.
      destruct (IH c1 b (S m) Hw1 S1 Sk1 Sv1) as [c2 [b2 [m2 [E2 [S2 [Sh2 [L2 K2]]]]]]].
      { rewrite Ew. eapply prefix_snoc; eauto. }
      exists c2, b2, m2. split; auto. split; auto. split; [congruence|]. split; [lia|].
      destruct K2 as [[A [B [D E]]]|K2]; [left|right; exact K2]. split; auto. split; auto. split; auto. intros; lia.
Qed.

(** ** The cache *)
Definition ncache_ok (n : nat) (gs : list gate) (b : backend) : Prop :=
  (b_cache b = None /\ b_idx b = (-1)%Z) \/
  exists m psi, prefix n gs m psi /\ b = Backend (Some (arr n psi)) (Z.of_nat m - 1).

Lemma ncache_prefix : forall n gs b, ncache_ok n gs b -> exists m psi, prefix n gs m psi /\ b_idx b = (Z.of_nat m - 1)%Z /\
  match b_cache b with Some c => c = arr n psi | None => psi = ket 0 end.
Proof.
  intros n gs b [[E1 E2]|[m [psi [P ->]]]].
  - exists 0%nat, (ket 0). rewrite E1, E2. split; [split; [lia|]|auto]. exists []. split; [constructor|reflexivity].
  - exists m, psi. split; [exact P|split; reflexivity].
Qed.

Lemma gate_ops_fun : forall n g o1 o2, gate_ops n g o1 -> gate_ops n g o2 -> o1 = o2.
Proof.
  intros n g o1 o2 H1 H2. destruct H1 as [k tg l D F|k tg ps D F|k a b c Ha Hb Hc Hab Hac Hbc]; inversion H2; subst; auto.
  - f_equal. eapply denotes_fun; [|eauto|eauto]. lia.
  - f_equal. apply pairs_iff in D; [|lia]. match goal with H : denotes_pairs _ _ _ |- _ => apply pairs_iff in H; [|lia]; rewrite D in H; injection H; auto end.
Qed.
Lemma circuit_ops_fun : forall n gs o1, circuit_ops n gs o1 -> forall o2, circuit_ops n gs o2 -> o1 = o2.
Proof.
  induction 1 as [|g gs o os Hg H IH]; intros o2 H2; inversion H2; subst; auto.
  f_equal; auto. eapply gate_ops_fun; eauto.
Qed.

Lemma exec_app : forall n a b w w', exec rng n (a ++ b) w w' -> exists w1, exec rng n a w w1 /\ exec rng n b w1 w'.
Proof.
  induction a as [|g a IH]; intros b w w' H; simpl in H.
  - exists w. split; [constructor|auto].
  - inversion H; subst. destruct (IH _ _ _ H5) as [w2 [A B]]. exists w2. split; auto. econstructor; eauto.
Qed.
Lemma exec_ops : forall n gs ops, circuit_ops n gs ops -> forall w w', exec rng n gs w w' ->
  w' = World (apply_all ops (w_psi w)) (w_bits w) (w_pos w).
Proof.
  induction 1 as [|g gs o os Hg H IH]; intros w w' E; inversion E; subst.
  - destruct w'; reflexivity.
  - apply IH in H5. rewrite H5. match goal with H : exec1 _ _ _ _ _ |- _ => destruct H; try (inversion Hg; fail) end.
    simpl. rewrite (gate_ops_fun n g o ops Hg H0), apply_all_app. reflexivity.
Qed.

Lemma exec_prefix : forall n gs m psi pos w, prefix n gs m psi -> exec rng n gs (start pos) w ->
  exec rng n (skipn m gs) (World psi (fun _ => 0%nat) pos) w.
Proof.
  intros n gs m psi pos w [_ [ops [C E]]] H. rewrite <- (firstn_skipn m gs) in H. apply exec_app in H. destruct H as [w1 [A B]].
  apply (exec_ops n _ _ C) in A. simpl in A. rewrite <- E in A. rewrite <- A. exact B.
Qed.

Lemma repeat_0 : forall n s, repeat 0%nat n = map (fun _ => 0%nat) (seq s n).
Proof. induction n; intros; simpl; f_equal; auto. Qed.

Lemma prefix_norm : forall n gs m psi, prefix n gs m psi -> norm2 n psi = 1.
Proof.
  intros n gs m psi [_ [ops [C ->]]]. rewrite (preserves_norm n (apply_all ops)).
  - apply norm2_ket. apply pow2_pos.
  - eapply circuit_preserves; eauto.
Qed.

Lemma prefix_skip : forall n gs m psi, prefix n gs m psi -> skipn m gs = [] -> m = List.length gs.
Proof.
  intros n gs m psi [L _] H. assert (List.length (skipn m gs) = 0%nat) by (rewrite H; auto). rewrite skipn_length in H0. lia.
Qed.

Lemma nb_shots_ok : forall n gs ws pos, (n <= 64)%nat -> shots rng n gs pos ws -> forall ctx b, x_n ctx = n -> x_pos ctx = pos ->
  ncache_ok n gs b ->
  exists ctx' b', nb_shots rng (List.length ws) gs ctx b = NOk ctx' b' /\ x_n ctx' = n /\ ncache_ok n gs b' /\
    x_shots ctx' = tally n (x_shots ctx) ws /\ x_pos ctx' = w_pos (last ws (start pos)) /\
    (ws <> [] -> x_qubits ctx' = arr n (w_psi (last ws (start pos)))) /\
    (ws = [] -> ctx' = ctx).
Proof.
  intros n gs ws pos Hn H. induction H as [pos|pos w ws Hex Hsh IH]; intros ctx b Hxn Hpos Hok.
  - exists ctx, b. simpl. repeat split; auto; [destruct n; auto|congruence].
  - cbn [List.length nb_shots].
    destruct (ncache_prefix n gs b Hok) as [m [psi [P [Ei Ec]]]].
    pose proof (exec_prefix n gs m psi pos w P Hex) as Hex'.
    set (w0 := World psi (fun _ => 0%nat) pos) in *.
    assert (S0 : nshows n (prepare ctx (b_cache b)) w0).
    { unfold prepare, nshows. simpl. rewrite Hxn. repeat split; auto.
      - destruct (b_cache b); [exact Ec|]. rewrite Ec. apply arr_basis0.
      - unfold outcomes. simpl. apply repeat_0. }
    replace (Z.to_nat (b_idx b + 1)) with m by lia. rewrite Ei.
    assert (G : exists c1 b1 idx, nb_run_gates rng (skipn m gs) (prepare ctx (b_cache b)) b (Z.of_nat m - 1) = (NOk c1 b1, idx) /\
      nshows n c1 w /\ x_shots c1 = x_shots ctx /\
      ncache_ok n gs (if (b_idx b1 =? idx)%Z then b1 else Backend (if x_save c1 then Some (x_qubits c1) else b_cache b1) idx)).
    { destruct (x_save (prepare ctx (b_cache b))) eqn:Sv.
      - destruct (nb_gates_saved n gs (skipn m gs) w0 w Hn Hex' _ b m (prefix_norm _ _ _ _ P) S0 eq_refl Sv P)
          as [c1 [b1 [m1 [E1 [S1 [Sh1 [L1 K]]]]]]].
        exists c1, b1, (Z.of_nat m1 - 1)%Z. split; auto. split; auto. split; auto.
        destruct K as [[Sv1 [-> [P1 M1]]]|[Sv1 [psi1 [P1 ->]]]].
        + rewrite Ei. destruct (Z.eqb_spec (Z.of_nat m - 1) (Z.of_nat m1 - 1)); auto. right.
          exists m1, (w_psi w). rewrite Sv1. split; auto. destruct S1 as [_ [-> _]]. reflexivity.
        + simpl. rewrite Ei. rewrite Sv1. right. exists m1, psi1. split; auto.
          destruct (Z.eqb_spec (Z.of_nat m - 1) (Z.of_nat m1 - 1)) as [->|]; reflexivity.
      - destruct (nb_gates_unsaved n (skipn m gs) w0 w Hn Hex' _ b (Z.of_nat m - 1) (prefix_norm _ _ _ _ P) S0 Sv)
          as [c1 [E1 [S1 [Sh1 Sv1]]]].
        exists c1, b, (Z.of_nat m - 1)%Z. split; auto. split; auto. split; auto. rewrite Ei, Z.eqb_refl. auto. }
    destruct G as [c1 [b1 [idx [E1 [[S1 [S2 [S4 S5]]] [Sh1 Ok1]]]]]]. rewrite E1. cbv beta iota zeta.
    set (b2 := if (b_idx b1 =? idx)%Z then b1 else _) in *.
    set (c2 := match x_cregs c1 with [] => c1 | _ => store_shot c1 end).
    assert (C2 : x_n c2 = n /\ x_pos c2 = w_pos w /\ x_qubits c2 = arr n (w_psi w) /\
                 x_shots c2 = match n with O => x_shots ctx | _ => counter_incr (x_shots ctx) (outcomes n w) end).
    { unfold c2. rewrite S4. unfold outcomes. destruct n; simpl; repeat split; auto.
      rewrite S4, Sh1. reflexivity. }
    destruct C2 as [C1' [C3 [C4 C5]]].
    destruct (IH c2 b2 C1' C3 Ok1) as [c3 [b3 [E3 [N3 [O3 [T3 [P3 [Q3 L3]]]]]]]].
    exists c3, b3. split; [exact E3|]. split; [exact N3|]. split; [exact O3|].
    assert (LE : forall d, last (w :: ws) d = last ws w).
    { clear. revert w. induction ws as [|a ws IHw]; intros w d; [reflexivity|].
      change (last (a :: ws) d = last (a :: ws) w). rewrite !IHw. reflexivity. }
    rewrite LE. split; [|split; [|split]].
    + rewrite T3, C5. destruct n; reflexivity.
    + rewrite P3. destruct ws; [reflexivity|]. f_equal. clear. revert w1. induction ws; intros; auto. apply IHws.
    + intros _. destruct ws as [|w' ws].
      * rewrite (L3 eq_refl). exact C4.
      * rewrite Q3 by discriminate. f_equal. f_equal. clear. revert w'. induction ws; intros; auto. apply IHws.
    + discriminate.
Qed.

(** what the backend has to remember before a run, and does afterwards *)
Definition ncache_before (n : nat) (gs : list gate) (a : nb_args) (b : backend) : Prop :=
  ncache_ok n gs (if na_enable_cache a then clear_cache_if_invalid b n else new_backend).

Lemma known_result : forall a N returns ig, parse_run_args a = Ok (N, returns, ig) -> returns <> "_inner_ctx"%string ->
  String.eqb returns "statevector" = false -> String.eqb returns "shots" = false -> String.eqb returns "statevector_and_shots" = true.
Proof.
  intros a N returns ig Hp Hret E1 E2. unfold parse_run_args in Hp.
  set (rt := match a_returns a with Some r => r | None => match a_shots a with None => "statevector" | Some _ => "shots" end end%string) in *.
  destruct (negb _) eqn:En; [discriminate|]. injection Hp; intros _ Hr _. clearbody rt. subst rt.
  rewrite E1, E2 in En. simpl in En. destruct (String.eqb returns "statevector_and_shots"); auto. simpl in En.
  destruct (String.eqb_spec returns "_inner_ctx"); [contradiction|discriminate].
Qed.

Lemma nb_run_ok : forall n gs a pos N returns ig ws b, (n <= 64)%nat -> parse_run_args (na_args a) = Ok (N, returns, ig) ->
  returns <> "_inner_ctx"%string -> shots rng n gs pos ws -> List.length ws = Z.to_nat N -> ncache_before n gs a b ->
  exists b', nb_run rng b gs n a pos = (Ok (result_of n returns ig ws pos), b', w_pos (last ws (start pos))) /\ ncache_ok n gs b'.
Proof.
  intros n gs a pos N returns ig ws b Hn Hp Hret Hsh HL Hok. unfold nb_run. rewrite Hp, <- HL.
  destruct (nb_shots_ok n gs ws pos Hn Hsh (nb_new_ctx n (na_enable_cache a) pos) _ eq_refl eq_refl Hok)
    as [c [b' [E [N1 [O1 [T1 [P1 [Q1 L1]]]]]]]].
  rewrite E. unfold result_of. pose proof (known_result _ _ _ _ Hp Hret) as R3.
  assert (V : x_qubits c = match ws with [] => zeros n | _ => arr n (w_psi (last ws (start pos))) end).
  { destruct ws; [rewrite (L1 eq_refl); reflexivity|apply Q1; discriminate]. }
  simpl in T1. unfold return_type. rewrite <- V, <- T1, <- P1.
  exists b'. split; auto. destruct ig; simpl; destruct (String.eqb returns "statevector"); auto; destruct (String.eqb returns "shots"); auto; rewrite R3; auto.
Qed.
End Rng.

Lemma ncache_new : forall n gs, ncache_ok n gs new_backend.
Proof. intros. left. auto. Qed.
Lemma ncache_extend : forall n gs gs' b, ncache_ok n gs b -> ncache_ok n (gs ++ gs') b.
Proof.
  intros n gs gs' b [H|[m [psi [[L [ops [C E]]] ->]]]]; [left; auto|]. right. exists m, psi. split; auto.
  split; [rewrite app_length; lia|]. exists ops. rewrite firstn_app. replace (m - List.length gs)%nat with 0%nat by lia. simpl. rewrite app_nil_r. auto.
Qed.
Lemma ncache_clear : forall n gs b, ncache_ok n gs b -> ncache_ok n gs (clear_cache_if_invalid b n).
Proof.
  intros n gs b H. unfold clear_cache_if_invalid. destruct (b_cache b); [destruct (_ =? _)|]; auto using ncache_new.
Qed.
Lemma ncache_clear_width : forall n n' gs b, n <> n' -> ncache_ok n' gs b -> forall gs', ncache_ok n gs' (clear_cache_if_invalid b n).
Proof.
  intros n n' gs b Hne [[E1 E2]|[m [psi [P ->]]]] gs'; unfold clear_cache_if_invalid; simpl.
  - rewrite E1. apply ncache_new.
  - rewrite arr_length. destruct (Nat.eqb_spec (2 ^ n') (2 ^ n)) as [E|]; [|apply ncache_new].
    exfalso. apply Hne. symmetry. eapply Nat.pow_inj_r; [|exact E]. lia.
Qed.

(** both simulators return the same *)
Lemma nb_np_agree : forall rng n gs a c pos, (n <= 64)%nat -> draws_ok rng -> valid n gs ->
  a_returns a <> Some "_inner_ctx"%string ->
  forall b b', ncache_before n gs (NbArgs a c) b -> cache_ok n gs (clear_cache_if_invalid b' n) ->
  exists r p b1 b1', nb_run rng b gs n (NbArgs a c) pos = (r, b1, p) /\ np_run rng b' gs n a pos = (r, b1', p) /\
    (ncache_ok n gs b -> ncache_ok n gs b1).
Proof.
  intros rng n gs a c pos Hn Hr Hv Hret b b' Hb Hb'.
  destruct (parse_run_args a) as [[[N returns] ig]|e] eqn:Hp.
  - destruct (shots_exist rng n gs Hv (Z.to_nat N) pos) as [ws [HL Hsh]].
    assert (Hret' : returns <> "_inner_ctx"%string).
    { intros ->. unfold parse_run_args in Hp. destruct (negb _); [discriminate|]. injection Hp; intros _ Er _.
      destruct (a_returns a) as [r|]; [congruence|]. destruct (a_shots a); discriminate. }
    destruct (nb_run_ok rng Hr n gs (NbArgs a c) pos N returns ig ws b Hn Hp Hret' Hsh HL Hb) as [b1 [E1 O1]].
    destruct (run_valid rng n gs a pos N returns ig ws b' Hr Hp Hret' Hsh HL Hb') as [b2 E2].
    rewrite E1, E2. eauto 10.
  - unfold nb_run, np_run. simpl. rewrite Hp. eauto 10.
Qed.
