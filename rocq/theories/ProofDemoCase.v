(** Concrete cases of the programs in /repo/examples. *)
From Coq Require Import String List Arith ZArith Bool Reals Lra Lia FunctionalExtensionality.
Import ListNotations.
From Verif Require Import Base Cplx Bits ModelTargets ModelGate ModelNumpy ModelCircuit ModelPauli ModelPauliMatrix ModelVqe ModelVqeLoop ModelDemo SpecTargets SpecQuantum SpecCircuit
  SpecMeasure SpecRun SpecAPI SpecPauli SpecPauliMatrix SpecVqe SpecVqeLoop SpecWq SpecDemo ProofPauli ProofPauliExpr ProofPauliArith ProofWq ProofDemo ProofDemoRun ProofDemoEx ProofDemoProg ProofVqeEx.
Local Open Scope R_scope.

Lemma start_reachable : forall rng, reachable rng [] (empty_heap 0).
Proof. intros rng. constructor. Qed.
Lemma start_simulated : forall rng n, simulated rng (empty_heap 0) (VCirc [] n None).
Proof. intros rng n. apply numpy_simulated; reflexivity. Qed.

(** ** What the programs do not solve *)
Lemma single_case : forall rng random powell steps m, exists v h1 ps l, numpartition_qaoa rng random powell (empty_heap 0) steps [5] m None = (Ok v, h1) /\
  qaoa_result rng (empty_heap 0) h1 v (minimizer_or random powell m) steps 0 (partition_cost [5]) false ps l /\ Forall (fun op => groups [5] (fst op) = ([], [])) l.
Proof.
  intros rng random powell steps m. destruct (partition_run rng random powell [] (empty_heap 0) steps [5] 0 m None false (start_reachable rng) (start_simulated _ _)) as [v [h1 [ps [l [M [R _]]]]]].
  - split; [|intros; lia]. intros i _. destruct i as [|i]; [right|left; destruct i; reflexivity]. intros j J. destruct j as [|[|j]]; [contradiction|reflexivity|reflexivity].
  - left. reflexivity.
  - exists v, h1, ps, l. split; [exact M|]. split; [exact R|]. destruct (result_keys _ _ _ _ _ _ _ _ _ _ _ R) as [_ K]. eapply Forall_impl; [|exact K]. intros op [L _]. apply length_zero_iff_nil in L. rewrite L. reflexivity.
Qed.
Lemma two_case : forall rng random powell steps m, exists v sep h1 ps l, factoring_qaoa rng random powell (empty_heap 0) steps 2 m None = (Ok (v, sep), h1) /\
  qaoa_result rng (empty_heap 0) h1 v (minimizer_or random powell m) steps 0 (factor_cost 2 0 1) false ps l /\ Forall (fun op => sep (fst op) = Err AssertionError) l.
Proof.
  intros rng random powell steps m. unfold factoring_qaoa, n1_bits, n2_bits. change (Nat.sqrt 2) with 1%nat. change (get_nbit 1) with (Ok 1%nat). cbn [bind Nat.sub].
  destruct (factoring_cost 2 0 1) as [e [E Se]]. rewrite E.
  destruct (run_cost rng random powell [] (empty_heap 0) (VExpr e) (factor_cost 2 0 1) 0 steps m None false (start_reachable rng) (start_simulated _ _) Se) as [v [h1 [ps [l [M R]]]]].
  - split; [|intros; lia]. apply factor_bits. auto.
  - left. reflexivity.
  - rewrite M. exists v, (bitseparator 0 1), h1, ps, l. split; [reflexivity|]. split; [exact R|]. destruct (result_keys _ _ _ _ _ _ _ _ _ _ _ R) as [_ K]. eapply Forall_impl; [|exact K].
    intros op [L _]. apply separator_refused. rewrite L. discriminate.
Qed.
Lemma bits8 : bits_for 8 3.
Proof. split; [lia|]. split; [cbn; lia|]. intros k K H. destruct k as [|[|[|k]]]; cbn in H; lia. Qed.
Lemma case69 : bits_for (Nat.sqrt 69) 3 /\ 69%nat = (3 * 23)%nat /\ forall x, factor_cost 69 2 3 x <> 0.
Proof.
  split; [exact bits8|]. split; [reflexivity|]. intros x H. apply factor_zero in H. unfold odd_part in H.
  pose proof (Nat.mod_upper_bound (x / 2 ^ 0) (2 ^ 2) ltac:(cbn; lia)) as B1. pose proof (Nat.mod_upper_bound (x / 2 ^ 2) (2 ^ 3) ltac:(cbn; lia)) as B2.
  set (p := ((x / 2 ^ 0) mod 2 ^ 2)%nat) in *. set (q := ((x / 2 ^ 2) mod 2 ^ 3)%nat) in *. change (2 ^ 2)%nat with 4%nat in B1. change (2 ^ 3)%nat with 8%nat in B2. clearbody p q.
  destruct p as [|[|[|[|]]]]; lia.
Qed.
Lemma even_case : forall k n1 n2 x, factor_cost (2 * k) n1 n2 x <> 0.
Proof. intros k n1 n2 x H. apply factor_zero in H. unfold odd_part in H. lia. Qed.

(** ** Parameters that reach the optimum *)
Lemma round3 : forall e, same_op (expr_op e) (diag_op (factor_cost 3 0 1)) ->
  mean_value 1 (factor_cost 3 0 1) (qaoa_state 1 (expr_simplify e) None 1 (everywhere 1 mH (ket 0)) [1 / 2; 1 / 16]) = 0.
Proof.
  intros e Se. destruct (diag_phase e _ Se) as [c P]. unfold qaoa_state, angles. cbn [List.length Nat.sub Nat.min seq map nth Nat.add fold_left]. unfold qaoa_round, mixed, everywhere. cbn [fst snd seq fold_left].
  unfold mean_value. change (2 ^ 1)%nat with 2%nat. cbn [seq Rsum].
  assert (D0 : factor_cost 3 0 1 0 = 4) by (unfold factor_cost, odd_part; cbn; lra). assert (D1 : factor_cost 3 0 1 1 = 0) by (unfold factor_cost, odd_part; cbn; lra).
  rewrite D0, D1. rewrite Rmult_0_l, !Rplus_0_r.
  assert (Z : ap1 (mRX (PI * (1 / 2))) 0 (evolved_all (2 * PI * (1 / 16)) (expr_simplify e) (ap1 mH 0 (ket 0))) 0%nat = C0).
  { unfold ap1 at 1. change (bit 0 0) with false. change (setb 0 0 false) with 0%nat. change (setb 0 0 true) with 1%nat. rewrite !P, D0, D1. 
    unfold ap1. change (bit 0 0) with false. change (bit 1 0) with true. change (setb 0 0 false) with 0%nat. change (setb 0 0 true) with 1%nat. change (setb 1 0 false) with 0%nat. change (setb 1 0 true) with 1%nat.
    replace (2 * PI * (1 / 16) * (4 - c)) with (PI / 2 + (2 * PI * (1 / 16) * (0 - c))) by field. rewrite <- cis_add, ProofFallback.cis_PI2. 
    unfold mRX, mH, mk2, ket. cbn [Nat.eqb]. replace (PI * (1 / 2) / 2) with (PI / 4) by field. rewrite cos_PI4, sin_PI4. ceq; ring. }
  rewrite Z. unfold Cnorm2, C0. cbn. ring.
Qed.
Definition answer_3 : minimizer := fun _ => Answer [1 / 2; 1 / 16].
Lemma reached3 : forall rng random powell, exists v sep h1 l, factoring_qaoa rng random powell (empty_heap 0) 1 3 (Some answer_3) None = (Ok (v, sep), h1) /\
  qaoa_result rng (empty_heap 0) h1 v answer_3 1 1 (factor_cost 3 0 1) false [1 / 2; 1 / 16] l /\ mean_cost (factor_cost 3 0 1) l = 0 /\ Forall (fun op => sep (fst op) = Ok (1, 3)%nat) l.
Proof.
  intros rng random powell. destruct (factoring_run rng random powell [] (empty_heap 0) 1 3 (Some answer_3) 1 None false (start_reachable rng)) as [v [sep [h1 [ps [l [M [R [_ F]]]]]]]].
  - change (Nat.sqrt 3) with 1%nat. split; [lia|]. split; [cbn; lia|]. intros; lia.
  - apply start_simulated.
  - lia.
  - left. reflexivity.
  - change (1 - 1 + 1)%nat with 1%nat in R. change (1 - 1)%nat with 0%nat in R, F. change (minimizer_or random powell (Some answer_3)) with answer_3 in R.
    assert (Ep : ps = [1 / 2; 1 / 16] /\ mean_cost (factor_cost 3 0 1) l = 0).
    { destruct R as [e [asked [r [h2 [a [h3 [r' [Se [_ [P [_ [_ [_ [_ [_ [Mc _]]]]]]]]]]]]]]]]. cbn [answer_3] in P. inversion P as [ps0 E1 E2|]; subst. split; [reflexivity|]. rewrite Mc. apply round3, Se. }
    destruct Ep as [-> Z]. exists v, sep, h1, l. split; [exact M|]. split; [exact R|]. split; [exact Z|]. eapply Forall_impl; [|exact F]. intros op [p [q [S1 [_ [S2 S3]]]]]. destruct (S3 Z) as [Pq _]. destruct S2 as [[p' Op] [P2 _]].
    cbn in P2. assert (p = 1%nat) as -> by lia. rewrite S1. do 2 f_equal. lia.
Qed.
Lemma ap1_twice : forall m phi, let U := ap1 m 1 (ap1 m 0 phi) in let f := m false false in let g := m false true in let h := m true false in let k := m true true in
  U 0%nat = (f * (f * phi 0%nat + g * phi 1%nat) + g * (f * phi 2%nat + g * phi 3%nat))%C /\
  U 1%nat = (f * (h * phi 0%nat + k * phi 1%nat) + g * (h * phi 2%nat + k * phi 3%nat))%C /\
  U 2%nat = (h * (f * phi 0%nat + g * phi 1%nat) + k * (f * phi 2%nat + g * phi 3%nat))%C /\
  U 3%nat = (h * (h * phi 0%nat + k * phi 1%nat) + k * (h * phi 2%nat + k * phi 3%nat))%C.
Proof. intros m phi. cbv zeta. repeat split. Qed.
Lemma round_edge : forall e, same_op (expr_op e) (diag_op (cut_cost [(0, 1)%nat])) ->
  mean_value 2 (cut_cost [(0, 1)%nat]) (qaoa_state 2 (expr_simplify e) None 1 (everywhere 2 mH (ket 0)) [1 / 4; 1 / 8]) = -1.
Proof.
  intros e Se. destruct (diag_phase e _ Se) as [c P]. unfold qaoa_state, angles. cbn [List.length Nat.sub Nat.min seq map nth Nat.add fold_left]. unfold qaoa_round, mixed, everywhere. cbn [fst snd seq fold_left].
  unfold mean_value. change (2 ^ 2)%nat with 4%nat. cbn [seq Rsum].
  assert (D0 : cut_cost [(0, 1)%nat] 0 = 1) by (unfold cut_cost; cbn; lra). assert (D1 : cut_cost [(0, 1)%nat] 1 = -1) by (unfold cut_cost; cbn; lra).
  assert (D2 : cut_cost [(0, 1)%nat] 2 = -1) by (unfold cut_cost; cbn; lra). assert (D3 : cut_cost [(0, 1)%nat] 3 = 1) by (unfold cut_cost; cbn; lra).
  rewrite D0, D1, D2, D3. set (m := mRX (PI * (1 / 4))). set (phi := evolved_all (2 * PI * (1 / 8)) (expr_simplify e) (ap1 mH 1 (ap1 mH 0 (ket 0)))).
  destruct (ap1_twice m phi) as [U0 [U1 [U2 U3]]]. destruct (ap1_twice mH (ket 0)) as [V0 [V1 [V2 V3]]].
  set (b := cis (2 * PI * (1 / 8) * (-1 - c))).
  assert (Q : forall x, cut_cost [(0, 1)%nat] x = 1 -> cis (2 * PI * (1 / 8) * (cut_cost [(0, 1)%nat] x - c)) = (Ci * b)%C).
  { intros x ->. unfold b. rewrite <- ProofFallback.cis_PI2, cis_add. f_equal. field. }
  assert (W : ap1 mH 1 (ap1 mH 0 (ket 0)) 0%nat = RtoC (1 / 2) /\ ap1 mH 1 (ap1 mH 0 (ket 0)) 1%nat = RtoC (1 / 2) /\ ap1 mH 1 (ap1 mH 0 (ket 0)) 2%nat = RtoC (1 / 2) /\ ap1 mH 1 (ap1 mH 0 (ket 0)) 3%nat = RtoC (1 / 2)).
  { rewrite V0, V1, V2, V3. unfold mH, mscale, mk2, ket. cbn [Nat.eqb]. assert (Sq : / sqrt 2 * / sqrt 2 = 1 / 2) by (rewrite <- Rinv_mult, sqrt_sqrt by lra; lra).
    set (r := / sqrt 2) in *. repeat split; ceq; try ring; ring_simplify; rewrite <- Sq; ring. }
  destruct W as [W0 [W1 [W2 W3]]].
  assert (F0 : phi 0%nat = (Ci * b * RtoC (1 / 2))%C) by (unfold phi; rewrite P, (Q _ D0), W0; reflexivity). assert (F3 : phi 3%nat = (Ci * b * RtoC (1 / 2))%C) by (unfold phi; rewrite P, (Q _ D3), W3; reflexivity).
  assert (F1 : phi 1%nat = (b * RtoC (1 / 2))%C) by (unfold phi; rewrite P, D1, W1; reflexivity). assert (F2 : phi 2%nat = (b * RtoC (1 / 2))%C) by (unfold phi; rewrite P, D2, W2; reflexivity).
  rewrite U0, U1, U2, U3, F0, F1, F2, F3. unfold m, mRX, mk2. set (C := cos (PI * (1 / 4) / 2)). set (Sn := sin (PI * (1 / 4) / 2)).
  assert (T : C * C + Sn * Sn = 1) by (unfold C, Sn; pose proof (sin2_cos2 (PI * (1 / 4) / 2)) as T; unfold Rsqr in T; lra).
  assert (T2 : 2 * Sn * C = C * C - Sn * Sn).
  { unfold C, Sn. rewrite <- sin_2a. rewrite <- cos_2a. replace (2 * (PI * (1 / 4) / 2)) with (PI / 4) by field. rewrite sin_PI4, cos_PI4. reflexivity. }
  assert (B : fst b * fst b + snd b * snd b = 1).
  { unfold b, cis. cbn [fst snd]. pose proof (sin2_cos2 (2 * PI * (1 / 8) * (-1 - c))) as T3. unfold Rsqr in T3. lra. }
  clearbody b C Sn. destruct b as [x y]. cbn [fst snd] in B.
  unfold Cnorm2, Cadd, Cmul, Copp, Ci, RtoC. cbn [fst snd]. ring_simplify.
  assert (T3 : (C * C - Sn * Sn) * (C * C - Sn * Sn) = 1 / 2).
  { assert ((C * C - Sn * Sn) * (C * C - Sn * Sn) + (2 * Sn * C) * (2 * Sn * C) = (C * C + Sn * Sn) * (C * C + Sn * Sn)) by ring. rewrite T2, T in H. lra. }
  transitivity (- 2 * (2 * Sn * C) * (C * C - Sn * Sn) * (x * x + y * y)); [field|]. rewrite T2, B. lra.
Qed.
Definition answer_edge : minimizer := fun _ => Answer [1 / 4; 1 / 8].
Lemma edge_width : least (joined [(0, 1)%nat]) 2.
Proof. split; [apply Forall_cons; [cbn; lia|constructor]|]. intros k K. inversion K as [|? ? H _]; subst. cbn in H. lia. Qed.
Lemma cut_small : forall x, (cut [(0, 1)%nat] x <= 1)%nat.
Proof. intros x. unfold cut. cbn [filter]. destruct (is_cut x (0, 1)%nat); cbn [List.length]; lia. Qed.
Lemma reached_edge : forall rng random powell, exists v h1 l, maxcut_qaoa rng random powell (empty_heap 0) 1 [(0, 1)%nat] (Some answer_edge) None = (Ok v, h1) /\
  qaoa_result rng (empty_heap 0) h1 v answer_edge 1 2 (cut_cost [(0, 1)%nat]) false [1 / 4; 1 / 8] l /\ mean_cost (fun x => INR (cut [(0, 1)%nat] x)) l = 1 /\
  Forall (fun op => cut [(0, 1)%nat] (number (fst op)) = 1%nat) l.
Proof.
  intros rng random powell. destruct (maxcut_run rng random powell [] (empty_heap 0) 1 [(0, 1)%nat] 2 (Some answer_edge) None false (start_reachable rng) (start_simulated _ _) edge_width (or_introl eq_refl))
    as [v [h1 [ps [l [M [R [Li Bo]]]]]]]. change (minimizer_or random powell (Some answer_edge)) with answer_edge in R.
  assert (Ep : ps = [1 / 4; 1 / 8] /\ mean_cost (cut_cost [(0, 1)%nat]) l = -1).
  { destruct R as [e [asked [r [h2 [a [h3 [r' [Se [_ [P [_ [_ [_ [_ [_ [Mc _]]]]]]]]]]]]]]]]. cbn [answer_edge] in P. inversion P as [ps0 E1 E2|]; subst. split; [reflexivity|]. rewrite Mc. apply round_edge, Se. }
  destruct Ep as [-> Z]. rewrite Z in Li. cbn [List.length INR] in Li. assert (M1 : mean_cost (fun x => INR (cut [(0, 1)%nat] x)) l = 1) by lra.
  exists v, h1, l. split; [exact M|]. split; [exact R|]. split; [exact M1|]. apply (proj2 (Bo 1%nat cut_small)). exact M1.
Qed.

(** ** Cases *)
Definition path3 : list (nat * nat) := [(0, 1); (1, 2); (1, 1)]%nat.
Lemma path_case : least (joined path3) 3 /\ cut path3 2 = 2%nat /\ maximum_cut path3 2.
Proof.
  split; [|split; [reflexivity|]].
  - split; [unfold joined, path3; repeat (apply Forall_cons; [cbn; lia|]); constructor|]. intros k K. unfold joined, path3 in K. inversion K as [|? ? _ K']; subst. inversion K' as [|? ? H _]; subst. cbn in H. lia.
  - intros y. unfold cut, path3. cbn [filter]. change (is_cut 2 (0, 1)%nat) with true. change (is_cut 2 (1, 2)%nat) with true. change (is_cut 2 (1, 1)%nat) with false. cbv iota. cbn [List.length].
    unfold is_cut. cbn [fst snd]. destruct (bit y 0), (bit y 1), (bit y 2); cbn [xorb List.length]; lia.
Qed.
Lemma thirds_case : least (fun k => forall i, (k <= i)%nat -> idle [1; 2; 3] i) 3 /\ partition_cost [1; 2; 3] (number [0; 0; 1]%nat) = 0 /\ groups [1; 2; 3] [0; 0; 1]%nat = ([1; 2], [3]) /\
  partition_cost [1; 2; 3] (number [1; 0; 0]%nat) = 16.
Proof.
  split; [|split; [|split; [reflexivity|]]].
  - split; [intros i L; left; destruct i as [|[|[|i]]]; try lia; destruct i; reflexivity|]. intros k K. destruct (le_lt_dec 3 k) as [|L]; auto. exfalso.
    destruct (K 2%nat ltac:(lia)) as [H|H]; [cbn in H; lra|]. specialize (H 0%nat ltac:(lia)). cbn in H. lra.
  - unfold partition_cost, side. cbn. lra.
  - unfold partition_cost, side. cbn. lra.
Qed.
Lemma fifteen_case : bits_for (Nat.sqrt 15) 2 /\ factor_cost 15 1 2 (number [1; 0; 1]%nat) = 0 /\ bitseparator 1 2 [1; 0; 1]%nat = Ok (3, 5)%nat /\ factor_cost 15 1 2 (number [1; 1; 1]%nat) = 36.
Proof.
  split; [|split; [|split; [reflexivity|]]].
  - change (Nat.sqrt 15) with 3%nat. split; [lia|]. split; [cbn; lia|]. intros k K H. destruct k as [|[|k]]; cbn in H; lia.
  - unfold factor_cost, odd_part. cbn. lra.
  - unfold factor_cost, odd_part. cbn. lra.
Qed.
