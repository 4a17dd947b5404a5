(** Proofs: repeated time evolutions of terms approach the evolution of their sum *)
From Coq Require Import String List Arith ZArith Bool Reals Lia Lra FunctionalExtensionality.
Import ListNotations.
From Verif Require Import Base Cplx Bits ModelTargets ModelGate SpecQuantum SpecCircuit ModelCircuit SpecAPI ModelPauli SpecPauli ModelVqe SpecVqe SpecEvolve
  ProofFallback ProofDagger ProofPauli ProofEvolution ProofQaoa ProofEmbed.
From Verif Require SpecLaw ProofLawStat ProofUnitary ProofSympy ProofVqe ProofPauliComm ProofVqeEx.
Local Open Scope R_scope.

Lemma det_word : forall n w, fits n w -> determined n (word_op w).
Proof.
  intros n. induction w as [|[l q] w IH]; intros F; [apply ProofSympy.det_id|]. cbn [word_op].
  apply (ProofSympy.det_comp n (word_op w) (ap1 (lmat l) q)); [apply IH; intros o I; apply F; right; exact I|]. apply ProofSympy.det_ap1. exact (F (l, q) (or_introl eq_refl)).
Qed.
Lemma det_scl : forall n k U, determined n U -> determined n (op_scl k U).
Proof. intros n k U D psi x X. unfold op_scl. rewrite (D psi x X), <- Csum_mul_l. apply Csum_ext. intros. ring. Qed.
Lemma det_expr : forall n e, Forall (fun t => fits n (t_ops t)) e -> determined n (expr_op e).
Proof.
  intros n e F. induction F as [|t e Ft F IH]; cbn [expr_op].
  - intros psi x _. symmetry. apply Csum_0. intros. ring.
  - apply (ProofSympy.det_add n); [apply det_scl, det_word; exact Ft|exact IH].
Qed.
Lemma evolve_exists : forall n e t psi, Forall (fun s => fits n (t_ops s)) e -> exists phi, evolves n (expr_op e) t psi phi.
Proof. intros n e t psi F. apply series_exists. apply det_scl, det_expr. exact F. Qed.

(** ** One term *)
Lemma word_square : forall w psi, NoDup (map snd w) -> word_op w (word_op w psi) = psi.
Proof.
  induction w as [|[l q] w IH]; intros psi N; [reflexivity|]. cbn in N. inversion N as [|? ? Nq Nw]; subst. cbn [word_op]. unfold op_mul.
  rewrite <- word_comm1 by exact Nq. rewrite IH by exact Nw. rewrite ap1_comp. rewrite <- (ap1_I q psi) at 2. apply ap1_ext. intros r s.
  destruct l, r, s; unfold mmul, lmat, mX, mY, mZ, mI, mk2; ceq.
Qed.
Lemma exp_again : forall U s t psi x, linear U -> (forall psi, U (U psi) = psi) -> op_exp s U (op_exp t U psi) x = op_exp (s + t) U psi x.
Proof.
  intros U s t psi x L Sq. unfold op_exp, op_add, op_scl, op_one. rewrite (lin_add U L (fun y => RtoC (cos t) * psi y)%C (fun y => Ci * RtoC (sin t) * U psi y)%C).
  rewrite (lin_scl U L (RtoC (cos t)) psi), (lin_scl U L (Ci * RtoC (sin t))%C (U psi)), Sq, cos_plus, sin_plus.
  unfold RtoC, Ci. generalize (psi x), (U psi x). intros [] []. ceq.
Qed.
Lemma exp_repeat : forall U s P psi x, linear U -> (forall psi, U (U psi) = psi) -> op_pow (op_exp s U) P psi x = op_exp (INR P * s) U psi x.
Proof.
  intros U s P psi. induction P as [|P IH]; intros x L Sq.
  - cbn [op_pow INR]. unfold op_exp, op_add, op_scl, op_one. rewrite Rmult_0_l, cos_0, sin_0. generalize (psi x), (U psi x). intros [] []. ceq.
  - cbn [op_pow]. unfold op_mul. rewrite (functional_extensionality _ _ (fun y => IH y L Sq)), exp_again by assumption. rewrite S_INR. replace (s + INR P * s) with ((INR P + 1) * s) by ring. reflexivity.
Qed.
Lemma word_evolves : forall n w s psi, separate_word n w -> evolves n (word_op w) s psi (op_exp s (word_op w) psi).
Proof.
  intros n w s psi (N & F). unfold evolves.
  pose proof (group_series n _ _ (germ_exp n (word_op w) s (det_word n w F))) as G. cbn beta in G. rewrite Rmult_1_r in G. apply G.
  intros P phi x HP _. rewrite exp_repeat; [|apply linear_word|intros; apply word_square; exact N]. assert (0 < INR P) by (apply lt_0_INR; exact HP).
  replace (INR P * (s * / INR P)) with s by (field; lra). reflexivity.
Qed.

(** ** Many terms *)
Lemma germ_term : forall n s t, fits n (t_ops t) -> germ n (fun h => evolved (s * h) t) (op_scl (Ci * RtoC s) (expr_op (generated [t]))).
Proof.
  intros n s t F. unfold evolved, generated. cbn [flat_map]. destruct (t_ops t) as [|o w] eqn:E.
  - apply germ_ext with (1 := fun _ _ _ => eq_refl) (3 := germ_one n). intros psi x. unfold op_scl. cbn. ring.
  - set (k := (if Nat.even (ycount (o :: w)) then 1 else -1) * Cre (t_coeff t)).
    apply germ_ext with (3 := germ_exp n (word_op (o :: w)) (k * s) (det_word n _ F)).
    + intros h psi x. replace (k * s * h) with (k * (s * h)) by ring. reflexivity.
    + intros psi x. cbn [app expr_op]. unfold op_scl, term_op, op_add, op_scl. cbn [t_ops t_coeff]. fold k. rewrite RtoC_mul. ring.
Qed.
Lemma generated_cons : forall t ts psi x, expr_op (generated (t :: ts)) psi x = (expr_op (generated [t]) psi x + expr_op (generated ts) psi x)%C.
Proof.
  intros t ts psi x. unfold generated. cbn [flat_map]. rewrite app_nil_r. destruct (t_ops t); cbn [app expr_op]; unfold op_add; ring.
Qed.
Lemma germ_terms : forall n s ts, Forall (fun t => fits n (t_ops t)) ts -> germ n (fun h => evolved_all (s * h) ts) (op_scl (Ci * RtoC s) (expr_op (generated ts))).
Proof.
  intros n s ts F. apply germ_ext with (3 := germ_fold n term ts (fun t h => evolved (s * h) t) (fun t => op_scl (Ci * RtoC s) (expr_op (generated [t]))) (fun t I => germ_term n s t (proj1 (Forall_forall _ _) F t I))).
  - intros h psi x. reflexivity.
  - intros psi x. clear F. unfold op_scl. induction ts as [|t ts IH]; [cbn; ring|]. cbn [Csum]. rewrite IH, (generated_cons t ts). ring.
Qed.
Lemma rx_exp : forall a q, same_op (op_exp (- (a / 2)) (ap1 mX q)) (ap1 (mRX a) q).
Proof.
  intros a q psi x. unfold op_exp, op_add, op_scl, op_one, ap1, mRX, mX, mk2. rewrite cos_neg, sin_neg.
  destruct (bit x q) eqn:E; rewrite (setb_same x q _ E); generalize (psi x), (psi (setb x q true)), (psi (setb x q false)); intros [] [] []; unfold RtoC; ceq.
Qed.
Lemma germ_rx : forall n s, germ n (fun h => everywhere n (mRX (s * h))) (op_scl (Ci * RtoC (- (s / 2))) (sum_x n)).
Proof.
  intros n s. assert (G : forall q, In q (seq 0 n) -> germ n (fun h => ap1 (mRX (s * h)) q) (op_scl (Ci * RtoC (- (s / 2))) (ap1 mX q))).
  { intros q I. apply in_seq in I. apply germ_ext with (3 := germ_exp n (ap1 mX q) (- (s / 2)) (ProofSympy.det_ap1 n mX q (proj2 I))).
    - intros h psi x. rewrite <- (rx_exp (s * h) q psi x). replace (- (s / 2) * h) with (- (s * h / 2)) by field. reflexivity.
    - intros psi x. reflexivity. }
  apply germ_ext with (3 := germ_fold n nat (seq 0 n) (fun q h => ap1 (mRX (s * h)) q) _ G).
  - intros h psi x. reflexivity.
  - intros psi x. unfold op_scl, sum_x. rewrite Csum_mul_l. reflexivity.
Qed.
Lemma germ_round : forall n ham mixer b g, Forall (fun t => fits n (t_ops t)) ham -> match mixer with Some ts => Forall (fun t => fits n (t_ops t)) ts | None => True end ->
  germ n (fun h psi => qaoa_round n ham mixer psi (b * h, g * h)) (qaoa_generator n ham mixer b g).
Proof.
  intros n ham mixer b g F M. unfold qaoa_round, qaoa_generator. cbn [fst snd].
  assert (G2 : germ n (fun h => mixed n mixer (PI * b * h)) (op_scl Ci (match mixer with None => op_scl (RtoC (- (PI * b / 2))) (sum_x n) | Some ts => op_scl (RtoC (PI * b)) (expr_op (generated ts)) end))).
  { unfold mixed. destruct mixer as [ts|].
    - apply germ_ext with (1 := fun _ _ _ => eq_refl) (3 := germ_terms n (PI * b) ts M). intros psi x. unfold op_scl. ring.
    - apply germ_ext with (1 := fun _ _ _ => eq_refl) (3 := germ_rx n (PI * b)). intros psi x. unfold op_scl. ring. }
  apply germ_ext with (3 := germ_comp n _ _ _ _ (germ_terms n (2 * PI * g) ham F) G2).
  - intros h psi x. cbn beta. replace (PI * (b * h)) with (PI * b * h) by ring. replace (2 * PI * (g * h)) with (2 * PI * g * h) by ring. reflexivity.
  - intros psi x. unfold op_add, op_scl. ring.
Qed.

(** ** Circuits *)
Lemma pow_after : forall U P psi, op_pow U P (U psi) = U (op_pow U P psi).
Proof. intros U. induction P as [|P IH]; intros psi; [reflexivity|]. cbn [op_pow]. unfold op_mul. rewrite IH. reflexivity. Qed.
Lemma fold_repeat : forall X (f : state -> X -> state) a P psi, fold_left f (repeat a P) psi = op_pow (fun psi => f psi a) P psi.
Proof. intros X f a. induction P as [|P IH]; intros psi; [reflexivity|]. cbn [repeat fold_left]. rewrite IH. apply (pow_after (fun psi => f psi a)). Qed.
Lemma combine_repeat : forall X Y (a : X) (b : Y) P, combine (repeat a P) (repeat b P) = repeat (a, b) P.
Proof. intros X Y a b. induction P as [|P IH]; [reflexivity|]. cbn. rewrite IH. reflexivity. Qed.
Lemma repeat_ops : forall n gs ops P, circuit_ops n gs ops -> circuit_ops n (concat (repeat gs P)) (concat (repeat ops P)) /\ forall psi, apply_all (concat (repeat ops P)) psi = op_pow (apply_all ops) P psi.
Proof.
  intros n gs ops P H. induction P as [|P (IH & IA)]; cbn [repeat concat]; [split; [constructor|reflexivity]|]. split; [apply gates_app; assumption|].
  intros psi. rewrite apply_app, IA. apply pow_after.
Qed.
Lemma trotter_circuit : forall n ts fs, suits (Z.of_nat n) ts -> map_res time_evolution ts = Ok fs -> forall t psi phi, evolves n (expr_op (generated ts)) t psi phi ->
  forall x eps, (x < 2 ^ n)%nat -> 0 < eps -> exists P0, forall P, (P0 <= P)%nat ->
  exists ops, circuit_ops n (concat (repeat (flat_map (fun f => f (t / INR P)) fs) P)) ops /\ Cnorm2 (apply_all ops psi x - phi x)%C < eps.
Proof.
  intros n ts fs (Ct & Im & F) E t psi phi H x eps X Heps. rewrite Nat2Z.id in F.
  destruct (op_lie n _ _ psi phi (germ_terms n t ts F) H x eps X Heps) as (P0 & HP). exists P0. intros P L. specialize (HP P L).
  destruct (evos_ok ts (Z.of_nat n) Ct Im) as (fs' & E' & K). rewrite E in E'. injection E' as <-.
  destruct (K (t / INR P) ltac:(lia) ltac:(rewrite Nat2Z.id; exact F)) as (_ & ops & Co & Ap). rewrite Nat2Z.id in Co.
  destruct (repeat_ops n _ ops P Co) as (R1 & R2). exists (concat (repeat ops P)). split; [exact R1|]. rewrite R2.
  replace (apply_all ops) with (evolved_all (t * / INR P) ts); [exact HP|]. apply functional_extensionality. intros p. symmetry. apply Ap.
Qed.
Lemma generated_same : forall ts, Forall (fun t => t_ops t <> [] /\ Nat.even (ycount (t_ops t)) = true /\ Cim (t_coeff t) = 0) ts -> generated ts = ts.
Proof.
  intros ts F. induction F as [|[w c] ts (Ne & Ev & Im) F IH]; [reflexivity|]. unfold generated in *. cbn [flat_map t_ops t_coeff] in *. rewrite IH.
  destruct w as [|o w]; [congruence|]. rewrite Ev. cbn [app]. f_equal. f_equal. destruct c as [a b]. cbn in Im. subst b. unfold RtoC, Cre. cbn. f_equal. ring.
Qed.
(** the evolution keeps the norm *)
Lemma norm_limit : forall n Sf K psi phi, germ n Sf K -> series_sum n K psi phi -> (forall h P, norm2 n (op_pow (Sf h) P psi) = norm2 n psi) -> norm2 n phi = norm2 n psi.
Proof.
  intros n Sf K psi phi G HS HN.
  assert (L : Un_cv (fun P => norm2 n (op_pow (Sf (/ INR P)) P psi)) (norm2 n phi)).
  { unfold norm2. apply (sum_cv _ (seq 0 (2 ^ n)) (fun x P => Cnorm2 (op_pow (Sf (/ INR P)) P psi x))). intros x X. apply in_seq in X. destruct (val_onto n x ltac:(lia)) as (b & B & <-).
    assert (I : forall f, In (f :: b) (SpecLaw.values (S n))) by (intros f; apply ProofLawStat.values_spec; apply ProofLawStat.values_spec in B; cbn; rewrite B; reflexivity).
    pose proof (op_limit n Sf K psi phi _ G HS (I false)) as H1. pose proof (op_limit n Sf K psi phi _ G HS (I true)) as H2.
    exact (CV_plus _ _ _ _ (CV_mult _ _ _ _ H1 H1) (CV_mult _ _ _ _ H2 H2)). }
  apply (UL_sequence _ _ _ L). intros eps Heps. exists 0%nat. intros P _. rewrite HN, R_dist_eq. exact Heps.
Qed.
Lemma evolution_norm : forall n ts, suits (Z.of_nat n) ts -> forall t psi phi, evolves n (expr_op (generated ts)) t psi phi -> norm2 n phi = norm2 n psi.
Proof.
  intros n ts (Ct & Im & F) t psi phi H. rewrite Nat2Z.id in F. apply (norm_limit n _ _ psi phi (germ_terms n t ts F) H). intros h P.
  destruct (evos_ok ts (Z.of_nat n) Ct Im) as (fs & _ & K). destruct (K (t * h) ltac:(lia) ltac:(rewrite Nat2Z.id; exact F)) as (_ & ops & Co & Ap). rewrite Nat2Z.id in Co.
  destruct (repeat_ops n _ ops P Co) as (R1 & R2). replace (evolved_all (t * h) ts) with (apply_all ops) by (apply functional_extensionality; exact Ap).
  rewrite <- R2. apply ProofUnitary.preserves_norm. exact (ProofUnitary.circuit_preserves n _ _ R1).
Qed.
Section Qaoa.
Variable rng : nat -> R.
Lemma qaoa_limit : forall seen h ham, let n := expr_qubits (expr_simplify ham) in reachable rng seen h ->
  simulated rng h (VCirc [] (Z.of_nat n) None) -> pairwise_commuting (expr_simplify ham) -> Forall (fun t => Cim (t_coeff t) = 0) (expr_simplify ham) ->
  forall b g phi, series_sum n (qaoa_generator n (expr_simplify ham) None b g) (everywhere n mH (ket 0)) phi -> forall x eps, (x < 2 ^ n)%nat -> 0 < eps ->
  exists P0, forall P, (P0 <= P)%nat ->
  exists q h1 d h' gs ops, qaoa_new rng h ham P None None = (Ok q, h1) /\ qaoa_circuit rng h1 q (repeat (b / INR P) P ++ repeat (g / INR P) P) = (Ok d, h') /\
    circuit_is h' d (VCirc gs (Z.of_nat n) None) /\ circuit_ops n gs ops /\ Cnorm2 (apply_all ops (ket 0) x - phi x)%C < eps.
Proof.
  intros seen h ham n Re Si Pc Im b g phi H x eps X Heps.
  assert (F : Forall (fun t => fits n (t_ops t)) (expr_simplify ham)) by (pose proof (simplified_suits ham (Z.of_nat n) Im (Z.le_refl _)) as (_ & _ & F); rewrite Nat2Z.id in F; exact F).
  destruct (op_lie n _ _ _ phi (germ_round n (expr_simplify ham) None b g F I) H x eps X Heps) as (P0 & HP). exists P0. intros P L. specialize (HP P L).
  destruct (ProofVqeEx.qaoa_plain_commuting rng seen h ham P (repeat (b / INR P) P) (repeat (g / INR P) P) Re Si Pc Im (repeat_length _ _)) as (q & h1 & d & h' & gs & ops & E1 & E2 & E3 & E4 & E5 & E6 & E7).
  exists q, h1, d, h', gs, ops. split; [exact E1|]. split; [exact E3|]. split; [exact E4|]. split; [exact E5|]. fold n in E6. rewrite E6, combine_repeat, fold_repeat. exact HP.
Qed.
Lemma qaoa_init_limit : forall seen h ham c mixer v ops, let n := Z.to_nat (v_n v) in reachable rng seen h -> circuit_is h c v -> simulated rng h v ->
  circuit_ops n (v_gates v) ops -> pairwise_commuting (expr_simplify ham) -> Forall (fun t => Cim (t_coeff t) = 0) (expr_simplify ham) ->
  (Z.of_nat (expr_qubits (expr_simplify ham)) <= v_n v)%Z -> match mixer with Some ts => suits (v_n v) ts | None => True end ->
  forall b g phi, series_sum n (qaoa_generator n (expr_simplify ham) mixer b g) (apply_all ops (ket 0)) phi -> forall x eps, (x < 2 ^ n)%nat -> 0 < eps ->
  exists P0, forall P, (P0 <= P)%nat ->
  exists q h1 d h' gs ops', qaoa_new rng h ham P (Some c) mixer = (Ok q, h1) /\ qaoa_circuit rng h1 q (repeat (b / INR P) P ++ repeat (g / INR P) P) = (Ok d, h') /\
    circuit_is h' d (VCirc (v_gates v ++ gs) (v_n v) (v_default v)) /\ circuit_ops n (v_gates v ++ gs) ops' /\ Cnorm2 (apply_all ops' (ket 0) x - phi x)%C < eps.
Proof.
  intros seen h ham c mixer v ops n Re Ci Si Co Pc Im W Su b g phi H x eps X Heps.
  assert (F : Forall (fun t => fits n (t_ops t)) (expr_simplify ham)) by (exact (proj2 (proj2 (simplified_suits ham (v_n v) Im W)))).
  assert (M : match mixer with Some ts => Forall (fun t => fits n (t_ops t)) ts | None => True end) by (destruct mixer; [exact (proj2 (proj2 Su))|exact I]).
  destruct (op_lie n _ _ _ phi (germ_round n (expr_simplify ham) mixer b g F M) H x eps X Heps) as (P0 & HP). exists P0. intros P L. specialize (HP P L).
  destruct (ProofVqeEx.qaoa_init_commuting rng seen h ham P c mixer v ops (repeat (b / INR P) P) (repeat (g / INR P) P) Re Ci Si Co Pc Im W Su (repeat_length _ _)) as (q & h1 & d & h' & gs & ops' & E1 & E2 & E3 & E4 & E5 & E6 & E7).
  exists q, h1, d, h', gs, ops'. split; [exact E1|]. split; [exact E3|]. split; [exact E4|]. split; [exact E5|]. fold n in E6. rewrite E6, combine_repeat, fold_repeat. exact HP.
Qed.
End Qaoa.
(** two terms that do not commute *)
Definition field_pair : list term := [Term [(LZ, 0%nat); (LZ, 1%nat)] C1; Term [(LX, 0%nat)] (RtoC 2)].
Lemma field_pair_fits : Forall (fun t => fits 2 (t_ops t)) field_pair.
Proof. apply Forall_cons; [intros o [<-|[<-|[]]]; cbn; lia|]. apply Forall_cons; [intros o [<-|[]]; cbn; lia|constructor]. Qed.
Lemma field_pair_suits : suits 2 field_pair.
Proof. split; [|split]; [| |exact field_pair_fits]; repeat constructor. Qed.
Lemma field_pair_case : suits 2 field_pair /\ (exists fs, map_res time_evolution field_pair = Ok fs) /\ generated field_pair = field_pair /\
  (forall t psi, exists phi, evolves 2 (expr_op (generated field_pair)) t psi phi) /\ ~ pairwise_commuting field_pair.
Proof.
  assert (G : generated field_pair = field_pair) by (apply generated_same; repeat constructor; discriminate).
  split; [exact field_pair_suits|]. split; [destruct (evos_ok field_pair 2) as (fs & E & _); [exact (proj1 field_pair_suits)|exact (proj1 (proj2 field_pair_suits))|exists fs; exact E]|].
  split; [exact G|]. split; [intros t psi; rewrite G; apply evolve_exists; exact field_pair_fits|].
  intros Pc. inversion Pc as [|a l Fa Fl]; subst. inversion Fa as [|b m H _]; subst. specialize (H (ket 0) 1%nat).
  assert (XX : forall f, ap1 mX 0 f 1%nat = f 0%nat) by (intros f; unfold ap1, mX, mk2; change (bit 1 0) with true; change (setb 1 0 false) with 0%nat; change (setb 1 0 true) with 1%nat; generalize (f 0%nat), (f 1%nat); intros [] []; ceq).
  unfold op_mul, term_op, op_scl in H. cbn [word_op t_ops t_coeff] in H. unfold op_mul, op_one in H.
  change (ap1 (lmat LZ)) with (ap1 mZ) in H. change (ap1 (lmat LX)) with (ap1 mX) in H. rewrite XX, !z_apply, XX in H. apply (f_equal Cre) in H.
  cbn in H. lra.
Qed.
Lemma qaoa_phi : forall n ham b g psi, Forall (fun t => fits n (t_ops t)) ham -> exists phi, series_sum n (qaoa_generator n ham None b g) psi phi.
Proof. intros n ham b g psi F. apply series_exists. exact (proj1 (germ_round n ham None b g F I)). Qed.
Lemma qaoa_case : forall rng, reachable rng [] (empty_heap 0) /\ simulated rng (empty_heap 0) (VCirc [] (Z.of_nat (expr_qubits (expr_simplify ProofVqeEx.zz))) None) /\
  pairwise_commuting (expr_simplify ProofVqeEx.zz) /\ Forall (fun t => Cim (t_coeff t) = 0) (expr_simplify ProofVqeEx.zz) /\
  forall b g psi, exists phi, series_sum (expr_qubits (expr_simplify ProofVqeEx.zz)) (qaoa_generator (expr_qubits (expr_simplify ProofVqeEx.zz)) (expr_simplify ProofVqeEx.zz) None b g) psi phi.
Proof.
  intros rng. destruct (ProofVqeEx.zz_fine rng) as (A & B & D). split; [constructor|]. split; [exact A|]. split; [exact B|]. split; [exact D|]. intros b g psi. apply qaoa_phi.
  pose proof (simplified_suits ProofVqeEx.zz _ D (Z.le_refl _)) as (_ & _ & F). rewrite Nat2Z.id in F. exact F.
Qed.
