(** Proofs: rounded energies by sparse matrices of circuits, without rounding and with double precision *)
From Coq Require Import String List Arith NArith ZArith Bool Reals Lia Lra Psatz.
Import ListNotations.
From Verif Require Import Base Cplx Bits ModelTargets ModelGate ModelNumpy ModelNumba ModelCircuit ModelPauli ModelPauliMatrix ModelVqe ModelFloat ModelFloatNumba ModelFloatMeasure ModelFloatNumbaMeasure ModelFloatRun ModelFloatVqe ModelFloatSparse
  SpecTargets SpecQuantum SpecCircuit SpecMeasure SpecRun SpecAPI SpecPauli SpecPauliMatrix SpecVqe SpecFloat SpecFinite SpecFloatNumba SpecFloatRun SpecFloatVqe SpecFloatSparse
  ProofWhole ProofPauli ProofArray ProofNumpy ProofRun ProofMeasure ProofCache ProofExamples ProofUnitary ProofPauliExpr ProofPauliComm ProofEvolution ProofReach ProofVqe ProofVqeRun ProofVqeSparse ProofFloat ProofFloatCoef ProofFloatTop ProofFinite ProofFiniteTop ProofFloatNumbaTop
  ProofFloatShots ProofFloatNbShots ProofFloatVqe ProofFloatVqeEnergy ProofFloatVqeRun ProofFloatVqeTop ProofFloatSparse ProofFloatSparseErr ProofFloatSparseSum.
Local Open Scope R_scope.

(** ** Without rounding *)
Lemma fold_Csum : forall X (f : X -> C) l s, fold_left (fun s a => (s + f a)%C) l s = (s + Csum f l)%C.
Proof. induction l as [|a l IH]; intros s; cbn [fold_left]; [change (Csum f []) with C0; ring|]. rewrite IH. change (Csum f (a :: l)) with (f a + Csum f l)%C. ring. Qed.
Lemma make_exact : forall ham, expr_simplify ham = ham -> fl_make_sparse exact_arith ham = make_sparse ham.
Proof.
  intros ham E. unfold make_sparse, expr_matrix, fl_make_sparse. rewrite E. destruct (expr_qubits ham =? 0)%nat; [reflexivity|]. cbv zeta.
  match goal with |- bind ?x _ = _ => match goal with |- _ = bind (bind ?y _) _ => change x with y; destruct y as [st|] end end; cbn [bind]; auto.
  destruct (_ =? 0)%nat; auto. destruct (filled (fst st)); cbn [bind]; auto. destruct (filled (snd st)); cbn [bind]; auto.
Qed.
Lemma add_at_exact : forall l i z, fl_add_at exact_arith l i z = add_at l i z.
Proof. induction l as [|x l IH]; intros [|i] z; cbn [fl_add_at add_at]; auto; rewrite IH; auto. Qed.
Lemma dot_exact : forall m v, fl_csc_dot exact_arith m v = csc_dot m v.
Proof.
  intros [dim rows|dim data inds ptr|dim data inds ptr|dim data rows cols] v; auto; cbn [fl_csc_dot csc_dot]; destruct (negb _); auto.
  - f_equal. apply map_ext. intros row. change (fold_left (fun s j => (s + nth j row C0 * nth j v C0)%C) (seq 0 dim) C0 = Csum (fun j => nth j row C0 * nth j v C0)%C (seq 0 dim)). rewrite fold_Csum. ring.
Qed.
Lemma vdot_exact : forall a b, sequential_dot exact_arith a b = vdot a b.
Proof. intros. unfold sequential_dot, vdot. change (fold_left (fun s p => (s + Cconj (fst p) * snd p)%C) (combine a b) C0 = Csum (fun p => Cconj (fst p) * snd p)%C (combine a b)). rewrite fold_Csum. ring. Qed.
Lemma sparse_parts : (forall ham, expr_simplify ham = ham -> fl_make_sparse exact_arith ham = make_sparse ham) /\
  (forall m v, fl_sparse_expectation exact_arith (sequential_dot exact_arith) m v = sparse_expectation m v).
Proof.
  split; [exact make_exact|]. intros m v. unfold fl_sparse_expectation, sparse_expectation. rewrite dot_exact. destruct (csc_dot m v); cbn [bind]; auto. rewrite vdot_exact. auto.
Qed.
Lemma sparse_same : forall rng seen h c v ops ham m, reachable rng seen h -> circuit_is h c v -> simulated rng h v ->
  circuit_ops (Z.to_nat (v_n v)) (v_gates v) ops -> expr_simplify ham = ham -> make_sparse ham = Ok m ->
  fst (get_energy_sparse rng h m c) = fl_energy_sparse exact_arith (sequential_dot exact_arith) (fun gs => fl_run exact_arith gs (Z.to_nat (v_n v))) (v_gates v) ham.
Proof.
  intros rng seen h c v ops ham m Re Ci Si Co Es Em. destruct (circuit_run rng _ _ _ _ _ None Re Ci Si Co (or_introl eq_refl)) as [h' [E _]]. unfold get_energy_sparse, run_state. rewrite E.
  unfold fl_energy_sparse. rewrite (make_exact ham Es), Em. cbn [bind]. rewrite (fl_run_ops _ _ ops Co). cbn [bind]. rewrite (proj2 sparse_parts). reflexivity.
Qed.
(** a state of another size *)
Lemma sparse_shape : forall A dot ham m v, fl_make_sparse A ham = Ok m -> List.length v <> (2 ^ expr_qubits ham)%nat -> fl_sparse_expectation A dot m v = Err ValueError.
Proof.
  intros A dot ham m v E L. assert (Sh : exists d, (m = SDense d (match m with SDense _ r => r | _ => [] end) \/ exists x y z, m = SCsc d x y z) /\ d = (2 ^ expr_qubits ham)%nat).
  { revert E. unfold fl_make_sparse. destruct (Nat.eqb_spec (expr_qubits ham) 0) as [Z|Z].
    - intros E. injection E as <-. exists 1%nat. split; auto. rewrite Z. auto.
    - cbv zeta. match goal with |- bind ?x _ = _ -> _ => destruct x as [st|] end; cbn [bind]; [|discriminate]. destruct (_ =? 0)%nat; [discriminate|].
      destruct (filled (fst st)); cbn [bind]; [|discriminate]. destruct (filled (snd st)); cbn [bind]; [|discriminate]. intros E. injection E as <-. eexists. split; [right; eauto|auto]. }
  destruct Sh as (d & [->|(x & y & z & ->)] & ->); unfold fl_sparse_expectation; cbn [fl_csc_dot]; destruct (Nat.eqb_spec (List.length v) (2 ^ expr_qubits ham)); try contradiction; auto.
Qed.

(** ** Runs *)
Lemma np_state_run : forall A N glob rng b n pos gs q, (0 < n)%nat -> np_cached A n gs b -> fl_run A gs n = Ok q -> np_state A N glob rng b n pos gs = Ok q.
Proof. intros. change (np_state A N glob rng b n pos gs) with (np_copy A N glob rng b n pos gs). apply np_copy_run; auto. Qed.
Lemma nb_state_run : forall c psum P glob rng b n pos gs q, (0 < n)%nat -> nb_cached c P n gs b -> fn_run c P gs n = Ok q -> nb_state c psum P glob rng b n pos gs = Ok q.
Proof. intros. change (nb_state c psum P glob rng b n pos gs) with (nb_copy c psum P glob rng b n pos gs). apply nb_copy_run; auto. Qed.
Lemma np_sparse : forall A u eta B M D w g dot n gs ops ham norm glob rng b pos, rounds_within A u eta B -> keeps A D -> sparse_ranges u eta B ham -> dots_within dot n w g B -> 0 <= w <= 1 ->
  3 <= M -> 128 * M <= B -> 1000 * u * M <= 1 -> (0 < n)%nat -> circuit_ops n gs ops -> Forall (angles_within M) gs -> expr_qubits ham = n -> Forall (fun t => separate_word n (t_ops t)) ham -> coefficients_in D ham ->
  eta / u * sqrt (2 ^ n) <= 1 / 10 -> 5000 * u * M * INR (List.length ops) <= 1 / 10 -> np_cached A n gs b ->
  exists r, fl_energy_sparse A dot (np_state A norm glob rng b n pos) gs ham = Ok r /\
    Rabs (r - Cre (expval n (expr_op ham) (apply_all ops (ket 0)))) <=
      total ham * (5 * (5000 * u * M * INR (List.length ops)) + 15 * INR (List.length ham) * u + 4 * w) + 400 * 2 ^ n * (INR (List.length ham) * INR (List.length ham) * eta) + g.
Proof.
  intros A u eta B M D w g dot n gs ops ham N glob rng b pos HA HK HS HD Hw HM HB H1 Hn HC HW Hq Hs Hc Hg Hl Hb. pose proof HS as (Hu & He & _).
  replace (List.length ops) with (List.length ops + 0)%nat in * by lia.
  destruct (finite_linear A u eta B M n gs ops HA (proj1 Hu) ltac:(lra) HM HB H1 HC HW ltac:(lra) (linear_room u M ops 0 Hu HM Hl ops ltac:(lia))) as (phi & R1 & D2).
  pose proof (run_close u eta M n ops 0 Hu He HM Hg [] ops phi ltac:(auto) ltac:(lia)) as Rc. unfold bop in Rc. cbn [fold_left List.length INR] in Rc. rewrite dist_self in Rc. specialize (Rc ltac:(lra) D2).
  destruct (sparse_close A u eta B w g D n ham dot HA HK HS HD Hw Hq Hn Hs Hc phi (apply_all ops (ket 0)) _ ltac:(rewrite (exact_norm n gs ops HC); lra) Rc (e_small u M ops 0 Hu HM Hl)) as (m & r & Em & Er & Dr).
  exists r. split; [|exact Dr]. unfold fl_energy_sparse. rewrite Em. cbn [bind]. rewrite (np_state_run A N glob rng b n pos gs _ Hn Hb R1). exact Er.
Qed.
Lemma nb_sparse : forall c psum P u eta B M D w g dot n gs ops ham glob rng b pos, compiles c u eta B -> rounds_within P u eta B -> 1 / 10 ^ 16 <= u -> keeps P D -> sparse_ranges u eta B ham -> dots_within dot n w g B -> 0 <= w <= 1 ->
  3 <= M -> 128 * M <= B -> 1000 * u * M <= 1 -> (0 < n <= 64)%nat -> circuit_ops n gs ops -> Forall (angles_within M) gs -> expr_qubits ham = n -> Forall (fun t => separate_word n (t_ops t)) ham -> coefficients_in D ham ->
  eta / u * sqrt (2 ^ n) <= 1 / 10 -> 5000 * u * M * INR (List.length ops) <= 1 / 10 -> nb_cached c P n gs b ->
  exists r, fl_energy_sparse P dot (nb_state c psum P glob rng b n pos) gs ham = Ok r /\
    Rabs (r - Cre (expval n (expr_op ham) (apply_all ops (ket 0)))) <=
      total ham * (5 * (5000 * u * M * INR (List.length ops)) + 15 * INR (List.length ham) * u + 4 * w) + 400 * 2 ^ n * (INR (List.length ham) * INR (List.length ham) * eta) + g.
Proof.
  intros c psum A u eta B M D w g dot n gs ops ham glob rng b pos Hcm HA U16 HK HS HD Hw HM HB H1 Hn HC HW Hq Hs Hc Hg Hl Hb. pose proof HS as (Hu & He & _).
  replace (List.length ops) with (List.length ops + 0)%nat in * by lia.
  destruct (fn_linear_lemma c A u eta B M n gs ops Hcm HA U16 ltac:(lra) HM HB H1 (proj2 Hn) HC HW ltac:(lra) (linear_room u M ops 0 Hu HM Hl ops ltac:(lia))) as (phi & R1 & D2).
  pose proof (run_close u eta M n ops 0 Hu He HM Hg [] ops phi ltac:(auto) ltac:(lia)) as Rc. unfold bop in Rc. cbn [fold_left List.length INR] in Rc. rewrite dist_self in Rc. specialize (Rc ltac:(lra) D2).
  destruct (sparse_close A u eta B w g D n ham dot HA HK HS HD Hw Hq (proj1 Hn) Hs Hc phi (apply_all ops (ket 0)) _ ltac:(rewrite (exact_norm n gs ops HC); lra) Rc (e_small u M ops 0 Hu HM Hl)) as (m & r & Em & Er & Dr).
  exists r. split; [|exact Dr]. unfold fl_energy_sparse. rewrite Em. cbn [bind]. rewrite (nb_state_run c psum A glob rng b n pos gs _ (proj1 Hn) Hb R1). exact Er.
Qed.

(** ** Double precision *)
Lemma double_fix : forall over x, is_double x -> round_finite over 53 (-1074) 1023 x = x.
Proof.
  intros over x (m & e & Hm & Hl & Hx & E). unfold round_finite. destruct (Rle_dec (Rabs x) (powerRZ 2 1023)); [|contradiction]. rewrite E. apply above_fix; auto.
Qed.
Lemma is_double_int : forall z, (Z.abs z < 2 ^ 53)%Z -> is_double (IZR z).
Proof.
  intros z H. exists z, 0%Z. split; [auto|]. split; [lia|]. split; [|cbn [powerRZ]; ring]. rewrite <- abs_IZR. apply Rle_trans with (powerRZ 2 53); [|apply pz_le; lia].
  change 53%Z with (Z.of_nat 53). rewrite <- pow_powerRZ, pow_IZR. apply IZR_le. lia.
Qed.
Lemma is_double_opp : forall x, is_double x -> is_double (- x).
Proof. intros x (m & e & Hm & Hl & Hx & E). exists (- m)%Z, e. rewrite Z.abs_opp, Rabs_Ropp, opp_IZR. repeat (split; auto). rewrite E. ring. Qed.
Lemma double_keeps : forall over, keeps (double_arith over) is_double.
Proof.
  intros over. pose proof (is_double_int 0 ltac:(lia)) as Z0. pose proof (is_double_int 1 ltac:(lia)) as Z1. pose proof (double_fix over 0 Z0) as F0.
  constructor; auto using is_double_opp; intros x Hx; cbn [double_arith finite_arith f_add f_sub f_mul]; pose proof (double_fix over x Hx) as Fx; pose proof (double_fix over (- x) (is_double_opp x Hx)) as Fn.
  - rewrite Rplus_0_r, Rplus_0_l. auto.
  - rewrite Rminus_0_r. unfold Rminus. rewrite Rplus_0_l. auto.
  - rewrite Rmult_0_r, Rmult_0_l. auto.
  - rewrite Rmult_1_r, Rmult_1_l. auto.
  - replace (x * -1) with (- x) by ring. replace (-1 * x) with (- x) by ring. auto.
Qed.
Lemma sp_B : 10 ^ 16 <= powerRZ 2 500.
Proof. apply Rle_trans with (powerRZ 2 60); [|apply pz_le; lia]. simpl. lra. Qed.
Lemma sp_u : 0 < / 2 ^ 53 <= / 1000.
Proof. split; [exact dbl_u|]. rewrite pow53. lra. Qed.
Lemma sp_tiny : 2 ^ 70 * powerRZ 2 (-1075) <= / 2 ^ 1000.
Proof. rewrite !pow_powerRZ, <- powerRZ_neg', <- pz_add. apply pz_le. lia. Qed.
Section Double.
Variables (n : nat) (ops : list oper) (ham : expr).
Hypothesis Hn : (0 < n <= 20)%nat.
Hypothesis HL : (Z.of_nat (List.length ops) <= 10000)%Z.
Hypothesis HH : double_sparse n ham.
Lemma sp_ops : INR (List.length ops) <= 10000.
Proof. clear HH ham Hn. rewrite INR_IZR_INZ. apply IZR_le. lia. Qed.
Lemma sp_len : INR (List.length ham) <= 1000000.
Proof. destruct HH as (_ & _ & _ & L & _). clear Hn HL HH ops. rewrite INR_IZR_INZ. apply IZR_le. lia. Qed.
Lemma sp_len2 : 2 ^ n * (INR (List.length ham) * INR (List.length ham) * powerRZ 2 (-1075)) <= 2 ^ 60 * powerRZ 2 (-1075).
Proof. clear HL ops.
  pose proof sp_len as L. pose proof (pos_INR (List.length ham)) as P. pose proof (two20 n Hn) as W. pose proof (pz_pos (-1075)) as E.
  assert (0 <= 2 ^ n) by (apply pow_le; lra). assert (Q : INR (List.length ham) * INR (List.length ham) <= 1000000 * 1000000) by (apply Rmult_le_compat; lra).
  rewrite <- Rmult_assoc. apply Rmult_le_compat_r; [lra|]. apply Rle_trans with (1048576 * (1000000 * 1000000)).
  - apply Rmult_le_compat; auto. apply Rmult_le_pos; auto.
  - simpl. lra.
Qed.
Lemma sp_room : 5000 * / 2 ^ 53 * 7 * INR (List.length ops) <= 1 / 10.
Proof. clear HH ham Hn. pose proof sp_ops. rewrite pow53. lra. Qed.
Lemma sp_ranges : sparse_ranges (/ 2 ^ 53) (powerRZ 2 (-1075)) (powerRZ 2 500) ham.
Proof. clear HL ops.
  pose proof sp_len as L. pose proof sp_len2 as L2. destruct HH as (Q & _ & _ & _ & T). pose proof dbl_u. pose proof sp_B. pose proof dbl_eta. pose proof (two20 n Hn). pose proof (pz_pos (-1075)).
  refine (conj sp_u (conj dbl_eta (conj _ (conj _ _)))).
  - apply Rle_trans with (1000000 * / 2 ^ 53); [apply Rmult_le_compat_r; lra|]. rewrite pow53. lra.
  - rewrite Q. apply Rle_trans with (1 := L2). apply Rle_trans with (2 ^ 70 * powerRZ 2 (-1075)).
    + apply Rmult_le_compat_r; [lra|]. apply Rle_pow; [lra|lia].
    + apply Rle_trans with (1 := sp_tiny). apply Rinv_le_contravar; [lra|]. apply Rle_trans with (2 ^ 10); [simpl; lra|]. apply Rle_pow; [lra|lia].
  - lra.
Qed.
Lemma sp_dot : 0 <= (2 * 2 ^ n + 3) * / 2 ^ 53 <= 1.
Proof. clear HL HH ops ham.
  pose proof (two20 n Hn). assert (0 <= 2 ^ n) by (apply pow_le; lra). pose proof dbl_u. split; [apply Rmult_le_pos; lra|].
  apply Rle_trans with ((2 * 1048576 + 3) * / 2 ^ 53); [apply Rmult_le_compat_r; lra|]. rewrite pow53. lra.
Qed.
Lemma sp_bound : total ham * (5 * (5000 * / 2 ^ 53 * 7 * INR (List.length ops)) + 15 * INR (List.length ham) * / 2 ^ 53 + 4 * ((2 * 2 ^ n + 3) * / 2 ^ 53))
  + 400 * 2 ^ n * (INR (List.length ham) * INR (List.length ham) * powerRZ 2 (-1075)) + 11 * 2 ^ n * powerRZ 2 (-1075) <= total ham / 5000000 + / 2 ^ 1000.
Proof.
  pose proof dbl_u. pose proof (two20 n Hn). pose proof sp_ops. pose proof sp_len. pose proof sp_len2. pose proof sp_tiny. pose proof (pz_pos (-1075)).
  assert (S0 : 0 <= total ham) by (apply Rsum_nonneg; intros; apply n1_pos). rewrite Rplus_assoc. apply Rplus_le_compat.
  - unfold Rdiv. apply Rmult_le_compat_l; auto. rewrite pow53. lra.
  - apply Rle_trans with (2 ^ 70 * powerRZ 2 (-1075)); auto.
    assert (11 * 2 ^ n * powerRZ 2 (-1075) <= 11 * 1048576 * powerRZ 2 (-1075)) by (apply Rmult_le_compat_r; lra).
    replace (2 ^ 70) with (1024 * 2 ^ 60) by (simpl; lra). assert (11 * 1048576 * powerRZ 2 (-1075) <= 624 * 2 ^ 60 * powerRZ 2 (-1075)) by (apply Rmult_le_compat_r; [lra|simpl; lra]). lra.
Qed.
End Double.
Lemma double_np : forall over dot n gs ops ham norm glob rng b pos, dots_within dot n ((2 * 2 ^ n + 3) * / 2 ^ 53) (11 * 2 ^ n * powerRZ 2 (-1075)) (powerRZ 2 500) ->
  (0 < n <= 20)%nat -> circuit_ops n gs ops -> Forall (angles_within 7) gs -> (Z.of_nat (List.length ops) <= 10000)%Z -> double_sparse n ham -> let A := double_arith over in np_cached A n gs b ->
  exists r, fl_energy_sparse A dot (np_state A norm glob rng b n pos) gs ham = Ok r /\ Rabs (r - Cre (expval n (expr_op ham) (apply_all ops (ket 0)))) <= total ham / 5000000 + / 2 ^ 1000.
Proof.
  intros over dot n gs ops ham N glob rng b pos HD Hn HC HW HL HH A Hb. pose proof sp_B. pose proof HH as (Q & S & K & _).
  assert (HR : sparse_ranges (/ 2 ^ 53) (powerRZ 2 (-1075)) (powerRZ 2 500) ham) by (eapply sp_ranges; eauto). assert (HS : 0 <= (2 * 2 ^ n + 3) * / 2 ^ 53 <= 1) by (eapply sp_dot; eauto).
  assert (HT : 5000 * / 2 ^ 53 * 7 * INR (List.length ops) <= 1 / 10) by (eapply sp_room; eauto).
  destruct (np_sparse A (/ 2 ^ 53) (powerRZ 2 (-1075)) (powerRZ 2 500) 7 is_double _ _ dot n gs ops ham N glob rng b pos (double_rounds over) (double_keeps over) HR HD HS
    ltac:(lra) ltac:(lra) ltac:(rewrite pow53; lra) (proj1 Hn) HC HW Q S K (dbl_eta_gap n Hn) HT Hb) as (r & E & D).
  exists r. split; [exact E|]. apply Rle_trans with (1 := D). apply sp_bound; auto.
Qed.
Lemma double_nb : forall c psum over dot n gs ops ham glob rng b pos, compiles c (/ 2 ^ 53) (powerRZ 2 (-1075)) (powerRZ 2 500) -> dots_within dot n ((2 * 2 ^ n + 3) * / 2 ^ 53) (11 * 2 ^ n * powerRZ 2 (-1075)) (powerRZ 2 500) ->
  (0 < n <= 20)%nat -> circuit_ops n gs ops -> Forall (angles_within 7) gs -> (Z.of_nat (List.length ops) <= 10000)%Z -> double_sparse n ham -> let P := double_arith over in nb_cached c P n gs b ->
  exists r, fl_energy_sparse P dot (nb_state c psum P glob rng b n pos) gs ham = Ok r /\ Rabs (r - Cre (expval n (expr_op ham) (apply_all ops (ket 0)))) <= total ham / 5000000 + / 2 ^ 1000.
Proof.
  intros c psum over dot n gs ops ham glob rng b pos Hc HD Hn HC HW HL HH A Hb. pose proof sp_B. pose proof HH as (Q & S & K & _).
  assert (HR : sparse_ranges (/ 2 ^ 53) (powerRZ 2 (-1075)) (powerRZ 2 500) ham) by (eapply sp_ranges; eauto). assert (HS : 0 <= (2 * 2 ^ n + 3) * / 2 ^ 53 <= 1) by (eapply sp_dot; eauto).
  assert (HT : 5000 * / 2 ^ 53 * 7 * INR (List.length ops) <= 1 / 10) by (eapply sp_room; eauto).
  destruct (nb_sparse c psum A (/ 2 ^ 53) (powerRZ 2 (-1075)) (powerRZ 2 500) 7 is_double _ _ dot n gs ops ham glob rng b pos Hc (double_rounds over) ltac:(rewrite pow53; lra) (double_keeps over) HR HD HS
    ltac:(lra) ltac:(lra) ltac:(rewrite pow53; lra) ltac:(lia) HC HW Q S K (dbl_eta_gap n Hn) HT Hb) as (r & E & D).
  exists r. split; [exact E|]. apply Rle_trans with (1 := D). apply sp_bound; auto.
Qed.
Lemma sparse_case : circuit_ops 3 ex_gates ex_ops /\ Forall (angles_within 7) ex_gates /\ (Z.of_nat (List.length ex_ops) <= 10000)%Z /\ double_sparse 3 ex_ham /\ total ex_ham = 11 / 2 /\ expr_simplify (expr_simplify ex_ham) = expr_simplify ex_ham /\
  (forall over, dots_within (sequential_dot (double_arith over)) 3 ((2 * 2 ^ 3 + 3) * / 2 ^ 53) (11 * 2 ^ 3 * powerRZ 2 (-1075)) (powerRZ 2 500)).
Proof.
  destruct vqe_case as (H1 & H2 & H3 & (F & _) & _). refine (conj H1 (conj H2 (conj H3 _))).
  assert (T : total ex_ham = 11 / 2). { unfold total, ex_ham, Rsum, size. cbn. rewrite Rabs_R0, (Rabs_pos_eq (1 / 2)), (Rabs_left (-3)), (Rabs_pos_eq 2); lra. }
  assert (D0 : is_double 0) by (apply is_double_int; lia).
  assert (D5 : is_double (1 / 2)). { exists 1%Z, (-1)%Z. split; [lia|]. split; [lia|]. split; [|change (powerRZ 2 (-1)) with (/ (2 * 1)); lra]. rewrite Rabs_pos_eq by lra. apply Rle_trans with (powerRZ 2 0); [change (powerRZ 2 0) with 1; lra|apply pz_le; lia]. }
  refine (conj (conj _ (conj _ (conj _ (conj _ _)))) (conj T (conj (simplify_simplify _) _))).
  - reflexivity.
  - revert F. apply Forall_impl. intros t [X _]. exact X.
  - apply Forall_cons; [split; auto|]. apply Forall_cons; [split; auto; apply (is_double_int (-3)); lia|]. apply Forall_cons; [split; auto; apply (is_double_int 2); lia|]. apply Forall_nil.
  - cbn. lia.
  - rewrite T. lra.
  - intros over. pose proof sp_B. apply (dot_seq _ _ _ _ 3 (double_rounds over) sp_u dbl_eta); [rewrite pow53; lra|lra].
Qed.
