(** Proofs: energies without rounding and with double precision *)
From Coq Require Import String List Arith NArith ZArith Bool Reals Lia Lra Psatz.
Import ListNotations.
From Verif Require Import Base Cplx Bits ModelTargets ModelGate ModelNumpy ModelNumba ModelCircuit ModelPauli ModelVqe ModelFloat ModelFloatNumba ModelFloatMeasure ModelFloatNumbaMeasure ModelFloatRun ModelFloatVqe
  SpecTargets SpecQuantum SpecCircuit SpecMeasure SpecRun SpecAPI SpecPauli SpecVqe SpecFloat SpecFinite SpecFloatNumba SpecFloatRun SpecFloatVqe
  ProofWhole ProofPauli ProofArray ProofNumpy ProofRun ProofMeasure ProofCache ProofExamples ProofUnitary ProofPauliComm ProofEvolution ProofReach ProofVqe ProofVqeRun ProofFloat ProofFloatCoef ProofFloatTop ProofFinite ProofFiniteTop ProofFloatNumbaTop
  ProofFloatShots ProofFloatNbShots ProofFloatVqe ProofFloatVqeEnergy ProofFloatVqeRun.
Local Open Scope R_scope.

(** ** Without rounding *)
Lemma expect_exact : forall v meas, fl_expect exact_arith (fun x => x ^ 2) v meas = expect v meas.
Proof. reflexivity. Qed.
Lemma basis_exact : forall w, fl_basis_change exact_arith w = basis_change w.
Proof. reflexivity. Qed.
Lemma fl_measured_exact : forall d c val, fl_add_measured exact_arith d c val = add_measured d c val.
Proof. reflexivity. Qed.
Lemma ops_no_collapse : forall n gs ops, circuit_ops n gs ops -> Forall no_collapse gs.
Proof. induction 1 as [|g gs o os G C IH]; constructor; auto. destruct G; exact I. Qed.
Lemma fl_run_ops : forall n gs ops, circuit_ops n gs ops -> fl_run exact_arith gs n = Ok (arr n (apply_all ops (ket 0))).
Proof.
  intros n gs ops C. pose proof (exact_lemma (fun _ => 0) gs n 0%nat (ops_no_collapse n gs ops C)) as E. destruct (run_unitary_new (fun _ => 0) n gs ops 0%nat C) as [b R]. rewrite R in E. cbn [fst] in E.
  destruct (fl_run exact_arith gs n) as [v|]; [|discriminate]. congruence.
Qed.
Lemma terms_exact : forall n gs ops ham val, circuit_ops n gs ops -> Forall (fun t => separate_word n (t_ops t)) ham ->
  fl_energy_terms exact_arith (fun x => x ^ 2) (fun gs => fl_run exact_arith gs n) gs ham val = Ok (val + expval_y n ham (apply_all ops (ket 0)))%C.
Proof.
  intros n gs ops ham. induction ham as [|t ham IH]; intros val C F; cbn [fl_energy_terms expval_y]; [f_equal; ring|]. inversion F as [|? ? St F']; subst.
  destruct (basis_ops n (- (PI / 2)) (t_ops t) (proj2 St)) as [bops [Bo Be]]. rewrite <- basis_change_eq in Bo.
  rewrite basis_exact, (fl_run_ops n _ (ops ++ bops)) by (apply gates_app; auto). cbn [bind]. rewrite expect_exact, <- map_map.
  destruct (expect_distribution (arr n (apply_all (ops ++ bops) (ket 0))) (map snd (t_ops t))) as [d [Ed [Dd _]]]. rewrite Ed. cbn [bind]. rewrite fl_measured_exact, IH by auto. f_equal.
  rewrite add_measured_eq, (average _ _ _ parity Dd), diagonal_average, apply_app, Be, rotated_average by auto.
  rewrite sgn_coeff. set (a := expval n _ _). set (b := expval_y n ham _). set (k := sgn _). ring.
Qed.
Lemma energy_same : forall rng seen h c v ops ham, reachable rng seen h -> circuit_is h c v -> simulated rng h v ->
  circuit_ops (Z.to_nat (v_n v)) (v_gates v) ops -> Forall (fun t => separate_word (Z.to_nat (v_n v)) (t_ops t)) ham ->
  fst (get_energy rng h ham c (non_sampling_sampler rng)) = fl_energy exact_arith (fun x => x ^ 2) (fun gs => fl_run exact_arith gs (Z.to_nat (v_n v))) (v_gates v) ham.
Proof.
  intros rng seen h c v ops ham Re Ci Si Co F. destruct (get_energy_exact rng seen h c v ops ham Re Ci Si Co F) as (h' & E & _). rewrite E. cbn [fst].
  unfold fl_energy. rewrite (terms_exact _ _ ops) by auto. cbn [bind]. f_equal. f_equal. ring.
Qed.
Lemma exact_parts : (forall v meas, fl_expect exact_arith (fun x => x ^ 2) v meas = expect v meas) /\ (forall w, fl_basis_change exact_arith w = basis_change w) /\
  (forall d c val, fl_add_measured exact_arith d c val = add_measured d c val).
Proof. exact (conj expect_exact (conj basis_exact fl_measured_exact)). Qed.
Lemma copies_run : forall A N glob c psum P rng b b' n pos gs more q q', (0 < n)%nat ->
  (np_cached A n gs b -> fl_run A (gs ++ more) n = Ok q -> np_copy A N glob rng b n pos (gs ++ more) = Ok q) /\
  (nb_cached c P n gs b' -> fn_run c P (gs ++ more) n = Ok q' -> nb_copy c psum P glob rng b' n pos (gs ++ more) = Ok q').
Proof. intros. split; intros; [apply np_copy_run|apply nb_copy_run]; auto; [apply np_cached_more|apply nb_cached_more]; auto. Qed.

(** ** Double precision *)
Lemma mul_squares : forall A u eta B, rounds_within A u eta B -> 0 < u -> 0 <= eta -> 2 <= B -> squares_within (fun x => f_mul A x x) u eta.
Proof.
  intros A u eta B H U E B2 x X. pose proof (w_mul _ _ _ _ H x x ltac:(lra) ltac:(lra)) as M. rewrite (Rabs_pos_eq (x * x)) in M by nra. assert (0 <= u * (x * x)) by (apply Rmult_le_pos; nra). lra.
Qed.
Lemma separate_length : forall n w, separate_word n w -> (List.length w <= n)%nat.
Proof.
  intros n w [N F]. assert (X : (List.length (map snd w) <= List.length (seq 0 n))%nat).
  { apply NoDup_incl_length; auto. intros q I. apply in_map_iff in I as (o & <- & I). apply in_seq. specialize (F o I). lia. }
  rewrite map_length, seq_length in X. exact X.
Qed.
Lemma dbl_u : 0 < / 2 ^ 53. Proof. apply Rinv_0_lt_compat, pow_lt. lra. Qed.
Lemma dbl_eta : 0 <= powerRZ 2 (-1075) <= / 2 ^ 53 / 1000.
Proof.
  split; [left; apply pz_pos|]. apply Rle_trans with (powerRZ 2 (-100)); [apply pz_le; lia|]. change (-100)%Z with (- (100))%Z. rewrite powerRZ_neg'. change (powerRZ 2 100) with (2 ^ Pos.to_nat 100).
  replace (Pos.to_nat 100) with (53 + 47)%nat by reflexivity. rewrite pow_add, Rinv_mult. unfold Rdiv. apply Rmult_le_compat_l; [left; apply dbl_u|]. apply Rinv_le_contravar; [lra|]. simpl. lra.
Qed.
Lemma dbl_B : 10 ^ 14 <= powerRZ 2 500.
Proof. apply Rle_trans with (powerRZ 2 60); [|apply pz_le; lia]. simpl. lra. Qed.
Lemma dbl_tiny : 8 * 1000000 * powerRZ 2 (-1075) <= / 2 ^ 1000.
Proof.
  rewrite pow_powerRZ, <- powerRZ_neg'. apply Rle_trans with (powerRZ 2 23 * powerRZ 2 (-1075)).
  - apply Rmult_le_compat_r; [left; apply pz_pos|]. simpl. lra.
  - rewrite <- pz_add. apply pz_le. lia.
Qed.
Section Double.
Variables (n : nat) (ops : list oper) (ham : expr).
Hypothesis Hn : (0 < n <= 20)%nat.
Hypothesis HL : (Z.of_nat (List.length ops) <= 10000)%Z.
Hypothesis HH : double_ham n ham.
Lemma two20 : 2 ^ n <= 1048576.
Proof. clear HL HH ops ham. apply Rle_trans with (2 ^ 20); [apply Rle_pow; [lra|lia]|]. simpl. lra. Qed.
Lemma dbl_len : INR (List.length ops + n) <= 10020.
Proof. clear HH ham. rewrite INR_IZR_INZ. apply IZR_le. lia. Qed.
Lemma dbl_sums : sum_ranges (/ 2 ^ 53) (powerRZ 2 (-1075)) (powerRZ 2 500) n.
Proof. clear HL HH ops ham.
  pose proof dbl_u. pose proof dbl_B. pose proof two20. refine (conj (conj dbl_u _) (conj dbl_eta (conj _ _))); [rewrite pow53; lra|lra|].
  apply Rle_trans with (1048576 * / 2 ^ 53); [apply Rmult_le_compat_r; lra|]. rewrite pow53. lra.
Qed.
Lemma dbl_energy : energy_ranges (/ 2 ^ 53) (powerRZ 2 500) ham.
Proof. clear Hn HL ops.
  destruct HH as (F & K & S). pose proof dbl_u. pose proof dbl_B. refine (conj _ (conj _ _)).
  - apply Rle_trans with (1000000 * / 2 ^ 53); [apply Rmult_le_compat_r; lra|]. rewrite pow53. lra.
  - lra.
  - revert F. apply Forall_impl. intros t [_ X]. lra.
Qed.
Lemma dbl_words : Forall (fun t => separate_word n (t_ops t) /\ (List.length (t_ops t) <= n)%nat) ham.
Proof. clear Hn HL ops. destruct HH as (F & _). revert F. apply Forall_impl. intros t [X _]. split; auto. apply separate_length; auto. Qed.
Lemma dbl_room : 5000 * / 2 ^ 53 * 7 * INR (List.length ops + n) <= 1 / 10.
Proof. clear HH ham. pose proof dbl_len. rewrite pow53. lra. Qed.
Lemma dbl_eta_gap : powerRZ 2 (-1075) / / 2 ^ 53 * sqrt (2 ^ n) <= 1 / 10.
Proof. clear HL HH ops ham. pose proof (double_gap n ltac:(lia)). lra. Qed.
Lemma dbl_bound : strength ham * (3 * (5000 * / 2 ^ 53 * 7 * INR (List.length ops + n)) + (2 * 2 ^ n + 5 + 10 * all_outcomes ham) * / 2 ^ 53) + 8 * all_outcomes ham * powerRZ 2 (-1075) <= strength ham / 5000000 + / 2 ^ 1000.
Proof.
  destruct HH as (F & K & S). pose proof dbl_u. pose proof two20. pose proof dbl_len. pose proof dbl_tiny. pose proof (pz_pos (-1075)).
  assert (S0 : 0 <= strength ham) by (apply Rsum_nonneg; intros; apply Rabs_pos).
  apply Rplus_le_compat.
  - unfold Rdiv. apply Rmult_le_compat_l; auto. apply Rle_trans with (3 * (5000 * / 2 ^ 53 * 7 * 10020) + (2 * 1048576 + 5 + 10 * 1000000) * / 2 ^ 53).
    + apply Rplus_le_compat; [|apply Rmult_le_compat_r; lra]. apply Rmult_le_compat_l; [lra|]. apply Rmult_le_compat_l; [|lra]. lra.
    + rewrite pow53. lra.
  - apply Rle_trans with (8 * 1000000 * powerRZ 2 (-1075)); auto. apply Rmult_le_compat_r; lra.
Qed.
End Double.
Lemma double_energy : forall over n gs ops ham norm glob rng b pos, (0 < n <= 20)%nat -> circuit_ops n gs ops -> Forall (angles_within 7) gs -> (Z.of_nat (List.length ops) <= 10000)%Z -> double_ham n ham ->
  let A := double_arith over in np_cached A n gs b ->
  exists r, fl_energy A (fun x => f_mul A x x) (np_copy A norm glob rng b n pos) gs ham = Ok r /\ Rabs (r - Cre (expval_y n ham (apply_all ops (ket 0)))) <= strength ham / 5000000 + / 2 ^ 1000.
Proof.
  intros over n gs ops ham N glob rng b pos Hn HC HW HL HH A Hb. pose proof dbl_u. pose proof dbl_B. pose proof dbl_eta.
  destruct (np_energy A (/ 2 ^ 53) (powerRZ 2 (-1075)) (powerRZ 2 500) 7 (fun x => f_mul A x x) n gs ops ham n N glob rng b pos (double_rounds over) (dbl_sums n Hn)
    (mul_squares A _ _ _ (double_rounds over) dbl_u (proj1 dbl_eta) ltac:(lra)) (dbl_energy n ham HH) ltac:(lra) ltac:(lra) ltac:(rewrite pow53; lra) (proj1 Hn) HC HW (dbl_words n ham HH) (dbl_eta_gap n Hn)
    (dbl_room n ops Hn HL) Hb) as (r & E & D).
  exists r. split; [exact E|]. apply Rle_trans with (1 := D). apply dbl_bound; auto.
Qed.
Lemma double_energy_nb : forall c psum over n gs ops ham glob rng b pos, compiles c (/ 2 ^ 53) (powerRZ 2 (-1075)) (powerRZ 2 500) -> (0 < n <= 20)%nat -> circuit_ops n gs ops -> Forall (angles_within 7) gs ->
  (Z.of_nat (List.length ops) <= 10000)%Z -> double_ham n ham -> let P := double_arith over in nb_cached c P n gs b ->
  exists r, fl_energy P (fun x => f_mul P x x) (nb_copy c psum P glob rng b n pos) gs ham = Ok r /\ Rabs (r - Cre (expval_y n ham (apply_all ops (ket 0)))) <= strength ham / 5000000 + / 2 ^ 1000.
Proof.
  intros c psum over n gs ops ham glob rng b pos Hc Hn HC HW HL HH A Hb. pose proof dbl_u. pose proof dbl_B. pose proof dbl_eta.
  destruct (nb_energy c psum A (/ 2 ^ 53) (powerRZ 2 (-1075)) (powerRZ 2 500) 7 (fun x => f_mul A x x) n gs ops ham n glob rng b pos Hc (double_rounds over) ltac:(rewrite pow53; lra) (dbl_sums n Hn)
    (mul_squares A _ _ _ (double_rounds over) dbl_u (proj1 dbl_eta) ltac:(lra)) (dbl_energy n ham HH) ltac:(lra) ltac:(lra) ltac:(rewrite pow53; lra) ltac:(lia) HC HW (dbl_words n ham HH) (dbl_eta_gap n Hn)
    (dbl_room n ops Hn HL) Hb) as (r & E & D).
  exists r. split; [exact E|]. apply Rle_trans with (1 := D). apply dbl_bound; auto.
Qed.
Definition ex_ham : expr := [Term [(LX, 0%nat); (LY, 2%nat)] (RtoC (1 / 2)); Term [(LZ, 1%nat)] (RtoC (-3)); Term [] (RtoC 2)].
Lemma vqe_case : circuit_ops 3 ex_gates ex_ops /\ Forall (angles_within 7) ex_gates /\ (Z.of_nat (List.length ex_ops) <= 10000)%Z /\ double_ham 3 ex_ham /\ strength ex_ham = 11 / 2 /\ all_outcomes ex_ham = 7.
Proof.
  split; [exact ex_circuit|]. split; [apply finite_case|]. split; [cbn; lia|].
  assert (S : strength ex_ham = 11 / 2). { unfold strength, ex_ham, Rsum. cbn. rewrite (Rabs_pos_eq (1 / 2)), (Rabs_left (-3)), (Rabs_pos_eq 2); lra. }
  assert (K : all_outcomes ex_ham = 7) by (unfold all_outcomes, ex_ham, Rsum; cbn; lra).
  refine (conj (conj _ (conj _ _)) (conj S K)).
  - assert (Z : Rabs 0 <= 10 ^ 12) by (rewrite Rabs_R0; lra).
    repeat (apply Forall_cons; [|]); try apply Forall_nil; (split; [split|exact Z]); cbn [t_ops map snd].
    + repeat constructor; cbn; intuition discriminate.
    + intros o [<-|[<-|[]]]; cbn; lia.
    + repeat constructor. intros [].
    + intros o [<-|[]]; cbn; lia.
    + constructor.
    + intros o [].
  - rewrite K. lra.
  - rewrite S. lra.
Qed.

(** ** A probability that underflows is left out *)
Lemma tiny_square : forall over x, 0 <= x <= powerRZ 2 (-600) -> round_finite over 53 (-1074) 1023 (x * x) = 0.
Proof.
  intros over x [X0 X1]. unfold round_finite. assert (Q : x * x <= powerRZ 2 (-1200)). { change (-1200)%Z with (-600 + -600)%Z. rewrite pz_add. pose proof (pz_pos (-600)). nra. }
  assert (Q0 : 0 <= x * x) by nra. rewrite Rabs_pos_eq by auto. destruct (Rle_dec (x * x) (powerRZ 2 1023)) as [_|N].
  - destruct (Req_EM_T (x * x) 0) as [->|Nz]; [unfold round_above; destruct (Req_EM_T 0 0); [reflexivity|congruence]|]. apply tiny_zero; [lra| |lia].
    apply Rle_lt_trans with (1 := Q). rewrite !powerRZ_Rpower by lra. apply Rpower_lt; [lra|]. apply IZR_lt. lia.
  - exfalso. apply N. apply Rle_trans with (1 := Q). apply pz_le. lia.
Qed.
Lemma underflow : forall over, let A := double_arith over in exists v d, List.length v = 2%nat /\ Rsum Cnorm2 v = 1 /\ marginal v [0%nat] [1%nat] <> 0 /\
  fl_expect A (fun x => f_mul A x x) v [0%Z] = Ok d /\ forall p, ~ In ([1%nat], p) d.
Proof.
  intros over A. set (x := powerRZ 2 (-600)). assert (X : 0 < x) by apply pz_pos. assert (X1 : x <= 1) by (change 1 with (powerRZ 2 0); apply pz_le; lia).
  set (y := sqrt (1 - x * x)). assert (Y : y * y = 1 - x * x) by (apply sqrt_sqrt; nra).
  set (v := [RtoC y; RtoC x]). assert (Zm : f_mul A 0 0 = 0). { cbn [A double_arith finite_arith f_mul]. apply tiny_square. pose proof (pz_pos (-600)). lra. }
  assert (Xm : f_mul A x x = 0) by (apply tiny_square; unfold x in *; lra). assert (Za : f_add A 0 0 = 0). { cbn [A double_arith finite_arith f_add]. replace (0 + 0) with (0 * 0) by ring. apply tiny_square. pose proof (pz_pos (-600)). lra. }
  unfold fl_expect. cbn [existsb]. change (0 <? 0)%Z with false. cbn [orb map]. change (Z.to_nat 0) with 0%nat. set (cnt := fl_count_probs A (fun x => f_mul A x x) v (meas_mask [0%nat])).
  exists v, (fold_left (fun d kv => dset key_eqb d (to_key [0%nat] (fst kv)) (snd kv)) cnt []). split; [reflexivity|]. split.
  { unfold v, Cnorm2, RtoC, Rsum. cbn [fst snd fold_right map]. lra. }
  split. { unfold marginal, v, Rsum. cbn [List.length seq fold_right map nth]. change (readout [0%nat] 0) with [0%nat]. change (readout [0%nat] 1) with [1%nat]. unfold Cnorm2, RtoC. cbn [fst snd]. destruct (list_eq_dec Nat.eq_dec [0%nat] [1%nat]); [discriminate|]. destruct (list_eq_dec Nat.eq_dec [1%nat] [1%nat]); [|congruence]. nra. }
  split; [reflexivity|]. intros p I.
  assert (E : cnt = [] \/ exists q, cnt = [(0%nat, q)]).
  { unfold cnt, fl_count_probs, v. cbn [List.length seq combine fold_left fst snd]. unfold RtoC, Cre, Cim. cbn [fst snd]. rewrite Xm, Zm, Za. 
    assert (R0 : Reqb 0 0 = true) by (unfold Reqb; destruct (Req_EM_T 0 0); congruence). rewrite R0. destruct (Reqb (f_add A (f_mul A y y) 0) 0); [left; reflexivity|right; eexists; reflexivity]. }
  destruct E as [->|[q ->]]; cbn in I; [exact I|]. destruct I as [I|[]]. discriminate.
Qed.
