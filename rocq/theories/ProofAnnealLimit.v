(** Proofs: slow enough simulated annealing ends as Boltzmann's law of the last temperature *)
From Coq Require Import List Arith ZArith Bool Reals Lia Lra.
Import ListNotations.
From Verif Require Import Cplx Bits SpecQuantum SpecMeasure SpecLaw SpecWq SpecAnneal ProofLawStat ProofAnneal ProofAnnealConv ProofAnnealRun.
Local Open Scope R_scope.

Section Limit.
Variables (n : nat) (E : list bool -> R).
Hypothesis Hn : (0 < n)%nat.
Hypothesis Hv : exists b x, In b (values n) /\ (x < n)%nat /\ rise E b x <> 0.
Notation V := (values n).
Lemma near_boltzmann : forall l T eps, 0 < T -> 0 < eps -> exists k0, forall k, (k0 <= k)%nat -> forall c, In c V ->
  Rabs (answer_chance n E (proposal_temperatures k (l ++ [T])) c - boltzmann n E T c) < eps.
Proof.
  intros l T eps HT He. destruct (converges n E T Hn HT Hv (eps / 2)) as [k0 K]; [lra|]. exists k0. intros k Hk c Ic. specialize (K k Hk).
  assert (W : Rsum (fun _ : list bool => / 2 ^ n) V = 1).
  { rewrite Rsum_const, sum_values_len, pow_INR. replace (INR 2) with 2 by (simpl; lra). apply Rinv_r. apply pow_nonzero. lra. }
  assert (P2 : 0 < / 2 ^ n) by (apply Rinv_0_lt_compat, pow_lt; lra).
  replace (answer_chance n E (proposal_temperatures k (l ++ [T])) c - boltzmann n E T c) with
    (Rsum (fun b => / 2 ^ n * Rsum (fun d => moves n E (proposal_temperatures k l) b d * (moves n E (repeat T k) d c - boltzmann n E T c)) V) V).
  - apply Rle_lt_trans with (eps / 2); [|lra]. apply Rle_trans with (1 := Rsum_abs _ _ _).
    apply Rle_trans with (Rsum (fun _ => / 2 ^ n * (eps / 2)) V); [|rewrite Rsum_mul_r, W; lra].
    apply Rsum_below. intros b Ib. rewrite Rabs_mult, (Rabs_pos_eq (/ 2 ^ n)) by lra. apply Rmult_le_compat_l; [lra|].
    apply Rle_trans with (1 := Rsum_abs _ _ _). apply Rle_trans with (Rsum (fun d => moves n E (proposal_temperatures k l) b d * (eps / 2)) V).
    + apply Rsum_below. intros d Id. rewrite Rabs_mult. rewrite (Rabs_pos_eq (moves _ _ _ _ _)) by (apply moves_nonneg; auto). apply Rmult_le_compat_l; [apply moves_nonneg; auto|].
      left. apply K; auto.
    + rewrite Rsum_mul_r, moves_total by auto. lra.
  - set (B := boltzmann n E T c) in *. transitivity (Rsum (fun b => / 2 ^ n * moves n E (proposal_temperatures k (l ++ [T])) b c + / 2 ^ n * (- B)) V).
    + apply Rsum_ext. intros b Ib. unfold proposal_temperatures at 2. rewrite flat_map_app. cbn [flat_map]. rewrite app_nil_r. fold (proposal_temperatures k l). rewrite moves_app by auto.
      rewrite (Rsum_ext _ _ (fun d => moves n E (proposal_temperatures k l) b d * moves n E (repeat T k) d c + moves n E (proposal_temperatures k l) b d * (- B))) by (intros; ring).
      rewrite Rsum_add, Rsum_mul_r, moves_total by auto. ring.
    + rewrite Rsum_add, Rsum_mul_r, W. unfold answer_chance. ring.
Qed.
Lemma slow_ground : forall l T g m eps, 0 < T -> 0 < eps -> In m V -> exists k0, forall k, (k0 <= k)%nat ->
  Rsum (fun b => if Rle_dec (E m + g) (E b) then answer_chance n E (proposal_temperatures k (l ++ [T])) b else 0) V <= 2 ^ n * exp (- g / T) + eps.
Proof.
  intros l T g m eps HT He Im. assert (P2 : 0 < / 2 ^ n) by (apply Rinv_0_lt_compat, pow_lt; lra).
  destruct (near_boltzmann l T (eps * / 2 ^ n) HT) as [k0 K]; [apply Rmult_lt_0_compat; lra|]. exists k0. intros k Hk. specialize (K k Hk).
  apply Rle_trans with (Rsum (fun b => (if Rle_dec (E m + g) (E b) then boltzmann n E T b else 0) + eps * / 2 ^ n) V).
  - apply Rsum_below. intros b Ib. specialize (K b Ib). apply Rabs_def2 in K. destruct (Rle_dec _ _); [lra|]. assert (0 < eps * / 2 ^ n) by (apply Rmult_lt_0_compat; lra). lra.
  - rewrite Rsum_add, Rsum_const, sum_values_len, pow_INR. replace (INR 2) with 2 by (simpl; lra). pose proof (boltzmann_ground n E T g m HT Im) as G.
    replace (2 ^ n * (eps * / 2 ^ n)) with eps by (field; apply pow_nonzero; lra). lra.
Qed.
End Limit.

(** one temperature after the other *)
Lemma schedule_case : temperatures 3 1 (1 / 2) 3 = [3; 3 * (1 / 2)].
Proof.
  cbn [temperatures]. destruct (Rlt_dec 1 3); [|lra]. f_equal. destruct (Rlt_dec 1 (3 * (1 / 2))); [|lra]. f_equal. destruct (Rlt_dec 1 (3 * (1 / 2) * (1 / 2))); [lra|auto].
Qed.
(** one spin with the energies 0 and 1 *)
Definition one : nat -> nat -> R := fun _ _ => 1.
Lemma one_energy : forall s, objective 1 one (spin [s]) = if s then 1 else 0.
Proof. intros [|]; unfold objective, qubo_energy, total, one, upper_part, bit_of, spin; cbn; lra. Qed.
Lemma one_rise : forall s, rise (fun b => objective 1 one (spin b)) [s] 0 = if s then -1 else 1.
Proof. intros s. unfold rise. cbn [flip_spin]. rewrite !one_energy. destruct s; cbn; lra. Qed.
Lemma one_case : let E := fun b => objective 1 one (spin b) in
  (exists b x, In b (values 1) /\ (x < 1)%nat /\ rise E b x <> 0) /\
  runs 1 E [2; 2] (fun c => (c =? 0)%nat) (fun _ => 0%nat) (fun _ => 9 / 10) 2 0 0 0 [([true], [(0, true); (0, false)]%nat); ([false], [(0, false); (0, false)]%nat)] /\
  turn_box E [2; 2] [(0, true); (0, false)]%nat [true] = Some [(exp (- (1) / 2), 1)] /\
  answer_chance 1 E [2] [false] = 1 - / 2 * exp (- (1) / 2).
Proof.
  intros E. assert (X : exp (- (1) / 2) <= 9 / 10).
  { pose proof (exp_pos (- (1) / 2)) as Q. assert (Y : exp (- (1) / 2) * exp (1 / 2) = 1) by (rewrite <- exp_plus; replace (- (1) / 2 + 1 / 2) with 0 by lra; apply exp_0).
    assert (Z : 1 + 1 / 2 <= exp (1 / 2)) by (apply Rlt_le, exp_ineq1; lra). pose proof (Rmult_le_compat_l (exp (- (1) / 2)) _ _ (Rlt_le _ _ Q) Z). lra. }
  assert (BX : turn_box E [2; 2] [(0, true); (0, false)]%nat [true] = Some [(exp (- (1) / 2), 1)]).
  { cbn [turn_box flip_spin negb]. unfold E. rewrite !one_rise. destruct (Rlt_dec (-1) 0); [|lra]. destruct (Rlt_dec 1 0); [lra|]. reflexivity. }
  split; [exists [true], 0%nat; split; [cbn; auto|]; split; [lia|]; unfold E; rewrite one_rise; lra|]. split; [|split; [exact BX|]].
  - change [true] with (start_spins (fun c => (c =? 0)%nat) 1 0). eapply runs_shot; [reflexivity|exact BX| |].
    + intros [|i] H; cbn in H; [|lia]. cbn [nth fst snd]. lra.
    + cbn [List.length Nat.add]. change [false] with (start_spins (fun c => (c =? 0)%nat) 1 1).
      apply runs_shot with (ivs := [(exp (- (1) / 2), 1); (exp (- (1) / 2), 1)]); [reflexivity| | |constructor].
      * change (start_spins (fun c => (c =? 0)%nat) 1 1) with [false]. cbn [turn_box flip_spin negb]. unfold E. rewrite !one_rise. destruct (Rlt_dec 1 0); [lra|]. reflexivity.
      * intros [|[|i]] H; cbn in H; [| |lia]; cbn [nth fst snd]; lra.
  - unfold answer_chance. cbn [values map app Rsum pow moves]. unfold move. cbn [seq Rsum flip_spin negb INR]. unfold accept, E. rewrite !one_rise.
    rewrite !is_same, !is_other by discriminate. rewrite Rmin_right, Rmin_left; [| |lra].
    + replace (- (1) / 2) with (- (1) / 2) by lra. field.
    + rewrite <- exp_0. apply Rlt_le, exp_increasing. lra.
Qed.
Lemma constant_alternates : exists n E T, (0 < n)%nat /\ 0 < T /\
  ~ (forall eps, 0 < eps -> exists k0, forall k, (k0 <= k)%nat -> forall b c, In b (values n) -> In c (values n) -> Rabs (moves n E (repeat T k) b c - boltzmann n E T c) < eps).
Proof.
  exists 1%nat, (fun _ => 0), 1. split; [lia|]. split; [lra|]. intros H. destruct (H (1 / 2)) as [k0 K]; [lra|].
  assert (I : In [false] (values 1)) by (cbn; auto). pose proof (K (2 * k0)%nat ltac:(lia) _ _ I I) as A. pose proof (K (S (2 * k0)) ltac:(lia) _ _ I I) as D.
  rewrite alternates in A, D. rewrite Nat.even_succ, <- Nat.negb_even, Nat.even_mul in D. rewrite Nat.even_mul in A. cbn [Nat.even orb negb] in A, D.
  apply Rabs_def2 in A. apply Rabs_def2 in D. lra.
Qed.
