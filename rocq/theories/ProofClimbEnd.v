(** Proofs: the whole way from the uniform state to minimal cost, and the angles of the rounds as parameters of QAOA *)
From Coq Require Import List Arith ZArith Bool Reals Lia Lra FunctionalExtensionality.
Import ListNotations.
From Verif Require Import Base Cplx Bits SpecQuantum SpecWq ModelPauli SpecPauli SpecVqe SpecVqeLoop SpecDemo ProofDagger ProofGap ProofPerron ProofClimb ProofClimbQaoa.
From Verif Require ProofFloat ProofAnneal ProofAnnealConv ProofDemo ProofUnitary ProofQasmOps ProofPauli.
Local Open Scope R_scope.

(** ** The uniform state *)
Lemma low_half : forall j x, (x < 2 ^ S j)%nat -> (setb x j false < 2 ^ j)%nat.
Proof.
  intros j x X. set (y := setb x j false). assert (Y : (y < 2 ^ S j)%nat) by (apply setb_lt; [lia|exact X]).
  destruct (lt_dec y (2 ^ j)) as [L|L]; [exact L|exfalso]. assert (E : y = (2 ^ j + (y - 2 ^ j))%nat) by lia.
  assert (Z : (y - 2 ^ j < 2 ^ j)%nat) by (replace (2 ^ S j)%nat with (2 ^ j + 2 ^ j)%nat in Y by (cbn [Nat.pow]; lia); lia). rewrite (high_flip j _ Z) in E.
  assert (B : bit y j = false) by (unfold y; rewrite testbit_setb, Nat.eqb_refl; reflexivity).
  rewrite E, testbit_flip, Nat.eqb_refl, (bit_high j _ Z) in B. discriminate.
Qed.
Lemma plus_steps : forall j, (forall x, (x < 2 ^ j)%nat -> everywhere j mH (ket 0) x = RtoC ((/ sqrt 2) ^ j)) /\ forall x b, (j <= b)%nat -> bit x b = true -> everywhere j mH (ket 0) x = C0.
Proof.
  induction j as [|j (IH1 & IH2)].
  - split.
    + intros x X. cbn in X. assert (x = 0)%nat by lia. subst x. reflexivity.
    + intros x b _ B. unfold everywhere, ket. cbn. destruct (Nat.eqb_spec x 0) as [-> | N]; [unfold bit in B; rewrite Nat.bits_0 in B; discriminate|reflexivity].
  - assert (E : forall x, everywhere (S j) mH (ket 0) x = ap1 mH j (everywhere j mH (ket 0)) x) by (intros x; unfold everywhere; rewrite seq_S, fold_left_app; reflexivity).
    split.
    + intros x X. rewrite E. unfold ap1. rewrite (IH2 (setb x j true) j (Nat.le_refl j)) by (rewrite testbit_setb, Nat.eqb_refl; reflexivity). rewrite (IH1 (setb x j false)) by (apply low_half; exact X).
      unfold mH, mscale, mk2. cbn [pow]. generalize ((/ sqrt 2) ^ j), (/ sqrt 2). intros a b. destruct (bit x j); unfold RtoC; ceq.
    + intros x b B Hb. rewrite E. unfold ap1. assert (N : forall t, bit (setb x j t) b = true) by (intros t; rewrite testbit_setb; destruct (Nat.eqb_spec j b); [lia|exact Hb]).
      rewrite !(IH2 _ b) by (try apply N; lia). ring.
Qed.
Lemma root_square : forall n, (/ sqrt 2) ^ n * (/ sqrt 2) ^ n = / 2 ^ n.
Proof. intros n. rewrite <- Rpow_mult_distr. rewrite <- Rinv_mult. rewrite sqrt_sqrt by lra. apply pow_inv. Qed.

Section Way.
Variables (e0 : expr) (d : nat -> R).
Hypothesis HD : same_op (expr_op e0) (diag_op d).
Let e := expr_simplify e0.
Let n := expr_qubits e.
Let plus := everywhere n mH (ket 0).
Let v0 : nat -> R := fun _ => (/ sqrt 2) ^ n.
Lemma v0_unit : ip n v0 v0 = 1.
Proof. unfold ip, v0. rewrite count_const, root_square. apply Rinv_r. apply pow_nonzero. lra. Qed.
Lemma v0_top : forall f m, m <= (/ sqrt 2) ^ n -> top n f 0 m (INR n) v0.
Proof.
  intros f m M. split; [exact v0_unit|]. split; [intros; exact M|]. intros x _. unfold hop, v0. rewrite ProofAnneal.Rsum_const, seq_length. ring.
Qed.
Lemma v0_low : forall w, 1 <= w -> low n w <= (/ sqrt 2) ^ n.
Proof.
  intros w W. set (a := (/ sqrt 2) ^ n). assert (P2 : 1 <= 2 ^ n) by (apply pow_R1_Rle; lra). assert (Pw : 1 <= w ^ n) by (apply pow_R1_Rle; exact W).
  assert (A : a * a = / 2 ^ n) by apply root_square. assert (A0 : 0 < a) by (apply pow_lt, Rinv_0_lt_compat, sqrt_lt_R0; lra).
  assert (A1 : a <= 1). { destruct (Rle_dec a 1) as [L|L]; [exact L|]. assert (1 * 1 < a * a) by (apply Rmult_le_0_lt_compat; lra). assert (/ 2 ^ n <= / 1) by (apply Rinv_le_contravar; lra). rewrite Rinv_1 in *. lra. }
  apply Rle_trans with (/ 2 ^ n).
  - unfold low. apply Rinv_le_contravar; [lra|]. rewrite <- (Rmult_1_r (2 ^ n)) at 1. apply Rmult_le_compat_l; lra.
  - rewrite <- A. rewrite <- (Rmult_1_r a) at 3. apply Rmult_le_compat_l; lra.
Qed.
Lemma plus_ov2 : ov2 n v0 plus = 1.
Proof.
  unfold ov2. rewrite (ip_ext n v0 (re plus) v0 v0), (ip_ext n v0 (im plus) v0 (fun _ => 0)); try reflexivity.
  - rewrite v0_unit. replace (ip n v0 (fun _ => 0)) with 0 by (symmetry; apply Rsum_0; intros; ring). ring.
  - intros x X. unfold im, plus. rewrite (proj1 (plus_steps n) x X). reflexivity.
  - intros x X. unfold re, plus. rewrite (proj1 (plus_steps n) x X). reflexivity.
Qed.
Lemma plus_norm : norm2 n plus = 1.
Proof. unfold plus. rewrite everywhere_norm by apply ProofUnitary.mu_h. apply ProofUnitary.norm2_ket. pose proof (Nat.pow_nonzero 2 n). lia. Qed.
Lemma rounds_norm : forall bgs psi, norm2 n (rounds e0 bgs psi) = norm2 n psi.
Proof. induction bgs as [|bg bgs IH]; intros psi; [reflexivity|]. unfold rounds in *. cbn [fold_left]. rewrite IH. apply (round_norm e0 d HD). Qed.
Lemma ov2_one : forall v psi, ip n v v = 1 -> norm2 n psi = 1 -> ov2 n v psi <= 1.
Proof. intros v psi U N. unfold ov2. rewrite norm_parts in N. pose proof (ip_cs n v (re psi)). pose proof (ip_cs n v (im psi)). rewrite U in *. lra. Qed.

Section Path.
Variables (c D S : R) (N : nat) (eta : R).
Let dc := fun x => d x - c.
Let w := 1 + 2 * (S * D).
Let m := low n w.
Let dl := S / INR N.
Let cost (v : nat -> R) := ip n v (fun x => dc x * v x).
Hypothesis HDb : forall x, (x < 2 ^ n)%nat -> Rabs (dc x) <= D.
Hypothesis HDp : 0 < D.
Hypothesis HS : 0 < S.
Hypothesis HN : (0 < N)%nat.
Hypothesis He : 0 < eta.
Hypothesis Hstage : forall s m mu v u psi eta, 0 < m -> top n dc s m mu v -> ip n u u = 1 -> norm2 n psi = 1 -> 0 < eta ->
  exists bgs, ip n u v * ip n u v * ov2 n v psi - eta <= ov2 n u (rounds e0 bgs psi).
Lemma w1 : 1 <= w.
Proof. unfold w. assert (0 < S * D) by (apply Rmult_lt_0_compat; assumption). lra. Qed.
Lemma mp : 0 < m.
Proof. unfold m, low. pose proof w1. apply Rinv_0_lt_compat, Rmult_lt_0_compat; apply pow_lt; lra. Qed.
Lemma dlp : 0 < dl.
Proof. apply Rdiv_lt_0_compat; [exact HS|]. apply lt_0_INR. exact HN. Qed.
Lemma exists_top : forall s, 0 <= s <= S -> exists mu v, top n dc s m mu v.
Proof.
  intros s Hs. apply (top_exists n dc s (1 + S * D) w). intros x X. pose proof (HDb x X) as B. assert (Q : Rabs (s * dc x) <= S * D) by (rewrite Rabs_mult, (Rabs_pos_eq s) by lra; apply Rmult_le_compat; try apply Rabs_pos; lra).
  pose proof (Rle_abs (s * dc x)). pose proof (Rle_abs (- (s * dc x))) as Q2. rewrite Rabs_Ropp in Q2. unfold w. lra.
Qed.
Lemma climb : forall k, (k <= N)%nat -> exists mu v bgs, top n dc (INR k * dl) m mu v /\ 1 - dl / gap n m * (cost v0 - cost v) - INR k * eta <= ov2 n v (rounds e0 bgs plus).
Proof.
  pose proof mp as M. pose proof dlp as Dp. pose proof (gap_pos n m M) as G. induction k as [|k IH]; intros K.
  - exists (INR n), v0, []. split; [cbn [INR]; rewrite Rmult_0_l; apply v0_top; apply v0_low; exact w1|]. unfold rounds. cbn [fold_left INR]. rewrite plus_ov2. lra.
  - destruct (IH ltac:(lia)) as (mu & v & bgs & T & O). assert (NP : 0 < INR N) by (apply lt_0_INR; exact HN).
    destruct (exists_top (INR (Datatypes.S k) * dl)) as (mu' & v' & T').
    { split; [apply Rmult_le_pos; [apply pos_INR|lra]|]. assert (Q : INR (Datatypes.S k) <= INR N) by (apply le_INR; exact K). apply Rle_trans with (INR N * dl); [apply Rmult_le_compat_r; lra|right; unfold dl; field; lra]. }
    pose proof (top_overlap n dc _ _ m mu mu' v v' M T T') as Ov.
    destruct (Hstage _ m mu v v' (rounds e0 bgs plus) eta M T (proj1 T') ltac:(rewrite rounds_norm; exact plus_norm) He) as (bgs' & St).
    exists mu', v', (bgs ++ bgs'). split; [exact T'|]. replace (rounds e0 (bgs ++ bgs') plus) with (rounds e0 bgs' (rounds e0 bgs plus)) by (unfold rounds; rewrite fold_left_app; reflexivity).
    apply Rle_trans with (2 := St). rewrite S_INR. rewrite (ip_sym n v' v). set (o := ip n v v') in *. set (q := ov2 n v (rounds e0 bgs plus)) in *.
    assert (Q1 : q <= 1) by (apply ov2_one; [exact (proj1 T)|rewrite rounds_norm; exact plus_norm]).
    assert (O1 : o * o <= 1) by (pose proof (ip_cs n v v') as Q; rewrite (proj1 T), (proj1 T') in Q; fold o in Q; lra).
    assert (AB : 0 <= (1 - o * o) * (1 - q)) by (apply Rmult_le_pos; lra).
    rewrite S_INR in Ov. replace ((INR k + 1) * dl - INR k * dl) with dl in Ov by ring. fold (cost v) (cost v') in Ov.
    assert (A1 : 1 - o * o <= dl / gap n m * (cost v - cost v')).
    { apply Rmult_le_reg_l with (gap n m); [exact G|]. replace (gap n m * (dl / gap n m * (cost v - cost v'))) with (dl * (cost v - cost v')) by (field; lra). exact Ov. }
    assert (dl / gap n m * (cost v0 - cost v') = dl / gap n m * (cost v0 - cost v) + dl / gap n m * (cost v - cost v')) by ring.
    lra.
Qed.
Lemma cost_bound : forall v, ip n v v = 1 -> Rabs (cost v) <= D.
Proof.
  intros v U. unfold cost. apply Rle_trans with (1 := ProofAnnealConv.Rsum_abs _ _ _). rewrite <- (Rmult_1_r D), <- U. unfold ip. rewrite <- Rsum_mul_l. apply Rsum_mono. intros x I. apply in_seq in I.
  replace (v x * (dc x * v x)) with (dc x * (v x * v x)) by ring. rewrite Rabs_mult, (Rabs_pos_eq (v x * v x)) by apply Rle_0_sqr. apply Rmult_le_compat_r; [apply Rle_0_sqr|]. apply HDb. lia.
Qed.
(** the cost at the end of the way *)
Lemma cost_end : forall mu v x, top n dc S m mu v -> (x < 2 ^ n)%nat -> cost v <= dc x + INR n / S.
Proof.
  intros mu v x T X. pose proof mp as M. set (f := fun y => if (y =? x)%nat then 1 else 0).
  assert (F1 : forall g, ip n f g = g x).
  { intros g. unfold ip. rewrite (Rsum_single (fun y => f y * g y) (seq 0 (2 ^ n)) x); [unfold f; rewrite Nat.eqb_refl; ring|apply seq_NoDup|apply in_seq; lia|].
    intros y _ Ny. unfold f. destruct (Nat.eqb_spec y x); [contradiction|ring]. }
  pose proof (top_most n dc S m mu v f M T) as H1. rewrite !F1 in H1. unfold hop in H1. assert (f x = 1) as Fx by (unfold f; rewrite Nat.eqb_refl; reflexivity). rewrite Fx in H1.
  assert (0 <= Rsum (fun q => f (flip x q)) (seq 0 n)) by (apply Rsum_nonneg; intros q _; unfold f; destruct (_ =? _)%nat; lra).
  pose proof (top_value n dc S m mu v T) as H2. rewrite (hop_change n dc S 0 v v) in H2. fold (cost v) in H2.
  pose proof (top_most n dc 0 m (INR n) v0 v M (v0_top dc m (v0_low w w1))) as H3. rewrite (proj1 T) in H3.
  apply Rmult_le_reg_l with S; [exact HS|]. replace (S * (dc x + INR n / S)) with (S * dc x + INR n) by (field; lra). lra.
Qed.
Lemma energy_split : forall f v t, 0 < t -> ip n v v = 1 ->
  Rsum (fun x => (dc x + D) * (f x * f x)) (seq 0 (2 ^ n)) <= (1 + t) * (ip n v f * ip n v f) * (cost v + D) + (1 + / t) * (2 * D) * (ip n f f - ip n v f * ip n v f).
Proof.
  intros f v t Ht U. set (a := ip n v f). set (r := fun x => 1 * f x + (- a) * v x).
  assert (Nr : ip n r r = ip n f f - a * a).
  { unfold r. rewrite ip_add, (ip_scl n _ 1 f), (ip_scl n _ (- a) v), (ip_sym n _ f), (ip_sym n _ v), !ip_add, !ip_scl, U, (ip_sym n f v). fold a. ring. }
  replace (cost v + D) with (Rsum (fun x => (dc x + D) * (v x * v x)) (seq 0 (2 ^ n))).
  2: { assert (E : cost v + D = cost v + D * ip n v v) by (rewrite U; ring). rewrite E. unfold cost, ip. rewrite <- Rsum_mul_l, <- Rsum_add. apply Rsum_ext. intros; ring. }
  rewrite <- Nr. unfold ip. rewrite <- !Rsum_mul_l, <- Rsum_add. apply Rsum_mono. intros x I. apply in_seq in I. pose proof (HDb x ltac:(lia)) as B. pose proof (Rle_abs (dc x)). pose proof (Rle_abs (- dc x)) as B2. rewrite Rabs_Ropp in B2.
  assert (Sq : f x * f x <= (1 + t) * (a * a * (v x * v x)) + (1 + / t) * (r x * r x)).
  { replace (f x) with (a * v x + r x) by (unfold r; ring). replace (a * a * (v x * v x)) with ((a * v x) * (a * v x)) by ring. generalize (a * v x), (r x). intros p z.
    assert (Q : 0 <= / t * ((t * p - z) * (t * p - z))) by (apply Rmult_le_pos; [left; apply Rinv_0_lt_compat; exact Ht|apply Rle_0_sqr]).
    replace (/ t * ((t * p - z) * (t * p - z))) with (t * (p * p) + / t * (z * z) - 2 * (p * z)) in Q by (field; lra). lra. }
  assert (It : 0 < / t) by (apply Rinv_0_lt_compat; exact Ht).
  assert (A1 : (dc x + D) * (f x * f x) <= (dc x + D) * ((1 + t) * (a * a * (v x * v x)) + (1 + / t) * (r x * r x))) by (apply Rmult_le_compat_l; lra).
  assert (A2 : (dc x + D) * ((1 + / t) * (r x * r x)) <= 2 * D * ((1 + / t) * (r x * r x))) by (apply Rmult_le_compat_r; [apply Rmult_le_pos; [lra|apply Rle_0_sqr]|lra]).
  lra.
Qed.
Lemma energy_near : forall psi v t q, 0 < t -> ip n v v = 1 -> norm2 n psi = 1 -> 1 - q <= ov2 n v psi -> mean_value n dc psi + D <= (1 + t) * (cost v + D) + (1 + / t) * (2 * D) * q.
Proof.
  intros psi v t q Ht U Np Hq. pose proof (energy_split (re psi) v t Ht U) as E1. pose proof (energy_split (im psi) v t Ht U) as E2. pose proof (ov2_one v psi U Np) as O1. unfold ov2 in *.
  set (a := ip n v (re psi) * ip n v (re psi)) in *. set (b := ip n v (im psi) * ip n v (im psi)) in *. rewrite norm_parts in Np.
  assert (Ev : mean_value n dc psi + D = Rsum (fun x => (dc x + D) * (re psi x * re psi x)) (seq 0 (2 ^ n)) + Rsum (fun x => (dc x + D) * (im psi x * im psi x)) (seq 0 (2 ^ n))).
  { rewrite <- Rsum_add. rewrite <- (Rmult_1_r D) at 1. rewrite <- Np. unfold mean_value, ip. rewrite <- Rsum_add, <- Rsum_mul_l, <- Rsum_add. apply Rsum_ext. intros x _. unfold re, im, Cnorm2, Cre, Cim. destruct (psi x). cbn. ring. }
  rewrite Ev. pose proof (cost_bound v U) as Cb. pose proof (Rle_abs (- cost v)) as Cb2. rewrite Rabs_Ropp in Cb2. assert (It : 0 < / t) by (apply Rinv_0_lt_compat; exact Ht).
  assert (A1 : (1 + t) * (cost v + D) * (a + b) <= (1 + t) * (cost v + D) * 1) by (apply Rmult_le_compat_l; [apply Rmult_le_pos; lra|lra]).
  assert (A2 : (1 + / t) * (2 * D) * (1 - (a + b)) <= (1 + / t) * (2 * D) * q) by (apply Rmult_le_compat_l; [apply Rmult_le_pos; lra|lra]).
  replace (1 - (a + b)) with ((ip n (re psi) (re psi) - a) + (ip n (im psi) (im psi) - b)) in A2 by lra. lra.
Qed.
End Path.
Lemma mean_shift : forall c psi, norm2 n psi = 1 -> mean_value n d psi = mean_value n (fun x => d x - c) psi + c.
Proof. intros c psi Np. transitivity (mean_value n (fun x => d x - c) psi + c * norm2 n psi); [|rewrite Np; ring]. unfold mean_value, norm2. rewrite <- Rsum_mul_l, <- Rsum_add. apply Rsum_ext. intros. ring. Qed.
Lemma reach_rounds : forall eps, 0 < eps -> exists bgs, forall x, (x < 2 ^ n)%nat -> mean_value n d (rounds e0 bgs plus) <= d x + eps.
Proof.
  intros eps Heps. destruct (stage e0 d HD) as (c & Hst). set (D := 1 + Rsum (fun x => Rabs (d x - c)) (seq 0 (2 ^ n))).
  assert (D0 : 0 <= Rsum (fun x => Rabs (d x - c)) (seq 0 (2 ^ n))) by (apply Rsum_nonneg; intros; apply Rabs_pos).
  assert (Db : forall x, (x < 2 ^ n)%nat -> Rabs (d x - c) <= D).
  { intros x X. pose proof (Rsum_one_le _ (fun x => Rabs (d x - c)) (seq 0 (2 ^ n)) x ltac:(intros; apply Rabs_pos) ltac:(apply in_seq; lia)) as Q. unfold D. cbn beta in Q. lra. }
  assert (Dp : 0 < D) by (unfold D; lra). pose proof (pos_INR n) as Pn.
  set (Sx := 4 * (INR n + 1) / eps). assert (Sp : 0 < Sx) by (apply Rdiv_lt_0_compat; lra).
  set (t := eps / (eps + 8 * D)). assert (Tp : 0 < t) by (apply Rdiv_lt_0_compat; lra). assert (It : 0 < / t) by (apply Rinv_0_lt_compat; exact Tp).
  assert (T1 : t * (eps + 8 * D) = eps) by (unfold t; field; lra).
  assert (T2 : t <= 1). { apply Rmult_le_reg_r with (eps + 8 * D); [lra|]. lra. }
  set (q := eps / (16 * D * (1 + / t))). assert (Qd : 0 < 16 * D * (1 + / t)) by (apply Rmult_lt_0_compat; lra). assert (Qp : 0 < q) by (apply Rdiv_lt_0_compat; assumption).
  assert (Q1 : (1 + / t) * (2 * D) * q = eps / 8). { unfold q. field. repeat split; lra. }
  set (w := 1 + 2 * (Sx * D)). assert (W1 : 1 <= w) by (unfold w; assert (0 < Sx * D) by (apply Rmult_lt_0_compat; assumption); lra).
  set (m := low n w). assert (M : 0 < m) by (unfold m, low; apply Rinv_0_lt_compat, Rmult_lt_0_compat; apply pow_lt; lra). pose proof (gap_pos n m M) as G.
  destruct (archimed (4 * Sx * D / (gap n m * q))) as (Ar & _). set (N := Z.to_nat (up (4 * Sx * D / (gap n m * q)))). 
  assert (Rp : 0 < 4 * Sx * D / (gap n m * q)) by (apply Rdiv_lt_0_compat; [apply Rmult_lt_0_compat; lra|apply Rmult_lt_0_compat; assumption]).
  assert (Up : (0 < up (4 * Sx * D / (gap n m * q)))%Z) by (apply lt_IZR; lra).
  assert (NI : INR N = IZR (up (4 * Sx * D / (gap n m * q)))) by (unfold N; rewrite INR_IZR_INZ, Z2Nat.id by lia; reflexivity).
  assert (HN : (0 < N)%nat) by (unfold N; lia). assert (NP : 0 < INR N) by (apply lt_0_INR; exact HN).
  set (eta := q / (2 * INR N)). assert (He : 0 < eta) by (apply Rdiv_lt_0_compat; lra).
  destruct (climb c D Sx N eta Db Dp Sp HN He Hst N (Nat.le_refl N)) as (mu & v & bgs & T & O). fold w in T, O. fold m in T, O.
  replace (INR N * (Sx / INR N)) with Sx in T by (field; lra). exists bgs. intros x X.
  set (cost := fun v : nat -> R => ip n v (fun x => (d x - c) * v x)) in *.
  assert (Cb : forall v, ip n v v = 1 -> Rabs (cost v) <= D) by (intros u Uu; apply (cost_bound c D N Db HN u Uu)).
  assert (O2 : 1 - q <= ov2 n v (rounds e0 bgs plus)).
  { apply Rle_trans with (2 := O). assert (A1 : Sx / INR N / gap n m * (cost v0 - cost v) <= q / 2).
    { pose proof (Cb v0 v0_unit) as C0'. pose proof (Cb v (proj1 T)) as C1'. pose proof (Rle_abs (cost v0)). pose proof (Rle_abs (- cost v)) as C2'. rewrite Rabs_Ropp in C2'.
      apply Rle_trans with (Sx / INR N / gap n m * (2 * D)); [apply Rmult_le_compat_l; [left; apply Rdiv_lt_0_compat; [apply Rdiv_lt_0_compat; assumption|exact G]|lra]|].
      apply Rmult_le_reg_r with (INR N); [exact NP|]. replace (Sx / INR N / gap n m * (2 * D) * INR N) with (4 * Sx * D / (gap n m * q) * (q / 2)) by (field; repeat split; lra).
      rewrite (Rmult_comm (q / 2)). apply Rmult_le_compat_r; [lra|]. rewrite NI. lra. }
    assert (A2 : INR N * eta = q / 2) by (unfold eta; field; lra). rewrite A2. unfold cost in A1. lra. }
  assert (Nr : norm2 n (rounds e0 bgs plus) = 1) by (rewrite rounds_norm; exact plus_norm).
  pose proof (energy_near c D N Db Dp HN (rounds e0 bgs plus) v t q Tp (proj1 T) Nr O2) as En. rewrite Q1 in En.
  pose proof (cost_end c D Sx N Dp Sp HN mu v x T X) as Ce. change (cost v <= d x - c + INR n / Sx) in Ce. rewrite (mean_shift c _ Nr).
  change (ip n v (fun x => (d x - c) * v x)) with (cost v) in En. assert (B1 : INR n / Sx <= eps / 4). { unfold Sx. apply Rmult_le_reg_r with (4 * (INR n + 1)); [lra|]. replace (INR n / (4 * (INR n + 1) / eps) * (4 * (INR n + 1))) with (INR n * eps) by (field; lra).
    replace (eps / 4 * (4 * (INR n + 1))) with (INR n * eps + eps) by (field). lra. }
  pose proof (Db x X) as Bx. pose proof (Rle_abs (d x - c)). 
  assert (B2 : (1 + t) * (cost v + D) <= (1 + t) * (d x - c + INR n / Sx + D)) by (apply Rmult_le_compat_l; lra).
  assert (B3 : t * (d x - c + INR n / Sx + D) <= t * (eps / 4 + 2 * D)) by (apply Rmult_le_compat_l; lra).
  assert (B4 : t * (eps / 4 + 2 * D) <= eps / 4) by lra.
  lra.
Qed.
End Way.
