(** Proofs: rounded energies *)
From Coq Require Import List Arith NArith ZArith Bool Reals Lia Lra.
Import ListNotations.
From Verif Require Import Base Cplx Bits ModelTargets ModelGate ModelNumpy ModelPauli ModelVqe ModelFloat ModelFloatVqe SpecQuantum SpecPauli SpecVqe SpecFloat SpecFinite SpecFloatVqe
  ProofArray ProofUnitary ProofPauliComm ProofEvolution ProofVqe ProofVqeRun ProofFloat ProofFinite ProofFloatVqe.
Local Open Scope R_scope.

Lemma power_small : forall u k, 0 < u -> INR k * u <= 1 / 10 -> (1 + u) ^ k <= 1 + 6 / 5 * (INR k * u).
Proof.
  intros u k U0. induction k as [|k IH]; intros Hk; [cbn [pow INR]; lra|]. rewrite S_INR in Hk |- *. cbn [pow]. assert (0 <= INR k) by apply pos_INR. specialize (IH ltac:(lra)).
  apply Rle_trans with ((1 + u) * (1 + 6 / 5 * (INR k * u))); [apply Rmult_le_compat_l; lra|]. nra.
Qed.

(** ** Averages over a dictionary of probabilities *)
Section Average.
Variables (n : nat) (psi : state) (meas : list nat) (d : list (list nat * R)) (t : R).
Hypothesis Hd : close_distribution (arr n psi) meas d t.
Hypothesis Hn : norm n psi <= 1.
Notation eqd := (list_eq_dec Nat.eq_dec).
Notation mar := (marginal (arr n psi) meas).
Let xs := seq 0 (List.length (arr n psi)).

Lemma chance_in : forall (l : list (list nat * R)) o v, NoDup (map fst l) -> In (o, v) l -> chance l o = v.
Proof.
  intros l o v N I. unfold chance. rewrite (Rsum_one _ _ l (o, v)).
  - cbn [fst snd]. destruct (eqd o o); congruence.
  - clear I. induction l as [|a l IH]; [constructor|]. inversion N; subst. constructor; auto. intros I. apply H1. apply in_map. auto.
  - auto.
  - intros [o' v'] I' Ne. cbn [fst snd]. destruct (eqd o' o) as [->|]; auto. exfalso. apply Ne. f_equal.
    clear Ne. induction l as [|[a b] l IH]; [destruct I|]. cbn [map fst] in N. inversion N; subst. destruct I as [I|I], I' as [I'|I'].
    + congruence.
    + injection I as -> ->. exfalso. apply H1. apply in_map_iff. exists (o, v'). auto.
    + injection I' as -> ->. exfalso. apply H1. apply in_map_iff. exists (o, v). auto.
    + auto.
Qed.
Lemma marginal_pos : forall o, 0 <= mar o.
Proof. intros o. unfold marginal. apply Rsum_nonneg. intros x _. destruct (eqd _ _); [apply Cnorm2_pos|lra]. Qed.
Lemma marginal_sums : forall os, NoDup os -> Rsum mar os <= 1.
Proof.
  intros os N. unfold marginal. rewrite Rsum_swap. apply Rle_trans with (norm2 n psi).
  - unfold norm2. fold xs. assert (E : xs = seq 0 (2 ^ n)) by (unfold xs; rewrite arr_length; auto). rewrite E. apply Rsum_mono. intros x Ix. apply in_seq in Ix. rewrite arr_nth by lia.
    pose proof (Cnorm2_pos (psi x)). destruct (in_dec eqd (readout meas x) os) as [I|I].
    + rewrite (Rsum_one _ _ os (readout meas x)); auto; [destruct (eqd _ _); lra|]. intros y _ Ny. destruct (eqd _ _); congruence.
    + rewrite Rsum_0; auto. intros y Iy. destruct (eqd (readout meas x) y); congruence.
  - rewrite <- norm_sq. pose proof (norm_pos n psi). nra.
Qed.
Lemma dict_size : Rsum (fun kv : list nat * R => Rabs (snd kv)) d <= 1 + t.
Proof.
  destruct Hd as (N & _ & H).
  apply Rle_trans with (Rsum (fun o => Rabs (chance d o - mar o) + mar o) (map fst d)).
  - rewrite Rsum_map. apply Rsum_mono. intros [o v] I. cbn [fst snd]. rewrite (chance_in d o v N I). pose proof (marginal_pos o). pose proof (Rabs_triang (v - mar o) (mar o)).
    replace (v - mar o + mar o) with v in H1 by ring. rewrite (Rabs_pos_eq (mar o)) in H1 by auto. lra.
  - rewrite Rsum_add. pose proof (H (map fst d) N). pose proof (marginal_sums (map fst d) N). lra.
Qed.
Fixpoint bit_lists (k : nat) : list (list nat) := match k with O => [[]] | S k => map (cons 0%nat) (bit_lists k) ++ map (cons 1%nat) (bit_lists k) end.
Lemma bit_lists_length : forall k, List.length (bit_lists k) = (2 ^ k)%nat.
Proof. induction k as [|k IH]; auto. cbn [bit_lists]. rewrite app_length, !map_length, IH. simpl. lia. Qed.
Lemma bit_lists_in : forall m x, In (readout m x) (bit_lists (List.length m)).
Proof.
  induction m as [|q m IH]; intros x; [left; auto|]. cbn [bit_lists List.length readout map]. apply in_or_app. destruct (bit x q); [right|left]; apply in_map; apply IH.
Qed.
Lemma dict_length : (List.length d <= 2 ^ List.length meas)%nat.
Proof.
  destruct Hd as (N & H & _). rewrite <- (map_length fst), <- bit_lists_length. apply NoDup_incl_length; auto.
  intros o I. apply in_map_iff in I as ([o' v] & E & I). cbn [fst] in E. subst o'. destruct (H o v I) as (x & _ & <-). apply bit_lists_in.
Qed.
Lemma average_gap : forall f, (forall o, Rabs (f o) <= 1) ->
  Rabs (Rsum (fun kv => f (fst kv) * snd kv) d - Rsum (fun x => f (readout meas x) * Cnorm2 (nth x (arr n psi) C0)) xs) <= t.
Proof.
  intros f F. destruct Hd as (N & H & G). set (os := nodup eqd (map (readout meas) xs)).
  assert (No : NoDup os) by apply NoDup_nodup.
  assert (Io : forall x, In x xs -> In (readout meas x) os) by (intros x I; apply nodup_In, in_map, I).
  assert (E1 : Rsum (fun kv => f (fst kv) * snd kv) d = Rsum (fun o => f o * chance d o) os).
  { unfold chance. rewrite (Rsum_ext _ (fun o => f o * _) (fun o => Rsum (fun kv : list nat * R => if eqd (fst kv) o then f (fst kv) * snd kv else 0) d)).
    2:{ intros o _. rewrite <- Rsum_mul_l. apply Rsum_ext. intros kv _. destruct (eqd (fst kv) o) as [->|]; ring. }
    rewrite Rsum_swap. apply Rsum_ext. intros [o v] I. cbn [fst snd]. rewrite (Rsum_one _ _ os o); auto.
    - destruct (eqd o o); congruence.
    - destruct (H o v I) as (x & L & <-). apply Io. apply in_seq. lia.
    - intros y _ Ny. destruct (eqd o y); congruence. }
  assert (E2 : Rsum (fun x => f (readout meas x) * Cnorm2 (nth x (arr n psi) C0)) xs = Rsum (fun o => f o * mar o) os).
  { unfold marginal. fold xs. rewrite (Rsum_ext _ (fun o => f o * _) (fun o => Rsum (fun x => if eqd (readout meas x) o then f (readout meas x) * Cnorm2 (nth x (arr n psi) C0) else 0) xs)).
    2:{ intros o _. rewrite <- Rsum_mul_l. apply Rsum_ext. intros x _. destruct (eqd (readout meas x) o) as [->|]; ring. }
    rewrite Rsum_swap. apply Rsum_ext. intros x I. rewrite (Rsum_one _ _ os (readout meas x)); auto.
    - destruct (eqd (readout meas x) (readout meas x)); congruence.
    - intros y _ Ny. destruct (eqd (readout meas x) y); congruence. }
  rewrite E1, E2, <- Rsum_sub. eapply Rle_trans; [apply sum_abs|]. eapply Rle_trans; [|apply (G os No)]. apply Rsum_mono. intros o _.
  replace (f o * chance d o - f o * mar o) with (f o * (chance d o - mar o)) by ring. rewrite Rabs_mult. pose proof (F o). pose proof (Rabs_pos (chance d o - mar o)). nra.
Qed.
End Average.

Lemma parity_size : forall o, Rabs (parity o) <= 1.
Proof. intros o. unfold parity. destruct (Nat.eqb _ _); [rewrite Rabs_R1; lra|]. rewrite Rabs_left; lra. Qed.

(** ** Sums of weighted probabilities *)
Section Sums.
Variables (A : arith) (u eta B V : R).
Hypothesis HA : rounds_within A u eta B.
Hypothesis Hu : 0 < u <= / 1000.
Hypothesis He : 0 <= eta <= u / 1000.
Let H := 5 * V + 6 * (eta / u).
Lemma step_err : forall (sgn : bool) p c a b, Rabs p <= B -> Rabs (Cre c) <= B -> Rabs (Cim c) <= B -> Rabs a <= B -> 2 * Rabs (p * Cre c) + 1 <= B ->
  let m := fc_mul A (RtoC p) c in
  Rabs (fst (if sgn then fc_add A (a, b) m else fc_sub A (a, b) m) - (a + (if sgn then 1 else -1) * (p * Cre c))) <= u * Rabs a + 5 * u * Rabs (p * Cre c) + 6 * eta.
Proof.
  intros sgn p c a b Bp Bc Bi Ba Bm m. set (x := p * Cre c) in *. unfold m, fc_mul, fc_add, fc_sub, RtoC. cbn [fst snd]. change (fst c) with (Cre c). change (snd c) with (Cim c).
  assert (B0 : Rabs 0 <= B) by (rewrite Rabs_R0; pose proof (Rabs_pos p); lra).
  pose proof (w_mul _ _ _ _ HA p (Cre c) Bp Bc) as M1. pose proof (w_mul _ _ _ _ HA 0 (Cim c) B0 Bi) as M2. fold x in M1. rewrite Rmult_0_l, Rabs_R0, Rmult_0_r, Rplus_0_l in M2.
  set (m1 := f_mul A p (Cre c)) in *. set (m2 := f_mul A 0 (Cim c)) in *.
  pose proof (Rabs_pos x) as X0. pose proof (ab_near _ _ _ M1) as N1. pose proof (ab_near _ _ _ M2) as N2. rewrite Rabs_R0 in N2.
  assert (U1 : u * Rabs x <= / 1000 * Rabs x) by (apply Rmult_le_compat_r; lra).
  assert (W1 : Rabs m1 <= B) by lra. assert (W2 : Rabs m2 <= B) by (pose proof (Rabs_pos x); lra).
  pose proof (w_sub _ _ _ _ HA m1 m2 W1 W2) as M3. set (m3 := f_sub A m1 m2) in *.
  assert (G : Rabs (m1 - m2 - x) <= u * Rabs x + 2 * eta). { replace (m1 - m2 - x) with ((m1 - x) + - (m2 - 0)) by ring. eapply Rle_trans; [apply Rabs_triang|]. rewrite Rabs_Ropp. lra. }
  pose proof (ab_near _ _ _ G) as N3. pose proof (ab_tri _ _ _ _ _ M3 G) as M4.
  assert (U0 : 0 <= u * Rabs x) by (apply Rmult_le_pos; lra).
  assert (U2 : u * Rabs (m1 - m2) <= u * (Rabs x + (u * Rabs x + 2 * eta))) by (apply Rmult_le_compat_l; lra).
  assert (U3 : u * (u * Rabs x) <= / 1000 * (u * Rabs x)) by (apply Rmult_le_compat_r; lra). assert (U4 : u * eta <= / 1000 * eta) by (apply Rmult_le_compat_r; lra).
  assert (M5 : Rabs (m3 - x) <= 3 * (u * Rabs x) + 4 * eta) by lra. pose proof (ab_near _ _ _ M5) as N5. assert (W3 : Rabs m3 <= B) by lra.
  assert (U5 : u * (3 * (u * Rabs x) + 4 * eta) <= / 1000 * (3 * (u * Rabs x) + 4 * eta)) by (apply Rmult_le_compat_r; lra).
  destruct sgn; cbn [fst snd].
  - pose proof (w_add _ _ _ _ HA a m3 Ba W3) as M6. assert (G2 : Rabs (a + m3 - (a + 1 * x)) <= 3 * (u * Rabs x) + 4 * eta) by (replace (a + m3 - (a + 1 * x)) with (m3 - x) by ring; auto).
    pose proof (ab_tri _ _ _ _ _ M6 G2) as M7. pose proof (Rabs_triang a m3).
    assert (u * Rabs (a + m3) <= u * (Rabs a + (Rabs x + (3 * (u * Rabs x) + 4 * eta)))) by (apply Rmult_le_compat_l; lra). lra.
  - pose proof (w_sub _ _ _ _ HA a m3 Ba W3) as M6. assert (G2 : Rabs (a - m3 - (a + -1 * x)) <= 3 * (u * Rabs x) + 4 * eta) by (replace (a - m3 - (a + -1 * x)) with (- (m3 - x)) by ring; rewrite Rabs_Ropp; auto).
    pose proof (ab_tri _ _ _ _ _ M6 G2) as M7. pose proof (Rabs_triang a (- m3)). rewrite Rabs_Ropp in H0. unfold Rminus in M7 at 2.
    assert (u * Rabs (a + - m3) <= u * (Rabs a + (Rabs x + (3 * (u * Rabs x) + 4 * eta)))) by (apply Rmult_le_compat_l; lra). unfold Rminus in *. lra.
Qed.
Lemma H_pos : 0 <= V -> 0 <= H.
Proof. intros. unfold H. assert (0 <= eta / u) by (apply Rmult_le_pos; [lra|left; apply Rinv_0_lt_compat; lra]). lra. Qed.
Lemma pow_ge1 : forall k, 1 <= (1 + u) ^ k. Proof. intros. apply pow_R1_Rle. lra. Qed.
Lemma add_measured_err : forall d c val E D, Rabs (Cre c) <= B -> Rabs (Cim c) <= B -> Rabs (fst val - E) <= D -> Rabs E + Rsum (fun kv : list nat * R => Rabs (snd kv)) d * Rabs (Cre c) <= V ->
  Rsum (fun kv : list nat * R => Rabs (snd kv)) d <= B -> (D + H) * (1 + u) ^ List.length d - H + 2 * V + 1 <= B ->
  Rabs (fst (fl_add_measured A d c val) - (E + Rsum (fun kv => parity (fst kv) * snd kv) d * Cre c)) <= (D + H) * (1 + u) ^ List.length d - H.
Proof.
  induction d as [|[o p] d IH]; intros c val E D Bc Bi HD HV HB HX.
  - cbn [fl_add_measured fold_left List.length pow]. unfold Rsum. cbn [fold_right map]. replace (E + 0 * Cre c) with E by ring. lra.
  - rewrite sum_cons in HV, HB |- *. cbn [fst snd] in *. cbn [List.length pow] in HX |- *.
    assert (Sd : 0 <= Rsum (fun kv : list nat * R => Rabs (snd kv)) d) by (apply Rsum_nonneg; intros; apply Rabs_pos).
    set (sd := Rsum (fun kv : list nat * R => Rabs (snd kv)) d) in *. pose proof (Rabs_pos p) as P0. pose proof (Rabs_pos (Cre c)) as C0'. pose proof (Rabs_pos E) as E0.
    assert (PC : Rabs (p * Cre c) = Rabs p * Rabs (Cre c)) by apply Rabs_mult. assert (PC0 : 0 <= Rabs p * Rabs (Cre c)) by (apply Rmult_le_pos; lra). assert (SC0 : 0 <= sd * Rabs (Cre c)) by (apply Rmult_le_pos; lra). rewrite Rmult_plus_distr_r in HV.
    assert (V0 : 0 <= V) by lra. pose proof (H_pos V0) as H0. assert (D0 : 0 <= D) by (pose proof (Rabs_pos (fst val - E)); lra). pose proof (pow_ge1 (List.length d)) as W1.
    assert (DH : D + H <= (D + H) * ((1 + u) * (1 + u) ^ List.length d)). { rewrite <- (Rmult_1_r (D + H)) at 1. apply Rmult_le_compat_l; [lra|]. apply Rle_trans with (1 * 1); [lra|]. apply Rmult_le_compat; lra. }
    assert (Bv : Rabs (fst val) <= B). { pose proof (ab_near _ _ _ HD). lra. }
    assert (Bm : 2 * Rabs (p * Cre c) + 1 <= B) by (rewrite PC; lra).
    assert (Bp : Rabs p <= B) by lra.
    cbn [fl_add_measured fold_left fst snd]. set (s := Nat.eqb (fold_left Nat.add o 0%nat mod 2) 0).
    fold (fl_add_measured A d c (if s then fc_add A val (fc_mul A (RtoC p) c) else fc_sub A val (fc_mul A (RtoC p) c))).
    set (val' := if s then _ else _). destruct val as [a b].
    pose proof (step_err s p c a b Bp Bc Bi Bv Bm) as St. cbv zeta in St. change (Rabs (fst val' - (a + (if s then 1 else -1) * (p * Cre c))) <= u * Rabs a + 5 * u * Rabs (p * Cre c) + 6 * eta) in St. cbn [fst] in HD, Bv.
    assert (Pa : parity o = if s then 1 else -1) by reflexivity. set (E' := E + (if s then 1 else -1) * (p * Cre c)).
    assert (HD' : Rabs (fst val' - E') <= (D + H) * (1 + u) - H).
    { unfold E'. replace (fst val' - (E + (if s then 1 else -1) * (p * Cre c))) with (fst val' - (a + (if s then 1 else -1) * (p * Cre c)) + (a - E)) by ring.
      eapply Rle_trans; [apply Rabs_triang|]. pose proof (ab_near _ _ _ HD) as Na. assert (u * Rabs a <= u * (Rabs E + D)) by (apply Rmult_le_compat_l; lra).
      assert (u * H = 5 * (u * V) + 6 * eta) by (unfold H; field; lra). rewrite PC in St.
      assert (u * Rabs E + 5 * (u * (Rabs p * Rabs (Cre c))) <= 5 * (u * V)). { replace (u * Rabs E + 5 * (u * (Rabs p * Rabs (Cre c)))) with (u * (Rabs E + 5 * (Rabs p * Rabs (Cre c)))) by ring. replace (5 * (u * V)) with (u * (5 * V)) by ring. apply Rmult_le_compat_l; lra. }
      lra. }
    specialize (IH c val' E' ((D + H) * (1 + u) - H) Bc Bi HD').
    assert (HE : Rabs E' <= Rabs E + Rabs p * Rabs (Cre c)). { unfold E'. eapply Rle_trans; [apply Rabs_triang|]. apply Rplus_le_compat_l. rewrite Rabs_mult, PC. destruct s; [rewrite Rabs_R1|rewrite (Rabs_left (-1)) by lra]; lra. }
    replace ((D + H) * (1 + u) - H + H) with ((D + H) * (1 + u)) in IH by ring. rewrite <- Rmult_assoc in HX |- *.
    replace (E + (parity o * p + Rsum (fun kv => parity (fst kv) * snd kv) d) * Cre c) with (E' + Rsum (fun kv => parity (fst kv) * snd kv) d * Cre c) by (unfold E'; rewrite <- Pa; ring).
    apply IH; auto; lra.
Qed.
End Sums.

(** ** The terms *)
Section Terms.
Variables (A : arith) (u eta B V tt : R) (sq : R -> R) (run : list gate -> res carr) (gs : list gate).
Hypothesis HA : rounds_within A u eta B.
Hypothesis Hu : 0 < u <= / 1000.
Hypothesis He : 0 <= eta <= u / 1000.
Hypothesis Ht : 0 <= tt <= 3 / 5.
Variable avg : term -> R.
Let H := 5 * V + 6 * (eta / u).
Definition measured_well (t : term) : Prop :=
  exists v d, run (gs ++ fl_basis_change A (t_ops t)) = Ok v /\ fl_expect A sq v (map (fun o => Z.of_nat (snd o)) (t_ops t)) = Ok d /\
    Rabs (Rsum (fun kv => parity (fst kv) * snd kv) d - avg t) <= tt /\ Rsum (fun kv : list nat * R => Rabs (snd kv)) d <= 1 + tt /\ (List.length d <= 2 ^ List.length (t_ops t))%nat.
Fixpoint outcomes_nat (ham : expr) : nat := match ham with [] => 0 | t :: r => 2 ^ List.length (t_ops t) + outcomes_nat r end%nat.
Lemma outcomes_INR : forall ham, INR (outcomes_nat ham) = all_outcomes ham.
Proof. induction ham as [|t ham IH]; [reflexivity|]. unfold all_outcomes in *. rewrite sum_cons. cbn [outcomes_nat]. rewrite plus_INR, IH, pow_INR. reflexivity. Qed.
Lemma terms_err : forall ham val E D, Forall measured_well ham -> Forall (fun t => Rabs (Cim (t_coeff t)) <= B) ham -> Rabs (fst val - E) <= D -> Rabs E + 8 / 5 * strength ham <= V -> 2 <= B ->
  (D + H) * (1 + u) ^ outcomes_nat ham - H + 2 * V + 1 <= B ->
  exists v E', fl_energy_terms A sq run gs ham val = Ok v /\ Rabs (fst v - E') <= (D + H) * (1 + u) ^ outcomes_nat ham - H /\
    Rabs (E' - (E + Rsum (fun t => Cre (t_coeff t) * avg t) ham)) <= tt * strength ham.
Proof.
  induction ham as [|t ham IH]; intros val E D Hw Him HD HV B2 HX.
  - exists val, E. split; [reflexivity|]. cbn [outcomes_nat pow]. split; [lra|]. unfold strength, Rsum. cbn. replace (E - (E + 0)) with 0 by ring. rewrite Rabs_R0. lra.
  - inversion Hw as [|? ? (v & d & Rv & Rd & Ga & Gs & Gl) Hw']; subst. inversion Him as [|? ? Hi Him']; subst. cbn [fl_energy_terms]. rewrite Rv. cbn [bind]. rewrite Rd. cbn [bind].
    unfold strength in HV |- *. rewrite sum_cons in HV |- *. fold (strength ham) in HV |- *. cbn [outcomes_nat] in HX |- *. rewrite pow_add in HX |- *. rewrite sum_cons.
    set (c := t_coeff t) in *. set (K1 := (2 ^ List.length (t_ops t))%nat) in *. set (K2 := outcomes_nat ham) in *.
    pose proof (Rabs_pos (Cre c)) as C0'. pose proof (Rabs_pos E) as E0. assert (S0 : 0 <= strength ham) by (apply Rsum_nonneg; intros; apply Rabs_pos).
    assert (V0 : 0 <= V) by lra. pose proof (H_pos u eta V Hu He V0) as H0. fold H in H0. assert (D0 : 0 <= D) by (pose proof (Rabs_pos (fst val - E)); lra).
    assert (W : forall k, 1 <= (1 + u) ^ k) by (intros; apply pow_ge1; auto).
    assert (Wd : (1 + u) ^ List.length d <= (1 + u) ^ K1) by (apply Rle_pow; [lra|auto]).
    assert (WK : (D + H) * (1 + u) ^ List.length d <= (D + H) * (1 + u) ^ K1) by (apply Rmult_le_compat_l; lra).
    assert (WX : (D + H) * (1 + u) ^ K1 <= (D + H) * ((1 + u) ^ K1 * (1 + u) ^ K2)). { apply Rmult_le_compat_l; [lra|]. pose proof (W K1). pose proof (W K2). nra. }
    set (sd := Rsum (fun kv : list nat * R => Rabs (snd kv)) d) in *. assert (Sd : 0 <= sd) by (apply Rsum_nonneg; intros; apply Rabs_pos).
    assert (Sdc : sd * Rabs (Cre c) <= 8 / 5 * Rabs (Cre c)) by (apply Rmult_le_compat_r; lra).
    pose proof (W K1) as WK1. pose proof (W (List.length d)) as Wd1. assert (DHd : D + H <= (D + H) * (1 + u) ^ List.length d). { rewrite <- (Rmult_1_r (D + H)) at 1. apply Rmult_le_compat_l; lra. }
    assert (Bc : Rabs (Cre c) <= B) by lra.
    pose proof (add_measured_err A u eta B V HA Hu He d c val E D Bc Hi HD) as M. fold sd H in M. specialize (M ltac:(lra) ltac:(lra) ltac:(lra)).
    set (q := Rsum (fun kv => parity (fst kv) * snd kv) d) in *. set (val' := fl_add_measured A d c val) in *.
    assert (Q1 : Rabs q <= sd).
    { unfold q, sd. eapply Rle_trans; [apply sum_abs|]. apply Rsum_mono. intros kv _. rewrite Rabs_mult. pose proof (parity_size (fst kv)). pose proof (Rabs_pos (snd kv)). nra. }
    assert (Q2 : Rabs (q * Cre c) <= 8 / 5 * Rabs (Cre c)). { rewrite Rabs_mult. apply Rle_trans with (sd * Rabs (Cre c)); [apply Rmult_le_compat_r; lra|lra]. }
    destruct (IH val' (E + q * Cre c) ((D + H) * (1 + u) ^ K1 - H) Hw' Him') as (v' & E' & R1 & R2 & R3).
    + lra.
    + pose proof (Rabs_triang E (q * Cre c)). lra.
    + lra.
    + replace ((D + H) * (1 + u) ^ K1 - H + H) with ((D + H) * (1 + u) ^ K1) by ring. rewrite Rmult_assoc. lra.
    + exists v', E'. split; [exact R1|]. replace ((D + H) * (1 + u) ^ K1 - H + H) with ((D + H) * (1 + u) ^ K1) in R2 by ring. rewrite Rmult_assoc in R2. split; [exact R2|].
      replace (E' - (E + (Cre c * avg t + Rsum (fun t0 => Cre (t_coeff t0) * avg t0) ham))) with (E' - (E + q * Cre c + Rsum (fun t0 => Cre (t_coeff t0) * avg t0) ham) + (q - avg t) * Cre c) by ring.
      eapply Rle_trans; [apply Rabs_triang|]. rewrite (Rabs_mult (q - avg t)). assert (Rabs (q - avg t) * Rabs (Cre c) <= tt * Rabs (Cre c)) by (apply Rmult_le_compat_r; lra). unfold strength in R3. lra.
Qed.
End Terms.

Lemma term_average : forall n w psi, separate_word n w ->
  RtoC (Rsum (fun x => parity (readout (map snd w) x) * Cnorm2 (nth x (arr n (bop (- (PI / 2)) w psi)) C0)) (seq 0 (List.length (arr n (bop (- (PI / 2)) w psi))))) = (sgn (ycount w) * expval n (word_op w) psi)%C.
Proof. intros n w psi S. rewrite diagonal_average, rotated_average; auto. Qed.
Definition term_avg (n : nat) (psi : state) (t : term) : R :=
  Rsum (fun x => parity (readout (map snd (t_ops t)) x) * Cnorm2 (nth x (arr n (bop (- (PI / 2)) (t_ops t) psi)) C0)) (seq 0 (List.length (arr n (bop (- (PI / 2)) (t_ops t) psi)))).
Lemma averages : forall n psi ham, Forall (fun t => separate_word n (t_ops t)) ham -> Rsum (fun t => Cre (t_coeff t) * term_avg n psi t) ham = Cre (expval_y n ham psi).
Proof.
  intros n psi. induction ham as [|t ham IH]; intros F; [reflexivity|]. inversion F as [|? ? St F']; subst. rewrite sum_cons, IH by auto. cbn [expval_y].
  rewrite sgn_coeff. pose proof (term_average n (t_ops t) psi St) as E. fold (term_avg n psi t) in E.
  replace (t_coeff t * sgn (ycount (t_ops t)) * expval n (word_op (t_ops t)) psi)%C with (t_coeff t * RtoC (term_avg n psi t))%C by (rewrite E; ring).
  unfold Cre, Cadd, Cmul, RtoC. cbn [fst snd]. ring.
Qed.

Section Energy.
Variables (A : arith) (u eta B : R) (sq : R -> R) (run : list gate -> res carr) (n : nat) (gs : list gate) (psi : state) (e : R) (ham : expr).
Hypothesis HA : rounds_within A u eta B.
Hypothesis HR : sum_ranges u eta B n.
Hypothesis HS : squares_within sq u eta.
Hypothesis HE : energy_ranges u B ham.
Hypothesis Hn : norm n psi <= 1.
Hypothesis He : 0 <= e <= 1 / 10.
Hypothesis Hw : Forall (fun t => separate_word n (t_ops t)) ham.
Hypothesis Hr : Forall (fun t => exists phi, run (gs ++ fl_basis_change A (t_ops t)) = Ok (arr n phi) /\ dist n phi (bop (- (PI / 2)) (t_ops t) psi) <= e) ham.
Lemma energy_close : exists r, fl_energy A sq run gs ham = Ok r /\
  Rabs (r - Cre (expval_y n ham psi)) <= strength ham * (3 * e + (2 * 2 ^ n + 5 + 10 * all_outcomes ham) * u) + 8 * all_outcomes ham * eta.
Proof.
  pose proof HR as HR'. destruct HR' as (Hu & Hh & B4 & W). destruct HE as (K1 & K2 & K3). set (tt := 3 * e + (2 * 2 ^ n + 5) * u).
  assert (P2 : 0 < 2 ^ n) by (apply pow_lt; lra). assert (T1 : 0 <= tt <= 3 / 5) by (unfold tt; nra).
  assert (G : Forall (measured_well A tt sq run gs (term_avg n psi)) ham).
  { rewrite Forall_forall in *. intros t I. specialize (Hw t I). destruct (Hr t I) as (phi & R1 & R2). set (psi' := bop (- (PI / 2)) (t_ops t) psi) in *.
    assert (N' : norm n psi' <= 1). { unfold norm, psi'. rewrite preserves_norm; [exact Hn|]. apply bop_preserves. apply Hw. }
    destruct (expect_close A u eta B sq n HA HR HS phi psi' e N' R2 (proj2 He) (map snd (t_ops t))) as (d & E1 & E2). fold tt in E2. rewrite map_map in E1.
    exists (arr n phi), d. split; [exact R1|]. split; [exact E1|]. refine (conj _ (conj _ _)).
    - exact (average_gap n psi' (map snd (t_ops t)) d tt E2 parity parity_size).
    - exact (dict_size n psi' (map snd (t_ops t)) d tt E2 N').
    - pose proof (dict_length n psi' (map snd (t_ops t)) d tt E2) as L. rewrite map_length in L. exact L. }
  set (s := strength ham) in *. assert (S0 : 0 <= s) by (apply Rsum_nonneg; intros; apply Rabs_pos).
  set (V := 8 / 5 * s). set (H := 5 * V + 6 * (eta / u)). set (K := all_outcomes ham) in *. assert (EK : INR (outcomes_nat ham) = K) by apply outcomes_INR.
  assert (K0 : 0 <= K) by (rewrite <- EK; apply pos_INR).
  pose proof (power_small u (outcomes_nat ham) (proj1 Hu)) as PB. rewrite EK in PB. specialize (PB K1).
  assert (Q1 : u * (eta / u) = eta) by (field; lra). assert (Q0 : 0 <= eta / u) by (apply Rmult_le_pos; [lra|left; apply Rinv_0_lt_compat; lra]).
  assert (Q2 : eta / u <= / 1000). { apply Rmult_le_reg_l with u; [lra|]. rewrite Q1. lra. }
  assert (H0 : 0 <= H) by (unfold H, V; lra).
  assert (Hb : (0 + H) * (1 + u) ^ outcomes_nat ham - H <= 10 * s * (K * u) + 8 * (K * eta)).
  { apply Rle_trans with ((0 + H) * (1 + 6 / 5 * (K * u)) - H); [apply Rplus_le_compat_r, Rmult_le_compat_l; lra|].
    replace ((0 + H) * (1 + 6 / 5 * (K * u)) - H) with (48 / 5 * s * (K * u) + 36 / 5 * (K * (u * (eta / u)))) by (unfold H, V; field; lra). rewrite Q1.
    assert (0 <= K * u) by nra. assert (0 <= K * eta) by nra. assert (0 <= s * (K * u)) by nra. lra. }
  assert (Hx : (0 + H) * (1 + u) ^ outcomes_nat ham - H + 2 * V + 1 <= B).
  { apply Rle_trans with ((0 + H) * (1 + 6 / 5 * (K * u)) - H + 2 * V + 1); [do 2 apply Rplus_le_compat_r; apply Rplus_le_compat_r, Rmult_le_compat_l; lra|].
    assert (H * (K * u) <= H * (1 / 10)) by (apply Rmult_le_compat_l; lra). unfold H, V in *. lra. }
  destruct (terms_err A u eta B V tt sq run gs HA Hu Hh T1 (term_avg n psi) ham C0 0 0 G K3) as (v & E' & R1 & R2 & R3).
  - cbn [fst C0]. rewrite Rminus_0_r, Rabs_R0. lra.
  - rewrite Rabs_R0. unfold V. fold s. lra.
  - lra.
  - exact Hx.
  - exists (Cre v). unfold fl_energy. rewrite R1. split; [reflexivity|]. rewrite averages, Rplus_0_l in R3 by exact Hw. fold s in R3. fold H in R2.
    pose proof (ab_tri _ _ _ _ _ R2 R3) as R4. change (fst v) with (Cre v) in R4. apply Rle_trans with (1 := R4). unfold tt in *.
    apply Rle_trans with (10 * s * (K * u) + 8 * (K * eta) + (3 * e + (2 * 2 ^ n + 5) * u) * s); [lra|]. right. ring.
Qed.
End Energy.
