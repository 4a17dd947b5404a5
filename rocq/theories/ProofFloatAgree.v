(** Rounded runs: the draws with which they find the same values as the exact runs *)
From Coq Require Import String List Arith ZArith Bool Reals Lia Lra Psatz.
Import ListNotations.
From Verif Require Import Base Cplx Bits ModelTargets ModelGate ModelNumpy ModelNumba ModelFloat ModelFloatMeasure ModelFloatNumba ModelFloatNumbaMeasure ModelFloatRun
  SpecTargets SpecQuantum SpecCircuit SpecMeasure ProofBorn SpecLaw SpecFloat SpecFloatMeasure SpecFloatRun ProofUnitary ProofMeasure ProofLaw ProofLawStat ProofFloatMeas ProofFloatMeasTop.
Local Open Scope R_scope.

(** ** Events with a probability *)
Lemma volume_cons : forall iv l, volume (iv :: l) = Rmax 0 (snd iv - fst iv) * volume l. Proof. reflexivity. Qed.
Lemma volume_nonneg : forall l, 0 <= volume l.
Proof. induction l as [|iv l IH]; [unfold volume; cbn; lra|]. rewrite volume_cons. apply Rmult_le_pos; auto. apply Rmax_l. Qed.
Lemma volume_app : forall a b, volume (a ++ b) = volume a * volume b.
Proof. induction a as [|iv a IH]; intros b; cbn [app]; [change (volume []) with 1; ring|]. rewrite !volume_cons, IH. ring. Qed.
Lemma disjoint_app : forall l1 l2, disjoint l1 -> disjoint l2 -> (forall a b rng pos, In a l1 -> In b l2 -> draws_ok rng -> in_box a rng pos -> ~ in_box b rng pos) -> disjoint (l1 ++ l2).
Proof.
  induction l1 as [|a l1 IH]; intros l2 D1 D2 X; cbn [app]; auto. destruct D1 as [D0 D1]. split.
  - apply Forall_app. split; auto. apply Forall_forall. intros b I rng pos. apply X; auto. left. auto.
  - apply IH; auto. intros a' b rng pos I J. apply X; auto. right. auto.
Qed.
Lemma disjoint_map : forall X (f : X -> list (R * R)) l, NoDup l -> (forall x y rng pos, In x l -> In y l -> draws_ok rng -> in_box (f x) rng pos -> in_box (f y) rng pos -> x = y) -> disjoint (map f l).
Proof.
  intros X f l ND. induction ND as [|x l NI ND IH]; intros U; cbn [map disjoint]; auto. split.
  - apply Forall_map. apply Forall_forall. intros y I rng pos Hr B1 B2. apply NI. rewrite (U x y rng pos); auto; [left; auto|right; auto].
  - apply IH. intros x' y rng pos I J. apply U; right; auto.
Qed.
Lemma mostly_trivial : forall m delta Q, 1 <= delta -> mostly m delta Q.
Proof. intros m delta Q L. exists []. split; [constructor|]. split; [exact I|]. split; [cbn; lra|]. intros b rng pos []. Qed.
Lemma mostly_impl : forall m delta delta' (Q Q' : (nat -> R) -> nat -> Prop), mostly m delta Q -> delta <= delta' -> (forall rng pos, draws_ok rng -> Q rng pos -> Q' rng pos) -> mostly m delta' Q'.
Proof.
  intros m delta delta' Q Q' (bs & F & D & V & H) L I. exists bs. split; auto. split; auto. split; [lra|]. intros b rng pos IN Hr IB. apply I; auto. eapply H; eauto.
Qed.
Lemma mostly_always : forall Q : (nat -> R) -> nat -> Prop, (forall rng pos, draws_ok rng -> Q rng pos) -> mostly 0 0 Q.
Proof.
  intros Q H. exists [[]]. split; [repeat constructor|]. split; [cbn; auto|]. split; [unfold volume; cbn; lra|]. intros b rng pos _ Hr _. auto.
Qed.
Lemma mostly_and : forall m1 m2 d1 d2 (Q1 Q2 : (nat -> R) -> nat -> Prop), 0 <= d1 -> 0 <= d2 -> mostly m1 d1 Q1 -> mostly m2 d2 Q2 ->
  mostly (m1 + m2) (d1 + d2) (fun rng pos => Q1 rng pos /\ Q2 rng (pos + m1)%nat).
Proof.
  intros m1 m2 d1 d2 Q1 Q2 P1 P2 (bs1 & F1 & D1 & V1 & H1) (bs2 & F2 & D2 & V2 & H2).
  assert (IN : forall c, In c (flat_map (fun a => map (app a) bs2) bs1) <-> exists a b, In a bs1 /\ In b bs2 /\ c = a ++ b).
  { intros c. rewrite in_flat_map. split.
    - intros (a & I & J). apply in_map_iff in J. destruct J as (b & <- & K). eauto.
    - intros (a & b & I & J & ->). exists a. split; auto. apply in_map. auto. }
  rewrite Forall_forall in F1, F2.
  exists (flat_map (fun a => map (app a) bs2) bs1). split; [|split; [|split]].
  - apply Forall_forall. intros c I. apply IN in I. destruct I as (a & b & I & J & ->). destruct (F1 a I) as [L1 U1]. destruct (F2 b J) as [L2 U2].
    split; [rewrite app_length; congruence|apply Forall_app; auto].
  - assert (SUB : forall l, (forall a, In a l -> In a bs1) -> disjoint l -> disjoint (flat_map (fun a => map (app a) bs2) l)).
    { induction l as [|a l IH]; intros S D; cbn [flat_map]; [exact I|]. destruct D as [D0 D].
      assert (LA : List.length a = m1) by (apply F1, S; left; auto).
      apply disjoint_app; [|apply IH; auto; intros a' I'; apply S; right; auto|].
      - clear IH IN V2 H2 F2. induction bs2 as [|b bs IH]; cbn [map disjoint]; auto. destruct D2 as [E0 D2]. split; auto.
        apply Forall_map. eapply Forall_impl; [|exact E0]. intros b' X rng pos Hr I1 I2. apply in_box_app in I1, I2. destruct I1 as [_ I1]. destruct I2 as [_ I2]. exact (X _ _ Hr I1 I2).
      - intros c c' rng pos I J Hr I1 I2. apply in_map_iff in I. destruct I as (b & <- & _). apply in_flat_map in J. destruct J as (a' & J & K). apply in_map_iff in K. destruct K as (b' & <- & _).
        apply in_box_app in I1, I2. destruct I1 as [I1 _]. destruct I2 as [I2 _]. rewrite Forall_forall in D0. exact (D0 a' J rng pos Hr I1 I2). }
    apply SUB; auto.
  - assert (E : Rsum volume (flat_map (fun a => map (app a) bs2) bs1) = Rsum volume bs1 * Rsum volume bs2).
    { rewrite Rsum_flat_map. rewrite <- Rsum_mul_r. apply Rsum_ext. intros a _. rewrite Rsum_map, <- Rsum_mul_l. apply Rsum_ext. intros b _. apply volume_app. }
    rewrite E. set (x := Rsum volume bs1) in *. set (y := Rsum volume bs2) in *.
    assert (X : 0 <= x) by (apply Rsum_nonneg; intros; apply volume_nonneg). assert (Y : 0 <= y) by (apply Rsum_nonneg; intros; apply volume_nonneg).
    destruct (Rle_lt_dec 1 d1) as [L|L]; [assert (0 <= x * y) by (apply Rmult_le_pos; auto); lra|].
    apply Rle_trans with ((1 - d1) * y); [|apply Rmult_le_compat_r; auto]. apply Rle_trans with ((1 - d1) * (1 - d2)); [|apply Rmult_le_compat_l; lra].
    assert (0 <= d1 * d2) by (apply Rmult_le_pos; auto). lra.
  - intros c rng pos I Hr IB. apply IN in I. destruct I as (a & b & I & J & ->). apply in_box_app in IB. destruct IB as [I1 I2].
    rewrite (proj1 (F1 a I)) in I2. split; eauto.
Qed.
Lemma mostly_repeat : forall d delta (Q : (nat -> R) -> nat -> Prop), 0 <= delta -> mostly d delta Q -> forall N,
  mostly (N * d) (INR N * delta) (fun rng pos => forall i, (i < N)%nat -> Q rng (pos + i * d)%nat).
Proof.
  intros d delta Q P M. induction N as [|N IH].
  - cbn [Nat.mul INR]. rewrite Rmult_0_l. apply mostly_always. intros; lia.
  - eapply mostly_impl; [apply (mostly_and d (N * d) delta (INR N * delta)); [auto|apply Rmult_le_pos; auto; apply pos_INR|exact M|exact IH]| |].
    + rewrite S_INR. lra.
    + intros rng pos Hr [H0 H1] [|i] L; [rewrite Nat.add_0_r; auto|]. replace (pos + S i * d)%nat with (pos + d + i * d)%nat by lia. apply H1. lia.
Qed.

(** ** The boxes of a shot without the draws close to the thresholds *)
Fixpoint core (m : R) (n : nat) (es : list event) (s : list bool) (psi : state) : list (R * R) :=
  match es, s with
  | [], _ => []
  | EOp U :: r, _ => core m n r s (U psi)
  | EMeasure t :: r, b :: s => narrow (m / norm2 n psi) b (step_iv n t b psi) :: core m n r s (project t b psi)
  | EReset t :: r, b :: s => narrow (m / norm2 n psi) b (step_iv n t b psi) :: core m n r s (if b then ap1 mX t (project t b psi) else project t b psi)
  | _, [] => []
  end.
Lemma margin_pos : forall m n psi, 0 <= m -> 0 <= m / norm2 n psi.
Proof.
  intros m n psi P. destruct (Req_dec (norm2 n psi) 0) as [Z|Z]; [rewrite Z; unfold Rdiv; rewrite Rinv_0; lra|].
  apply Rmult_le_pos; auto. left. apply Rinv_0_lt_compat. pose proof (norm2_nonneg n psi). lra.
Qed.
Lemma narrow_unit : forall mu b iv, 0 <= mu -> 0 <= fst iv -> snd iv <= 1 -> 0 <= fst (narrow mu b iv) /\ snd (narrow mu b iv) <= 1.
Proof. intros mu b iv P A B. unfold narrow. destruct b; cbn [fst snd]; lra. Qed.
Lemma narrow_width : forall mu b iv, snd (narrow mu b iv) - fst (narrow mu b iv) = snd iv - fst iv - mu.
Proof. intros mu b iv. unfold narrow. destruct b; cbn [fst snd]; lra. Qed.
Lemma core_shape : forall n es m s psi, 0 <= m -> List.length s = draws es ->
  List.length (core m n es s psi) = draws es /\ Forall (fun iv => 0 <= fst iv /\ snd iv <= 1) (core m n es s psi).
Proof.
  intros n es m s psi P. revert s psi. induction es as [|e es IH]; intros s psi L; [cbn; auto|].
  destruct e as [U|t|t]; cbn [core draws] in *; [apply IH; auto| |]; (destruct s as [|b s]; [discriminate|]; injection L as L; cbn [List.length];
    match goal with |- context [core m n es s ?f] => destruct (IH s f L) as [A B] end; split; [congruence|]; constructor; auto;
    pose proof (step_iv_unit n t b psi); apply narrow_unit; try apply margin_pos; tauto).
Qed.
Lemma core_total : forall n es, Forall (event_ok n) es -> forall m psi, 0 <= m ->
  let v := Rsum (fun s => volume (core m n es s psi)) (values (draws es)) in
  0 <= v <= 1 /\ norm2 n psi - (2 ^ S (draws es) - 2) * m <= v * norm2 n psi.
Proof.
  intros n es F. induction F as [|e es E F IH]; intros m psi P.
  - cbn. unfold volume. cbn. split; lra.
  - assert (STEP : forall t (f : bool -> state), (forall b, norm2 n (f b) = norm2 n (project t b psi)) ->
      let v := Rsum (fun s => volume (narrow (m / norm2 n psi) false (step_iv n t false psi) :: core m n es s (f false))) (values (draws es)) +
               Rsum (fun s => volume (narrow (m / norm2 n psi) true (step_iv n t true psi) :: core m n es s (f true))) (values (draws es)) in
      0 <= v <= 1 /\ norm2 n psi - (2 ^ S (S (draws es)) - 2) * m <= v * norm2 n psi).
    { intros t f Hf v.
      assert (EQ : forall b, Rsum (fun s => volume (narrow (m / norm2 n psi) b (step_iv n t b psi) :: core m n es s (f b))) (values (draws es)) =
        Rmax 0 (snd (step_iv n t b psi) - fst (step_iv n t b psi) - m / norm2 n psi) * Rsum (fun s => volume (core m n es s (f b))) (values (draws es))).
      { intros b. rewrite <- Rsum_mul_l. apply Rsum_ext. intros s _. rewrite volume_cons, narrow_width. reflexivity. }
      unfold v. rewrite !EQ. destruct (IH m (f false) P) as [V0 T0]. destruct (IH m (f true) P) as [V1 T1]. rewrite Hf in T0, T1.
      set (v0 := Rsum (fun s => volume (core m n es s (f false))) (values (draws es))) in *. set (v1 := Rsum (fun s => volume (core m n es s (f true))) (values (draws es))) in *.
      pose proof (margin_pos m n psi P) as MP. set (mu := m / norm2 n psi) in *.
      pose proof (step_iv_unit n t false psi) as U0. pose proof (step_iv_unit n t true psi) as U1.
      assert (ONE : (snd (step_iv n t false psi) - fst (step_iv n t false psi)) + (snd (step_iv n t true psi) - fst (step_iv n t true psi)) = 1) by (unfold step_iv; cbn [fst snd]; lra).
      pose proof (step_iv_len n t false psi) as L0. pose proof (step_iv_len n t true psi) as L1.
      set (w0 := snd (step_iv n t false psi) - fst (step_iv n t false psi)) in *. set (w1 := snd (step_iv n t true psi) - fst (step_iv n t true psi)) in *.
      assert (W0 : 0 <= w0) by (unfold w0; lra). assert (W1 : 0 <= w1) by (unfold w1; lra).
      assert (R0 : 0 <= Rmax 0 (w0 - mu) <= w0) by (split; [apply Rmax_l|apply Rmax_lub; lra]).
      assert (R1 : 0 <= Rmax 0 (w1 - mu) <= w1) by (split; [apply Rmax_l|apply Rmax_lub; lra]).
      pose proof (Rmax_r 0 (w0 - mu)) as S0. pose proof (Rmax_r 0 (w1 - mu)) as S1. set (x0 := Rmax 0 (w0 - mu)) in *. set (x1 := Rmax 0 (w1 - mu)) in *.
      split; [split; [apply Rplus_le_le_0_compat; apply Rmult_le_pos; lra|]|].
      - assert (x0 * v0 <= w0 * 1) by (apply Rmult_le_compat; lra). assert (x1 * v1 <= w1 * 1) by (apply Rmult_le_compat; lra). lra.
      - pose proof (norm2_nonneg n psi) as NP. assert (PW : 1 <= 2 ^ draws es) by (apply pow_R1_Rle; lra). cbn [pow] in *. set (k := 2 ^ draws es) in *.
        destruct (Req_dec (norm2 n psi) 0) as [Z|NZ].
        + rewrite Z, Rmult_0_r. assert (0 <= k * m) by (apply Rmult_le_pos; lra). assert (1 * m <= k * m) by (apply Rmult_le_compat_r; lra). lra.
        + assert (PN : 0 < norm2 n psi) by lra. specialize (L0 PN). specialize (L1 PN). assert (MU : mu * norm2 n psi = m) by (unfold mu; field; lra).
          pose proof (prob_total n t psi) as TOT. change (prob n t false psi) with (norm2 n (project t false psi)) in TOT. change (prob n t true psi) with (norm2 n (project t true psi)) in TOT.
          set (W := norm2 n psi) in *. set (a := norm2 n (project t false psi)) in *. set (b := norm2 n (project t true psi)) in *.
          assert (A : a * v0 - m <= x0 * v0 * W).
          { apply Rle_trans with ((w0 - mu) * v0 * W); [|apply Rmult_le_compat_r; [lra|apply Rmult_le_compat_r; lra]].
            replace ((w0 - mu) * v0 * W) with (w0 * W * v0 - mu * W * v0) by ring. rewrite MU, L0. assert (m * v0 <= m * 1) by (apply Rmult_le_compat_l; lra). lra. }
          assert (B : b * v1 - m <= x1 * v1 * W).
          { apply Rle_trans with ((w1 - mu) * v1 * W); [|apply Rmult_le_compat_r; [lra|apply Rmult_le_compat_r; lra]].
            replace ((w1 - mu) * v1 * W) with (w1 * W * v1 - mu * W * v1) by ring. rewrite MU, L1. assert (m * v1 <= m * 1) by (apply Rmult_le_compat_l; lra). lra. }
          rewrite Rmult_plus_distr_r. lra. }
    destruct e as [U|t|t]; cbn [draws values core event_ok] in *.
    + destruct (IH m (U psi) P) as [V T]. rewrite (preserves_norm n U) in T by apply E. auto.
    + cbv zeta. rewrite Rsum_app, !Rsum_map. apply (STEP t (fun b => project t b psi)). auto.
    + cbv zeta. rewrite Rsum_app, !Rsum_map. apply (STEP t (fun b => if b then ap1 mX t (project t b psi) else project t b psi)).
      intros []; auto. apply (preserves_norm n (ap1 mX t)). apply preserves_ap1; auto. apply mu_x.
Qed.
Lemma core_ok : forall n es, Forall (event_ok n) es -> forall m s psi rng pos, 0 <= m -> List.length s = draws es -> 0 < norm2 n (branch es s psi) ->
  in_box (core m n es s psi) rng pos -> in_box (box n es s psi) rng pos /\ clear m n es s psi rng pos.
Proof.
  intros n es F m s psi rng pos P. revert s psi pos. induction F as [|e es E F IH]; intros s psi pos L PB H.
  - split; [intros i I; cbn in I; lia|exact I].
  - assert (BN : norm2 n (branch (e :: es) s psi) <= norm2 n psi) by (apply branch_norm; apply Forall_cons; auto).
    assert (G : forall (b : bool) (s : list bool) (psi' : state) (t : nat), List.length s = draws es -> 0 < norm2 n (branch es s psi') ->
      in_box (narrow (m / norm2 n psi) b (step_iv n t b psi) :: core m n es s psi') rng pos ->
      in_box (step_iv n t b psi :: box n es s psi') rng pos /\ m <= Rabs (rng pos - prob n t false psi / norm2 n psi) * norm2 n psi /\ clear m n es s psi' rng (S pos)).
    { intros b s' psi' t L' PB' H'. apply in_box_cons in H'. destruct H' as [H0 H1]. destruct (IH s' psi' (S pos) L' PB' H1) as [I1 I2].
      pose proof (margin_pos m n psi P) as MP. assert (MU : m / norm2 n psi * norm2 n psi = m) by (field; lra). set (mu := m / norm2 n psi) in *.
      split; [apply in_box_cons; split; auto; unfold step_iv, narrow in *; destruct b; cbn [fst snd] in *; lra|]. split; auto.
      rewrite <- MU at 1. apply Rmult_le_compat_r; [lra|]. unfold step_iv, narrow in H0. destruct b; cbn [fst snd] in H0; [rewrite Rabs_pos_eq; lra|rewrite Rabs_left1; lra]. }
    destruct e as [U|t|t]; cbn [draws box clear core branch] in *; [apply IH; auto| |]; (destruct s as [|b s]; [discriminate|]; injection L as L; apply G; auto).
Qed.
Lemma core_le : forall n es m s psi, 0 <= m -> List.length s = draws es -> Forall (event_ok n) es -> volume (core m n es s psi) <= box_volume (box n es s psi).
Proof.
  intros n es m s psi P L F. revert s psi L. induction F as [|e es E F IH]; intros s psi L; [cbn; unfold volume; cbn; lra|].
  assert (G : forall b s psi' t, List.length s = draws es -> volume (narrow (m / norm2 n psi) b (step_iv n t b psi) :: core m n es s psi') <= box_volume (step_iv n t b psi :: box n es s psi')).
  { intros b s' psi' t L'. rewrite volume_cons, narrow_width. cbn [box_volume fold_right]. fold (box_volume (box n es s' psi')). pose proof (step_iv_unit n t b psi). pose proof (margin_pos m n psi P).
    apply Rmult_le_compat; auto using volume_nonneg, Rmax_l. apply Rmax_lub; lra. }
  destruct e as [U|t|t]; cbn [core box draws] in *; [apply IH; auto| |]; (destruct s as [|b s]; [discriminate|]; injection L as L; apply G; auto).
Qed.
Lemma box_unique : forall n es s s' psi rng pos, List.length s = draws es -> List.length s' = draws es -> in_box (box n es s psi) rng pos -> in_box (box n es s' psi) rng pos -> s = s'.
Proof.
  intros n es. induction es as [|e es IH]; intros s s' psi rng pos L L' H H'; [destruct s, s'; try discriminate; auto|].
  destruct e as [U|t|t]; cbn [box draws] in *; [eapply IH; eauto| |]; (destruct s as [|b s]; [discriminate|]; destruct s' as [|b' s']; [discriminate|]; injection L as L; injection L' as L';
    apply in_box_cons in H, H'; destruct H as [H0 H]; destruct H' as [H0' H']; assert (b = b') by (destruct b, b'; auto; cbn [fst snd] in *; lra); subst b'; f_equal; eapply IH; eauto).
Qed.
Lemma values_length : forall d, List.length (values d) = (2 ^ d)%nat.
Proof. induction d; cbn [values Nat.pow]; auto. rewrite app_length, !map_length, IHd. lia. Qed.
Lemma Rsum_drop : forall A (f : A -> R) (p : A -> bool) T l, (forall a, In a l -> p a = false -> f a <= T) -> 0 <= T -> Rsum f l - INR (List.length l) * T <= Rsum f (filter p l).
Proof.
  intros A f p T l. induction l as [|a l IH]; intros H P; [cbn; lra|]. specialize (IH (fun b I => H b (or_intror I)) P). cbn [List.length filter Rsum]. rewrite S_INR.
  destruct (p a) eqn:E; [cbn [Rsum]; lra|]. pose proof (H a (or_introl eq_refl) E). lra.
Qed.

Definition loss (d : nat) (err : R) : R := 28 * (1 + INR d + INR d * INR d) * 2 ^ d * err.
Lemma loss_pos : forall d err, 0 <= err -> 0 <= loss d err.
Proof. intros d err P. unfold loss. pose proof (pos_INR d). apply Rmult_le_pos; auto. apply Rmult_le_pos; [nra|apply pow_le; lra]. Qed.
Lemma shot_mostly : forall n gs es err, circuit_events n gs es -> 0 <= err -> mostly (draws es) (loss (draws es) err) (fun rng pos => exists s, sure n es err s rng pos).
Proof.
  intros n gs es err C EP. pose proof (circuit_events_ok _ _ _ C) as F. set (d := draws es). assert (DP : 0 <= INR d) by apply pos_INR.
  set (T := 28 * (1 + INR d * INR d) * err). assert (TP : 0 <= T) by (unfold T; apply Rmult_le_pos; auto; nra).
  set (m := 14 * INR d * err). assert (MP : 0 <= m) by (unfold m; apply Rmult_le_pos; auto; lra).
  set (heavy := fun s => if Rle_lt_dec T (weight n es s) then if Rlt_dec 0 (weight n es s) then true else false else false).
  assert (HV : forall s, heavy s = true -> T <= weight n es s /\ 0 < weight n es s).
  { intros s. unfold heavy. destruct (Rle_lt_dec T (weight n es s)); [|discriminate]. destruct (Rlt_dec 0 (weight n es s)); [auto|discriminate]. }
  assert (LT : forall s, heavy s = false -> weight n es s <= T).
  { intros s. unfold heavy. destruct (Rle_lt_dec T (weight n es s)); [|lra]. destruct (Rlt_dec 0 (weight n es s)); [discriminate|lra]. }
  assert (IN : forall s, In s (filter heavy (values d)) -> List.length s = d /\ T <= weight n es s /\ 0 < weight n es s).
  { intros s I. apply filter_In in I. destruct I as [I H]. apply values_spec in I. split; auto. }
  exists (map (fun s => core m n es s (ket 0)) (filter heavy (values d))). split; [|split; [|split]].
  - apply Forall_map. apply Forall_forall. intros s I. destruct (IN s I) as (L & _). apply core_shape; auto.
  - apply disjoint_map; [apply NoDup_filter, values_nodup|]. intros s s' rng pos I I' _ B1 B2. destruct (IN s I) as (L & _ & W). destruct (IN s' I') as (L' & _ & W').
    destruct (core_ok n es F m s (ket 0) rng pos MP L W B1) as [X _]. destruct (core_ok n es F m s' (ket 0) rng pos MP L' W' B2) as [X' _]. eapply box_unique; eauto.
  - rewrite Rsum_map. destruct (core_total n es F m (ket 0) MP) as [_ V]. rewrite ket_norm, Rmult_1_r in V. fold d in V.
    eapply Rle_trans; [|apply (Rsum_drop _ _ heavy T); auto].
    + rewrite values_length, pow_INR. change (INR 2) with 2. unfold loss. cbn [pow] in V. assert (PW : 1 <= 2 ^ d) by (apply pow_R1_Rle; lra). set (k := 2 ^ d) in *.
      eapply Rle_trans; [|apply Rplus_le_compat_r; exact V]. unfold T, m. assert (0 <= INR d * err) by (apply Rmult_le_pos; auto). nra.
    + intros s I H. apply values_spec in I. apply LT in H. destruct (law_box n gs es s C I) as (_ & _ & BV). rewrite <- BV in H. eapply Rle_trans; [apply core_le; auto|exact H].
  - intros b rng pos I Hr IB. apply in_map_iff in I. destruct I as (s & <- & I). destruct (IN s I) as (L & W1 & W2). exists s.
    destruct (core_ok n es F m s (ket 0) rng pos MP L W2 IB) as [X Y]. exact (conj L (conj W2 (conj W1 (conj X Y)))).
Qed.
Lemma runs_mostly : forall n gs es err, circuit_events n gs es -> 0 <= err -> forall N,
  mostly (N * draws es) (INR N * loss (draws es) err) (fun rng pos => exists ss, List.length ss = N /\ forall i s, nth_error ss i = Some s -> sure n es err s rng (pos + i * draws es)).
Proof.
  intros n gs es err C EP N. eapply mostly_impl; [apply mostly_repeat; [apply loss_pos; exact EP|apply (shot_mostly n gs es err C EP)]|apply Rle_refl|].
  intros rng pos _ H. revert pos H. induction N as [|N IH]; intros pos H.
  - exists []. split; auto. intros [|i] s; discriminate.
  - destruct (H 0%nat ltac:(lia)) as [s S0]. destruct (IH (pos + draws es)%nat) as (ss & L & SS).
    { intros i LI. specialize (H (S i) ltac:(lia)). replace (pos + draws es + i * draws es)%nat with (pos + S i * draws es)%nat by lia. exact H. }
    exists (s :: ss). split; [cbn; congruence|]. intros [|i] s' E; cbn [nth_error] in E.
    + injection E as <-. exact S0.
    + replace (pos + S i * draws es)%nat with (pos + draws es + i * draws es)%nat by lia. apply SS; auto.
Qed.
