(** Proofs: rounded sums of products, and the data of terms, which are not rounded *)
From Coq Require Import List Arith NArith ZArith Bool Reals Lia Lra.
Import ListNotations.
From Verif Require Import Base Cplx Bits ModelTargets ModelGate ModelNumpy ModelPauli ModelPauliMatrix ModelVqe ModelFloat ModelFloatVqe ModelFloatSparse
  SpecQuantum SpecPauli SpecPauliMatrix SpecVqe SpecFloat SpecFinite SpecFloatNumba SpecFloatSparse ProofArray ProofFloat ProofFinite ProofKron ProofPauliMatrix ProofFloatVqe ProofFloatVqeEnergy.
Local Open Scope R_scope.

Lemma n1_conj : forall z, n1 (Cconj z) = n1 z.
Proof. intros [a b]. unfold n1, Cconj. cbn [fst snd]. rewrite Rabs_Ropp. auto. Qed.
Lemma n1_Csum : forall X (f : X -> C) l, n1 (Csum f l) <= Rsum (fun a => n1 (f a)) l.
Proof. induction l as [|a l IH]; [unfold Csum, Rsum; cbn; rewrite n1_0; lra|]. change (Csum f (a :: l)) with (f a + Csum f l)%C. rewrite sum_cons. pose proof (n1_add (f a) (Csum f l)). lra. Qed.

(** ** Sums and products *)
Section Sums.
Variables (A : arith) (u eta B : R).
Hypothesis HR : rounds_within A u eta B.
Hypothesis Hu : 0 < u <= / 1000.
Hypothesis He : 0 <= eta <= u / 1000.

Lemma fmul_err : forall z w, n1 z <= B -> n1 w <= B -> 2 * (n1 z * n1 w) + 1 <= B -> n1 (fc_mul A z w - z * w)%C <= 21 / 10 * u * (n1 z * n1 w) + 7 * eta.
Proof.
  intros [a b] [c d] Lz Lw LB. destruct He as [EP EQ]. pose proof (n1_fst (a, b)) as Z1. pose proof (n1_snd (a, b)) as Z2. pose proof (n1_fst (c, d)) as Z3. pose proof (n1_snd (c, d)) as Z4. cbn [fst snd] in *.
  pose proof (w_mul _ _ _ _ HR a c ltac:(lra) ltac:(lra)) as M1. pose proof (w_mul _ _ _ _ HR b d ltac:(lra) ltac:(lra)) as M2.
  pose proof (w_mul _ _ _ _ HR a d ltac:(lra) ltac:(lra)) as M3. pose proof (w_mul _ _ _ _ HR b c ltac:(lra) ltac:(lra)) as M4.
  assert (LP : forall x y, Rabs x <= n1 (a, b) -> Rabs y <= n1 (c, d) -> Rabs (f_mul A x y - x * y) <= u * Rabs (x * y) + eta -> Rabs (f_mul A x y) <= B).
  { intros x y X Y E. pose proof (ab_near _ _ _ E) as N. rewrite Rabs_mult in N. pose proof (Rabs_pos x). pose proof (Rabs_pos y).
    assert (Q : Rabs x * Rabs y <= n1 (a, b) * n1 (c, d)) by (apply Rmult_le_compat; auto). assert (0 <= Rabs x * Rabs y) by (apply Rmult_le_pos; auto).
    assert (u * (Rabs x * Rabs y) <= 1 * (Rabs x * Rabs y)) by (apply Rmult_le_compat_r; lra). lra. }
  pose proof (w_sub_err A u eta B HR (conj (proj1 Hu) (ltac:(lra) : u <= 1 / 100)) _ _ _ _ _ _ M1 M2 (LP a c ltac:(lra) ltac:(lra) M1) (LP b d ltac:(lra) ltac:(lra) M2)) as H1.
  pose proof (w_add_err A u eta B HR (conj (proj1 Hu) (ltac:(lra) : u <= 1 / 100)) _ _ _ _ _ _ M3 M4 (LP a d ltac:(lra) ltac:(lra) M3) (LP b c ltac:(lra) ltac:(lra) M4)) as H2.
  clear LP M1 M2 M3 M4 Lz Lw Z1 Z2 Z3 Z4 LB.
  unfold n1, fc_mul, Csub, Cadd, Copp, Cmul; cbn [fst snd].
  unfold Rminus in H1, H2 |- *.
  pose proof (ab_minus (a * c) (b * d)) as T1. pose proof (Rabs_triang (a * d) (b * c)) as T2. unfold Rminus in T1.
  rewrite !Rabs_mult in *.
  pose proof (Rabs_pos a). pose proof (Rabs_pos b). pose proof (Rabs_pos c). pose proof (Rabs_pos d).
  set (p := Rabs a) in *. set (q := Rabs b) in *. set (r := Rabs c) in *. set (s := Rabs d) in *.
  assert (K : forall v m X, 0 <= m -> Rabs v <= m -> X <= u * (Rabs v + (u * m + 2 * eta)) + (u * m + 2 * eta) + eta -> X <= 21 / 10 * u * m + 7 / 2 * eta).
  { intros v m X M1 M2 M3. assert (u * (Rabs v + (u * m + 2 * eta)) <= u * (m + 1 / 100 * m) + u * (2 * eta)).
    { rewrite <- Rmult_plus_distr_l. apply Rmult_le_compat_l; [lra|]. assert (u * m <= 1 / 100 * m) by (apply Rmult_le_compat_r; lra). lra. }
    assert (0 <= u * m) by (apply Rmult_le_pos; lra). assert (u * (2 * eta) <= 1 / 100 * (2 * eta)) by (apply Rmult_le_compat_r; lra). lra. }
  assert (0 <= p * r) by (apply Rmult_le_pos; auto). assert (0 <= q * s) by (apply Rmult_le_pos; auto).
  assert (0 <= p * s) by (apply Rmult_le_pos; auto). assert (0 <= q * r) by (apply Rmult_le_pos; auto).
  pose proof (K (a * c + - (b * d)) (p * r + q * s) (Rabs (f_sub A (f_mul A a c) (f_mul A b d) + - (a * c + - (b * d)))) ltac:(lra) ltac:(lra) ltac:(lra)) as K1.
  pose proof (K (a * d + b * c) (p * s + q * r) (Rabs (f_add A (f_mul A a d) (f_mul A b c) + - (a * d + b * c))) ltac:(lra) ltac:(lra) ltac:(lra)) as K2.
  lra.
Qed.

Lemma sum_err : forall X (f y : X -> C) (dl : X -> R) V l s t D, n1 (s - t)%C <= D -> (forall a, In a l -> n1 (f a - y a)%C <= dl a) -> n1 t + Rsum (fun a => n1 (y a)) l <= V ->
  V + (1 + u) ^ List.length l * (D + Rsum dl l + INR (List.length l) * (u * V + 2 * eta)) <= B ->
  n1 (fold_left (fun s a => fc_add A s (f a)) l s - (t + Csum y l))%C <= (1 + u) ^ List.length l * (D + Rsum dl l + INR (List.length l) * (u * V + 2 * eta)).
Proof.
  intros X f y dl V. induction l as [|a l IH]; intros s t D HD Hf HV HX.
  - cbn [fold_left List.length pow INR]. change (Csum y []) with C0. change (Rsum dl []) with 0. replace (s - (t + C0))%C with (s - t)%C by ring. lra.
  - cbn [fold_left]. change (Csum y (a :: l)) with (y a + Csum y l)%C. rewrite !sum_cons in *. cbn [List.length] in *. rewrite S_INR in *. cbn [pow] in *.
    set (k := INR (List.length l)) in *. set (p := (1 + u) ^ List.length l) in *. assert (P1 : 1 <= p) by (apply pow_R1_Rle; lra). assert (K0 : 0 <= k) by apply pos_INR.
    pose proof (Hf a (or_introl eq_refl)) as Fa. pose proof (n1_near _ _ _ HD) as Ns. pose proof (n1_near _ _ _ Fa) as Nf. pose proof (n1_pos (s - t)%C) as P2. pose proof (n1_pos (f a - y a)%C) as P3.
    assert (Q0 : 0 <= Rsum (fun b => n1 (y b)) l) by (apply Rsum_nonneg; intros; apply n1_pos). pose proof (n1_pos t) as P4. pose proof (n1_pos (y a)) as P5.
    assert (Q1 : 0 <= Rsum dl l) by (apply Rsum_nonneg; intros b Ib; apply Rle_trans with (2 := Hf b (or_intror Ib)); apply n1_pos).
    set (c := u * V + 2 * eta) in *. assert (C0' : 0 <= c) by (unfold c; assert (0 <= u * V) by (apply Rmult_le_pos; lra); lra).
    set (D' := (1 + u) * (D + dl a) + c).
    assert (Le : p * (D' + Rsum dl l + k * c) <= (1 + u) * p * (D + (dl a + Rsum dl l) + (k + 1) * c)).
    { replace ((1 + u) * p * (D + (dl a + Rsum dl l) + (k + 1) * c)) with (p * ((1 + u) * (D + dl a) + (1 + u) * (Rsum dl l + k * c + c))) by ring.
      apply Rmult_le_compat_l; [lra|]. unfold D'. assert (0 <= k * c) by (apply Rmult_le_pos; auto). assert (0 <= u * (Rsum dl l + k * c + c)) by (apply Rmult_le_pos; lra). lra. }
    assert (Big : D + dl a <= p * (D' + Rsum dl l + k * c)).
    { assert (0 <= k * c) by (apply Rmult_le_pos; auto). assert (E : D + dl a <= D' + Rsum dl l + k * c) by (unfold D'; assert (0 <= u * (D + dl a)) by (apply Rmult_le_pos; lra); lra).
      apply Rle_trans with (1 := E). rewrite <- (Rmult_1_l (D' + Rsum dl l + k * c)) at 1. apply Rmult_le_compat_r; lra. }
    replace (t + (y a + Csum y l))%C with ((t + y a) + Csum y l)%C by ring. eapply Rle_trans; [|exact Le]. apply IH.
    + replace (fc_add A s (f a) - (t + y a))%C with ((fc_add A s (f a) - (s + f a)) + ((s - t) + (f a - y a)))%C by ring.
      pose proof (wc_add_err A u eta B HR (conj (proj1 Hu) (ltac:(lra) : u <= 1 / 100)) s (f a) ltac:(lra) ltac:(lra)) as W.
      eapply Rle_trans; [apply n1_add|]. pose proof (n1_add (s - t)%C (f a - y a)%C) as N2. unfold D', c.
      assert (u * (n1 s + n1 (f a)) <= u * (V + (D + dl a))) by (apply Rmult_le_compat_l; lra). lra.
    + intros b Ib. apply Hf. right; auto.
    + pose proof (n1_add t (y a)). lra.
    + lra.
Qed.
End Sums.

(** ** Units *)
Section Units.
Variables (A : arith) (D : R -> Prop).
Hypothesis HK : keeps A D.
Definition unit4 (z : C) : Prop := z = C1 \/ z = (- C1)%C \/ z = Ci \/ z = (- Ci)%C.
Definition inD (z : C) : Prop := D (fst z) /\ D (snd z).
Lemma unit_mul : forall z w, unit4 z -> unit4 w -> unit4 (z * w)%C.
Proof.
  intros z w [->|[->|[->| ->]]] [->|[->|[->| ->]]]; unfold unit4.
  all: first [left; ceq; fail|right; left; ceq; fail|right; right; left; ceq; fail|right; right; right; ceq; fail].
Qed.
Lemma unit_inD : forall z, unit4 z -> inD z.
Proof.
  pose proof (k_zero _ _ HK) as Z. pose proof (k_one _ _ HK) as O. pose proof (k_opp _ _ HK 0 Z) as Z'. pose proof (k_opp _ _ HK 1 O) as O'.
  intros z [->|[->|[->| ->]]]; unfold inD, C1, Ci, Copp; cbn [fst snd]; auto.
Qed.
Lemma unit_inD_mul : forall z w, unit4 z -> inD w -> inD (z * w)%C.
Proof.
  intros z [a b] U [Ha Hb]. cbn [fst snd] in *. pose proof (k_opp _ _ HK a Ha). pose proof (k_opp _ _ HK b Hb).
  destruct U as [->|[->|[->| ->]]]; unfold inD, C1, Ci, Copp, Cmul; cbn [fst snd].
  - replace (1 * a - 0 * b) with a by ring. replace (1 * b + 0 * a) with b by ring. auto.
  - replace (- (1) * a - - 0 * b) with (- a) by ring. replace (- (1) * b + - 0 * a) with (- b) by ring. auto.
  - replace (0 * a - 1 * b) with (- b) by ring. replace (0 * b + 1 * a) with a by ring. auto.
  - replace (- 0 * a - - (1) * b) with b by ring. replace (- 0 * b + - (1) * a) with (- a) by ring. auto.
Qed.
Lemma unit_fmul_l : forall z w, unit4 z -> inD w -> fc_mul A z w = (z * w)%C.
Proof.
  intros z [a b] U [Ha Hb]. cbn [fst snd] in *. pose proof (k_opp _ _ HK a Ha) as Na. pose proof (k_opp _ _ HK b Hb) as Nb.
  destruct (k_mul0 _ _ HK a Ha) as [_ A1]. destruct (k_mul0 _ _ HK b Hb) as [_ B1]. destruct (k_mul1 _ _ HK a Ha) as [_ A2]. destruct (k_mul1 _ _ HK b Hb) as [_ B2].
  destruct (k_mulm1 _ _ HK a Ha) as [_ A3]. destruct (k_mulm1 _ _ HK b Hb) as [_ B3].
  assert (E0 : - 0 = 0) by ring. assert (E1 : - (1) = -1) by ring.
  destruct U as [->|[->|[->| ->]]]; unfold fc_mul, C1, Ci, Copp, Cmul; cbn [fst snd]; rewrite ?E0, ?E1, ?A1, ?B1, ?A2, ?B2, ?A3, ?B3.
  - rewrite (proj1 (k_sub0 _ _ HK a Ha)), (proj1 (k_add0 _ _ HK b Hb)). f_equal; ring.
  - rewrite (proj1 (k_sub0 _ _ HK _ Na)), (proj1 (k_add0 _ _ HK _ Nb)). f_equal; ring.
  - rewrite (proj2 (k_sub0 _ _ HK _ Hb)), (proj2 (k_add0 _ _ HK _ Ha)). f_equal; ring.
  - rewrite (proj2 (k_sub0 _ _ HK _ Nb)), (proj2 (k_add0 _ _ HK _ Na)). f_equal; ring.
Qed.
Lemma unit_fmul_r : forall z w, unit4 z -> inD w -> fc_mul A w z = (w * z)%C.
Proof.
  intros z [a b] U [Ha Hb]. cbn [fst snd] in *. pose proof (k_opp _ _ HK a Ha) as Na. pose proof (k_opp _ _ HK b Hb) as Nb.
  destruct (k_mul0 _ _ HK a Ha) as [A1 _]. destruct (k_mul0 _ _ HK b Hb) as [B1 _]. destruct (k_mul1 _ _ HK a Ha) as [A2 _]. destruct (k_mul1 _ _ HK b Hb) as [B2 _].
  destruct (k_mulm1 _ _ HK a Ha) as [A3 _]. destruct (k_mulm1 _ _ HK b Hb) as [B3 _].
  assert (E0 : - 0 = 0) by ring. assert (E1 : - (1) = -1) by ring.
  destruct U as [->|[->|[->| ->]]]; unfold fc_mul, C1, Ci, Copp, Cmul; cbn [fst snd]; rewrite ?E0, ?E1, ?A1, ?B1, ?A2, ?B2, ?A3, ?B3.
  - rewrite (proj1 (k_sub0 _ _ HK a Ha)), (proj2 (k_add0 _ _ HK b Hb)). f_equal; ring.
  - rewrite (proj1 (k_sub0 _ _ HK _ Na)), (proj2 (k_add0 _ _ HK _ Nb)). f_equal; ring.
  - rewrite (proj2 (k_sub0 _ _ HK _ Hb)), (proj1 (k_add0 _ _ HK _ Ha)). f_equal; ring.
  - rewrite (proj2 (k_sub0 _ _ HK _ Nb)), (proj1 (k_add0 _ _ HK _ Na)). f_equal; ring.
Qed.

Lemma kron_units : forall a b, Forall unit4 a -> Forall unit4 b -> fl_kron_1d A a b = kron_1d a b /\ Forall unit4 (kron_1d a b).
Proof.
  intros a b Ha Hb. induction Ha as [|x a Hx Ha [IH1 IH2]]; [split; [reflexivity|constructor]|]. unfold fl_kron_1d, kron_1d in *. cbn [flat_map]. rewrite IH1. split.
  - f_equal. apply map_ext_in. intros y Iy. rewrite Forall_forall in Hb. apply unit_fmul_l; auto. apply unit_inD; auto.
  - apply Forall_app. split; auto. apply Forall_forall. intros y Iy. apply in_map_iff in Iy as (z & <- & Iz). rewrite Forall_forall in Hb. apply unit_mul; auto.
Qed.
Lemma kron_units_l : forall a b, Forall unit4 a -> Forall inD b -> fl_kron_1d A a b = kron_1d a b /\ Forall inD (kron_1d a b).
Proof.
  intros a b Ha Hb. induction Ha as [|x a Hx Ha [IH1 IH2]]; [split; [reflexivity|constructor]|]. unfold fl_kron_1d, kron_1d in *. cbn [flat_map]. rewrite IH1. split.
  - f_equal. apply map_ext_in. intros y Iy. rewrite Forall_forall in Hb. apply unit_fmul_l; auto.
  - apply Forall_app. split; auto. apply Forall_forall. intros y Iy. apply in_map_iff in Iy as (z & <- & Iz). rewrite Forall_forall in Hb. apply unit_inD_mul; auto.
Qed.
Lemma kron_units_r : forall a b, Forall inD a -> Forall unit4 b -> fl_kron_1d A a b = kron_1d a b /\ Forall inD (kron_1d a b).
Proof.
  intros a b Ha Hb. induction Ha as [|x a Hx Ha [IH1 IH2]]; [split; [reflexivity|constructor]|]. unfold fl_kron_1d, kron_1d in *. cbn [flat_map]. rewrite IH1. split.
  - f_equal. apply map_ext_in. intros y Iy. rewrite Forall_forall in Hb. apply unit_fmul_r; auto.
  - apply Forall_app. split; auto. apply Forall_forall. intros y Iy. apply in_map_iff in Iy as (z & <- & Iz). rewrite Forall_forall in Hb.
    replace (x * z)%C with (z * x)%C by ring. apply unit_inD_mul; auto.
Qed.
(** the factor [k] has numbers of the arithmetic, the others units *)
Definition factors (ks : list (list C)) (k : nat) : Prop := forall i a, nth_error ks i = Some a -> if Nat.eqb i k then Forall inD a else Forall unit4 a.
Definition here (lo hi k : nat) : bool := (lo <=? k)%nat && (k <? hi)%nat.
Definition kind (b : bool) (l : list C) : Prop := if b then Forall inD l else Forall unit4 l.
Lemma kron_kind : forall lo mid hi k a b, (lo <= mid <= hi)%nat -> kind (here lo mid k) a -> kind (here mid hi k) b -> fl_kron_1d A a b = kron_1d a b /\ kind (here lo hi k) (kron_1d a b).
Proof.
  intros lo mid hi k a b L. unfold here, kind.
  destruct (Nat.leb_spec lo k), (Nat.ltb_spec k mid), (Nat.leb_spec mid k), (Nat.ltb_spec k hi); cbn [andb]; try lia; intros.
  all: first [apply kron_units; assumption|apply kron_units_l; assumption|apply kron_units_r; assumption].
Qed.
Lemma get_kind : forall ks k lo a, factors ks k -> ModelPauliMatrix.get ks lo = Ok a -> kind (here lo (lo + 1) k) a.
Proof.
  intros ks k lo a F E. unfold ModelPauliMatrix.get in E. destruct (nth_error ks lo) as [b|] eqn:N; [|discriminate]. injection E as <-. specialize (F lo b N). unfold here, kind.
  destruct (Nat.eqb_spec lo k) as [->|Q].
  - rewrite Nat.leb_refl. destruct (Nat.ltb_spec k (k + 1)); [exact F|lia].
  - destruct (Nat.leb_spec lo k), (Nat.ltb_spec k (lo + 1)); cbn [andb]; try lia; exact F.
Qed.
Lemma bisect_range : forall fuel a x lo hi r, (lo <= hi)%nat -> bisect_left fuel a x lo hi = Ok r -> (lo <= r <= hi)%nat.
Proof.
  induction fuel as [|f IH]; intros a x lo hi r L E; cbn [bisect_left] in E; destruct (Nat.ltb_spec lo hi); try discriminate; try (injection E as <-; lia).
  destruct (nth_error a ((lo + hi) / 2)) as [v|]; [|discriminate]. assert (M : (lo <= (lo + hi) / 2 < hi)%nat) by (split; [apply Nat.div_le_lower_bound|apply Nat.div_lt_upper_bound]; lia).
  destruct (v <? x)%nat; apply IH in E; lia.
Qed.
Lemma kron_rec_exact : forall ks k cs fuel lo hi, factors ks k -> (lo < hi)%nat ->
  fl_kron_rec A fuel ks cs lo hi = kron_rec fuel ks cs lo hi /\ forall l, kron_rec fuel ks cs lo hi = Ok l -> kind (here lo hi k) l.
Proof.
  intros ks k cs. induction fuel as [|f IH]; intros lo hi F L; cbn [fl_kron_rec kron_rec]; [split; [auto|discriminate]|].
  destruct (Nat.leb_spec hi lo); [lia|]. destruct (Nat.eqb_spec (hi - lo) 1) as [E1|E1].
  { split; auto. intros l E. replace hi with (lo + 1)%nat by lia. eapply get_kind; eauto. }
  destruct (Nat.eqb_spec (hi - lo) 2) as [E2|E2].
  { destruct (ModelPauliMatrix.get ks lo) as [a|] eqn:Ga; cbn [bind]; [|split; [auto|discriminate]]. destruct (ModelPauliMatrix.get ks (lo + 1)) as [b|] eqn:Gb; cbn [bind]; [|split; [auto|discriminate]].
    destruct (kron_kind lo (lo + 1) (lo + 1 + 1) k a b ltac:(lia) (get_kind _ _ _ _ F Ga) (get_kind _ _ _ _ F Gb)) as [K1 K2]. rewrite K1. split; auto. intros l E. injection E as <-. replace hi with (lo + 1 + 1)%nat by lia. auto. }
  destruct (ModelPauliMatrix.get cs lo) as [cl|]; cbn [bind]; [|split; [auto|discriminate]]. destruct (ModelPauliMatrix.get cs (hi - 1)) as [ch|]; cbn [bind]; [|split; [auto|discriminate]].
  destruct (bisect_left (hi - lo) cs ((cl + ch) / 2) lo hi) as [mid|] eqn:Bi; cbn [bind]; [|split; [auto|discriminate]]. apply bisect_range in Bi; [|lia].
  destruct (Nat.eqb_spec mid lo) as [Em|Em].
  - destruct (ModelPauliMatrix.get ks lo) as [a|] eqn:Ga; cbn [bind]; [|split; [auto|discriminate]]. destruct (IH (lo + 1)%nat hi F ltac:(lia)) as [I1 I2]. rewrite I1.
    destruct (kron_rec f ks cs (lo + 1) hi) as [b|]; cbn [bind]; [|split; [auto|discriminate]].
    destruct (kron_kind lo (lo + 1) hi k a b ltac:(lia) (get_kind _ _ _ _ F Ga) (I2 b eq_refl)) as [K1 K2]. rewrite K1. split; auto. intros l E. injection E as <-. auto.
  - destruct (Nat.eq_dec mid hi) as [->|Nh].
    + destruct (IH lo hi F L) as [I1 I2]. rewrite I1. destruct (kron_rec f ks cs lo hi) as [a|]; cbn [bind]; [|split; [auto|discriminate]].
      assert (Z : fl_kron_rec A f ks cs hi hi = kron_rec f ks cs hi hi /\ exists x, kron_rec f ks cs hi hi = Err x).
      { destruct f; cbn [fl_kron_rec kron_rec]; [split; eauto|]. rewrite Nat.leb_refl. split; eauto. }
      destruct Z as [Z1 [x Z2]]. rewrite Z1, Z2. cbn [bind]. split; [auto|discriminate].
    + destruct (IH lo mid F ltac:(lia)) as [I1 I2]. rewrite I1. destruct (kron_rec f ks cs lo mid) as [a|]; cbn [bind]; [|split; [auto|discriminate]].
      destruct (IH mid hi F ltac:(lia)) as [J1 J2]. rewrite J1. destruct (kron_rec f ks cs mid hi) as [b|]; cbn [bind]; [|split; [auto|discriminate]].
      destruct (kron_kind lo mid hi k a b ltac:(lia) (I2 a eq_refl) (J2 b eq_refl)) as [K1 K2]. rewrite K1. split; auto. intros l E. injection E as <-. auto.
Qed.
Lemma run_units : forall rm r, Forall (Forall unit4) (run_data rm r).
Proof.
  intros rm [a n]. unfold run_data. cbn [fst snd]. assert (U : unit4 C1 /\ unit4 (- C1)%C /\ unit4 Ci /\ unit4 (- Ci)%C) by (unfold unit4; tauto). destruct U as (U1 & U2 & U3 & U4).
  assert (O : forall m, Forall unit4 (repeat C1 m)) by (induction m; constructor; auto).
  assert (Rp : forall (l : list C) m, Forall unit4 l -> Forall (Forall unit4) (repeat l m)) by (induction m; constructor; auto).
  destruct a as [[]|].
  - apply Forall_cons; auto.
  - apply Rp. destruct rm; apply Forall_cons; auto.
  - apply Rp. apply Forall_cons; auto.
  - apply Forall_cons; auto.
Qed.
Lemma scale_nth_error : forall k c l s i,
  nth_error (map (fun iv : nat * list C => if (fst iv =? k)%nat then map (fun z => (z * c)%C) (snd iv) else snd iv) (combine (seq s (List.length l)) l)) i =
  option_map (fun a => if (s + i =? k)%nat then map (fun z => (z * c)%C) a else a) (nth_error l i).
Proof.
  induction l as [|a l IH]; intros s i; [destruct i; auto|]. cbn [List.length seq combine map fst snd]. destruct i as [|i]; cbn [nth_error option_map].
  - rewrite Nat.add_0_r. auto.
  - rewrite IH. replace (S s + i)%nat with (s + S i)%nat by lia. auto.
Qed.
Lemma term_data_exact : forall t n rm, inD (t_coeff t) -> fl_term_data A t n rm = term_data t n rm.
Proof.
  intros t n rm H. unfold fl_term_data, term_data. destruct (term_paulis (t_ops t) n) as [ps|]; cbn [bind]; auto.
  pose proof (fun r => run_units rm r) as RU. assert (U : Forall (Forall unit4) (flat_map (run_data rm) (runs ps))).
  { generalize (runs ps). induction l as [|r l IH]; [constructor|]. cbn [flat_map]. apply Forall_app. auto. }
  destruct (flat_map (run_data rm) (runs ps)) as [|d0 ds]; auto. set (data := d0 :: ds) in *. set (k := argmin (map (@List.length C) data)).
  assert (E : fl_scale_at A k (t_coeff t) data = scale_at k (t_coeff t) data).
  { unfold fl_scale_at, scale_at. apply map_ext_in. intros [i l] I. cbn [fst snd]. destruct (i =? k)%nat; auto. apply map_ext_in. intros z Iz.
    apply in_combine_r in I. rewrite Forall_forall in U. specialize (U l I). rewrite Forall_forall in U. apply unit_fmul_l; auto. }
  set (m := List.length data). assert (Lm : (0 < m)%nat) by (unfold m, data; simpl; lia).
  assert (Ls : List.length (rev (scale_at k (t_coeff t) data)) = m) by (rewrite rev_length; apply scale_length).
  assert (Lk : (k < m)%nat) by (unfold k, m; eapply Nat.lt_le_trans; [apply argmin_lt; discriminate|rewrite map_length; auto]).
  assert (F : factors (rev (scale_at k (t_coeff t) data)) (m - 1 - k)).
  { intros i a Ni. assert (Li : (i < m)%nat) by (rewrite <- Ls; apply nth_error_Some; congruence).
    assert (Na : nth i (rev (scale_at k (t_coeff t) data)) [] = a) by (apply nth_error_nth; auto). rewrite rev_nth in Na by (rewrite <- (rev_length (scale_at _ _ _)), Ls; auto).
    rewrite scale_length in Na. fold m in Na. assert (Ii : (m - S i < m)%nat) by lia.
    assert (Nb : nth_error (scale_at k (t_coeff t) data) (m - S i) = Some a) by (rewrite <- Na; apply nth_error_nth'; rewrite scale_length; auto).
    unfold scale_at in Nb. rewrite scale_nth_error in Nb. destruct (nth_error data (m - S i)) as [b|] eqn:Nd; [|discriminate]. apply nth_error_In in Nd. rewrite Forall_forall in U. specialize (U b Nd).
    cbn [option_map] in Nb. change (0 + (m - S i))%nat with (m - S i)%nat in Nb. destruct (Nat.eqb_spec i (m - 1 - k)), (Nat.eqb_spec (m - S i) k); try lia; injection Nb as <-; auto.
    apply Forall_forall. intros z Iz. apply in_map_iff in Iz as (w & <- & Iw). rewrite Forall_forall in U. apply unit_inD_mul; auto. }
  change (argmin (map (@List.length C) (d0 :: ds))) with k. change (d0 :: ds) with data. rewrite E.
  set (ks := rev (scale_at k (t_coeff t) data)) in *.
  apply (proj1 (kron_rec_exact ks (m - 1 - k) (cumsum_from 0 (map (@List.length C) ks)) (List.length ks) 0 (List.length ks) F ltac:(rewrite Ls; auto))).
Qed.
End Units.
