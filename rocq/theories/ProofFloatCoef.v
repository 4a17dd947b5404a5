(** Errors of the coefficients that the numpy backend computes, and its gate methods in rounded arithmetic *)
From Coq Require Import List Arith ZArith Bool Reals Lia Lra Psatz FunctionalExtensionality.
Import ListNotations.
From Verif Require Import Base Cplx Bits ModelTargets ModelGate ModelNumpy ModelFloat SpecTargets SpecQuantum SpecCircuit SpecFloat
  ProofTargets ProofArray ProofNumpy ProofFallback ProofFallback3 ProofUnitary ProofPauli ProofRun ProofFloat ProofFloatOps ProofFloatKern.
Local Open Scope R_scope.

(** ** The operators are linear *)
Lemma linear_ctl : forall c U, linear U -> linear (ctl c U).
Proof.
  intros c U [a s]. split; intros; apply functional_extensionality; intro x; unfold ctl; rewrite ?a, ?s; destruct (bit x c); reflexivity.
Qed.
Lemma linear_swp : forall a b, linear (swp a b).
Proof. intros. split; reflexivity. Qed.
Lemma linear_sem2 : forall k c t, linear (sem2 k c t).
Proof.
  intros k c t. destruct k; try (apply linear_ctl, linear_ap1; fail); try apply linear_swp.
  1-3: split; intros; apply functional_extensionality; intro x; unfold sem2, rot2, ap1; ring.
  destruct (linear_ctl c _ (linear_ap1 (mPhase lambd) t)) as [a s]. split; intros; apply functional_extensionality; intro x; unfold sem2, scl; rewrite ?a, ?s; ring.
Qed.
Lemma linear_sem3 : forall k a b c, linear (sem3 k a b c).
Proof. intros k a b c. destruct k; unfold sem3; auto using linear_ctl, linear_ap1, linear_swp. Qed.

Lemma good_sem1 : forall n k t, inside n t -> good n (sem1 k (Z.to_nat t)).
Proof. intros. split; [apply linear_ap1|]. apply sem1_preserves, inside_lt; auto. Qed.
Lemma good_sem2 : forall n k c t, inside n c -> inside n t -> c <> t -> good n (sem2 k (Z.to_nat c) (Z.to_nat t)).
Proof. intros. split; [apply linear_sem2|]. apply sem2_preserves; try apply inside_lt; auto. unfold inside in *; lia. Qed.
Lemma good_sem3 : forall n k a b c, inside n a -> inside n b -> inside n c -> a <> b -> a <> c -> b <> c ->
  good n (sem3 k (Z.to_nat a) (Z.to_nat b) (Z.to_nat c)).
Proof. intros. split; [apply linear_sem3|]. apply sem3_preserves; try apply inside_lt; auto; unfold inside in *; lia. Qed.
Lemma good_gate : forall n g ops, gate_ops n g ops -> Forall (good n) ops.
Proof.
  intros n g ops H. destruct H as [k tg l D F|k tg ps D F|k a b c Ha Hb Hc Hab Hac Hbc].
  - apply Forall_map. eapply Forall_impl; [|exact F]. intros t Ht. apply good_sem1; auto.
  - apply Forall_map. destruct D as [a [b [la [lb [_ [_ [_ [_ [_ Hne]]]]]]]]].
    rewrite Forall_forall in *. intros p Hp. pose proof (F p Hp) as [? ?]. apply good_sem2; auto; apply (Hne p Hp).
  - constructor; [|constructor]. apply good_sem3; auto.
Qed.

(** ** Operators of matrices with nearby entries *)
Lemma close_where : forall n M N t (U V : oper) (p : nat -> bool) e, (t < n)%nat -> 0 <= e ->
  (forall psi x, U psi x = if p x then ap1 M t psi x else psi x) -> (forall psi x, V psi x = if p x then ap1 N t psi x else psi x) ->
  (forall a b, n1 (M a b - N a b)%C <= e) -> close n U V (3 * e).
Proof.
  intros n M N t U V p e T P HU HV H psi. unfold dist. apply (pair_bound n t); auto. intros x _. rewrite HU, HV.
  pose proof (n1_pos (psi x)). pose proof (n1_pos (psi (flip x t))).
  destruct (p x); [|rewrite n1_self; apply Rmult_le_pos; lra].
  rewrite !ap1_flip. set (a := bit x t). set (y := psi x) in *. set (z := psi (flip x t)) in *.
  replace (M a a * y + M a (negb a) * z - (N a a * y + N a (negb a) * z))%C with ((M a a - N a a) * y + (M a (negb a) - N a (negb a)) * z)%C by ring.
  pose proof (H a a). pose proof (H a (negb a)). pose proof (n1_pos (M a a - N a a)%C). pose proof (n1_pos (M a (negb a) - N a (negb a))%C).
  eapply Rle_trans; [apply n1_add|].
  assert (n1 ((M a a - N a a) * y)%C <= e * n1 y) by (eapply Rle_trans; [apply n1_mul|apply Rmult_le_compat_r; auto]).
  assert (n1 ((M a (negb a) - N a (negb a)) * z)%C <= e * n1 z) by (eapply Rle_trans; [apply n1_mul|apply Rmult_le_compat_r; auto]). lra.
Qed.
Lemma close_ap1 : forall n M N t e, (t < n)%nat -> 0 <= e -> (forall a b, n1 (M a b - N a b)%C <= e) -> close n (ap1 M t) (ap1 N t) (3 * e).
Proof. intros. apply (close_where n M N t _ _ (fun _ => true)); auto. Qed.
Lemma close_ctl : forall n M N c t e, (t < n)%nat -> 0 <= e -> (forall a b, n1 (M a b - N a b)%C <= e) ->
  close n (ctl c (ap1 M t)) (ctl c (ap1 N t)) (3 * e).
Proof. intros. apply (close_where n M N t _ _ (fun x => bit x c)); auto. Qed.

Lemma half_dist : forall a b d, Rabs (a - b) <= d -> Rabs (a / 2 - b / 2) <= d / 2.
Proof. intros. replace (a / 2 - b / 2) with ((a - b) * / 2) by field. rewrite Rabs_mult, (Rabs_pos_eq (/ 2)) by lra. lra. Qed.
Lemma d_pos : forall a d, Rabs a <= d -> 0 <= d. Proof. intros. pose proof (Rabs_pos a). lra. Qed.

Lemma n1_ci_mul : forall r, n1 (- Ci * RtoC r)%C = Rabs r.
Proof. intros. unfold n1, Cmul, Copp, Ci, RtoC; cbn [fst snd]. replace (- 0 * r - - (1) * 0) with 0 by ring. replace (- 0 * 0 + - (1) * r) with (- r) by ring. rewrite Rabs_R0, Rabs_Ropp. lra. Qed.
Lemma rx_lip : forall a b d, Rabs (a - b) <= d -> forall r s, n1 (mRX a r s - mRX b r s)%C <= 3 * d.
Proof.
  intros a b d H r s. pose proof (d_pos _ _ H). pose proof (half_dist _ _ _ H). pose proof (cos_lip (a / 2) (b / 2)). pose proof (sin_lip (a / 2) (b / 2)).
  assert (E : forall x y, (- Ci * RtoC x - - Ci * RtoC y)%C = (- Ci * RtoC (x - y))%C) by (intros; rewrite RtoC_sub; ring).
  destruct r, s; unfold mRX, mk2; rewrite ?E, ?n1_ci_mul, ?n1_RtoC_sub; lra.
Qed.
Lemma ry_lip : forall a b d, Rabs (a - b) <= d -> forall r s, n1 (mRY a r s - mRY b r s)%C <= 3 * d.
Proof.
  intros a b d H r s. pose proof (d_pos _ _ H). pose proof (half_dist _ _ _ H). pose proof (cos_lip (a / 2) (b / 2)). pose proof (sin_lip (a / 2) (b / 2)) as S1.
  pose proof (ab_opp _ _ _ S1). destruct r, s; unfold mRY, mk2; rewrite ?n1_RtoC_sub; lra.
Qed.
Lemma rz_lip : forall a b d, Rabs (a - b) <= d -> forall r s, n1 (mRZ a r s - mRZ b r s)%C <= 3 * d.
Proof.
  intros a b d H r s. pose proof (d_pos _ _ H). pose proof (half_dist _ _ _ H) as D. pose proof (ab_opp _ _ _ D).
  pose proof (cis_lip (a / 2) (b / 2)). pose proof (cis_lip (- (a / 2)) (- (b / 2))).
  destruct r, s; unfold mRZ, mk2; rewrite ?n1_self; lra.
Qed.
Lemma phase_lip : forall a b d, Rabs (a - b) <= d -> forall r s, n1 (mPhase a r s - mPhase b r s)%C <= 3 * d.
Proof.
  intros a b d H r s. pose proof (d_pos _ _ H). pose proof (cis_lip a b). destruct r, s; unfold mPhase, mk2; rewrite ?n1_self; lra.
Qed.
Lemma u3_entries : forall t p l a b, mU3 t p l a b =
  mk2 (RtoC (cos (t / 2)) * cis (- (p / 2) + - (l / 2)))%C (RtoC (- sin (t / 2)) * cis (- (p / 2) + l / 2))%C
      (RtoC (sin (t / 2)) * cis (p / 2 + - (l / 2)))%C (RtoC (cos (t / 2)) * cis (p / 2 + l / 2))%C a b.
Proof. intros t p l a b. rewrite <- !cis_add. destruct a, b; unfold mU3, mmul, mRZ, mRY, mk2; ring. Qed.
Lemma u3_entry : forall x y a b e f, Rabs (x - y) <= e -> Rabs (a - b) <= f -> Rabs y <= 1 -> n1 (RtoC x * cis a - RtoC y * cis b)%C <= 3 / 2 * e + 2 * f.
Proof.
  intros x y a b e f H1 H2 H3. pose proof (d_pos _ _ H1). pose proof (d_pos _ _ H2).
  replace (RtoC x * cis a - RtoC y * cis b)%C with (RtoC (x - y) * cis a + RtoC y * (cis a - cis b))%C by (rewrite RtoC_sub; ring).
  eapply Rle_trans; [apply n1_add|]. pose proof (n1_mul (RtoC (x - y)) (cis a)) as M1. pose proof (n1_mul (RtoC y) (cis a - cis b)%C) as M2.
  rewrite n1_RtoC in M1, M2. pose proof (n1_cis a). pose proof (cis_lip a b). pose proof (n1_pos (cis a)). pose proof (n1_pos (cis a - cis b)%C).
  pose proof (Rabs_pos (x - y)). pose proof (Rabs_pos y).
  assert (Rabs (x - y) * n1 (cis a) <= e * (3 / 2)) by (apply Rmult_le_compat; lra).
  assert (Rabs y * n1 (cis a - cis b)%C <= 1 * (2 * f)) by (apply Rmult_le_compat; lra). lra.
Qed.
Lemma u3_lip : forall t p l t' p' l' d, Rabs (t - t') <= d -> Rabs (p - p') <= d -> Rabs (l - l') <= d ->
  forall r s, n1 (mU3 t p l r s - mU3 t' p' l' r s)%C <= 3 * d.
Proof.
  intros t p l t' p' l' d H1 H2 H3 r s. rewrite !u3_entries. pose proof (d_pos _ _ H1).
  apply half_dist in H1. apply half_dist in H2. apply half_dist in H3.
  pose proof (ab_opp _ _ _ H2) as H2'. pose proof (ab_opp _ _ _ H3) as H3'.
  assert (C0 : Rabs (cos (t / 2) - cos (t' / 2)) <= d / 2) by (pose proof (cos_lip (t / 2) (t' / 2)); lra).
  assert (S0 : Rabs (sin (t / 2) - sin (t' / 2)) <= d / 2) by (pose proof (sin_lip (t / 2) (t' / 2)); lra).
  pose proof (ab_opp _ _ _ S0) as S0'. pose proof (cos_abs (t' / 2)). pose proof (sin_abs (t' / 2)) as B. assert (B' := B). rewrite <- Rabs_Ropp in B'.
  apply Rle_trans with (3 / 2 * (d / 2) + 2 * (d / 2 + d / 2)); [|lra].
  destruct r, s; unfold mk2; apply u3_entry; auto; apply ab_sum; auto.
Qed.

(** ** Loops *)
Lemma approx_for : forall X n (f : X -> bufs -> res bufs) (U : X -> oper) k m l, 0 <= k ->
  (forall a, In a l -> approx n (f a) (U a) (cost k m) /\ good n (U a)) -> approx n (for_list l f) (apply_all (map U l)) (cost k (m * List.length l)).
Proof.
  intros X n f U k m l K. induction l as [|a l IH]; intros H.
  - intros psi beta. exists psi, beta. split; [reflexivity|]. change (apply_all (map U []) psi) with psi. rewrite dist_self.
    apply Rmult_le_pos; [apply cost_pos; auto|apply norm_pos].
  - destruct (H a (or_introl eq_refl)) as [H1 G1]. cbn [List.length]. rewrite Nat.mul_succ_r, Nat.add_comm.
    apply (approx_cost_seq n (f a) (for_list l f) (U a) (apply_all (map U l))); auto.
    + apply IH. intros. apply H. right; auto.
    + apply good_all. apply Forall_map. apply Forall_forall. intros b I. apply H. right; auto.
Qed.
Lemma loop1_approx : forall n tg l f U k m, denotes (Z.of_nat n) tg l -> Forall (inside n) l -> 0 <= k ->
  (forall t, inside n t -> approx n (f n t) (U (Z.to_nat t)) (cost k m) /\ good n (U (Z.to_nat t))) ->
  approx n (loop1 n tg f) (apply_all (map (fun t => U (Z.to_nat t)) l)) (cost k (m * List.length l)).
Proof.
  intros n tg l f U k m D F K H psi beta. unfold loop1, for_gen. apply slicing_iff in D; [|lia]. rewrite D. simpl.
  rewrite Forall_forall in F.
  destruct (approx_for Z n (f n) (fun t => U (Z.to_nat t)) k m l K (fun t I => H t (F t I)) psi beta) as [phi [b' [E B]]].
  exists phi, b'. rewrite E. auto.
Qed.
Lemma loop2_approx : forall n tg ps f U k m, denotes_pairs (Z.of_nat n) tg ps ->
  Forall (fun p => inside n (fst p) /\ inside n (snd p)) ps -> 0 <= k ->
  (forall c t, inside n c -> inside n t -> c <> t -> approx n (f n (c, t)) (U (Z.to_nat c) (Z.to_nat t)) (cost k m) /\ good n (U (Z.to_nat c) (Z.to_nat t))) ->
  approx n (loop2 n tg f) (apply_all (map (fun p => U (Z.to_nat (fst p)) (Z.to_nat (snd p))) ps)) (cost k (m * List.length ps)).
Proof.
  intros n tg ps f U k m D F K H psi beta. unfold loop2.
  pose proof (proj2 (pairs_iff (Z.of_nat n) tg ps ltac:(lia)) D) as E. rewrite E. simpl bind.
  destruct D as [a [b [la [lb [_ [_ [_ [_ [_ Hd]]]]]]]]]. rewrite Forall_forall in F, Hd.
  apply (approx_for _ n (f n) (fun p => U (Z.to_nat (fst p)) (Z.to_nat (snd p))) k m ps); auto.
  intros [c t] I. destruct (F _ I). apply H; auto; apply (Hd _ I).
Qed.

Section Coef.
Variable A : arith.
Variable u M : R.
Hypothesis HR : rounds A u.
Hypothesis HM : 3 <= M.
Hypothesis Hh : u * M <= 1 / 400.
Let h := u * M.

Lemma P0 : 0 <= u. Proof. apply (u_pos A u HR). Qed.
Lemma u_h : u <= h / 2. Proof. pose proof P0. unfold h. nra. Qed.
Lemma h_pos : 0 <= h. Proof. pose proof P0. unfold h. apply Rmult_le_pos; lra. Qed.
Lemma Hu : u <= 1 / 100. Proof. pose proof u_h. fold h in Hh. lra. Qed.

Lemma near_R : forall a b e, Rabs (a - b) <= e -> Rabs b <= 1 -> near (RtoC a) (RtoC b) e.
Proof. intros. split; [rewrite n1_RtoC_sub; auto|rewrite n1_RtoC; lra]. Qed.
Lemma near_cos : forall t, Rabs t <= M -> near (RtoC (f_cos A (f_mul A t (1 / 2)))) (RtoC (cos (t / 2))) h.
Proof.
  intros t H. apply near_R; [|apply cos_abs]. pose proof u_h. pose proof (f_cos_err A u HR _ _ _ (half_err A u HR t M H)). fold h in H1. lra.
Qed.
Lemma near_sin : forall t, Rabs t <= M -> near (RtoC (f_sin A (f_mul A t (1 / 2)))) (RtoC (sin (t / 2))) h.
Proof.
  intros t H. apply near_R; [|apply sin_abs]. pose proof u_h. pose proof (f_sin_err A u HR _ _ _ (half_err A u HR t M H)). fold h in H1. lra.
Qed.
Lemma near_mul : forall z w z' w' e f a b r, n1 (z - z')%C <= e -> n1 (w - w')%C <= f -> n1 z' <= a -> n1 w' <= b -> n1 (z' * w')%C <= 3 / 2 ->
  105 / 100 * h * ((a + e) * (b + f)) + (e * (b + f) + a * f) <= r -> near (fc_mul A z w) (z' * w')%C r.
Proof.
  intros z w z' w' e f a b r H1 H2 H3 H4 H5 H6. split; auto. eapply Rle_trans; [|exact H6].
  eapply Rle_trans; [apply (fc_mul_near A u HR Hu _ _ _ _ _ _ _ _ H1 H2 H3 H4)|]. apply Rplus_le_compat_r, Rmult_le_compat_r.
  - pose proof (n1_pos (z - z')%C). pose proof (n1_pos (w - w')%C). pose proof (n1_pos z'). pose proof (n1_pos w'). apply Rmult_le_pos; lra.
  - pose proof u_h. lra.
Qed.
Lemma h_sq : h * h <= h / 400.
Proof. pose proof h_pos. fold h in Hh. nra. Qed.
Lemma h_cube : h * h * h <= h / 400.
Proof. pose proof h_pos. pose proof h_sq. fold h in Hh. nra. Qed.
Ltac poly := pose proof h_pos; pose proof h_sq; pose proof h_cube; fold h in Hh; nra.

Lemma near_isin : forall t, Rabs t <= M -> near (fc_mul A (- Ci)%C (RtoC (f_sin A (f_mul A t (1 / 2))))) (- Ci * RtoC (sin (t / 2)))%C (3 * h).
Proof.
  intros t H. destruct (near_sin t H) as [H1 H2].
  apply near_mul with (e := 0) (f := h) (a := 1) (b := 1); auto.
  - rewrite n1_self. lra.
  - rewrite n1_opp. unfold n1, Ci; simpl. rewrite Rabs_R0, Rabs_R1. lra.
  - rewrite n1_RtoC. apply sin_abs.
  - rewrite n1_ci_mul. pose proof (sin_abs (t / 2)). lra.
  - poly.
Qed.
Lemma near_cis : forall a b d, Rabs (a - b) <= d -> near (fl_cis A a) (cis b) (h + 2 * d).
Proof. intros a b d H. split; [|apply n1_cis]. pose proof (fl_cis_err A u HR a b d H). pose proof u_h. lra. Qed.
Lemma near_cis_half : forall t, Rabs t <= M -> near (fl_cis A (f_mul A t (1 / 2))) (cis (t / 2)) (2 * h).
Proof. intros t H. eapply near_le; [apply near_cis, (half_err A u HR t M H)|]. fold h. lra. Qed.
Lemma near_conj : forall a b e, near a b e -> near (Cconj a) (Cconj b) e.
Proof.
  intros a b e [H H']. split; [rewrite n1_conj_sub; auto|]. unfold n1, Cconj in *. cbn [fst snd]. rewrite Rabs_Ropp. auto.
Qed.
Lemma near_cis_half' : forall t, Rabs t <= M -> near (Cconj (fl_cis A (f_mul A t (1 / 2)))) (cis (- (t / 2))) (2 * h).
Proof. intros t H. rewrite cis_opp. apply near_conj, near_cis_half; auto. Qed.
Lemma near_T : near (fl_rsqrt2 A, fl_rsqrt2 A) (cis (PI / 4)) (2 * h).
Proof.
  split; [|apply n1_cis]. pose proof (rsqrt2_err A u HR Hu) as H. pose proof u_h. unfold n1, cis, Csub, Cadd, Copp. cbn [fst snd].
  rewrite cos_PI4, sin_PI4. replace (1 / sqrt 2) with (/ sqrt 2) by (unfold Rdiv; ring). unfold Rminus in H. lra.
Qed.

(** u3 *)
Lemma size_rc : forall r a, Rabs r <= 1 -> Cnorm2 (RtoC r * cis a)%C <= 1.
Proof.
  intros r a H. rewrite Cnorm2_mul, Cnorm2_cis, Cnorm2_RtoC, Rmult_1_r. pose proof (Rabs_pos r).
  replace (r * r) with (Rabs r * Rabs r); [nra|]. rewrite <- Rabs_mult. apply Rabs_pos_eq. nra.
Qed.
Lemma near_phase3 : forall p l, Rabs p <= M -> Rabs l <= M ->
  near (fl_cis A (f_mul A (f_sub A (- p) l) (1 / 2))) (cis (- (p / 2) + - (l / 2))) (6 * h).
Proof.
  intros p l Hp Hl. pose proof P0. pose proof h_pos. pose proof u_h.
  assert (B : Rabs (- p - l) <= 2 * M) by (pose proof (ab_minus (- p) l); rewrite Rabs_Ropp in *; lra).
  pose proof (r_sub A u HR (- p) l) as E. assert (E' : Rabs (f_sub A (- p) l - (- p - l)) <= 2 * h).
  { eapply Rle_trans; [exact E|]. unfold h. nra. }
  pose proof (ab_near _ _ _ E') as N. set (s := f_sub A (- p) l) in *.
  pose proof (half_err A u HR s (2 * M + 2 * h) ltac:(lra)) as D. apply half_dist in E'.
  assert (T : Rabs (f_mul A s (1 / 2) - (- (p / 2) + - (l / 2))) <= u * (2 * M + 2 * h) / 2 + 2 * h / 2).
  { replace (- (p / 2) + - (l / 2)) with ((- p - l) / 2) by field. eapply ab_tri; eauto. }
  eapply near_le; [apply near_cis, T|]. fold h in Hh. assert (u * (2 * M + 2 * h) = 2 * h + 2 * (u * h)) by (unfold h; ring).
  assert (u * h <= h / 100) by nra. lra.
Qed.
Lemma near_phase_sum : forall p l, Rabs p <= M -> Rabs l <= M -> near (fl_cis A (f_add A p l)) (cis (p / 2 + p / 2 + (l / 2 + l / 2))) (5 * h).
Proof.
  intros p l Hp Hl. pose proof P0. pose proof (r_add A u HR p l) as E. pose proof (Rabs_triang p l).
  assert (E' : Rabs (f_add A p l - (p / 2 + p / 2 + (l / 2 + l / 2))) <= 2 * h).
  { replace (p / 2 + p / 2 + (l / 2 + l / 2)) with (p + l) by field. eapply Rle_trans; [exact E|]. unfold h. nra. }
  eapply near_le; [apply near_cis, E'|]. pose proof h_pos. lra.
Qed.
Lemma near_phase1 : forall l, near (fl_cis A l) (cis (l / 2 + l / 2)) h.
Proof.
  intros l. replace (l / 2 + l / 2) with l by field. eapply near_le; [apply (near_cis l l 0); rewrite Rminus_diag_eq, Rabs_R0 by auto; lra|]. lra.
Qed.
Lemma near_rc : forall r r' p l, near (RtoC r) (RtoC r') h -> Rabs r' <= 1 -> Rabs p <= M -> Rabs l <= M ->
  near (fc_mul A (RtoC r) (fl_cis A (f_mul A (f_sub A (- p) l) (1 / 2)))) (RtoC r' * cis (- (p / 2) + - (l / 2)))%C (10 * h).
Proof.
  intros r r' p l [H1 H1'] Hr Hp Hl. destruct (near_phase3 p l Hp Hl) as [H2 H2'].
  apply near_mul with (e := h) (f := 6 * h) (a := 1) (b := 3 / 2); auto.
  - rewrite n1_RtoC. auto.
  - apply n1_unit, size_rc; auto.
  - poly.
Qed.
Lemma near_rcc : forall z w r a b f, near z (RtoC r * cis a)%C (10 * h) -> Rabs r <= 1 -> near w (cis b) f -> f <= 5 * h -> 
  near (fc_mul A z w) (RtoC r * cis a * cis b)%C (29 * h).
Proof.
  intros z w r a b f [H1 H1'] Hr [H2 H2'] Hf. 
  apply near_mul with (e := 10 * h) (f := 5 * h) (a := 3 / 2) (b := 3 / 2); auto; try lra.
  - apply n1_unit. rewrite <- Cmul_assoc, cis_add. apply size_rc; auto.
  - poly.
Qed.

(** ** The methods of the backend *)
Let k := 100 * h.
Lemma k_pos : 0 <= k. Proof. pose proof h_pos. unfold k. lra. Qed.

Lemma fl_h_loop : forall n t, inside n t -> approx n (fl_h A n t) (sem1 KH (Z.to_nat t)) (cost k 1).
Proof.
  intros n t Ht. eapply approx_le; [apply (fl_h_approx A u HR Hu n t Ht)|]. rewrite cost_1. pose proof u_h. pose proof h_pos. unfold k. lra.
Qed.

Ltac lim := rewrite cost_1; pose proof u_h; pose proof h_pos; unfold k; lra.
Ltac hle := pose proof h_pos; fold h in Hh; lra.

Lemma n1_one : n1 (- C1)%C <= 3 / 2. Proof. rewrite n1_opp. unfold n1, C1; simpl. rewrite Rabs_R0, Rabs_R1. lra. Qed.
Lemma n1_i : n1 Ci <= 3 / 2. Proof. unfold n1, Ci; simpl. rewrite Rabs_R0, Rabs_R1. lra. Qed.

Lemma native1 : forall n kd tg l f, denotes (Z.of_nat n) tg l -> Forall (inside n) l -> Forall (fun a => Rabs a <= M) (angles1 kd) ->
  fl_unitary A (GOne kd tg) n = Some f -> approx n f (apply_all (map (fun t => sem1 kd (Z.to_nat t)) l)) (cost k (1 * List.length l)).
Proof.
  intros n kd tg l f D F W E.
  assert (L : forall g, f = loop1 n tg g -> (forall t, inside n t -> approx n (g n t) (sem1 kd (Z.to_nat t)) (cost k 1)) ->
    approx n f (apply_all (map (fun t => sem1 kd (Z.to_nat t)) l)) (cost k (1 * List.length l))).
  { intros g -> H. apply (loop1_approx n tg l g (sem1 kd)); auto using k_pos. intros t Ht. split; auto. apply good_sem1; auto. }
  destruct kd; cbn [fl_unitary] in E; try discriminate; injection E; intros <-; clear E; eapply L; try reflexivity; clear L; intros t Ht; unfold sem1;
    cbn [angles1] in W; repeat match goal with W : Forall _ (_ :: _) |- _ => apply Forall_cons_iff in W; destruct W as [? W] end.
  - eapply approx_le; [apply acts_approx, step_x_acts; auto|]. apply cost_pos, k_pos.
  - eapply approx_le; [apply (fl_y_approx A u HR Hu); auto|]. lim.
  - eapply approx_le; [apply (fl_diag1_approx A u HR Hu n t Ht _ _ 0 (near_self _ n1_one)); lra|]. lim.
  - apply fl_h_loop; auto.
  - eapply approx_le; [apply (fl_diag1_approx A u HR Hu n t Ht _ _ (2 * h) near_T); hle|]. lim.
  - cbn [mat1]. unfold mPhase. rewrite cis_PI2. eapply approx_le; [apply (fl_diag1_approx A u HR Hu n t Ht _ _ 0 (near_self _ n1_i)); lra|]. lim.
  - eapply approx_le; [apply (fl_mat_approx A u HR Hu n t Ht _ _ _ _ _ _ _ _ (3 * h))|]; [| | | |hle|lim].
    + eapply near_le; [apply near_cos; auto|hle].
    + apply near_isin; auto.
    + apply near_isin; auto.
    + eapply near_le; [apply near_cos; auto|hle].
  - eapply approx_le; [apply (fl_mat_approx A u HR Hu n t Ht _ _ _ _ _ _ _ _ h)|]; [| | | |hle|lim].
    + apply near_cos; auto.
    + rewrite RtoC_opp. destruct (near_sin theta H) as [N1 N2]. split; [|rewrite n1_opp; auto].
      rewrite <- n1_opp. eapply Rle_trans; [|exact N1]. right. f_equal. ring.
    + apply near_sin; auto.
    + apply near_cos; auto.
  - eapply approx_le; [apply (fl_diag01_approx A u HR Hu n t Ht _ _ _ _ (2 * h)); [apply near_cis_half'; auto|apply near_cis_half; auto|hle]|]. lim.
  - eapply approx_le; [apply (fl_diag1_approx A u HR Hu n t Ht _ _ h)|]; [|hle|lim].
    replace theta with (theta / 2 + theta / 2) at 2 by field. apply near_phase1.
  - eapply approx_le; [apply (fl_diag01_approx A u HR Hu n t Ht _ _ _ _ (2 * h)); [apply near_cis_half'; auto|apply near_cis_half; auto|hle]|]. lim.
  - eapply approx_le.
    + eapply approx_ext; [apply (fl_u3_approx A u HR Hu n t Ht _ _ _ _
        (RtoC (cos (theta / 2)) * cis (- (phi / 2) + - (lambd / 2)))%C
        (RtoC (sin (theta / 2)) * cis (- (phi / 2) + - (lambd / 2)) * cis (lambd / 2 + lambd / 2))%C
        (RtoC (sin (theta / 2)) * cis (- (phi / 2) + - (lambd / 2)) * cis (phi / 2 + phi / 2))%C
        (RtoC (cos (theta / 2)) * cis (- (phi / 2) + - (lambd / 2)) * cis (phi / 2 + phi / 2 + (lambd / 2 + lambd / 2)))%C (29 * h))|].
      * eapply near_le; [apply near_rc; auto using near_cos, cos_abs|hle].
      * eapply near_rcc; [apply near_rc; auto using near_sin, sin_abs|apply sin_abs|apply near_phase1|hle].
      * eapply near_rcc; [apply near_rc; auto using near_sin, sin_abs|apply sin_abs|apply near_phase1|hle].
      * eapply near_rcc; [apply near_rc; auto using near_cos, cos_abs|apply cos_abs|apply near_phase_sum; auto|hle].
      * hle.
      * intros psi. cbn [mat1]. apply functional_extensionality. intros x. apply ap1_eq_mat. intros a b. rewrite u3_entries.
        pose proof (cis_opp_l (phi / 2)) as Ep. pose proof (cis_opp_l (lambd / 2)) as Eq. rewrite <- !cis_add, ?RtoC_opp.
        destruct a, b; unfold mk2; ring [Ep Eq].
    + lim.
Qed.

Lemma native2 : forall n kd tg ps f, denotes_pairs (Z.of_nat n) tg ps -> Forall (fun p => inside n (fst p) /\ inside n (snd p)) ps ->
  Forall (fun a => Rabs a <= M) (angles2 kd) -> fl_unitary A (GTwo kd tg) n = Some f ->
  approx n f (apply_all (map (fun p => sem2 kd (Z.to_nat (fst p)) (Z.to_nat (snd p))) ps)) (cost k (1 * List.length ps)).
Proof.
  intros n kd tg ps f D F W E.
  assert (L : forall g, f = loop2 n tg g -> (forall c t, inside n c -> inside n t -> c <> t -> approx n (g n (c, t)) (sem2 kd (Z.to_nat c) (Z.to_nat t)) (cost k 1)) ->
    approx n f (apply_all (map (fun p => sem2 kd (Z.to_nat (fst p)) (Z.to_nat (snd p))) ps)) (cost k (1 * List.length ps))).
  { intros g -> H. apply (loop2_approx n tg ps g (sem2 kd)); auto using k_pos. intros c t Hc Ht Hct. split; auto. apply good_sem2; auto. }
  destruct kd; cbn [fl_unitary] in E; try discriminate; injection E; intros <-; clear E; eapply L; try reflexivity; clear L; intros c t Hc Ht Hct; unfold sem2;
    cbn [angles2] in W; repeat match goal with W : Forall _ (_ :: _) |- _ => apply Forall_cons_iff in W; destruct W as [? W] end.
  - eapply approx_le; [apply acts_approx, step_cx_acts; auto|]. apply cost_pos, k_pos.
  - eapply approx_le; [apply (fl_cdiag1_approx A u HR Hu n c t Hc Ht Hct _ _ 0 (near_self _ n1_one)); lra|]. lim.
  - eapply approx_le; [apply (fl_cmat_approx A u HR Hu n c t Hc Ht Hct _ _ _ _ _ _ _ _ (3 * h))|]; [| | | |hle|lim].
    + eapply near_le; [apply near_cos; auto|hle].
    + apply near_isin; auto.
    + apply near_isin; auto.
    + eapply near_le; [apply near_cos; auto|hle].
  - eapply approx_le; [apply (fl_cmat_approx A u HR Hu n c t Hc Ht Hct _ _ _ _ _ _ _ _ h)|]; [| | | |hle|lim].
    + apply near_cos; auto.
    + rewrite RtoC_opp. destruct (near_sin theta H) as [N1 N2]. split; [|rewrite n1_opp; auto].
      rewrite <- n1_opp. eapply Rle_trans; [|exact N1]. right. f_equal. ring.
    + apply near_sin; auto.
    + apply near_cos; auto.
  - eapply approx_le; [apply (fl_cdiag01_approx A u HR Hu n c t Hc Ht Hct _ _ _ _ (2 * h)); [apply near_cis_half'; auto|apply near_cis_half; auto|hle]|]. lim.
  - eapply approx_le; [apply (fl_cdiag1_approx A u HR Hu n c t Hc Ht Hct _ _ h)|]; [|hle|lim].
    replace theta with (theta / 2 + theta / 2) at 2 by field. apply near_phase1.
Qed.

Lemma native_ccz : forall n a b c, inside n a -> inside n b -> inside n c ->
  approx n (fl_ccz A n (TTuple [TInt a; TInt b; TInt c])) (sem3 KCCZ (Z.to_nat a) (Z.to_nat b) (Z.to_nat c)) (cost k 1).
Proof. intros. eapply approx_le; [apply (fl_ccz_approx A u HR Hu); auto|]. lim. Qed.
Lemma native_ccx : forall n a b c, inside n a -> inside n b -> inside n c -> a <> b -> a <> c -> b <> c ->
  approx n (fl_ccx A n (TTuple [TInt a; TInt b; TInt c])) (sem3 KCCX (Z.to_nat a) (Z.to_nat b) (Z.to_nat c)) (cost k 3).
Proof.
  intros n a b c Ha Hb Hc Hab Hac Hbc.
  assert (H : approx n (loop1 n (TInt c) (fl_h A)) (sem1 KH (Z.to_nat c)) (cost k 1)).
  { apply (loop1_approx n (TInt c) [c] (fl_h A) (sem1 KH) k 1); [apply denotes_int; auto|constructor; auto|apply k_pos|].
    intros t Ht. split; [apply fl_h_loop; auto|apply good_sem1; auto]. }
  pose proof (good_sem1 n KH c Hc) as GH. pose proof (good_sem3 n KCCZ a b c Ha Hb Hc Hab Hac Hbc) as GZ.
  eapply approx_ext.
  - apply (approx_cost_seq n (loop1 n (TInt c) (fl_h A)) (fun s => bind (fl_ccz A n (TTuple [TInt a; TInt b; TInt c]) s) (loop1 n (TInt c) (fl_h A)))
      (sem1 KH (Z.to_nat c)) (fun psi => sem1 KH (Z.to_nat c) (sem3 KCCZ (Z.to_nat a) (Z.to_nat b) (Z.to_nat c) psi)) k 1 2); auto using k_pos.
    + apply (approx_cost_seq n _ _ _ _ k 1 1); auto using k_pos. apply native_ccz; auto.
    + exact (good_comp n _ _ GZ GH).
  - intros psi. apply (h_ccz_h (Z.to_nat a) (Z.to_nat b) (Z.to_nat c)); unfold inside in *; lia.
Qed.
End Coef.
