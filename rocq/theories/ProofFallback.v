(** The decompositions of gate.py have the effect of the gates that they stand for. *)
From Coq Require Import List Arith ZArith Bool Reals Lia Lra FunctionalExtensionality.
Import ListNotations.
From Verif Require Import Base Cplx Bits ModelTargets ModelGate SpecTargets SpecQuantum SpecCircuit.
Local Open Scope R_scope.

(** ** Operators on one, two and three qubits, in coordinates *)
Definition r2 (c t : nat) (psi : state) (x : nat) : bool -> bool -> C :=
  fun a b => psi (setb (setb x c a) t b).
Definition loc2 (c t : nat) (U : oper) (L : (bool -> bool -> C) -> bool -> bool -> C) : Prop :=
  forall psi x, U psi x = L (r2 c t psi x) (bit x c) (bit x t).

Definition L_t (M : mat2) (v : bool -> bool -> C) (a b : bool) : C := (M b false * v a false + M b true * v a true)%C.
Definition L_c (M : mat2) (v : bool -> bool -> C) (a b : bool) : C := (M a false * v false b + M a true * v true b)%C.
Definition L_ct (M : mat2) (v : bool -> bool -> C) (a b : bool) : C := if a then L_t M v a b else v a b.
Definition L_tc (M : mat2) (v : bool -> bool -> C) (a b : bool) : C := if b then L_c M v a b else v a b.

Lemma r2_self : forall c t psi x, c <> t -> psi x = r2 c t psi x (bit x c) (bit x t).
Proof. intros. unfold r2. rewrite setb_id. rewrite setb_id. auto. Qed.

Lemma r2_set : forall c t psi x a b, c <> t -> r2 c t psi (setb (setb x c a) t b) = r2 c t psi x.
Proof.
  intros. unfold r2. apply functional_extensionality; intro a'. apply functional_extensionality; intro b'.
  f_equal. rewrite (setb_comm _ t c b a') by auto. rewrite setb_setb. rewrite setb_setb. reflexivity.
Qed.

Lemma loc2_comp : forall c t U L V K, c <> t -> loc2 c t U L -> loc2 c t V K ->
  loc2 c t (fun psi => U (V psi)) (fun v => L (K v)).
Proof.
  intros c t U L V K Hct HU HV psi x. rewrite HU. f_equal.
  unfold r2 at 1. apply functional_extensionality; intro a. apply functional_extensionality; intro b.
  rewrite HV. rewrite r2_set by auto.
  rewrite testbit_setb_neq, testbit_setb_eq, testbit_setb_eq by auto. reflexivity.
Qed.

Lemma loc2_eq : forall c t U L V K, loc2 c t U L -> loc2 c t V K ->
  (forall v a b, L v a b = K v a b) -> forall psi, U psi = V psi.
Proof. intros. apply functional_extensionality; intro x. rewrite H, H0. apply H1. Qed.

Lemma loc2_t : forall c t M, c <> t -> loc2 c t (ap1 M t) (L_t M).
Proof.
  intros c t M H psi x. unfold ap1, L_t, r2. rewrite setb_id. reflexivity.
Qed.
Lemma loc2_c : forall c t M, c <> t -> loc2 c t (ap1 M c) (L_c M).
Proof.
  intros c t M H psi x. unfold ap1, L_c, r2. rewrite !(setb_comm _ c t) by auto. rewrite setb_id. reflexivity.
Qed.
Lemma loc2_ct : forall c t M, c <> t -> loc2 c t (ctl c (ap1 M t)) (L_ct M).
Proof.
  intros c t M H psi x. unfold ctl, L_ct. rewrite (loc2_t c t M H psi x).
  destruct (bit x c) eqn:E; auto. rewrite <- E. apply r2_self; auto.
Qed.
Lemma loc2_tc : forall c t M, c <> t -> loc2 c t (ctl t (ap1 M c)) (L_tc M).
Proof.
  intros c t M H psi x. unfold ctl, L_tc. rewrite (loc2_c c t M H psi x).
  destruct (bit x t) eqn:E; auto. rewrite <- E. apply r2_self; auto.
Qed.
Lemma loc2_id : forall c t, c <> t -> loc2 c t (fun psi => psi) (fun v => v).
Proof. intros c t H psi x. apply r2_self; auto. Qed.
Lemma loc2_swp : forall c t, c <> t -> loc2 c t (swp c t) (fun v a b => v b a).
Proof. intros c t H psi x. reflexivity. Qed.
Lemma loc2_rot : forall P th c t, c <> t -> loc2 c t (rot2 P th c t)
  (fun v a b => (RtoC (cos (th / 2)) * v a b - Ci * RtoC (sin (th / 2)) * L_c P (L_t P v) a b)%C).
Proof.
  intros P th c t H psi x. unfold rot2.
  rewrite (loc2_comp c t _ _ _ _ H (loc2_c c t P H) (loc2_t c t P H) psi x).
  rewrite (r2_self c t psi x H) at 1. reflexivity.
Qed.
Lemma loc2_scl : forall k c t U L, loc2 c t U L -> loc2 c t (fun psi => scl k (U psi)) (fun v a b => (k * L v a b)%C).
Proof. intros k c t U L H psi x. unfold scl. rewrite H. reflexivity. Qed.

(** three qubits *)
Definition tens := bool -> bool -> bool -> C.
Definition r3 (p q r : nat) (psi : state) (x : nat) : tens :=
  fun a b c => psi (setb (setb (setb x p a) q b) r c).
Definition loc3 (p q r : nat) (U : oper) (L : tens -> tens) : Prop :=
  forall psi x, U psi x = L (r3 p q r psi x) (bit x p) (bit x q) (bit x r).

Section Three.
Variables p q r : nat.
Hypothesis Hpq : p <> q.
Hypothesis Hpr : p <> r.
Hypothesis Hqr : q <> r.

Lemma r3_self : forall psi x, psi x = r3 p q r psi x (bit x p) (bit x q) (bit x r).
Proof. intros. unfold r3. rewrite !setb_id. auto. Qed.
Lemma r3_set : forall psi x a b c, r3 p q r psi (setb (setb (setb x p a) q b) r c) = r3 p q r psi x.
Proof.
  intros. unfold r3. apply functional_extensionality; intro a'. apply functional_extensionality; intro b'.
  apply functional_extensionality; intro c'.
  f_equal. apply Nat.bits_inj. intro k. rewrite !testbit_setb.
  destruct (p =? k)%nat, (q =? k)%nat, (r =? k)%nat; auto.
Qed.
Lemma loc3_comp : forall U L V K, loc3 p q r U L -> loc3 p q r V K ->
  loc3 p q r (fun psi => U (V psi)) (fun v => L (K v)).
Proof.
  intros U L V K HU HV psi x. rewrite HU. f_equal.
  unfold r3 at 1. apply functional_extensionality; intro a. apply functional_extensionality; intro b.
  apply functional_extensionality; intro c.
  rewrite HV, r3_set. rewrite !testbit_setb, !Nat.eqb_refl.
  destruct (Nat.eqb_spec r p), (Nat.eqb_spec r q), (Nat.eqb_spec q p); try congruence; try lia.
Qed.
Lemma loc3_eq : forall U L V K, loc3 p q r U L -> loc3 p q r V K ->
  (forall v a b c, L v a b c = K v a b c) -> forall psi, U psi = V psi.
Proof. intros. apply functional_extensionality; intro x. rewrite H, H0. apply H1. Qed.

Definition T_p (M : mat2) (v : tens) : tens := fun a b c => (M a false * v false b c + M a true * v true b c)%C.
Definition T_q (M : mat2) (v : tens) : tens := fun a b c => (M b false * v a false c + M b true * v a true c)%C.
Definition T_r (M : mat2) (v : tens) : tens := fun a b c => (M c false * v a b false + M c true * v a b true)%C.
Definition T_pq (M : mat2) (v : tens) : tens := fun a b c => if a then T_q M v a b c else v a b c.
Definition T_pr (M : mat2) (v : tens) : tens := fun a b c => if a then T_r M v a b c else v a b c.
Definition T_qr (M : mat2) (v : tens) : tens := fun a b c => if b then T_r M v a b c else v a b c.
Definition T_rq (M : mat2) (v : tens) : tens := fun a b c => if c then T_q M v a b c else v a b c.
Definition T_pqr (M : mat2) (v : tens) : tens := fun a b c => if a then if b then T_r M v a b c else v a b c else v a b c.

Lemma loc3_p : forall M, loc3 p q r (ap1 M p) (T_p M).
Proof.
  intros M psi x. unfold ap1, T_p, r3.
  rewrite !(setb_comm _ p q), !(setb_comm _ p r), !setb_id by auto. reflexivity.
Qed.
Lemma loc3_q : forall M, loc3 p q r (ap1 M q) (T_q M).
Proof.
  intros M psi x. unfold ap1, T_q, r3.
  rewrite !setb_id. rewrite !(setb_comm _ q r), !setb_id by auto. reflexivity.
Qed.
Lemma loc3_r : forall M, loc3 p q r (ap1 M r) (T_r M).
Proof. intros M psi x. unfold ap1, T_r, r3. rewrite !setb_id. reflexivity. Qed.
Lemma loc3_ctl_p : forall U L, loc3 p q r U L ->
  loc3 p q r (ctl p U) (fun v a b c => if a then L v a b c else v a b c).
Proof. intros U L H psi x. unfold ctl. rewrite H. destruct (bit x p) eqn:E; auto. rewrite <- E. apply r3_self. Qed.
Lemma loc3_ctl_q : forall U L, loc3 p q r U L ->
  loc3 p q r (ctl q U) (fun v a b c => if b then L v a b c else v a b c).
Proof. intros U L H psi x. unfold ctl. rewrite H. destruct (bit x q) eqn:E; auto. rewrite <- E. apply r3_self. Qed.
Lemma loc3_ctl_r : forall U L, loc3 p q r U L ->
  loc3 p q r (ctl r U) (fun v a b c => if c then L v a b c else v a b c).
Proof. intros U L H psi x. unfold ctl. rewrite H. destruct (bit x r) eqn:E; auto. rewrite <- E. apply r3_self. Qed.
Lemma loc3_swp : loc3 p q r (swp q r) (fun v a b c => v a c b).
Proof. intros psi x. unfold swp, r3. rewrite setb_id. reflexivity. Qed.
End Three.

(** ** Trigonometric facts *)
Lemma cis_PI2 : cis (PI / 2) = Ci.
Proof. unfold cis. rewrite cos_PI2, sin_PI2. reflexivity. Qed.
Lemma cis_PI2_neg : cis (- (PI / 2)) = (- Ci)%C.
Proof. rewrite cis_opp, cis_PI2. ceq. Qed.
Lemma cis_PI : cis PI = (- C1)%C.
Proof. unfold cis. rewrite cos_PI, sin_PI. ceq. Qed.
Lemma inv_sqrt2_sq : / sqrt 2 * / sqrt 2 = / 2.
Proof. rewrite <- Rinv_mult. rewrite sqrt_sqrt by lra. reflexivity. Qed.
Lemma C_inv_sqrt2_sq : (RtoC (/ sqrt 2) * RtoC (/ sqrt 2))%C = RtoC (/ 2).
Proof. rewrite <- RtoC_mul, inv_sqrt2_sq. reflexivity. Qed.
Lemma C_half : (RtoC (/ 2) + RtoC (/ 2))%C = C1.
Proof. rewrite <- RtoC_add. unfold RtoC, C1. f_equal. lra. Qed.
Lemma cis_double : forall a, cis (a + a) = (cis a * cis a)%C.
Proof. intros. symmetry. apply cis_add. Qed.
Lemma cos_dbl : forall a, RtoC (cos (a + a)) = (RtoC (cos a) * RtoC (cos a) - RtoC (sin a) * RtoC (sin a))%C.
Proof. intros. rewrite cos_plus. rewrite RtoC_sub, !RtoC_mul. reflexivity. Qed.
Lemma sin_dbl : forall a, RtoC (sin (a + a)) = (RtoC (sin a) * RtoC (cos a) + RtoC (cos a) * RtoC (sin a))%C.
Proof. intros. rewrite sin_plus. rewrite RtoC_add, !RtoC_mul. reflexivity. Qed.
Lemma C_sin2 : forall a, (RtoC (sin a) * RtoC (sin a))%C = (C1 - RtoC (cos a) * RtoC (cos a))%C.
Proof.
  intros. rewrite <- !RtoC_mul, <- RtoC_1, <- RtoC_sub. f_equal.
  pose proof (sin2_cos2 a). unfold Rsqr in H. lra.
Qed.

Ltac l2 := first [ apply loc2_t; assumption | apply loc2_c; assumption | apply loc2_ct; assumption
                 | apply loc2_tc; assumption | apply loc2_swp; assumption | apply loc2_rot; assumption
                 | apply loc2_scl; l2
                 | eapply loc2_comp; [assumption | l2 | l2] ].
Ltac two := cbn [sem1 sem2 mat1 apply_all fold_left]; unfold sem1; cbn [mat1];
  match goal with H : ?c <> ?t |- _ => refine (loc2_eq c t _ _ _ _ _ _ _); [l2 | l2 | ] end;
  let v := fresh "v" in intros v [|] [|]; unfold L_tc, L_ct, L_c, L_t; cbn [mX mY mZ mk2 mI mPhase mRZ mRX mRY];
  unfold mX, mY, mZ, mk2, mI, mPhase, mRZ, mRX, mRY.

Section TwoQubit.
Variables c t : nat.
Hypothesis Hct : c <> t.

Lemma fb_cy : forall psi, apply_all [sem1 KSdg t; sem2 KCX c t; sem1 KS t] psi = sem2 KCY c t psi.
Proof.
  two; rewrite ?cis_PI2, ?cis_PI2_neg; try ring.
  all: ring [Ci_sq].
Qed.

Lemma C2_neq0 : (C1 + C1)%C <> C0.
Proof. intro H. unfold C1, C0, Cadd in H. injection H. simpl. lra. Qed.
Lemma C_h2 : (RtoC (/ sqrt 2) * RtoC (/ sqrt 2))%C = (/ (C1 + C1))%C.
Proof. rewrite C_inv_sqrt2_sq. apply C_ext; cunfold; field; lra. Qed.

Lemma fb_ch : forall psi, apply_all [sem1 (KRY (PI / 4)) t; sem2 KCX c t; sem1 (KRY (- PI / 4)) t] psi = sem2 KCH c t psi.
Proof.
  set (k := PI / 4 / 2).
  assert (E1 : - PI / 4 / 2 = - k) by (unfold k; field).
  assert (E2 : RtoC (/ sqrt 2) = RtoC (cos (k + k))).
  { f_equal. unfold k. replace (PI / 4 / 2 + PI / 4 / 2) with (PI / 4) by field. rewrite cos_PI4. field.
    apply sqrt2_neq_0. }
  assert (E3 : RtoC (/ sqrt 2) = RtoC (sin (k + k))).
  { f_equal. unfold k. replace (PI / 4 / 2 + PI / 4 / 2) with (PI / 4) by field. rewrite sin_PI4. field.
    apply sqrt2_neq_0. }
  pose proof (cos_dbl k) as Ec. pose proof (sin_dbl k) as Es. pose proof (C_sin2 k) as Eq.
  rewrite <- E2 in Ec. rewrite <- E3 in Es.
  two; fold k; rewrite ?E1, ?cos_neg, ?sin_neg, ?Ropp_involutive, ?RtoC_opp; unfold mH, mscale, mk2; try ring [Eq].
  - rewrite Es at 2. rewrite Ec. ring.
  - rewrite Es at 1. rewrite Ec. ring.
Qed.

Lemma fb_crx : forall th psi, apply_all [sem1 (KRX (th / 2)) t; sem2 KCZ c t; sem1 (KRX (- th / 2)) t; sem2 KCZ c t] psi
  = sem2 (KCRX th) c t psi.
Proof.
  intros th. set (k := th / 2 / 2).
  assert (E1 : - th / 2 / 2 = - k) by (unfold k; field).
  assert (E2 : th / 2 = k + k) by (unfold k; field).
  pose proof (C_sin2 k) as Eq.
  two; fold k; rewrite ?E1, ?cos_neg, ?sin_neg, ?RtoC_opp; rewrite ?E2, ?cos_dbl, ?sin_dbl; ring [Eq Ci_sq].
Qed.

Lemma fb_cry : forall th psi, apply_all [sem1 (KRY (th / 2)) t; sem2 KCX c t; sem1 (KRY (- th / 2)) t; sem2 KCX c t] psi
  = sem2 (KCRY th) c t psi.
Proof.
  intros th. set (k := th / 2 / 2).
  assert (E1 : - th / 2 / 2 = - k) by (unfold k; field).
  assert (E2 : th / 2 = k + k) by (unfold k; field).
  pose proof (C_sin2 k) as Eq.
  two; fold k; rewrite ?E1, ?cos_neg, ?sin_neg, ?Ropp_involutive, ?RtoC_opp; rewrite ?E2, ?cos_dbl, ?sin_dbl; ring [Eq Ci_sq].
Qed.

Lemma fb_crz : forall th psi, apply_all [sem1 (KRZ (th / 2)) t; sem2 KCX c t; sem1 (KRZ (- th / 2)) t; sem2 KCX c t] psi
  = sem2 (KCRZ th) c t psi.
Proof.
  intros th. set (k := th / 2 / 2).
  assert (E1 : - th / 2 / 2 = - k) by (unfold k; field).
  assert (E2 : th / 2 = k + k) by (unfold k; field).
  assert (E3 : - (th / 2) = - k + - k) by (unfold k; field).
  pose proof (cis_opp_l k) as Eq.
  two; fold k; rewrite ?E1, ?Ropp_involutive, ?E3, ?E2, ?cis_double; ring [Eq].
Qed.

Lemma fb_cphase : forall th psi, apply_all [sem2 (KCRZ th) c t; sem1 (KPhase (th / 2)) c] psi = sem2 (KCPhase th) c t psi.
Proof.
  intros th. pose proof (cis_opp_l (th / 2)) as Eq.
  assert (E2 : th = th / 2 + th / 2) by field.
  assert (E3 : cis th = (cis (th / 2) * cis (th / 2))%C) by (rewrite <- cis_double; f_equal; exact E2).
  two; rewrite ?E3; ring [Eq].
Qed.

Lemma fb_rzz : forall th psi, apply_all [sem2 KCX c t; sem1 (KRZ th) t; sem2 KCX c t] psi = sem2 (KRZZ th) c t psi.
Proof.
  intros th.
  assert (E : forall a, cis a = (RtoC (cos a) + Ci * RtoC (sin a))%C) by (intros; ceq).
  two; rewrite !E, ?cos_neg, ?sin_neg, ?RtoC_opp; ring.
Qed.

Lemma fb_rxx : forall th psi, apply_all [sem1 KH c; sem1 KH t; sem2 (KRZZ th) c t; sem1 KH c; sem1 KH t] psi
  = sem2 (KRXX th) c t psi.
Proof.
  intros th. pose proof C_h2 as Eh.
  two; unfold mH, mscale, mk2; set (h := RtoC (/ sqrt 2)) in *;
  set (d := (/ (C1 + C1))%C) in *; assert (Ed : (d + d)%C = C1) by (unfold d; field; apply C2_neq0);
  generalize dependent d; intros d Eh Ed;
  match goal with |- ?A = ?B => transitivity ((d + d) * (d + d) * B)%C; [ring [Eh] | rewrite Ed; ring] end.
Qed.

Lemma fb_ryy : forall th psi, apply_all [sem1 (KRX (- PI * (1/2))) c; sem1 (KRX (- PI * (1/2))) t;
    sem2 (KRZZ th) c t; sem1 (KRX (PI * (1/2))) c; sem1 (KRX (PI * (1/2))) t] psi
  = sem2 (KRYY th) c t psi.
Proof.
  intros th. pose proof C_h2 as Eh.
  assert (E1 : - PI * (1/2) / 2 = - (PI / 4)) by field.
  assert (E2 : PI * (1/2) / 2 = PI / 4) by field.
  assert (E3 : cos (PI / 4) = / sqrt 2) by (rewrite cos_PI4; unfold Rdiv; ring).
  assert (E4 : sin (PI / 4) = / sqrt 2) by (rewrite sin_PI4; unfold Rdiv; ring).
  two; rewrite ?E1, ?E2, ?cos_neg, ?sin_neg, ?E3, ?E4, ?RtoC_opp; set (h := RtoC (/ sqrt 2)) in *;
  set (d := (/ (C1 + C1))%C) in *; assert (Ed : (d + d)%C = C1) by (unfold d; field; apply C2_neq0);
  generalize dependent d; intros d Eh Ed;
  match goal with |- ?A = ?B => transitivity ((d + d) * (d + d) * B)%C; [ring [Eh Ci_sq] | rewrite Ed; ring] end.
Qed.

Lemma fb_swap : forall psi, apply_all [sem2 KCX c t; sem2 KCX t c; sem2 KCX c t] psi = sem2 KSwap c t psi.
Proof. two; ring. Qed.

Lemma fb_cu1 : forall l psi, apply_all [sem1 (KU1 (l / 2)) c; sem2 KCX c t; sem1 (KU1 (- l / 2)) t; sem2 KCX c t;
    sem1 (KU1 (l / 2)) t] psi = sem2 (KCU1 l) c t psi.
Proof.
  intros l. set (k := l / 2 / 2).
  assert (E1 : - l / 2 / 2 = - k) by (unfold k; field).
  assert (E2 : l / 4 = k) by (unfold k; field).
  assert (E3 : cis l = (cis k * cis k * (cis k * cis k))%C).
  { rewrite <- !cis_double. f_equal. unfold k. field. }
  pose proof (cis_opp_l k) as Eq.
  two; fold k; rewrite ?E1, ?Ropp_involutive, ?E2, ?E3; ring [Eq].
Qed.

Lemma fb_cu3 : forall th phi l psi,
  apply_all [sem1 (KU1 ((l - phi) / 2)) t; sem2 KCX c t; sem1 (KU3 (- th / 2) 0 (- (phi + l) / 2)) t;
             sem2 KCX c t; sem1 (KU3 (th / 2) phi 0) t] psi = sem2 (KCU3 th phi l) c t psi.
Proof.
  intros th phi l. set (k := th / 2 / 2).
  assert (E1 : - th / 2 / 2 = - k) by (unfold k; field).
  assert (E2 : th / 2 = k + k) by (unfold k; field).
  set (p := phi / 4). set (q := l / 4).
  assert (E3 : (l - phi) / 2 / 2 = q + - p) by (unfold p, q; field).
  assert (E4 : - (phi + l) / 2 / 2 = - p + - q) by (unfold p, q; field).
  assert (E5 : phi / 2 = p + p) by (unfold p; field).
  assert (E6 : l / 2 = q + q) by (unfold q; field).
  assert (E7 : 0 / 2 = 0) by field.
  pose proof (C_sin2 k) as Es. pose proof (cis_opp_l p) as Ep. pose proof (cis_opp_l q) as Eq.
  two; unfold mU3, mmul, mRZ, mRY, mk2; fold k;
  rewrite ?E1, ?E3, ?E4, ?E5, ?E6, ?E7, ?cos_neg, ?sin_neg, ?Ropp_involutive, ?Ropp_0, ?cis_0, ?RtoC_opp, ?E2, ?cos_dbl, ?sin_dbl;
  rewrite ?Ropp_plus_distr, ?Ropp_involutive, <- ?cis_add; ring [Es Ep Eq].
Qed.
End TwoQubit.

(** ** One qubit *)
Lemma ap1_ext : forall M N t, (forall a b, M a b = N a b) -> forall psi, ap1 M t psi = ap1 N t psi.
Proof. intros. apply functional_extensionality; intro x. unfold ap1. rewrite !H. reflexivity. Qed.

Lemma fb_phase : forall th t psi, sem1 (KRZ th) t psi = scl (cis (- (th / 2))) (sem1 (KPhase th) t psi).
Proof.
  intros. apply functional_extensionality; intro x. unfold scl, sem1, ap1; simpl.
  unfold mRZ, mPhase, mk2. pose proof (cis_opp_l (th / 2)) as Eq.
  assert (E3 : cis th = (cis (th / 2) * cis (th / 2))%C) by (rewrite <- cis_double; f_equal; field).
  destruct (bit x t); rewrite ?E3; ring [Eq].
Qed.
Lemma fb_tdg : forall t psi, sem1 (KPhase (- PI / 4)) t psi = sem1 KTdg t psi.
Proof. intros. unfold sem1; simpl. replace (- PI / 4) with (- (PI / 4)) by field. reflexivity. Qed.
Lemma fb_sdg : forall t psi, sem1 (KPhase (- PI / 2)) t psi = sem1 KSdg t psi.
Proof. intros. unfold sem1; simpl. replace (- PI / 2) with (- (PI / 2)) by field. reflexivity. Qed.
Lemma mU3_RZ : forall l a b, mU3 0 0 l a b = mRZ l a b.
Proof.
  intros. unfold mU3, mmul, mRZ, mRY, mk2. replace (0 / 2) with 0 by field.
  rewrite Ropp_0, cis_0, cos_0, sin_0, Ropp_0. destruct a, b; ceq.
Qed.
Lemma fb_u1 : forall l t psi, sem1 (KU3 0 0 l) t psi = sem1 (KU1 l) t psi.
Proof. intros. unfold sem1; simpl. apply ap1_ext. apply mU3_RZ. Qed.
Lemma ap1_I : forall t psi, ap1 mI t psi = psi.
Proof.
  intros. apply functional_extensionality; intro x. unfold ap1, mI, mk2.
  destruct (bit x t) eqn:E; rewrite (setb_same _ _ _ E); ring.
Qed.

