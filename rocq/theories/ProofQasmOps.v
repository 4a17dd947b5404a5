(** Proofs for the OpenQASM output: the operations of the statements are those of the circuit up to a global phase. *)
From Coq Require Import String List Arith ZArith Bool Reals Lia Lra FunctionalExtensionality.
Import ListNotations.
From Verif Require Import Base Cplx Bits ModelTargets ModelGate SpecTargets SpecQuantum SpecCircuit SpecQasm
  ProofFallback ProofFallback3 ProofRun ProofCircuit ProofSympy.
Local Open Scope R_scope.
Local Open Scope list_scope.

(** ** Equality up to a global phase *)
Definition upto (us ops : list oper) : Prop := exists k, Cnorm2 k = 1 /\ forall psi, apply_all us psi = scl k (apply_all ops psi).
Definition homog (U : oper) : Prop := forall k psi, U (scl k psi) = scl k (U psi).
Lemma scl_scl : forall a b psi, scl a (scl b psi) = scl (a * b)%C psi.
Proof. intros. apply functional_extensionality. intros x. unfold scl. ring. Qed.
Lemma scl_1 : forall psi, scl C1 psi = psi. Proof. intros. apply functional_extensionality. intros x. unfold scl. ring. Qed.
Lemma norm_C1 : Cnorm2 C1 = 1. Proof. unfold Cnorm2. cunfold. ring. Qed.
Lemma norm_mul : forall a b, Cnorm2 (a * b)%C = Cnorm2 a * Cnorm2 b. Proof. intros [a1 a2] [b1 b2]. unfold Cnorm2. cunfold. ring. Qed.
Lemma norm_cis : forall a, Cnorm2 (cis a) = 1. Proof. intros. unfold Cnorm2, cis. cunfold. pose proof (sin2_cos2 a). unfold Rsqr in *. lra. Qed.
Lemma upto_eq : forall us ops, (forall psi, apply_all us psi = apply_all ops psi) -> upto us ops.
Proof. intros us ops H. exists C1. split; [apply norm_C1|]. intros. rewrite scl_1. auto. Qed.
Lemma upto_trans : forall a b c, upto a b -> upto b c -> upto a c.
Proof.
  intros a b c [k [K H]] [l [L I]]. exists (k * l)%C. split; [rewrite norm_mul, K, L; ring|]. intros. rewrite H, I. apply scl_scl.
Qed.
Lemma homog_all : forall us, Forall homog us -> homog (apply_all us).
Proof. intros us F. induction F as [|u us H F IH]; intros k psi; [auto|]. change (apply_all us (u (scl k psi)) = scl k (apply_all us (u psi))). rewrite (H k psi). apply IH. Qed.
Lemma upto_app : forall a b c d, Forall homog b -> upto a c -> upto b d -> upto (a ++ b) (c ++ d).
Proof.
  intros a b c d F [k [K H]] [l [L I]]. exists (k * l)%C. split; [rewrite norm_mul, K, L; ring|]. intros.
  rewrite !apply_all_app, H. rewrite (homog_all b F), I. apply scl_scl.
Qed.
Lemma upto_cons : forall u us v vs, Forall homog us -> upto [u] [v] -> upto us vs -> upto (u :: us) (v :: vs).
Proof. intros. apply (upto_app [u] us [v] vs); auto. Qed.
Lemma homog_ap1 : forall M t, homog (ap1 M t).
Proof. intros M t k psi. apply functional_extensionality. intros x. unfold ap1, scl. ring. Qed.
Lemma homog_ctl : forall c U, homog U -> homog (ctl c U).
Proof. intros c U H k psi. apply functional_extensionality. intros x. unfold ctl. rewrite H. unfold scl. destruct (bit x c); auto. Qed.
Lemma homog_prim : forall p, homog (prim_op p).
Proof. intros [th ph la q|c t]; cbn [prim_op]; [apply homog_ap1|apply homog_ctl, homog_ap1]. Qed.
Lemma homog_prims : forall l, Forall homog (map prim_op l).
Proof. induction l; cbn [map]; [constructor|]. apply Forall_cons; auto. apply homog_prim. Qed.

Lemma upto_ap1 : forall k M N t, Cnorm2 k = 1 -> (forall a b, M a b = (k * N a b)%C) -> upto [ap1 M t] [ap1 N t].
Proof.
  intros k M N t K H. exists k. split; auto. intros. change (ap1 M t psi = scl k (ap1 N t psi)). apply functional_extensionality. intros x. unfold scl, ap1. rewrite !H. ring.
Qed.

(** ** One qubit *)
Lemma norm_mCi : Cnorm2 (- Ci)%C = 1. Proof. unfold Cnorm2, Ci. cunfold. ring. Qed.
Ltac halves := rewrite ?cos_neg, ?sin_neg, ?cos_PI2, ?sin_PI2, ?Ropp_0.
Lemma u1_rz : forall la q, upto [prim_op (PU 0 0 la q)] [sem1 (KRZ la) q].
Proof. intros. apply upto_eq. intros. exact (fb_u1 la q psi). Qed.
Lemma rz_phase : forall la q, upto [sem1 (KRZ la) q] [sem1 (KPhase la) q].
Proof. intros. exists (cis (- (la / 2))). split; [apply norm_cis|]. intros. exact (fb_phase la q psi). Qed.
Lemma u1_phase : forall la q, upto [prim_op (PU 0 0 la q)] [sem1 (KPhase la) q].
Proof. intros. eapply upto_trans; [apply u1_rz|apply rz_phase]. Qed.
Lemma cis_0_2 : cis (0 / 2) = C1. Proof. replace (0 / 2) with 0 by field. apply cis_0. Qed.
Lemma cis_0_2n : cis (- (0 / 2)) = C1. Proof. replace (- (0 / 2)) with 0 by field. apply cis_0. Qed.
Ltac u3 := intros [|] [|]; unfold mU3, mmul, mRZ, mRY, mRX, mX, mY, mZ, mH, mI, mPhase, mscale, mk2;
  rewrite ?cis_0_2, ?cis_0_2n, ?cis_PI2, ?cis_PI2_neg, ?cos_PI2, ?sin_PI2.
Lemma up_id : forall q, upto [prim_op (PU 0 0 0 q)] [sem1 KI q].
Proof. intros. apply (upto_ap1 C1); [apply norm_C1|]. intros a b. rewrite mU3_RZ. destruct a, b; unfold mRZ, mat1, mI, mk2; rewrite ?cis_0_2, ?cis_0_2n; ring. Qed.
Lemma RtoC_1' : RtoC 1 = C1. Proof. reflexivity. Qed.
Lemma RtoC_0' : RtoC 0 = C0. Proof. reflexivity. Qed.
Lemma RtoC_m1 : RtoC (Ropp 1) = (- C1)%C. Proof. ceq. Qed.
Lemma up_x : forall q, upto [prim_op (PU PI 0 PI q)] [sem1 KX q].
Proof. intros. apply (upto_ap1 (- Ci)%C); [apply norm_mCi|]. cbn [mat1]. u3; rewrite ?RtoC_m1, ?RtoC_1', ?RtoC_0'; ring. Qed.
Lemma up_y : forall q, upto [prim_op (PU PI (PI / 2) (PI / 2) q)] [sem1 KY q].
Proof.
  intros. apply (upto_ap1 (- Ci)%C); [apply norm_mCi|]. cbn [mat1]. pose proof (cis_opp_l (PI / 2 / 2)) as E.
  u3; rewrite ?RtoC_m1, ?RtoC_1', ?RtoC_0'; ring [E Ci_sq].
Qed.
Lemma up_z : forall q, upto [prim_op (PU 0 0 PI q)] [sem1 KZ q].
Proof.
  intros. eapply upto_trans; [apply u1_rz|]. apply (upto_ap1 (- Ci)%C); [apply norm_mCi|]. cbn [mat1]. u3; ring [Ci_sq].
Qed.
Lemma h_cos : cos (PI / 2 / 2) = / sqrt 2.
Proof. replace (PI / 2 / 2) with (PI / 4) by field. rewrite cos_PI4. unfold Rdiv. ring. Qed.
Lemma h_sin : sin (PI / 2 / 2) = / sqrt 2.
Proof. replace (PI / 2 / 2) with (PI / 4) by field. rewrite sin_PI4. unfold Rdiv. ring. Qed.
Lemma up_h : forall q, upto [prim_op (PU (PI / 2) 0 PI q)] [sem1 KH q].
Proof. intros. apply (upto_ap1 (- Ci)%C); [apply norm_mCi|]. cbn [mat1]. u3; rewrite ?h_cos, ?h_sin, ?RtoC_opp; ring. Qed.
Lemma up_s : forall q, upto [prim_op (PU 0 0 (PI / 2) q)] [sem1 KS q]. Proof. intros. apply u1_phase. Qed.
Lemma up_t : forall q, upto [prim_op (PU 0 0 (PI / 4) q)] [sem1 KT q]. Proof. intros. apply u1_phase. Qed.
Lemma up_sdg : forall q, upto [prim_op (PU 0 0 (- PI / 2) q)] [sem1 KSdg q].
Proof. intros. eapply upto_trans; [apply u1_phase|]. apply upto_eq. intros. apply fb_sdg. Qed.
Lemma up_tdg : forall q, upto [prim_op (PU 0 0 (- PI / 4) q)] [sem1 KTdg q].
Proof. intros. eapply upto_trans; [apply u1_phase|]. apply upto_eq. intros. apply fb_tdg. Qed.
Lemma up_rx : forall th q, upto [prim_op (PU th (- PI / 2) (PI / 2) q)] [sem1 (KRX th) q].
Proof.
  intros. apply (upto_ap1 C1); [apply norm_C1|]. cbn [mat1].
  assert (E1 : - PI / 2 / 2 = - (PI / 4)) by field. assert (E2 : PI / 2 / 2 = PI / 4) by field.
  pose proof (cis_opp_l (PI / 4)) as E. assert (F : (cis (PI / 4) * cis (PI / 4))%C = Ci) by (rewrite <- cis_double, <- cis_PI2; f_equal; field).
  assert (G : (cis (- (PI / 4)) * cis (- (PI / 4)))%C = (- Ci)%C) by (rewrite <- cis_double, <- cis_PI2_neg; f_equal; field).
  u3; rewrite ?E1, ?E2, ?Ropp_involutive, ?RtoC_opp; ring [E F G].
Qed.
Lemma up_ry : forall th q, upto [prim_op (PU th 0 0 q)] [sem1 (KRY th) q].
Proof. intros. apply (upto_ap1 C1); [apply norm_C1|]. cbn [mat1]. u3; ring. Qed.
Lemma up_u1 : forall la q, upto [prim_op (PU 0 0 la q)] [sem1 (KU1 la) q]. Proof. exact u1_rz. Qed.
Lemma upto_refl : forall l, upto l l. Proof. intros. apply upto_eq. auto. Qed.

(** ** Two qubits *)
Lemma upto2 : forall us ms ops, upto us ms -> (forall psi, apply_all ms psi = apply_all ops psi) -> upto us ops.
Proof. intros us ms ops H E. eapply upto_trans; [exact H|]. apply upto_eq. exact E. Qed.
Ltac hom := repeat (apply Forall_cons; [apply homog_prim|]); constructor.

Section Pair.
Variables c t : nat.
Hypothesis N : c <> t.
Lemma hxh : forall psi, apply_all [sem1 KH t; sem2 KCX c t; sem1 KH t] psi = sem2 KCZ c t psi.
Proof.
  pose proof C_h2 as Eh. unfold apply_all. two; unfold mH, mscale, mk2; set (h := RtoC (/ sqrt 2)) in *;
  set (d := (/ (C1 + C1))%C) in *; assert (Ed : (d + d)%C = C1) by (unfold d; field; apply C2_neq0);
  generalize dependent d; intros d Eh Ed;
  match goal with |- ?A = ?B => transitivity ((d + d) * B)%C; [ring [Eh] | rewrite Ed; ring] end.
Qed.
Lemma w_pi4 : cis (PI / 4) = (RtoC (/ sqrt 2) * (C1 + Ci))%C.
Proof.
  assert (E3 : cos (PI / 4) = / sqrt 2) by (rewrite cos_PI4; unfold Rdiv; ring).
  assert (E4 : sin (PI / 4) = / sqrt 2) by (rewrite sin_PI4; unfold Rdiv; ring).
  unfold cis. rewrite E3, E4. unfold Ci. ceq.
Qed.
Lemma ap1_mul : forall A B q psi, ap1 B q (ap1 A q psi) = ap1 (mmul B A) q psi.
Proof.
  intros A B q psi. apply functional_extensionality. intros x. unfold ap1, mmul. rewrite !testbit_setb_eq, !setb_setb. ring.
Qed.
Notation h2 := (RtoC (/ sqrt 2)).
Definition ch_a : mat2 := mk2 h2 h2 (- Ci * h2)%C (Ci * h2)%C.
Definition ch_b : mat2 := mk2 h2 h2 (h2 * h2 * (C1 + Ci))%C (- (h2 * h2 * (C1 + Ci)))%C.
Definition ch_c : mat2 := mk2 (Ci * h2)%C (- (Ci * h2 * h2 * (C1 + Ci)))%C h2 (h2 * h2 * (C1 + Ci))%C.
Lemma ch_parts : (forall r s, ch_a r s = mmul (mPhase (- (PI / 2))) mH r s) /\ (forall r s, ch_b r s = mmul (mPhase (PI / 4)) mH r s) /\
  (forall r s, ch_c r s = mmul mX (mmul (mPhase (PI / 2)) (mmul mH (mPhase (PI / 4)))) r s).
Proof.
  repeat split; intros [|] [|]; unfold ch_a, ch_b, ch_c, mmul, mPhase, mH, mscale, mX, mk2; rewrite ?w_pi4, ?cis_PI2, ?cis_PI2_neg; ring.
Qed.
Lemma ch_short : forall psi, apply_all [ap1 ch_a t; ctl c (ap1 mX t); ap1 ch_b t; ctl c (ap1 mX t); ap1 ch_c t; ap1 (mPhase (PI / 2)) c] psi
  = scl (cis (PI / 4)) (sem2 KCH c t psi).
Proof.
  pose proof C_h2 as Eh. pose proof Ci_sq as Ei. intros psi. change (scl (cis (PI / 4)) (sem2 KCH c t psi)) with ((fun psi => scl (cis (PI / 4)) (sem2 KCH c t psi)) psi). revert psi.
  assert (H2 : h2 = (RtoC (sqrt 2) * / (C1 + C1))%C).
  { rewrite <- Eh, <- !RtoC_mul. f_equal. field. apply ProofSympy.sqrt2_neq. }
  assert (G2 : (RtoC (sqrt 2) * RtoC (sqrt 2))%C = (C1 + C1)%C).
  { rewrite <- RtoC_mul, sqrt_sqrt by lra. ceq. }
  unfold apply_all. two; unfold ch_a, ch_b, ch_c, mk2; rewrite ?w_pi4, ?cis_PI2; unfold mH, mscale, mk2; rewrite ?H2; set (g := RtoC (sqrt 2)) in *; clearbody g.
  all: try (field [G2 Ei]; apply C2_neq0).
Qed.
Lemma ch_def : forall psi, apply_all [sem1 KH t; sem1 KSdg t; sem2 KCX c t; sem1 KH t; sem1 KT t; sem2 KCX c t; sem1 KT t; sem1 KH t; sem1 KS t; sem1 KX t; sem1 KS c] psi
  = scl (cis (PI / 4)) (sem2 KCH c t psi).
Proof.
  destruct ch_parts as [Pa [Pb Pc]].
  assert (Ea : forall phi, ap1 (mPhase (- (PI / 2))) t (ap1 mH t phi) = ap1 ch_a t phi) by (intros; rewrite ap1_mul; apply ap1_ext; intros; symmetry; auto).
  assert (Eb : forall phi, ap1 (mPhase (PI / 4)) t (ap1 mH t phi) = ap1 ch_b t phi) by (intros; rewrite ap1_mul; apply ap1_ext; intros; symmetry; auto).
  assert (Ec : forall phi, ap1 mX t (ap1 (mPhase (PI / 2)) t (ap1 mH t (ap1 (mPhase (PI / 4)) t phi))) = ap1 ch_c t phi).
  { intros. rewrite (ap1_mul (mPhase (PI / 4)) mH), (ap1_mul (mmul mH (mPhase (PI / 4))) (mPhase (PI / 2))), ap1_mul. apply ap1_ext. intros. symmetry. auto. }
  intros psi. rewrite <- ch_short. unfold apply_all. cbn [fold_left sem2]. unfold sem1. cbn [mat1]. rewrite Ea, Eb, Ec. reflexivity.
Qed.

(** ** Definitions of qelib1.inc *)
Notation up P ops := (upto (map prim_op P) ops).
Lemma up_app : forall P Q a b, up P a -> up Q b -> up (P ++ Q) (a ++ b).
Proof. intros. rewrite map_app. apply upto_app; auto. apply homog_prims. Qed.
Lemma g_cx : forall a b, up (q_cx a b) [sem2 KCX a b]. Proof. intros. apply upto_refl. Qed.
Lemma g_cz : up (q_cz c t) [sem2 KCZ c t].
Proof. apply (upto2 _ ([sem1 KH t] ++ [sem2 KCX c t] ++ [sem1 KH t])). { apply up_app; [apply up_h|]. apply up_app; [apply g_cx|]. apply up_h. } exact hxh. Qed.
Lemma g_cy : up (q_cy c t) [sem2 KCY c t].
Proof. apply (upto2 _ ([sem1 KSdg t] ++ [sem2 KCX c t] ++ [sem1 KS t])). { apply up_app; [apply up_sdg|]. apply up_app; [apply g_cx|]. apply up_s. } exact (fb_cy c t N). Qed.
Lemma g_swap : up (q_swap c t) [sem2 KSwap c t].
Proof. apply (upto2 _ ([sem2 KCX c t] ++ [sem2 KCX t c] ++ [sem2 KCX c t])). { apply up_app; [apply g_cx|]. apply up_app; [apply g_cx|]. apply g_cx. } exact (fb_swap c t N). Qed.
Lemma g_ch : up (q_ch c t) [sem2 KCH c t].
Proof.
  eapply upto_trans.
  - instantiate (1 := [sem1 KH t] ++ [sem1 KSdg t] ++ [sem2 KCX c t] ++ [sem1 KH t] ++ [sem1 KT t] ++ [sem2 KCX c t] ++ [sem1 KT t] ++ [sem1 KH t] ++ [sem1 KS t] ++
      [sem1 KX t] ++ [sem1 KS c]). unfold q_ch. apply up_app; [apply up_h|]. apply up_app; [apply up_sdg|]. apply up_app; [apply g_cx|]. apply up_app; [apply up_h|]. apply up_app; [apply up_t|]. apply up_app; [apply g_cx|]. apply up_app; [apply up_t|]. apply up_app; [apply up_h|]. apply up_app; [apply up_s|]. apply up_app; [apply up_x|]. apply up_s.
  - exists (cis (PI / 4)). split; [apply norm_cis|]. exact ch_def.
Qed.
Lemma g_cu1 : forall l, up (q_cu1 l c t) [sem2 (KCU1 l) c t].
Proof.
  intros. apply (upto2 _ ([sem1 (KU1 (l / 2)) c] ++ [sem2 KCX c t] ++ [sem1 (KU1 (- l / 2)) t] ++ [sem2 KCX c t] ++ [sem1 (KU1 (l / 2)) t])). { apply up_app; [apply up_u1|]. apply up_app; [apply g_cx|]. apply up_app; [apply up_u1|]. apply up_app; [apply g_cx|]. apply up_u1. } exact (fb_cu1 c t N l).
Qed.
Lemma g_cphase : forall l, up (q_cu1 l c t) [sem2 (KCPhase l) c t].
Proof. intros. eapply upto_trans; [apply g_cu1|]. exists (cis (- (l / 4))). split; [apply norm_cis|]. reflexivity. Qed.
Lemma g_cu3 : forall th p l, up (q_cu3 th p l c t) [sem2 (KCU3 th p l) c t].
Proof.
  intros. apply (upto2 _ ([sem1 (KU1 ((l - p) / 2)) t] ++ [sem2 KCX c t] ++ [sem1 (KU3 (- th / 2) 0 (- (p + l) / 2)) t] ++ [sem2 KCX c t] ++ [sem1 (KU3 (th / 2) p 0) t])).
  { apply up_app; [apply up_u1|]. apply up_app; [apply g_cx|]. apply up_app; [apply upto_refl|]. apply up_app; [apply g_cx|]. apply upto_refl. }
  exact (fb_cu3 c t N th p l).
Qed.
(** the expansions of the other gates *)
Lemma g_rzz : forall th, up (q_cx c t ++ q_rz th t ++ q_cx c t) [sem2 (KRZZ th) c t].
Proof. intros. apply (upto2 _ ([sem2 KCX c t] ++ [sem1 (KRZ th) t] ++ [sem2 KCX c t])). { apply up_app; [apply g_cx|]. apply up_app; [apply u1_rz|]. apply g_cx. } exact (fb_rzz c t N th). Qed.
Lemma g_crx : forall th, up (q_rx (th / 2) t ++ q_cz c t ++ q_rx (- th / 2) t ++ q_cz c t) [sem2 (KCRX th) c t].
Proof.
  intros. apply (upto2 _ ([sem1 (KRX (th / 2)) t] ++ [sem2 KCZ c t] ++ [sem1 (KRX (- th / 2)) t] ++ [sem2 KCZ c t])).
  - apply up_app; [apply up_rx|]. apply up_app; [apply g_cz|]. apply up_app; [apply up_rx|]. apply g_cz.
  - exact (fb_crx c t N th).
Qed.
Lemma g_cry : forall th, up (q_ry (th / 2) t ++ q_cx c t ++ q_ry (- th / 2) t ++ q_cx c t) [sem2 (KCRY th) c t].
Proof.
  intros. apply (upto2 _ ([sem1 (KRY (th / 2)) t] ++ [sem2 KCX c t] ++ [sem1 (KRY (- th / 2)) t] ++ [sem2 KCX c t])).
  - apply up_app; [apply up_ry|]. apply up_app; [apply g_cx|]. apply up_app; [apply up_ry|]. apply g_cx.
  - exact (fb_cry c t N th).
Qed.
Lemma g_crz : forall th, up (q_rz (th / 2) t ++ q_cx c t ++ q_rz (- th / 2) t ++ q_cx c t) [sem2 (KCRZ th) c t].
Proof.
  intros. apply (upto2 _ ([sem1 (KRZ (th / 2)) t] ++ [sem2 KCX c t] ++ [sem1 (KRZ (- th / 2)) t] ++ [sem2 KCX c t])).
  - apply up_app; [apply u1_rz|]. apply up_app; [apply g_cx|]. apply up_app; [apply u1_rz|]. apply g_cx.
  - exact (fb_crz c t N th).
Qed.
Lemma g_rxx : forall th, up (q_h c ++ q_h t ++ (q_cx c t ++ q_rz th t ++ q_cx c t) ++ q_h c ++ q_h t) [sem2 (KRXX th) c t].
Proof.
  intros. apply (upto2 _ ([sem1 KH c] ++ [sem1 KH t] ++ [sem2 (KRZZ th) c t] ++ [sem1 KH c] ++ [sem1 KH t])).
  - apply up_app; [apply up_h|]. apply up_app; [apply up_h|]. apply up_app; [apply g_rzz|]. apply up_app; [apply up_h|]. apply up_h.
  - exact (fb_rxx c t N th).
Qed.
Lemma g_ryy : forall th, up (q_rx (- PI * (1 / 2)) c ++ q_rx (- PI * (1 / 2)) t ++ (q_cx c t ++ q_rz th t ++ q_cx c t) ++ q_rx (PI * (1 / 2)) c ++ q_rx (PI * (1 / 2)) t)
  [sem2 (KRYY th) c t].
Proof.
  intros. apply (upto2 _ ([sem1 (KRX (- PI * (1 / 2))) c] ++ [sem1 (KRX (- PI * (1 / 2))) t] ++ [sem2 (KRZZ th) c t] ++ [sem1 (KRX (PI * (1 / 2))) c] ++ [sem1 (KRX (PI * (1 / 2))) t])).
  - apply up_app; [apply up_rx|]. apply up_app; [apply up_rx|]. apply up_app; [apply g_rzz|]. apply up_app; [apply up_rx|]. apply up_rx.
  - exact (fb_ryy c t N th).
Qed.
End Pair.
Notation up P ops := (upto (map prim_op P) ops).
Lemma g_ccx : forall a b c, a <> b -> a <> c -> b <> c -> up (q_ccx a b c) [sem3 KCCX a b c].
Proof.
  intros a b c Hab Hac Hbc. apply (upto2 _ ([sem1 KH c] ++ [sem2 KCX b c] ++ [sem1 KTdg c] ++ [sem2 KCX a c] ++ [sem1 KT c] ++ [sem2 KCX b c] ++ [sem1 KTdg c] ++
    [sem2 KCX a c] ++ [sem1 KT b] ++ [sem1 KT c] ++ [sem1 KH c] ++ [sem2 KCX a b] ++ [sem1 KT a] ++ [sem1 KTdg b] ++ [sem2 KCX a b])).
  - unfold q_ccx. apply up_app; [apply up_h|]. apply up_app; [apply g_cx|]. apply up_app; [apply up_tdg|]. apply up_app; [apply g_cx|]. apply up_app; [apply up_t|]. apply up_app; [apply g_cx|]. apply up_app; [apply up_tdg|]. apply up_app; [apply g_cx|]. apply up_app; [apply up_t|]. apply up_app; [apply up_t|]. apply up_app; [apply up_h|]. apply up_app; [apply g_cx|]. apply up_app; [apply up_t|]. apply up_app; [apply up_tdg|]. apply g_cx.
  - exact (fb_ccx a b c Hab Hac Hbc).
Qed.
Lemma g_cswap : forall a b c, a <> b -> a <> c -> b <> c -> up (q_cswap a b c) [sem3 KCSwap a b c].
Proof.
  intros a b c Hab Hac Hbc. apply (upto2 _ ([sem2 KCX c b] ++ [sem3 KCCX a b c] ++ [sem2 KCX c b])).
  - unfold q_cswap. apply up_app; [apply g_cx|]. apply up_app; [apply g_ccx; auto|]. apply g_cx.
  - exact (fb_cswap a b c Hab Hac Hbc).
Qed.

(** ** Applications *)
Definition app_op (a : app) : oper :=
  match a with A1 k q => sem1 k q | A2 k c t => sem2 k c t | A3 k a b c => sem3 k a b c | _ => fun psi => psi end.
Definition app_good (a : app) : Prop :=
  match a with
  | A1 _ _ => True
  | A2 k c t => c <> t /\ match k with KCU2 _ _ => False | _ => True end
  | A3 k a b c => a <> b /\ a <> c /\ b <> c /\ k <> KCCZ
  | _ => False
  end.
Lemma body_app : forall l m a b, body_ops l = Some a -> body_ops m = Some b -> body_ops (l ++ m) = Some (a ++ b).
Proof.
  induction l as [|s l IH]; intros m a b H1 H2; cbn [body_ops List.app] in *; [injection H1 as <-; auto|].
  destruct (stmt_ops s); [|discriminate]. destruct (body_ops l) as [x|]; [|discriminate]. injection H1 as <-. rewrite (IH m x b); auto. rewrite app_assoc. auto.
Qed.
Lemma body_prims : forall l Ps, Forall2 (fun s P => stmt_ops s = Some (map prim_op P)) l Ps -> body_ops l = Some (map prim_op (List.concat Ps)).
Proof. intros l Ps F. induction F as [|s P l Ps H F IH]; cbn [body_ops List.concat]; [auto|]. rewrite H, IH, map_app. auto. Qed.
Ltac prims Ps := exists (List.concat Ps); split; [apply body_prims; cbn [block]; repeat (apply Forall2_cons; [reflexivity|]); constructor|cbn [List.concat]; rewrite ?app_nil_r].
Lemma block_up : forall a, app_good a -> exists P, body_ops (block a) = Some (map prim_op P) /\ up P [app_op a].
Proof.
  intros [k q|k c t|k a b c|q|q] G; try contradiction.
  - destruct k.
    + prims [q_id q]. apply up_id.
    + prims [q_x q]. apply up_x.
    + prims [q_y q]. apply up_y.
    + prims [q_z q]. apply up_z.
    + prims [q_h q]. apply up_h.
    + prims [q_t q]. apply up_t.
    + prims [q_u1 (- PI / 4) q]. apply up_tdg.
    + prims [q_s q]. apply up_s.
    + prims [q_u1 (- PI / 2) q]. apply up_sdg.
    + prims [q_rx theta q]. apply up_rx.
    + prims [q_ry theta q]. apply up_ry.
    + prims [q_rz theta q]. apply u1_rz.
    + prims [q_u1 theta q]. apply u1_phase.
    + prims [q_u1 lambd q]. apply up_u1.
    + prims [q_u2 phi lambd q]. apply upto_refl.
    + prims [q_u3 theta phi lambd q]. apply upto_refl.
  - destruct G as [N G]. destruct k; try contradiction.
    + prims [q_cx c t]. apply g_cx.
    + prims [q_cz c t]. apply g_cz; auto.
    + prims [q_cy c t]. apply g_cy; auto.
    + prims [q_ch c t]. apply g_ch; auto.
    + prims [q_rx (theta / 2) t; q_cz c t; q_rx (- theta / 2) t; q_cz c t]. apply g_crx; auto.
    + prims [q_ry (theta / 2) t; q_cx c t; q_ry (- theta / 2) t; q_cx c t]. apply g_cry; auto.
    + prims [q_rz (theta / 2) t; q_cx c t; q_rz (- theta / 2) t; q_cx c t]. apply g_crz; auto.
    + prims [q_cu1 theta c t]. apply g_cphase; auto.
    + prims [q_h c; q_h t; q_cx c t; q_rz theta t; q_cx c t; q_h c; q_h t]. apply (g_rxx c t N theta).
    + prims [q_rx (- PI * (1 / 2)) c; q_rx (- PI * (1 / 2)) t; q_cx c t; q_rz theta t; q_cx c t; q_rx (PI * (1 / 2)) c; q_rx (PI * (1 / 2)) t].
      apply (g_ryy c t N theta).
    + prims [q_cx c t; q_rz theta t; q_cx c t]. apply g_rzz; auto.
    + prims [q_swap c t]. apply g_swap; auto.
    + prims [q_cu1 lambd c t]. apply g_cu1; auto.
    + prims [q_cu3 theta phi lambd c t]. apply g_cu3; auto.
  - destruct G as [N1 [N2 [N3 G]]]. destruct k; try contradiction.
    + prims [q_ccx a b c]. apply g_ccx; auto.
    + prims [q_cswap a b c]. apply g_cswap; auto.
Qed.
Lemma blocks_up : forall l, Forall app_good l -> exists P, body_ops (flat_map block l) = Some (map prim_op P) /\ up P (map app_op l).
Proof.
  intros l F. induction F as [|a l G F IH]; [exists []; split; [auto|apply upto_refl]|]. destruct IH as [Q [E U]]. destruct (block_up a G) as [P [E1 U1]].
  exists (P ++ Q). cbn [flat_map map]. split; [rewrite map_app; apply body_app; auto|]. apply (up_app P Q [app_op a] (map app_op l)); auto.
Qed.
