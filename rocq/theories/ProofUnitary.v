(** The operators of the gates preserve inner products, and the operator of [dagger] undoes that of the gate. *)
From Coq Require Import List Arith ZArith Bool Reals Lia Lra FunctionalExtensionality.
Import ListNotations.
From Verif Require Import Base Cplx Bits ModelTargets ModelGate SpecTargets SpecQuantum SpecCircuit
  ProofNumpy ProofFallback ProofFallback3 ProofRun.
Local Open Scope R_scope.

Definition preserves (n : nat) (U : oper) : Prop := forall phi psi, inner n (U phi) (U psi) = inner n phi psi.

(** ** Matrices *)
Definition munitary (M : mat2) : Prop := forall r s, mmul (madj M) M r s = mI r s.

Lemma Cdouble_inj : forall a b, (a + a = b + b)%C -> a = b.
Proof. intros [a1 a2] [b1 b2] H. injection H; intros. apply C_ext; simpl in *; lra. Qed.

(** [M] applied to qubit [t] for the indices satisfying [p] *)
Lemma preserves_where : forall n M t (p : nat -> bool) (U : oper), (t < n)%nat -> munitary M ->
  (forall x, p (flip x t) = p x) -> (forall psi x, U psi x = if p x then ap1 M t psi x else psi x) -> preserves n U.
Proof.
  intros n M t p U Ht HM Hp HU phi psi. unfold inner. apply Cdouble_inj.
  rewrite <- (Csum_flip n t (fun x => (Cconj (U phi x) * U psi x)%C)) at 2 by auto.
  rewrite <- (Csum_flip n t (fun x => (Cconj (phi x) * psi x)%C)) at 2 by auto.
  rewrite <- !Csum_add. apply Csum_ext. intros x _.
  rewrite !HU, Hp. destruct (p x); [|reflexivity].
  rewrite !ap1_flip, !flip_flip, !testbit_flip, Nat.eqb_refl.
  pose proof (HM false false) as H1. pose proof (HM false true) as H2.
  pose proof (HM true false) as H3. pose proof (HM true true) as H4.
  unfold mmul, madj, mI, mk2 in H1, H2, H3, H4.
  generalize (phi x) (phi (flip x t)) (psi x) (psi (flip x t)). intros p1 p2 q1 q2.
  rewrite !Cconj_add, !Cconj_mul.
  destruct (bit x t); simpl negb; cbv iota.
  - transitivity ((Cconj (M false true) * M false true + Cconj (M true true) * M true true) * (Cconj p1 * q1) +
      (Cconj (M false false) * M false false + Cconj (M true false) * M true false) * (Cconj p2 * q2) +
      (Cconj (M false true) * M false false + Cconj (M true true) * M true false) * (Cconj p1 * q2) +
      (Cconj (M false false) * M false true + Cconj (M true false) * M true true) * (Cconj p2 * q1))%C; [ring|].
    rewrite H1, H2, H3, H4. ring.
  - transitivity ((Cconj (M false true) * M false true + Cconj (M true true) * M true true) * (Cconj p2 * q2) +
      (Cconj (M false false) * M false false + Cconj (M true false) * M true false) * (Cconj p1 * q1) +
      (Cconj (M false true) * M false false + Cconj (M true true) * M true false) * (Cconj p2 * q1) +
      (Cconj (M false false) * M false true + Cconj (M true false) * M true true) * (Cconj p1 * q2))%C; [ring|].
    rewrite H1, H2, H3, H4. ring.
Qed.

Lemma preserves_ap1 : forall n M t, (t < n)%nat -> munitary M -> preserves n (ap1 M t).
Proof. intros n M t Ht HM. apply (preserves_where n M t (fun _ => true)); auto. Qed.
Lemma preserves_ctl : forall n M c t, (t < n)%nat -> c <> t -> munitary M -> preserves n (ctl c (ap1 M t)).
Proof.
  intros n M c t Ht Hc HM. apply (preserves_where n M t (fun x => bit x c)); auto.
  intros x. rewrite testbit_flip. destruct (Nat.eqb_spec t c); auto; congruence.
Qed.
Lemma preserves_ctl2 : forall n M a b t, (t < n)%nat -> a <> t -> b <> t -> munitary M -> preserves n (ctl a (ctl b (ap1 M t))).
Proof.
  intros n M a b t Ht Ha Hb HM. apply (preserves_where n M t (fun x => bit x a && bit x b)); auto.
  - intros x. rewrite !testbit_flip. destruct (Nat.eqb_spec t a), (Nat.eqb_spec t b); auto; congruence.
  - intros psi x. unfold ctl. destruct (bit x a), (bit x b); reflexivity.
Qed.

Lemma preserves_comp : forall n U V, preserves n U -> preserves n V -> preserves n (fun psi => V (U psi)).
Proof. intros n U V HU HV phi psi. rewrite HV. apply HU. Qed.
Lemma preserves_all : forall n ops, Forall (preserves n) ops -> preserves n (apply_all ops).
Proof.
  induction 1 as [|U ops HU HF IH]; intros phi psi.
  - reflexivity.
  - rewrite !apply_all_cons, IH. apply HU.
Qed.
Lemma preserves_eq : forall n U V, (forall psi, U psi = V psi) -> preserves n U -> preserves n V.
Proof. intros n U V E H phi psi. rewrite <- !E. apply H. Qed.
Lemma preserves_scl : forall n k, Cnorm2 k = 1 -> preserves n (scl k).
Proof.
  intros n k Hk phi psi. unfold inner, scl. apply Csum_ext. intros x _.
  rewrite Cconj_mul. transitivity (Cconj k * k * (Cconj (phi x) * psi x))%C; [ring|].
  rewrite Cnorm2_conj_mul, Hk. unfold RtoC. fold C1. ring.
Qed.

Ltac mat := intros r s; destruct r, s; unfold mmul, madj, mscale, mI, mk2.

Lemma munitary_mmul : forall A B, munitary A -> munitary B -> munitary (mmul A B).
Proof.
  intros A B HA HB r s.
  transitivity (Cconj (B false r) * (mmul (madj A) A false false * B false s + mmul (madj A) A false true * B true s)
    + Cconj (B true r) * (mmul (madj A) A true false * B false s + mmul (madj A) A true true * B true s))%C.
  - unfold mmul, madj. rewrite !Cconj_add, !Cconj_mul. ring.
  - rewrite !HA. rewrite <- (HB r s). unfold mmul, madj, mI, mk2. ring.
Qed.

Lemma sq_cs : forall t, sin t * sin t + cos t * cos t = 1.
Proof. intros. pose proof (sin2_cos2 t). unfold Rsqr in H. auto. Qed.

Lemma mu_phase : forall t, munitary (mPhase t).
Proof. intros t. pose proof (sq_cs t) as E. mat; unfold mPhase, mk2; apply C_ext; cunfold; try ring; lra. Qed.
Lemma mu_rx : forall t, munitary (mRX t).
Proof. intros t. pose proof (sq_cs (t / 2)) as E. mat; unfold mRX, mk2; apply C_ext; cunfold; try ring; lra. Qed.
Lemma mu_ry : forall t, munitary (mRY t).
Proof. intros t. pose proof (sq_cs (t / 2)) as E. mat; unfold mRY, mk2; apply C_ext; cunfold; try ring; lra. Qed.
Lemma mu_rz : forall t, munitary (mRZ t).
Proof.
  intros t. pose proof (sq_cs (t / 2)) as E. mat; unfold mRZ, mk2; apply C_ext; cunfold; rewrite ?cos_neg, ?sin_neg; try ring; lra.
Qed.
Lemma mu_u3 : forall t p l, munitary (mU3 t p l).
Proof. intros. apply munitary_mmul; [apply mu_rz|]. apply munitary_mmul; [apply mu_ry|apply mu_rz]. Qed.
Lemma mu_x : munitary mX. Proof. mat; unfold mX, mk2; ceq. Qed.
Lemma mu_y : munitary mY. Proof. mat; unfold mY, mk2; ceq. Qed.
Lemma mu_z : munitary mZ. Proof. mat; unfold mZ, mk2; ceq. Qed.
Lemma mu_i : munitary mI. Proof. mat; ceq. Qed.
Lemma mu_h : munitary mH.
Proof.
  assert (E : / sqrt 2 * / sqrt 2 = 1 / 2).
  { rewrite <- Rinv_mult. rewrite sqrt_sqrt by lra. lra. }
  mat; unfold mH, mscale, mk2; apply C_ext; cunfold; try ring; try (ring_simplify; lra); nra.
Qed.

Lemma mu_mat1 : forall k, munitary (mat1 k).
Proof.
  intros k; destruct k; simpl; auto using mu_phase, mu_rx, mu_ry, mu_rz, mu_u3, mu_x, mu_y, mu_z, mu_i, mu_h.
Qed.

Lemma sem1_preserves : forall n k t, (t < n)%nat -> preserves n (sem1 k t).
Proof. intros. apply preserves_ap1; auto. apply mu_mat1. Qed.

Lemma cx_preserves : forall n c t, (t < n)%nat -> c <> t -> preserves n (sem2 KCX c t).
Proof. intros. apply preserves_ctl; auto. apply mu_x. Qed.

Lemma sem2_preserves : forall n k c t, (c < n)%nat -> (t < n)%nat -> c <> t -> preserves n (sem2 k c t).
Proof.
  intros n k c t Hc Ht Hct.
  assert (RZZ : forall th, preserves n (sem2 (KRZZ th) c t)).
  { intros th. eapply preserves_eq; [exact (fb_rzz c t Hct th)|]. apply preserves_all.
    repeat constructor; auto using sem1_preserves, cx_preserves. }
  destruct k; try (apply preserves_ctl; auto using mu_phase, mu_rx, mu_ry, mu_rz, mu_u3, mu_x, mu_y, mu_z, mu_i, mu_h; fail).
  - eapply preserves_eq; [exact (fb_rxx c t Hct theta)|]. apply preserves_all. repeat constructor; auto using sem1_preserves, cx_preserves.
  - eapply preserves_eq; [exact (fb_ryy c t Hct theta)|]. apply preserves_all. repeat constructor; auto using sem1_preserves, cx_preserves.
  - apply RZZ.
  - eapply preserves_eq; [exact (fb_swap c t Hct)|]. apply preserves_all. repeat constructor; auto using sem1_preserves, cx_preserves.
  - simpl. apply (preserves_comp n (ctl c (ap1 (mPhase lambd) t)) (scl (cis (- (lambd / 4))))).
    + apply preserves_ctl; auto using mu_phase.
    + apply preserves_scl, Cnorm2_cis.
Qed.

Lemma sem3_preserves : forall n k a b c, (a < n)%nat -> (b < n)%nat -> (c < n)%nat -> a <> b -> a <> c -> b <> c ->
  preserves n (sem3 k a b c).
Proof.
  intros n k a b c Ha Hb Hc Hab Hac Hbc.
  assert (CCX : preserves n (sem3 KCCX a b c)) by (apply preserves_ctl2; auto using mu_x).
  destruct k; auto.
  - apply preserves_ctl2; auto using mu_z.
  - eapply preserves_eq; [exact (fb_cswap a b c Hab Hac Hbc)|]. apply preserves_all.
    repeat constructor; auto using cx_preserves.
Qed.

Lemma inside_lt : forall n z, inside n z -> (Z.to_nat z < n)%nat.
Proof. unfold inside; intros; lia. Qed.

Lemma gate_preserves : forall n g ops, gate_ops n g ops -> Forall (preserves n) ops.
Proof.
  intros n g ops H. destruct H as [k tg l D F|k tg ps D F|k a b c Ha Hb Hc Hab Hac Hbc].
  - apply Forall_map. eapply Forall_impl; [|exact F]. intros t Ht. apply sem1_preserves, inside_lt; auto.
  - apply Forall_map. destruct D as [A [B [la [lb [_ [_ [_ [_ [_ Hne]]]]]]]]].
    rewrite Forall_forall in *. intros p Hp. pose proof (F p Hp) as [Hf1 Hf2]. pose proof (Hne p Hp).
    apply sem2_preserves; auto using inside_lt. unfold inside in *. lia.
  - constructor; [|constructor]. apply sem3_preserves; auto using inside_lt; unfold inside in *; lia.
Qed.

Lemma circuit_preserves : forall n gs ops, circuit_ops n gs ops -> preserves n (apply_all ops).
Proof.
  intros n gs ops H. apply preserves_all. induction H as [|g gs o os Hg Hgs IH]; [constructor|].
  apply Forall_app. split; auto. eapply gate_preserves; eauto.
Qed.

Lemma inner_norm : forall n psi, inner n psi psi = RtoC (norm2 n psi).
Proof.
  intros. unfold inner, norm2. rewrite <- Csum_RtoC. apply Csum_ext. intros. apply Cnorm2_conj_mul.
Qed.
Lemma preserves_norm : forall n U psi, preserves n U -> norm2 n (U psi) = norm2 n psi.
Proof. intros n U psi H. apply RtoC_inj. rewrite <- !inner_norm. apply H. Qed.

Lemma norm2_ket : forall n k, (k < 2 ^ n)%nat -> norm2 n (ket k) = 1.
Proof.
  intros n k Hk. unfold norm2. rewrite (Rsum_single _ _ k).
  - unfold ket. rewrite Nat.eqb_refl. apply Cnorm2_C1.
  - apply seq_NoDup.
  - apply in_seq. lia.
  - intros y _ Hy. unfold ket. apply Nat.eqb_neq in Hy. rewrite Hy. apply Cnorm2_C0.
Qed.
