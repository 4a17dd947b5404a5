(** Complex numbers as pairs of the standard library's reals. *)
From Coq Require Import Reals Lra List Lia.
Import ListNotations.
Local Open Scope R_scope.

Definition C : Type := (R * R)%type.
Definition Cre (z : C) : R := fst z.
Definition Cim (z : C) : R := snd z.
Definition RtoC (r : R) : C := (r, 0).
Definition C0 : C := (0, 0).
Definition C1 : C := (1, 0).
Definition Ci : C := (0, 1).
Definition Cadd (a b : C) : C := (fst a + fst b, snd a + snd b).
Definition Copp (a : C) : C := (- fst a, - snd a).
Definition Csub (a b : C) : C := Cadd a (Copp b).
Definition Cmul (a b : C) : C := (fst a * fst b - snd a * snd b, fst a * snd b + snd a * fst b).
Definition Cconj (a : C) : C := (fst a, - snd a).
(** squared modulus *)
Definition Cnorm2 (a : C) : R := fst a * fst a + snd a * snd a.
Definition Cabs (a : C) : R := sqrt (Cnorm2 a).
Definition Cinv (a : C) : C := (fst a / Cnorm2 a, - snd a / Cnorm2 a).
Definition Cdiv (a b : C) : C := Cmul a (Cinv b).
(** e^(i t) *)
Definition cis (t : R) : C := (cos t, sin t).

Declare Scope C_scope.
Delimit Scope C_scope with C.
Bind Scope C_scope with C.
Infix "+" := Cadd : C_scope.
Infix "-" := Csub : C_scope.
Infix "*" := Cmul : C_scope.
Infix "/" := Cdiv : C_scope.
Notation "- x" := (Copp x) : C_scope.
Notation "/ x" := (Cinv x) : C_scope.

Lemma C_ext : forall a b : C, fst a = fst b -> snd a = snd b -> a = b.
Proof. intros [] []; simpl; intros; subst; auto. Qed.

Ltac cunfold := unfold Csub, Cdiv, Cadd, Copp, Cmul, Cconj, Cinv, RtoC, C0, C1, Ci, cis, Cre, Cim, Cnorm2 in *; simpl in *.
Ltac ceq := apply C_ext; cunfold; try ring.

Lemma C_ring_theory : ring_theory C0 C1 Cadd Cmul Csub Copp (@eq C).
Proof. constructor; intros; try (destruct x); try (destruct y); try (destruct z); ceq. Qed.

Lemma Cnorm2_pos : forall a, 0 <= Cnorm2 a.
Proof. intros [a b]; unfold Cnorm2; simpl. nra. Qed.

Lemma Cnorm2_eq0 : forall a, Cnorm2 a = 0 -> a = C0.
Proof.
  intros [a b]; unfold Cnorm2, C0; simpl; intros.
  assert (a = 0) by nra. assert (b = 0) by nra. subst; auto.
Qed.

Lemma Cnorm2_neq0 : forall a, a <> C0 -> Cnorm2 a <> 0.
Proof. intros a H E. apply H. apply Cnorm2_eq0; auto. Qed.

Lemma C1_neq_C0 : C1 <> C0.
Proof. unfold C1, C0. intro H. injection H. lra. Qed.

Lemma Cinv_l : forall a, a <> C0 -> (Cinv a * a)%C = C1.
Proof.
  intros [a b] H. apply Cnorm2_neq0 in H. unfold Cnorm2 in H; simpl in H.
  apply C_ext; cunfold; field; auto.
Qed.

Lemma C_field_theory : field_theory C0 C1 Cadd Cmul Csub Copp Cdiv Cinv (@eq C).
Proof.
  constructor.
  - exact C_ring_theory.
  - exact C1_neq_C0.
  - reflexivity.
  - exact Cinv_l.
Qed.
Add Field C_field : C_field_theory.

Lemma Cmul_0_l : forall a, (C0 * a)%C = C0. Proof. intros; ring. Qed.
Lemma Cmul_0_r : forall a, (a * C0)%C = C0. Proof. intros; ring. Qed.
Lemma Cmul_1_l : forall a, (C1 * a)%C = a. Proof. intros; ring. Qed.
Lemma Cmul_1_r : forall a, (a * C1)%C = a. Proof. intros; ring. Qed.
Lemma Cadd_0_l : forall a, (C0 + a)%C = a. Proof. intros; ring. Qed.
Lemma Cadd_0_r : forall a, (a + C0)%C = a. Proof. intros; ring. Qed.
Lemma Cmul_comm : forall a b, (a * b)%C = (b * a)%C. Proof. intros; ring. Qed.
Lemma Cmul_assoc : forall a b c, (a * (b * c))%C = (a * b * c)%C. Proof. intros; ring. Qed.
Lemma Cadd_comm : forall a b, (a + b)%C = (b + a)%C. Proof. intros; ring. Qed.
Lemma Cadd_assoc : forall a b c, (a + (b + c))%C = (a + b + c)%C. Proof. intros; ring. Qed.

Lemma Cmul_integral : forall a b, (a * b)%C = C0 -> a = C0 \/ b = C0.
Proof.
  intros a b H.
  assert (D: Cnorm2 a = 0 \/ Cnorm2 a <> 0) by (destruct (Req_dec (Cnorm2 a) 0); auto).
  destruct D as [D|D].
  - left; apply Cnorm2_eq0; auto.
  - right. assert (a <> C0) by (intro E; subst; apply D; unfold Cnorm2; simpl; ring).
    rewrite <- (Cmul_1_l b), <- (Cinv_l a), <- Cmul_assoc, H by auto. ring.
Qed.

Lemma Ci_sq : (Ci * Ci)%C = (- C1)%C. Proof. ceq. Qed.

Lemma Cnorm2_mul : forall a b, Cnorm2 (a * b)%C = (Cnorm2 a * Cnorm2 b)%R.
Proof. intros [] []; unfold Cnorm2; simpl; ring. Qed.
Lemma Cnorm2_opp : forall a, Cnorm2 (- a)%C = Cnorm2 a.
Proof. intros []; unfold Cnorm2; simpl; ring. Qed.
Lemma Cnorm2_conj_mul : forall a, (Cconj a * a)%C = RtoC (Cnorm2 a).
Proof. intros []; ceq. Qed.
Lemma Cnorm2_RtoC : forall r, Cnorm2 (RtoC r) = (r * r)%R.
Proof. intros; unfold Cnorm2; simpl; ring. Qed.
Lemma Cnorm2_C0 : Cnorm2 C0 = 0. Proof. unfold Cnorm2; simpl; ring. Qed.
Lemma Cnorm2_C1 : Cnorm2 C1 = 1. Proof. unfold Cnorm2; simpl; ring. Qed.
Lemma Cnorm2_cis : forall t, Cnorm2 (cis t) = 1.
Proof. intros; unfold Cnorm2; simpl. pose proof (sin2_cos2 t). unfold Rsqr in H. lra. Qed.
Lemma cis_add : forall a b, (cis a * cis b)%C = cis (a + b).
Proof. intros; unfold cis, Cmul; simpl. rewrite cos_plus, sin_plus. f_equal; ring. Qed.
Lemma cis_0 : cis 0 = C1.
Proof. unfold cis. rewrite cos_0, sin_0. reflexivity. Qed.
Lemma cis_opp : forall a, cis (- a) = Cconj (cis a).
Proof. intros; unfold cis, Cconj; simpl. rewrite cos_neg, sin_neg. reflexivity. Qed.
Lemma cis_opp_l : forall a, (cis (- a) * cis a)%C = C1.
Proof. intros. rewrite cis_add. replace (- a + a) with 0 by ring. apply cis_0. Qed.
Lemma cis_opp_r : forall a, (cis a * cis (- a))%C = C1.
Proof. intros. rewrite cis_add. replace (a + - a) with 0 by ring. apply cis_0. Qed.

Lemma Cconj_add : forall a b, Cconj (a + b)%C = (Cconj a + Cconj b)%C.
Proof. intros [] []; ceq. Qed.
Lemma Cconj_mul : forall a b, Cconj (a * b)%C = (Cconj a * Cconj b)%C.
Proof. intros [] []; ceq. Qed.
Lemma Cconj_conj : forall a, Cconj (Cconj a) = a.
Proof. intros []; ceq. Qed.
Lemma RtoC_add : forall a b, RtoC (a + b) = (RtoC a + RtoC b)%C. Proof. intros; ceq. Qed.
Lemma RtoC_mul : forall a b, RtoC (a * b) = (RtoC a * RtoC b)%C. Proof. intros; ceq. Qed.
Lemma RtoC_opp : forall a, RtoC (- a) = (- RtoC a)%C. Proof. intros; ceq. Qed.
Lemma RtoC_sub : forall a b, RtoC (a - b) = (RtoC a - RtoC b)%C. Proof. intros; ceq. Qed.
Lemma RtoC_inj : forall a b, RtoC a = RtoC b -> a = b.
Proof. unfold RtoC; intros a b H; injection H; auto. Qed.
Lemma RtoC_0 : RtoC 0 = C0. Proof. reflexivity. Qed.
Lemma RtoC_1 : RtoC 1 = C1. Proof. reflexivity. Qed.

Definition Ceq_dec (a b : C) : {a = b} + {a <> b}.
Proof.
  destruct a as [a1 a2], b as [b1 b2].
  destruct (Req_EM_T a1 b1), (Req_EM_T a2 b2); subst;
    try (left; reflexivity); right; intro H; injection H; intros; contradiction.
Defined.

(** boolean comparisons used where the Python code compares numbers *)
Definition Rltb (a b : R) : bool := if Rlt_dec a b then true else false.
Definition Rleb (a b : R) : bool := if Rle_dec a b then true else false.
Definition Reqb (a b : R) : bool := if Req_EM_T a b then true else false.
Definition Ceqb (a b : C) : bool := if Ceq_dec a b then true else false.

Lemma Rltb_true : forall a b, Rltb a b = true <-> a < b.
Proof. intros; unfold Rltb; destruct (Rlt_dec a b); split; intros; auto; discriminate. Qed.
Lemma Rltb_false : forall a b, Rltb a b = false <-> b <= a.
Proof. intros; unfold Rltb; destruct (Rlt_dec a b); split; intros; auto; try discriminate; lra. Qed.
Lemma Rleb_true : forall a b, Rleb a b = true <-> a <= b.
Proof. intros; unfold Rleb; destruct (Rle_dec a b); split; intros; auto; discriminate. Qed.
Lemma Reqb_true : forall a b, Reqb a b = true <-> a = b.
Proof. intros; unfold Reqb; destruct (Req_EM_T a b); split; intros; auto; discriminate. Qed.
Lemma Ceqb_true : forall a b, Ceqb a b = true <-> a = b.
Proof. intros; unfold Ceqb; destruct (Ceq_dec a b); split; intros; auto; discriminate. Qed.
Lemma Ceqb_refl : forall a, Ceqb a a = true. Proof. intros; apply Ceqb_true; auto. Qed.
Lemma Ceqb_false : forall a b, Ceqb a b = false <-> a <> b.
Proof. intros; unfold Ceqb; destruct (Ceq_dec a b); split; intros; auto; try discriminate; contradiction. Qed.

(** finite sums *)
Fixpoint Csum {A} (f : A -> C) (l : list A) : C :=
  match l with [] => C0 | a :: r => (f a + Csum f r)%C end.
Fixpoint Rsum {A} (f : A -> R) (l : list A) : R :=
  match l with [] => 0 | a :: r => f a + Rsum f r end.
