(** [ignore_global_phase] *)
From Coq Require Import List Arith ZArith Bool Reals Lia Lra.
Import ListNotations.
From Verif Require Import Base Cplx Bits ModelNumpy.
Local Open Scope R_scope.

Definition threshold : R := 1 / 10000000.
Definition small (z : C) : Prop := Cabs z <= threshold.

Lemma Cabs_mul_unit : forall z u, Cnorm2 u = 1 -> Cabs (z * u)%C = Cabs z.
Proof. intros. unfold Cabs. rewrite Cnorm2_mul, H, Rmult_1_r. reflexivity. Qed.
Lemma Cabs_nonneg : forall z, 0 <= Cabs z. Proof. intros. apply sqrt_pos. Qed.
Lemma Cabs_sq : forall z, Cabs z * Cabs z = Cnorm2 z.
Proof. intros. unfold Cabs. apply sqrt_sqrt, Cnorm2_pos. Qed.

Lemma first_some : forall v q, first_nonzero v = Some q <->
  exists a b, v = a ++ q :: b /\ Forall small a /\ threshold < Cabs q.
Proof.
  induction v as [|x v IH]; intros q; simpl.
  - split; [discriminate|]. intros [a [b [H _]]]. destruct a; discriminate.
  - fold threshold. destruct (Rltb threshold (Cabs x)) eqn:E.
    + apply Rltb_true in E. split.
      * intros H; injection H; intros <-. exists [], v. auto.
      * intros [a [b [H [Fa Hq]]]]. destruct a as [|y a]; injection H; intros; subst; auto.
        inversion Fa; subst. unfold small in *. lra.
    + apply Rltb_false in E. rewrite IH. split.
      * intros [a [b [-> [Fa Hq]]]]. exists (x :: a), b. auto.
      * intros [a [b [H [Fa Hq]]]]. destruct a as [|y a]; injection H; intros; subst; [lra|].
        inversion Fa; subst. exists a, b. auto.
Qed.
Lemma first_none : forall v, first_nonzero v = None <-> Forall small v.
Proof.
  induction v as [|x v IH]; simpl; [split; auto|]. fold threshold. destruct (Rltb threshold (Cabs x)) eqn:E.
  - apply Rltb_true in E. split; [discriminate|]. intros H; inversion H; subst. unfold small in *. lra.
  - apply Rltb_false in E. rewrite IH. split; [constructor; auto|intros H; inversion H; auto].
Qed.

Lemma threshold_pos : 0 < threshold. Proof. unfold threshold. lra. Qed.

Lemma ang_unit : forall q, 0 < Cabs q -> Cnorm2 (RtoC (Cabs q) / q)%C = 1.
Proof.
  intros q H. assert (Hq : q <> C0) by (intros ->; unfold Cabs in H; rewrite Cnorm2_C0, sqrt_0 in H; lra).
  assert (N : Cnorm2 q <> 0) by (apply Cnorm2_neq0; auto).
  assert (E : (RtoC (Cabs q) / q * q)%C = RtoC (Cabs q)) by (field; auto).
  apply (f_equal Cnorm2) in E. rewrite Cnorm2_mul, Cnorm2_RtoC, Cabs_sq in E.
  apply Rmult_eq_reg_r with (Cnorm2 q); auto. lra.
Qed.
Lemma ang_mul : forall q, 0 < Cabs q -> (q * (RtoC (Cabs q) / q))%C = RtoC (Cabs q).
Proof.
  intros q H. assert (Hq : q <> C0) by (intros ->; unfold Cabs in H; rewrite Cnorm2_C0, sqrt_0 in H; lra). field; auto.
Qed.

Lemma phase_factor : forall v, exists u, Cnorm2 u = 1 /\ ignore_global_phase v = map (fun x => (x * u)%C) v.
Proof.
  intros v. unfold ignore_global_phase. destruct (first_nonzero v) as [q|] eqn:E.
  - apply first_some in E. destruct E as [a [b [-> [_ Hq]]]]. pose proof threshold_pos.
    exists (RtoC (Cabs q) / q)%C. split; [apply ang_unit; lra|reflexivity].
  - exists C1. split; [apply Cnorm2_C1|]. rewrite <- (map_id v) at 1. apply map_ext. intros. ring.
Qed.

Lemma phase_first : forall a q b, Forall small a -> threshold < Cabs q ->
  nth (List.length a) (ignore_global_phase (a ++ q :: b)) C0 = RtoC (Cabs q).
Proof.
  intros a q b Fa Hq. unfold ignore_global_phase.
  assert (E : first_nonzero (a ++ q :: b) = Some q) by (apply first_some; eauto). rewrite E.
  rewrite map_app. rewrite app_nth2; rewrite map_length; auto. rewrite Nat.sub_diag. simpl.
  apply ang_mul. pose proof threshold_pos. lra.
Qed.

Lemma phase_same : forall v u, Cnorm2 u = 1 -> ~ Forall small v ->
  ignore_global_phase (map (fun x => (x * u)%C) v) = ignore_global_phase v.
Proof.
  intros v u Hu Hv. destruct (first_nonzero v) as [q|] eqn:E; [|apply first_none in E; contradiction].
  pose proof E as E0. apply first_some in E. destruct E as [a [b [-> [Fa Hq]]]].
  assert (E1 : first_nonzero (map (fun x => (x * u)%C) (a ++ q :: b)) = Some (q * u)%C).
  { apply first_some. rewrite map_app. simpl. do 2 eexists. split; [reflexivity|]. split.
    - apply Forall_map. eapply Forall_impl; [|exact Fa]. intros z Hz. unfold small in *. rewrite Cabs_mul_unit; auto.
    - rewrite Cabs_mul_unit; auto. }
  unfold ignore_global_phase. rewrite E0, E1, map_map. apply map_ext. intros x. rewrite Cabs_mul_unit by auto.
  pose proof threshold_pos.
  assert (Hq0 : q <> C0) by (intros ->; unfold Cabs in Hq; rewrite Cnorm2_C0, sqrt_0 in Hq; lra).
  assert (Hu0 : u <> C0) by (intros ->; rewrite Cnorm2_C0 in Hu; lra).
  field. auto.
Qed.

Lemma phase_idem : forall v, ignore_global_phase (ignore_global_phase v) = ignore_global_phase v.
Proof.
  intros v. destruct (first_nonzero v) as [q|] eqn:E.
  - assert (Hv : ~ Forall small v) by (rewrite <- first_none; congruence).
    destruct (phase_factor v) as [u [Hu Eu]]. rewrite Eu at 1. apply phase_same; auto.
  - unfold ignore_global_phase at 2 3. rewrite E. unfold ignore_global_phase. rewrite E. reflexivity.
Qed.

(** A vector all of whose entries are tiny is left alone, so that its phase is not removed. *)
Lemma phase_tiny : exists v u, Cnorm2 u = 1 /\ v <> [] /\ nth 0 v C0 <> C0 /\
  ignore_global_phase (map (fun x => (x * u)%C) v) <> ignore_global_phase v.
Proof.
  exists [RtoC threshold], (- C1)%C. split; [rewrite Cnorm2_opp; apply Cnorm2_C1|]. split; [discriminate|]. pose proof threshold_pos as T.
  split; [intro H; apply (f_equal fst) in H; change (threshold = 0) in H; lra|].
  assert (A : forall r, 0 <= r -> Cabs (RtoC r) = r) by (intros; unfold Cabs; rewrite Cnorm2_RtoC; apply sqrt_square; auto).
  assert (S1 : first_nonzero [RtoC threshold] = None).
  { apply first_none. constructor; [|constructor]. unfold small. rewrite A; lra. }
  assert (S2 : first_nonzero [(RtoC threshold * (- C1))%C] = None).
  { apply first_none. constructor; [|constructor]. unfold small. rewrite Cabs_mul_unit, A; try lra. rewrite Cnorm2_opp; apply Cnorm2_C1. }
  simpl map. unfold ignore_global_phase. rewrite S1, S2. intro H. apply (f_equal (fun l => fst (nth 0 l C0))) in H.
  change (threshold * (- (1)) - 0 * (- 0) = threshold) in H. lra.
Qed.

(** A normalised vector of up to 46 qubits has an entry above the threshold. *)
Lemma small_sum : forall v, Forall small v -> Rsum Cnorm2 v <= INR (List.length v) * (threshold * threshold).
Proof.
  induction 1 as [|z v Hz Hv IH]; [simpl; lra|].
  cbn [List.length Rsum]. rewrite S_INR. unfold small in Hz.
  rewrite <- Cabs_sq. pose proof (Cabs_nonneg z). assert (Cabs z * Cabs z <= threshold * threshold) by (apply Rmult_le_compat; lra).
  simpl. lra.
Qed.
Lemma normalised_not_small : forall n v, (n <= 46)%nat -> List.length v = (2 ^ n)%nat -> Rsum Cnorm2 v = 1 -> ~ Forall small v.
Proof.
  intros n v Hn HL HS H. apply small_sum in H. rewrite HS, HL, pow_INR in H. change (INR 2) with 2 in H.
  assert (P : 2 ^ n <= 2 ^ 46) by (apply Rle_pow; [lra|auto]).
  assert (T : 0 < threshold * threshold) by (pose proof threshold_pos; apply Rmult_lt_0_compat; auto).
  assert (Q : 2 ^ n * (threshold * threshold) <= 2 ^ 46 * (threshold * threshold)) by (apply Rmult_le_compat_r; lra).
  assert (Z : 2 ^ 46 * (threshold * threshold) < 1) by (unfold threshold; simpl; lra). lra.
Qed.
Lemma phase_same_normalised : forall n v u, Cnorm2 u = 1 -> (n <= 46)%nat -> List.length v = (2 ^ n)%nat -> Rsum Cnorm2 v = 1 ->
  ignore_global_phase (map (fun x => (x * u)%C) v) = ignore_global_phase v.
Proof. intros. apply phase_same; auto. eapply normalised_not_small; eauto. Qed.
