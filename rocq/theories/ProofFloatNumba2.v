(** Rounding errors of the loops of the numba backend *)
From Coq Require Import List Arith NArith Nnat ZArith Bool Reals Lia Lra Psatz FunctionalExtensionality.
Import ListNotations.
From Verif Require Import Base Cplx Bits ModelTargets ModelGate ModelNumpy ModelNumba ModelFloat ModelFloatNumba SpecTargets SpecQuantum SpecCircuit SpecMeasure SpecNumba SpecFloat SpecFinite
  SpecFloatNumba ProofTargets ProofArray ProofNumpy ProofFallback ProofFallback3 ProofUnitary ProofPauli ProofRun ProofMeasure ProofIndex ProofKernel ProofPair ProofNumba ProofNumbaRun ProofFloat ProofFloatOps
  ProofFloatKern ProofFloatCoef ProofFinite ProofFiniteKern ProofFiniteCoef ProofFiniteNative ProofFloatNumba.
Local Arguments N.pow : simpl never.
Local Arguments N.ones : simpl never.
Local Arguments shl1 : simpl never.
Local Open Scope R_scope.

Lemma literal_err : Rabs (7071067811865475 / 10000000000000000 - / sqrt 2) <= 1 / 10 ^ 16.
Proof.
  assert (S0 : 0 < sqrt 2) by (apply sqrt_lt_R0; lra). assert (S2 : sqrt 2 * sqrt 2 = 2) by (apply sqrt_sqrt; lra).
  set (y := / sqrt 2). assert (Y : y * y = 1 / 2) by (unfold y; rewrite <- Rinv_mult, S2; lra). assert (YP : 0 < y) by (apply Rinv_0_lt_compat; auto).
  assert (y <= 7071067811865476 / 10000000000000000).
  { apply Rsqr_incr_0; [|lra|lra]. unfold Rsqr. rewrite Y. lra. }
  assert (7071067811865475 / 10000000000000000 <= y).
  { apply Rsqr_incr_0; [|lra|lra]. unfold Rsqr. rewrite Y. lra. }
  apply Rabs_le. lra.
Qed.

Section Loops.
Variable c : compiled.
Variable P : arith.
Variable u eta B : R.
Hypothesis HC : compiles c u eta B.
Hypothesis HP : rounds_within P u eta B.
Hypothesis Hu : 0 < u <= 1 / 100.
Hypothesis He : eta <= u.
Hypothesis HB : 192 <= B.
Hypothesis Hlit : 1 / 10 ^ 16 <= u.
Let g0 := eta / u.
Let EP : 0 <= eta := eta_pos P u eta B HP HB.
Let GP : 0 <= g0 := g0_pos P u eta B HP Hu HB.

Lemma nslack : forall e p q, 0 <= e -> 0 <= p -> q <= (e + 8 * u) * p + 20 * eta -> q <= (e + 20 * u) * (p + g0).
Proof. intros e p q E Q H. pose proof (u_g0 u eta Hu) as UG. fold g0 in UG. nra. Qed.
Lemma nrow : forall i a a' b b' x y e, near a a' e -> near b b' e -> 0 <= e <= 1 / 10 -> n1 x <= 6 -> n1 y <= 6 ->
  n1 (c_lin c i a x b y - (a' * x + b' * y))%C <= (e + 20 * u) * (n1 x + n1 y + g0).
Proof.
  intros i a a' b b' x y e [A1 A2] [B1 B2] E X Y. pose proof (n1_pos x). pose proof (n1_pos y). apply nslack; [lra|lra|].
  pose proof (n1_near _ _ _ A1) as A3. pose proof (n1_near _ _ _ B1) as B3.
  pose proof (co_lin _ _ _ _ HC i a x b y ltac:(change (n1 a <= 2); lra) X ltac:(change (n1 b <= 2); lra) Y) as K.
  change (size a) with (n1 a) in K. change (size b) with (n1 b) in K. change (size x) with (n1 x) in K. change (size y) with (n1 y) in K.
  assert (D : n1 (a * x + b * y - (a' * x + b' * y))%C <= e * (n1 x + n1 y)).
  { replace (a * x + b * y - (a' * x + b' * y))%C with ((a - a') * x + (b - b') * y)%C by ring. eapply Rle_trans; [apply n1_add|].
    pose proof (n1_mul (a - a')%C x). pose proof (n1_mul (b - b')%C y). nra. }
  pose proof (n1_tri _ _ _ _ _ K D) as T. eapply Rle_trans; [exact T|].
  assert (n1 a * n1 x + n1 b * n1 y <= 8 / 5 * (n1 x + n1 y)) by nra. nra.
Qed.
Lemma nscale : forall i a a' x y e, near a a' e -> 0 <= e <= 1 / 10 -> n1 x <= 6 -> 0 <= n1 y ->
  n1 (c_mul c i x a - a' * x)%C <= (e + 20 * u) * (n1 x + n1 y + g0).
Proof.
  intros i a a' x y e [A1 A2] E X Y. pose proof (n1_pos x).
  pose proof (n1_near _ _ _ A1) as A3.
  pose proof (co_mul _ _ _ _ HC i x a X ltac:(change (n1 a <= 2); lra)) as K.
  change (size a) with (n1 a) in K. change (size x) with (n1 x) in K.
  assert (D : n1 (x * a - a' * x)%C <= e * n1 x).
  { replace (x * a - a' * x)%C with ((a - a') * x)%C by ring. pose proof (n1_mul (a - a')%C x). nra. }
  pose proof (n1_tri _ _ _ _ _ K D) as T. apply nslack; [lra|lra|]. eapply Rle_trans; [exact T|].
  assert (n1 x * n1 a <= 8 / 5 * n1 x) by nra. nra.
Qed.
Lemma nsame : forall e x y, 0 <= e -> n1 (x - x)%C <= (e + 20 * u) * (n1 x + n1 y + g0).
Proof. intros. rewrite n1_self. pose proof (n1_pos y). pose proof (n1_pos x). apply Rmult_le_pos; lra. Qed.
Lemma nlit : Rabs (c_lit c (7071067811865475 / 10000000000000000) - / sqrt 2) <= 3 * u /\ Rabs (c_lit c (7071067811865475 / 10000000000000000)) <= 1.
Proof.
  pose proof literal_err as L. set (x := 7071067811865475 / 10000000000000000) in *. assert (X : Rabs x = x) by (apply Rabs_pos_eq; unfold x; lra).
  pose proof (co_lit _ _ _ _ HC x ltac:(rewrite X; unfold x; lra)) as K. rewrite X in K. assert (u * x <= 3 / 4 * u) by (unfold x; nra).
  pose proof (ab_tri _ _ _ _ _ K L) as T. split; [lra|]. pose proof (ab_near _ _ _ K) as N. rewrite X in N. unfold x in N at 2. lra.
Qed.
Lemma nhad : forall i x y, n1 x <= 6 -> n1 y <= 6 ->
  n1 (c_had c i x y (c_lit c (7071067811865475 / 10000000000000000)) - RtoC (/ sqrt 2) * (x + y))%C <= (0 + 20 * u) * (n1 x + n1 y + g0).
Proof.
  intros i x y X Y. destruct nlit as [L1 L2]. set (s := c_lit c _) in *. pose proof (n1_pos x). pose proof (n1_pos y).
  pose proof (co_had _ _ _ _ HC i x y s X Y L2) as K. change (size x) with (n1 x) in K. change (size y) with (n1 y) in K.
  assert (D : n1 ((x + y) * RtoC s - RtoC (/ sqrt 2) * (x + y))%C <= (n1 x + n1 y) * (3 * u)).
  { replace ((x + y) * RtoC s - RtoC (/ sqrt 2) * (x + y))%C with ((x + y) * (RtoC s - RtoC (/ sqrt 2)))%C by ring. eapply Rle_trans; [apply n1_mul|].
    apply Rmult_le_compat; [apply n1_pos|apply n1_pos|apply n1_add|rewrite n1_RtoC_sub; auto]. }
  pose proof (n1_tri _ _ _ _ _ K D) as T. apply nslack; [lra|lra|]. eapply Rle_trans; [exact T|].
  assert ((n1 x + n1 y) * Rabs s <= (n1 x + n1 y) * 1) by (apply Rmult_le_compat_l; lra). nra.
Qed.

(** the rows of the loops *)
Definition lin_rows a b c' d : (nat -> C -> C -> C) * (nat -> C -> C -> C) :=
  (fun i x y => c_lin c (N.of_nat i) a x b y, fun i x y => c_lin c (N.of_nat i) c' x d y).
Lemma rows_lin : forall a b c' d a' b' c'' d' e, near a a' e -> near b b' e -> near c' c'' e -> near d d' e -> 0 <= e <= 1 / 10 ->
  rows (fst (lin_rows a b c' d)) (snd (lin_rows a b c' d)) (mk2 a' b' c'' d') (e + 20 * u) g0.
Proof. intros. intros i x y X Y. cbn [fst snd lin_rows mk2]. split; apply nrow; auto. Qed.
Lemma rows_scale1 : forall a a' e, near a a' e -> 0 <= e <= 1 / 10 -> rows (fun _ x _ => x) (fun i _ y => c_mul c (N.of_nat i) y a) (mk2 C1 C0 C0 a') (e + 20 * u) g0.
Proof.
  intros a a' e A E i x y X Y. cbn [mk2]. split.
  - replace (C1 * x + C0 * y)%C with x by ring. apply nsame. lra.
  - replace (C0 * x + a' * y)%C with (a' * y)%C by ring. rewrite (Rplus_comm (n1 x)). apply nscale; auto using n1_pos.
Qed.
Lemma rows_scale01 : forall a a' b b' e, near a a' e -> near b b' e -> 0 <= e <= 1 / 10 ->
  rows (fun i x _ => c_mul c (N.of_nat i) x a) (fun i _ y => c_mul c (N.of_nat i) y b) (mk2 a' C0 C0 b') (e + 20 * u) g0.
Proof.
  intros a a' b b' e A A' E i x y X Y. cbn [mk2]. split.
  - replace (a' * x + C0 * y)%C with (a' * x)%C by ring. apply nscale; auto using n1_pos.
  - replace (C0 * x + b' * y)%C with (b' * y)%C by ring. rewrite (Rplus_comm (n1 x)). apply nscale; auto using n1_pos.
Qed.
Lemma n1_mi : n1 (- Ci)%C <= 3 / 2. Proof. rewrite n1_opp. apply n1_i. Qed.
Lemma rows_y : rows (fun i _ y => c_mul c (N.of_nat i) y (- Ci)%C) (fun i x _ => c_mul c (N.of_nat i) x Ci) mY (0 + 20 * u) g0.
Proof.
  intros i x y X Y. unfold mY. cbn [mk2]. split.
  - replace (C0 * x + - Ci * y)%C with (- Ci * y)%C by ring. rewrite (Rplus_comm (n1 x)). apply nscale; auto using n1_pos; [apply near_self, n1_mi|lra].
  - replace (Ci * x + C0 * y)%C with (Ci * x)%C by ring. apply nscale; auto using n1_pos; [apply near_self, n1_i|lra].
Qed.
Lemma rows_h : rows (fun i x y => c_had c (N.of_nat i) x y (c_lit c (7071067811865475 / 10000000000000000)))
  (fun i x y => c_had c (N.of_nat i) x (- y)%C (c_lit c (7071067811865475 / 10000000000000000))) mH (0 + 20 * u) g0.
Proof.
  intros i x y X Y. unfold mH, mscale. cbn [mk2]. split.
  - replace (RtoC (/ sqrt 2) * C1 * x + RtoC (/ sqrt 2) * C1 * y)%C with (RtoC (/ sqrt 2) * (x + y))%C by ring. apply nhad; auto.
  - replace (RtoC (/ sqrt 2) * C1 * x + RtoC (/ sqrt 2) * - C1 * y)%C with (RtoC (/ sqrt 2) * (x + - y))%C by ring. rewrite <- (n1_opp y). apply nhad; auto. rewrite n1_opp. auto.
Qed.

Section One.
Variable n : nat.
Hypothesis Hn : (n <= 64)%nat.
Variable t : N.
Hypothesis Ht : (t < N.of_nat n)%N.

Lemma one_nearly : forall body f0 f1 M e, rows f0 f1 M (e + 20 * u) g0 -> 0 <= e ->
  (forall a b, (N.to_nat a < 2 ^ n)%nat -> (N.to_nat b < 2 ^ n)%nat -> a <> b ->
     forall i, idx0 t i = a -> idx1 t i = b -> pair_body n (body i) a b (f0 (N.to_nat a)) (f1 (N.to_nat b))) ->
  nearly n (nb_rep n) (g0 * sqrt (2 ^ n)) (run_kernel (Kernel (half (N.of_nat n)) body)) (ap1 M (N.to_nat t)) (3 * (e + 20 * u)).
Proof. intros body f0 f1 M e R E H. apply (kernel_nearly n _ [] t f0 f1); auto; [|lra]. apply one_kernel_at; auto. Qed.

Lemma ny_nearly : nearly n (nb_rep n) (g0 * sqrt (2 ^ n)) (run_kernel (fk_y c (N.of_nat n) t)) (ap1 mY (N.to_nat t)) (3 * (0 + 20 * u)).
Proof.
  unfold fk_y. eapply one_nearly; [apply rows_y|lra|]. intros a b Ha Hb Hab i <- <-. cbv beta zeta. rewrite !N2Nat.id. apply (body_swap n _ _ Ha Hb Hab).
  intros r r' E0 E1. rewrite E0, E1. auto.
Qed.
Lemma nh_nearly : nearly n (nb_rep n) (g0 * sqrt (2 ^ n)) (run_kernel (fk_h c (N.of_nat n) t)) (ap1 mH (N.to_nat t)) (3 * (0 + 20 * u)).
Proof.
  unfold fk_h. eapply one_nearly; [apply rows_h|lra|]. intros a b Ha Hb Hab i <- <-. cbv beta zeta. rewrite !N2Nat.id. apply (body_swap n _ _ Ha Hb Hab).
  intros r r' E0 E1. rewrite E0, E1. auto.
Qed.
Lemma nmat_nearly : forall a b c' d a' b' c'' d' e, near a a' e -> near b b' e -> near c' c'' e -> near d d' e -> 0 <= e <= 1 / 10 ->
  nearly n (nb_rep n) (g0 * sqrt (2 ^ n)) (run_kernel (fk_mat c a b c' d (N.of_nat n) t)) (ap1 (mk2 a' b' c'' d') (N.to_nat t)) (3 * (e + 20 * u)).
Proof.
  intros. unfold fk_mat. eapply one_nearly; [eapply (rows_lin a b c' d); eauto|lra|]. intros p q Ha Hb Hab i <- <-. cbn [fst snd lin_rows]. rewrite !N2Nat.id. apply (body_swap n _ _ Ha Hb Hab).
  intros r r' E0 E1. rewrite E0, E1. auto.
Qed.
Lemma ndiag_nearly : forall a a' e, near a a' e -> 0 <= e <= 1 / 10 ->
  nearly n (nb_rep n) (g0 * sqrt (2 ^ n)) (run_kernel (fk_diag c a (N.of_nat n) t)) (ap1 (mk2 C1 C0 C0 a') (N.to_nat t)) (3 * (e + 20 * u)).
Proof.
  intros. unfold fk_diag. eapply one_nearly; [eapply (rows_scale1 a); eauto|lra|]. intros p q Ha Hb Hab i <- <-. cbv beta. rewrite !N2Nat.id. apply (fbody_scale1 n _ _ Hb Hab c).
Qed.
Lemma nrz_nearly : forall ang p q e, near (Cconj (fl_cis (c_arith c) (f_mul (c_arith c) ang (1 / 2)))) p e -> near (fl_cis (c_arith c) (f_mul (c_arith c) ang (1 / 2))) q e -> 0 <= e <= 1 / 10 ->
  nearly n (nb_rep n) (g0 * sqrt (2 ^ n)) (run_kernel (fk_rz c ang (N.of_nat n) t)) (ap1 (mk2 p C0 C0 q) (N.to_nat t)) (3 * (e + 20 * u)).
Proof.
  intros. unfold fk_rz. eapply one_nearly; [eapply rows_scale01; [exact H|exact H0|auto]|lra|]. intros x y Ha Hb Hab i <- <-. cbv beta zeta. rewrite !N2Nat.id. apply (fbody_rz n _ _ Ha Hb Hab c).
Qed.
End One.

Section Ctl.
Variables (n : nat) (cs : list N) (t : N).
Hypothesis Hn : (n <= 64)%nat.
Hypothesis Hd : NoDup (cs ++ [t]).
Hypothesis Hin : Forall (fun q => q < N.of_nat n)%N (cs ++ [t]).

Lemma ctl_nearly : forall body f0 f1 M e, rows f0 f1 M (e + 20 * u) g0 -> 0 <= e ->
  (forall a b, (N.to_nat a < 2 ^ n)%nat -> (N.to_nat b < 2 ^ n)%nat -> a <> b ->
     b = N.lor a (shl1 t) -> pair_body n (body a (shl1 t)) a b (f0 (N.to_nat a)) (f1 (N.to_nat b))) ->
  exists k, ctl_kernel (N.of_nat n) (cs ++ [t]) body = Ok k /\ nearly n (nb_rep n) (g0 * sqrt (2 ^ n)) (run_kernel k) (controlled cs t M) (3 * (e + 20 * u)).
Proof.
  intros body f0 f1 M e R E H. destruct (ctl_kernel_at n cs t Hn Hd Hin body f0 f1 H) as [k [K1 K2]]. exists k. split; auto.
  apply (kernel_nearly n _ cs t f0 f1); auto; [|lra]. apply (Ht' n cs t Hin).
Qed.
Lemma ncz_nearly : exists k, fk_cz c (N.of_nat n) (cs ++ [t]) = Ok k /\ nearly n (nb_rep n) (g0 * sqrt (2 ^ n)) (run_kernel k) (controlled cs t mZ) (3 * (0 + 20 * u)).
Proof.
  destruct (cz_kernel_at n cs t Hn Hd Hin c (fun i y => c_mul c (N.of_nat i) y (- C1)%C)) as [k [K1 K2]].
  { intros b v. rewrite N2Nat.id. reflexivity. }
  exists k. split; auto. eapply kernel_nearly; [exact K2|apply (Ht' n cs t Hin)| |lra|exact GP]. apply rows_scale1; [apply near_self, n1_one|lra].
Qed.
Lemma ncmat_nearly : forall a b c' d a' b' c'' d' e, near a a' e -> near b b' e -> near c' c'' e -> near d d' e -> 0 <= e <= 1 / 10 ->
  exists k, fk_cmat c a b c' d (N.of_nat n) (cs ++ [t]) = Ok k /\ nearly n (nb_rep n) (g0 * sqrt (2 ^ n)) (run_kernel k) (controlled cs t (mk2 a' b' c'' d')) (3 * (e + 20 * u)).
Proof.
  intros. unfold fk_cmat. eapply ctl_nearly; [eapply (rows_lin a b c' d); eauto|lra|]. intros p q Ha Hb Hab ->. cbn [fst snd lin_rows]. rewrite !N2Nat.id. apply (body_swap n _ _ Ha Hb Hab).
  intros r r' E0 E1. rewrite E0, E1. auto.
Qed.
Lemma ncrz_nearly : forall ang p q e, near (Cconj (fl_cis (c_arith c) (f_mul (c_arith c) ang (1 / 2)))) p e -> near (fl_cis (c_arith c) (f_mul (c_arith c) ang (1 / 2))) q e -> 0 <= e <= 1 / 10 ->
  exists k, fk_crz c ang (N.of_nat n) (cs ++ [t]) = Ok k /\ nearly n (nb_rep n) (g0 * sqrt (2 ^ n)) (run_kernel k) (controlled cs t (mk2 p C0 C0 q)) (3 * (e + 20 * u)).
Proof.
  intros. unfold fk_crz. eapply ctl_nearly; [eapply rows_scale01; [exact H|exact H0|auto]|lra|]. intros x y Ha Hb Hab ->. cbv beta zeta. rewrite !N2Nat.id. apply (fbody_scale01 n _ _ Ha Hb Hab c).
Qed.
Lemma ncphase_nearly : forall ang a' e, near (fl_cis (c_arith c) ang) a' e -> 0 <= e <= 1 / 10 ->
  exists k, fk_cphase c ang (N.of_nat n) (cs ++ [t]) = Ok k /\ nearly n (nb_rep n) (g0 * sqrt (2 ^ n)) (run_kernel k) (controlled cs t (mk2 C1 C0 C0 a')) (3 * (e + 20 * u)).
Proof.
  intros. unfold fk_cphase. eapply ctl_nearly; [eapply rows_scale1; eauto|lra|]. intros x y Ha Hb Hab ->. cbv beta zeta. rewrite !N2Nat.id. apply (fbody_scale1 n _ _ Hb Hab c).
Qed.
End Ctl.
End Loops.
