(** The decompositions of the three qubit gates. *)
From Coq Require Import List Arith ZArith Bool Reals Lia Lra FunctionalExtensionality.
Import ListNotations.
From Verif Require Import Base Cplx Bits ModelTargets ModelGate SpecTargets SpecQuantum SpecCircuit ProofFallback.
Local Open Scope R_scope.

(** ** Three qubits *)
Section ThreeQubit.
Variables p q r : nat.
Hypothesis Hpq : p <> q.
Hypothesis Hpr : p <> r.
Hypothesis Hqr : q <> r.

Ltac l3 := first [ apply loc3_p; assumption | apply loc3_q; assumption | apply loc3_r; assumption
                 | apply loc3_swp; assumption
                 | apply loc3_ctl_p; l3 | apply loc3_ctl_q; l3 | apply loc3_ctl_r; l3
                 | eapply loc3_comp; [assumption | assumption | assumption | l3 | l3] ].

Lemma fb_ccx : forall psi,
  apply_all [sem1 KH r; sem2 KCX q r; sem1 KTdg r; sem2 KCX p r; sem1 KT r; sem2 KCX q r; sem1 KTdg r;
             sem2 KCX p r; sem1 KT q; sem1 KT r; sem1 KH r; sem2 KCX p q; sem1 KT p; sem1 KTdg q; sem2 KCX p q] psi
  = sem3 KCCX p q r psi.
Proof.
  cbn [sem1 sem2 sem3 mat1 apply_all fold_left]. unfold sem1; cbn [mat1].
  refine (loc3_eq p q r _ _ _ _ _ _ _); [l3 | l3 |].
  pose proof C_h2 as Eh. pose proof (cis_opp_l (PI / 4)) as Ew.
  assert (Ew2 : (cis (PI / 4) * cis (PI / 4) * (cis (PI / 4) * cis (PI / 4)))%C = (- C1)%C).
  { rewrite <- !cis_double. replace (PI / 4 + PI / 4 + (PI / 4 + PI / 4)) with PI by field. apply cis_PI. }
  assert (Ez : cis (- (PI / 4)) = (- (cis (PI / 4) * cis (PI / 4) * cis (PI / 4)))%C).
  { transitivity (cis (- (PI / 4)) * - (cis (PI / 4) * cis (PI / 4) * (cis (PI / 4) * cis (PI / 4))))%C.
    - rewrite Ew2. ring.
    - ring [Ew]. }
  clear Ew.
  intros v [|] [|] [|]; unfold T_p, T_q, T_r, mH, mscale, mX, mPhase, mk2; cbn beta iota;
  rewrite ?Ez; set (h := RtoC (/ sqrt 2)) in *; set (w := cis (PI / 4)) in *; clearbody h w;
  rewrite ?Cmul_0_l, ?Cmul_1_l, ?Cadd_0_l, ?Cadd_0_r;
  set (d := (/ (C1 + C1))%C) in *; assert (Ed : (d + d)%C = C1) by (unfold d; field; apply C2_neq0);
  generalize dependent d; intros d Eh Ed;
  match goal with |- ?A = ?B => transitivity ((d + d) * B)%C; [ring [Eh Ew2] | rewrite Ed; ring] end.
Qed.

Lemma fb_cswap : forall psi,
  apply_all [sem2 KCX r q; sem3 KCCX p q r; sem2 KCX r q] psi = sem3 KCSwap p q r psi.
Proof.
  cbn [sem1 sem2 sem3 mat1 apply_all fold_left].
  refine (loc3_eq p q r _ _ _ _ _ _ _); [l3 | l3 |].
  intros v [|] [|] [|]; unfold T_p, T_q, T_r, mX, mk2; cbn beta iota; ring.
Qed.

(** H CCZ H = CCX, as gate_ccx of the numpy backend does it *)
Lemma h_ccz_h : forall psi, apply_all [sem1 KH r; sem3 KCCZ p q r; sem1 KH r] psi = sem3 KCCX p q r psi.
Proof.
  cbn [sem1 sem2 sem3 mat1 apply_all fold_left]. unfold sem1; cbn [mat1].
  refine (loc3_eq p q r _ _ _ _ _ _ _); [l3 | l3 |].
  pose proof C_h2 as Eh.
  intros v [|] [|] [|]; unfold T_p, T_q, T_r, mH, mscale, mX, mZ, mk2; cbn beta iota;
  set (h := RtoC (/ sqrt 2)) in *;
  set (d := (/ (C1 + C1))%C) in *; assert (Ed : (d + d)%C = C1) by (unfold d; field; apply C2_neq0);
  generalize dependent d; intros d Eh Ed;
  match goal with |- ?A = ?B => transitivity ((d + d) * B)%C; [ring [Eh] | rewrite Ed; ring] end.
Qed.
End ThreeQubit.
