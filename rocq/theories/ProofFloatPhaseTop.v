(** The removal of the global phase on both backends, in runs, in doubles *)
From Coq Require Import String List Arith NArith ZArith Bool Reals Lia Lra Psatz FunctionalExtensionality.
Import ListNotations.
From Verif Require Import Base Cplx Bits ModelTargets ModelGate ModelNumpy ModelNumba ModelFloat ModelFloatMeasure ModelFloatNumba ModelFloatNumbaMeasure ModelFloatRun ModelFloatPhase
  SpecTargets SpecQuantum SpecCircuit SpecMeasure ProofBorn SpecLaw SpecFloat SpecFloatMeasure SpecFinite SpecFloatNumba SpecFiniteMeasure SpecFloatRun SpecFloatPhase
  ProofArray ProofMeasure ProofPhase ProofFloat ProofFloatOps ProofFloatMeas ProofFinite ProofFloatTop ProofFiniteMeasRun ProofFloatRuns ProofFloatPhase ProofFloatPhaseRun.
Local Open Scope R_scope.

(** ** Without rounding *)
Lemma quot_exact : forall h q, q <> C0 -> np_quot exact_arith h q = (RtoC h / q)%C /\ py_quot exact_arith h q = (RtoC h / q)%C.
Proof.
  intros h [c d] N. unfold np_quot, py_quot, exact_arith, Cdiv, Cinv, Cmul, RtoC, Cnorm2. cbn [fst snd f_add f_sub f_mul f_div].
  assert (S' : c * c + d * d <> 0). { intros E. apply N. unfold C0. f_equal; nra. }
  assert (T : c <> 0 -> c + d * (d / c) <> 0). { intros C' E. apply S'. replace (c * c + d * d) with (c * (c + d * (d / c))) by (field; auto). rewrite E. ring. }
  assert (T' : d <> 0 -> d + c * (c / d) <> 0). { intros C' E. apply S'. replace (c * c + d * d) with (d * (d + c * (c / d))) by (field; auto). rewrite E. ring. }
  destruct (Rle_dec (Rabs d) (Rabs c)) as [L|L].
  - assert (C' : c <> 0). { intros ->. rewrite Rabs_R0 in L. assert (d = 0) by (destruct (Req_dec d 0) as [?|X]; auto; apply Rabs_pos_lt in X; lra). subst. apply S'. ring. }
    specialize (T C'). split; f_equal; field; auto.
  - assert (C' : d <> 0). { intros ->. apply L. rewrite Rabs_R0. apply Rabs_pos. }
    specialize (T' C'). split; f_equal; field; auto.
Qed.
Lemma first_exact : forall v, first_above Cabs (1 / 10000000) v = first_nonzero v.
Proof. induction v as [|q v IH]; [reflexivity|]. cbn [first_above first_nonzero]. rewrite IH. reflexivity. Qed.
Lemma fl_phase_exact : forall quot v, (forall h q, q <> C0 -> quot h q = (RtoC h / q)%C) -> fl_ignore_global Cabs quot (fun _ => Cmul) (1 / 10000000) v = ignore_global_phase v.
Proof.
  intros quot v H. unfold fl_ignore_global, ignore_global_phase. rewrite first_exact. destruct (first_nonzero v) as [q|] eqn:E; [|reflexivity].
  apply first_some in E as (a & b & _ & _ & Q). rewrite H by (apply Cabs_neq; pose proof threshold_pos; lra). cbv zeta. unfold mul_all.
  generalize 0%nat. induction v as [|x v IH]; intros i; [reflexivity|]. cbn [List.length seq combine map fst snd]. f_equal. apply IH.
Qed.
Lemma fc_mul_exact : fc_mul exact_arith = Cmul.
Proof. apply functional_extensionality. intros z. apply functional_extensionality. intros w. reflexivity. Qed.
Lemma np_phase_exact : np_ignore_global exact_arith Cabs (1 / 10000000) = ignore_global_phase.
Proof.
  apply functional_extensionality. intros v. unfold np_ignore_global. rewrite fc_mul_exact. apply fl_phase_exact. intros h q N. apply (quot_exact h q N).
Qed.
Lemma nb_phase_exact : nb_ignore_global exact_compiled Cabs (1 / 10000000) = ignore_global_phase.
Proof. apply functional_extensionality. intros v. unfold nb_ignore_global. cbn [exact_compiled c_arith c_mul]. apply fl_phase_exact. intros h q N. apply (quot_exact h q N). Qed.

(** ** Both backends *)
Section Both.
Variables u eta B g w : R.
Variable n : nat.
Hypothesis Hn : (0 < n)%nat.
Hypothesis HP : phase_ranges u eta B n g.
Variable habs : C -> R.
Variable thr : R.
Hypothesis HA : abs_within habs w.
Hypothesis Hw : u <= w <= 1 / 1000.
Hypothesis HT : Rabs (thr - / 10 ^ 7) <= w * / 10 ^ 7.

Lemma np_phase : forall A, rounds_within A u eta B -> divides_signed A u eta B -> unit_close n u w g habs thr (np_ignore_global A habs thr) /\ turned_close n u w g (np_ignore_global A habs thr).
Proof.
  intros A HR HS. destruct HP as (U & E & LB & G).
  assert (Q : quot_near u (np_quot A)) by (apply (np_quot_near A u eta B); auto; lra).
  assert (M : forall (i : N) z f, n1 z <= 6 -> n1 f <= 2 -> n1 (fc_mul A z f - z * f)%C <= 5 * u * (n1 z * n1 f) + 20 * eta).
  { intros i z f Z F. eapply Rle_trans; [apply (wc_mul_err A u eta B HR); lra|]. pose proof (n1_pos z). pose proof (n1_pos f). assert (0 <= u * (n1 z * n1 f)) by (apply Rmult_le_pos; [lra|apply Rmult_le_pos; auto]). lra. }
  split.
  - intros phi NP. apply (phase_unit u eta w g n Hn ltac:(lra) ltac:(lra) G habs _ (fun _ => fc_mul A) thr HA Hw Q M HT phi NP).
  - intros phi psi j e m. apply (phase_close u eta w g n Hn ltac:(lra) ltac:(lra) G habs _ (fun _ => fc_mul A) thr HA Hw Q M HT).
Qed.
Lemma nb_phase : forall c, compiles c u eta B -> divides_signed (c_arith c) u eta B -> unit_close n u w g habs thr (nb_ignore_global c habs thr) /\ turned_close n u w g (nb_ignore_global c habs thr).
Proof.
  intros c HC HS. destruct HP as (U & E & LB & G).
  assert (Q : quot_near u (py_quot (c_arith c))) by (apply (py_quot_near (c_arith c) u eta B (co_arith _ _ _ _ HC)); auto; lra).
  pose proof (co_mul _ _ _ _ HC) as M.
  split.
  - intros phi NP. apply (phase_unit u eta w g n Hn ltac:(lra) ltac:(lra) G habs _ (c_mul c) thr HA Hw Q M HT phi NP).
  - intros phi psi j e m. apply (phase_close u eta w g n Hn ltac:(lra) ltac:(lra) G habs _ (c_mul c) thr HA Hw Q M HT).
Qed.
End Both.
