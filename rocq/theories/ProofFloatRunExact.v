(** Rounded runs: without rounding they are the runs of ModelNumpy and ModelNumba *)
From Coq Require Import String List Arith ZArith Bool Reals Lia Lra FunctionalExtensionality.
Import ListNotations.
From Verif Require Import Base Cplx Bits ModelTargets ModelGate ModelNumpy ModelNumba ModelFloat ModelFloatMeasure ModelFloatNumba ModelFloatNumbaMeasure ModelFloatRun
  SpecTargets SpecQuantum SpecCircuit SpecMeasure SpecLaw SpecFloat SpecFloatMeasure ProofFloatTop ProofFloatMeasTop ProofFloatNumbaTop ProofFiniteNbRun.
Local Open Scope R_scope.

Lemma fl_gates_exact : forall rng, draws_ok rng -> forall gs ctx b, fl_run_gates exact_arith exact_norm_fun rng gs ctx b = np_run_gates rng gs ctx b.
Proof.
  intros rng Hr. induction gs as [|g gs IH]; intros ctx b; cbn [fl_run_gates np_run_gates]; [reflexivity|].
  rewrite run_single_exact by auto. destruct (np_run_single rng recursion_limit g ctx); auto.
Qed.
Lemma fl_shots_exact : forall rng, draws_ok rng -> forall N gs ctx b, fl_shots exact_arith exact_norm_fun rng N gs ctx b = np_shots rng N gs ctx b.
Proof.
  intros rng Hr. induction N as [|N IH]; intros gs ctx b; cbn [fl_shots np_shots]; [reflexivity|]. cbv zeta. rewrite fl_gates_exact by auto.
  destruct (np_run_gates rng _ _ _) as [[ctx'|e p] b']; auto.
Qed.
Lemma np_run_exact : forall rng b gs n a pos, draws_ok rng -> fl_np_run exact_arith exact_norm_fun ignore_global_phase rng b gs n a pos = np_run rng b gs n a pos.
Proof.
  intros rng b gs n a pos Hr. unfold fl_np_run, np_run. destruct (parse_run_args a) as [[[N r] ig]|e]; [|reflexivity]. cbv zeta. rewrite fl_shots_exact by auto. reflexivity.
Qed.

Lemma fb_action_exact : forall rng g n, fb_action exact_compiled exact_norm2 exact_arith rng g n = nb_action rng g n.
Proof.
  intros rng g n. assert (M : fn_measure exact_compiled exact_norm2 rng = nb_step_measure rng) by (repeat (apply functional_extensionality; intro); apply fn_measure_exact).
  assert (R : fn_reset exact_compiled exact_norm2 rng = nb_step_reset rng) by (repeat (apply functional_extensionality; intro); apply fn_reset_exact).
  unfold fb_action, nb_action. rewrite M, R. destruct g; try reflexivity; rewrite fn_unitary_exact; reflexivity.
Qed.
Lemma nb_list_ext : forall f g l ctx b, (forall a ctx b, f a ctx b = g a ctx b) -> nb_run_list f l ctx b = nb_run_list g l ctx b.
Proof. intros f g l ctx b H. revert ctx b. induction l as [|a l IH]; intros ctx b; cbn [nb_run_list]; [reflexivity|]. rewrite H. destruct (g a ctx b); auto. Qed.
Lemma fb_single_exact : forall rng fuel g ctx b, fb_single exact_compiled exact_norm2 exact_arith rng fuel g ctx b = nb_run_single rng fuel g ctx b.
Proof.
  intros rng. induction fuel as [|fuel IH]; intros g ctx b; cbn [fb_single nb_run_single]; rewrite fb_action_exact; destruct (nb_action rng g (x_n ctx)); auto.
  rewrite fallback_exact. destruct (fallback g (Z.of_nat (x_n ctx))); auto. apply nb_list_ext. auto.
Qed.
Lemma fb_gates_exact : forall rng gs ctx b i, fb_gates exact_compiled exact_norm2 exact_arith rng gs ctx b i = nb_run_gates rng gs ctx b i.
Proof.
  intros rng. induction gs as [|g gs IH]; intros ctx b i; cbn [fb_gates nb_run_gates]; [reflexivity|].
  rewrite fb_single_exact. destruct (nb_run_single rng recursion_limit g ctx b); auto.
Qed.
Lemma fb_shots_exact : forall rng N gs ctx b, fb_shots exact_compiled exact_norm2 exact_arith rng N gs ctx b = nb_shots rng N gs ctx b.
Proof.
  intros rng. induction N as [|N IH]; intros gs ctx b; cbn [fb_shots nb_shots]; [reflexivity|]. cbv zeta. rewrite fb_gates_exact.
  destruct (nb_run_gates rng _ _ _ _) as [[ctx' b'|e p b'] i]; auto.
Qed.
Lemma nb_run_exact : forall rng b gs n a pos, fb_run exact_compiled exact_norm2 exact_arith ignore_global_phase rng b gs n a pos = nb_run rng b gs n a pos.
Proof.
  intros rng b gs n a pos. unfold fb_run, nb_run. destruct (parse_run_args (na_args a)) as [[[N r] ig]|e]; [|reflexivity]. cbv zeta. rewrite fb_shots_exact. reflexivity.
Qed.
