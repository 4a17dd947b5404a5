(** Concrete cases for the backend ibmq and the Qiskit sampler. *)
From Coq Require Import String Ascii List Arith ZArith Bool Reals Lia Lra.
Import ListNotations.
From Verif Require Import Base Cplx Bits ModelTargets ModelGate ModelNumpy ModelNumba ModelBackend ModelCircuit ModelPauli ModelQasm ModelVqe ModelIbmq SpecTargets SpecQuantum
  SpecCircuit SpecMeasure SpecAPI SpecPauli SpecVqe SpecQasm SpecQasmRun SpecIbmq ProofTargets ProofBackend ProofVqeRun ProofVqeEx ProofQasm ProofQasmOps ProofQasmProps ProofQasmRun
  ProofIbmq ProofIbmqSample ProofIbmqVqe.
Local Open Scope nat_scope.

(** the circuit of C29 with a reset and a measurement of both qubits *)
Definition run_gates : list gate := qasm_gates ++ [GReset (TInt 0); GMeasure (TSlice None None None); GOne KX (TInt 1)].
Definition run_apps : list app := qasm_apps ++ [AReset 0; AMeasure 0; AMeasure 1; A1 KX 1].
Lemma run_case : circuit_apps 2 run_gates run_apps /\ Forall is_method run_gates /\ Forall not_cu2 run_gates /\
  Forall (legible show_ex read_ex) (flat_map stmt_params (flat_map block run_apps)).
Proof.
  destruct qasm_case as [A [_ [M [N L]]]].
  assert (I0 : inside 2 0) by (unfold inside; lia). assert (I1 : inside 2 1) by (unfold inside; lia).
  assert (D1 : denotes (Z.of_nat 2) (TSlice None None None) [0; 1]%Z) by (apply slicing_iff; [lia|reflexivity]).
  assert (D0 : denotes (Z.of_nat 2) (TInt 0) [0]%Z) by (apply slicing_iff; [lia|reflexivity]).
  assert (D2 : denotes (Z.of_nat 2) (TInt 1) [1]%Z) by (apply slicing_iff; [lia|reflexivity]).
  split; [|split; [|split]].
  - apply apps_app; auto.
    refine (ca_cons 2 _ _ _ _ (ga_reset 2 _ _ D0 _) (ca_cons 2 _ _ _ _ (ga_measure 2 _ _ D1 _) (ca_cons 2 _ [] _ [] (ga_one 2 KX _ _ D2 _) (ca_nil 2))));
      repeat (apply Forall_cons; auto).
  - apply Forall_app. split; auto. repeat (apply Forall_cons; [cbn; tauto|]). constructor.
  - apply Forall_app. split; auto. repeat (apply Forall_cons; [exact I|]). constructor.
  - unfold run_apps. rewrite !flat_map_app. apply Forall_app. split; auto. cbn. constructor.
Qed.
Lemma unmeasured_case : Forall unmeasured qasm_gates.
Proof. repeat (apply Forall_cons; [exact I|]). constructor. Qed.

(** the number 1 as a Hamiltonian *)
Definition one : expr := [Term [] C1].
Lemma identity_case : forall rng, exists h c h1, reachable rng [] h /\ circuit_is h c x0 /\ get_energy rng h one c (non_sampling_sampler rng) = (Ok 1%R, h1) /\
  forall Q show b sh kw s, qiskit_sampler Q show rng b sh kw = Ok s -> exists h2, get_energy rng h one c s = (Ok 0%R, h2).
Proof.
  intros rng. destruct (x0_case rng) as [h [c [Re [Ci [Si Op]]]]].
  destruct (get_energy_exact rng [] h c x0 [sem1 KX 0] one Re Ci) as [h1 [E _]]; [exact Si|exact Op|apply Forall_cons; [split; [constructor|intros x []]|constructor]|].
  exists h, c, h1. split; auto. split; auto. split.
  - rewrite E. f_equal. f_equal. change (Z.to_nat (v_n x0)) with 2.
    unfold expval_y, expval, inner, one. simpl. unfold op_one. simpl. unfold ap1, mX, mk2, ket. simpl.
    unfold C0, C1, Cadd, Cmul, Copp, Cconj, RtoC. simpl. ring.
  - intros Q show b sh kw s Es. eapply identity_energy; eauto.
Qed.
