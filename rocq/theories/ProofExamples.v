(** Concrete circuits that meet the hypotheses of the theorems on running circuits. *)
From Coq Require Import List Arith ZArith Bool String Reals Lia Lra.
Import ListNotations.
From Verif Require Import Base Cplx Bits ModelTargets ModelGate ModelBackend ModelNumpy SpecTargets SpecQuantum SpecCircuit SpecMeasure
  SpecRun ProofTargets ProofArray ProofNumpy ProofFallback ProofRun ProofUnitary ProofCache ProofMeasure ProofBorn ProofPhase ProofWhole ProofBackend.

Ltac den := apply slicing_iff; [lia|reflexivity].
Ltac ins := repeat (constructor; [unfold inside; simpl; try split; lia|]); constructor.

(** c = Circuit(3).rx(1)[1:].cx[(0, -1), (1, 1)].ccx[0, 1, 2].rxx(2)[0, 2] *)
Definition ex_gates : list gate :=
  [GOne (KRX 1) (TSlice (Some 1%Z) None None);
   GTwo KCX (TTuple [TTuple [TInt 0; TInt (-1)]; TTuple [TInt 1; TInt 1]]);
   GThree KCCX (TTuple [TInt 0; TInt 1; TInt 2]);
   GTwo (KRXX 2) (TTuple [TInt 0; TInt 2])].
Definition ex_ops : list oper :=
  [sem1 (KRX 1) 1; sem1 (KRX 1) 2; sem2 KCX 0 1; sem2 KCX 2 1; sem3 KCCX 0 1 2; sem2 (KRXX 2) 0 2].

Lemma ex_slice : gate_ops 3 (GOne (KRX 1) (TSlice (Some 1%Z) None None)) [sem1 (KRX 1) 1; sem1 (KRX 1) 2].
Proof. apply (go_one 3 (KRX 1) _ [1; 2]%Z); [den|ins]. Qed.
Lemma ex_pairs : gate_ops 3 (GTwo KCX (TTuple [TTuple [TInt 0; TInt (-1)]; TTuple [TInt 1; TInt 1]])) [sem2 KCX 0 1; sem2 KCX 2 1].
Proof. apply (go_two 3 KCX _ [(0, 1); (2, 1)]%Z); [apply pairs_iff; [lia|reflexivity]|ins]. Qed.
Lemma ex_rxx : gate_ops 3 (GTwo (KRXX 2) (TTuple [TInt 0; TInt 2])) [sem2 (KRXX 2) 0 2].
Proof. apply (go_pair 3 (KRXX 2) 0 2); unfold inside; lia. Qed.
Lemma ex_ccx : gate_ops 3 (GThree KCCX (TTuple [TInt 0; TInt 1; TInt 2])) [sem3 KCCX 0 1 2].
Proof. apply (go_three 3 KCCX 0 1 2); unfold inside; lia. Qed.
Lemma ex_circuit : circuit_ops 3 ex_gates ex_ops.
Proof.
  apply (co_cons 3 _ _ [sem1 (KRX 1) 1; sem1 (KRX 1) 2]); [exact ex_slice|].
  apply (co_cons 3 _ _ [sem2 KCX 0 1; sem2 KCX 2 1]); [exact ex_pairs|].
  apply (co_cons 3 _ _ [sem3 KCCX 0 1 2]); [exact ex_ccx|].
  apply (co_cons 3 _ _ [sem2 (KRXX 2) 0 2]); [exact ex_rxx|constructor].
Qed.

(** the same, then m[0].reset[1:].m[:] *)
Definition ex_measured : list gate :=
  ex_gates ++ [GMeasure (TInt 0); GReset (TSlice (Some 1%Z) None None); GMeasure (TSlice None None None)].
Lemma circuit_valid : forall n gs ops, circuit_ops n gs ops -> valid n gs.
Proof.
  induction 1 as [|g gs o os Hg Hgs IH]; constructor; auto. destruct Hg; eexists; econstructor; eauto.
Qed.
Lemma ex_measured_valid : valid 3 ex_measured.
Proof.
  apply Forall_app. split; [eapply circuit_valid; exact ex_circuit|].
  constructor; [exists [0%Z]; split; [den|ins]|]. constructor; [exists [1; 2]%Z; split; [den|ins]|].
  constructor; [exists [0; 1; 2]%Z; split; [den|ins]|constructor].
Qed.
Local Open Scope R_scope.
Lemma ex_draws : draws_ok (fun i => if Nat.even i then 0 else 1 / 2).
Proof. intro i. destruct (Nat.even i); lra. Qed.

(** qubit 0 of (|0> + i|1>)/sqrt 2 on one qubit *)
Definition ex_psi : state := scl (RtoC (/ sqrt 2)) (fun x => match x with O => C1 | S O => Ci | _ => C0 end).
Lemma ex_psi_norm : norm2 1 ex_psi = 1.
Proof.
  unfold ex_psi. rewrite norm2_scl. rewrite Cnorm2_RtoC, <- Rinv_mult, sqrt_sqrt by lra.
  unfold norm2. simpl. unfold Cnorm2, C1, Ci. simpl. lra.
Qed.
Lemma ex_psi_prob : prob 1 0 true ex_psi = 1 / 2 /\ Cnorm2 (ex_psi 1%nat) = 1 / 2.
Proof.
  assert (H : Cnorm2 (ex_psi 1%nat) = 1 / 2).
  { unfold ex_psi, scl. rewrite Cnorm2_mul, Cnorm2_RtoC, <- Rinv_mult, sqrt_sqrt by lra. unfold Cnorm2, Ci; simpl. lra. }
  split; auto. unfold prob, norm2. simpl. unfold project; simpl. rewrite H. unfold Cnorm2, C0; simpl. lra.
Qed.

Lemma ex_not_small : ~ Forall small [C0; Ci].
Proof.
  intros H. inversion H; subst. inversion H3; subst. unfold small, Cabs, threshold in H4.
  replace (Cnorm2 Ci) with 1 in H4 by (unfold Cnorm2, Ci; simpl; ring). rewrite sqrt_1 in H4. lra.
Qed.
