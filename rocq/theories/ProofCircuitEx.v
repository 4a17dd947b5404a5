(** Concrete programs: cases that meet the hypotheses of the properties of circuits, and counterexamples. *)
From Coq Require Import List Arith NArith ZArith Bool String Reals Lia Lra.
Import ListNotations.
From Verif Require Import Base Cplx Bits ModelTargets ModelGate ModelNumpy ModelNumba ModelCircuit ModelCrash SpecTargets SpecQuantum SpecCircuit
  SpecMeasure SpecRun SpecAPI SpecCrash ProofTargets ProofExamples ProofRun ProofWhole ProofAPI ProofProgram ProofReach ProofInverse ProofCrash ProofCircuit.

Definition X (q : Z) : gate := GOne KX (TInt q).
Definition CX (a b : Z) : gate := GTwo KCX (TTuple [TInt a; TInt b]).
Definition plain : nb_args := NbArgs no_args true.
Definition r0 : nat -> R := fun _ => R0.

Ltac differ := let E := fresh in intros E; vm_compute in E; injection E; intros; apply R1_neq_R0; change (R1 = R0); congruence.

(** a = Circuit(); a.x[1]; a.run(); a.cx[0, 3]; b = a.copy(); b += a; a.m[:]; d = a.dagger(ignore_measurement=True); c = b + d *)
Definition ex_program : list op :=
  [ONew 0; OGate 0 (X 1); ORun 0 SelDefault plain; OGate 0 (CX 0 3); OCopy 0 true true; OIAdd 1 0;
   OGate 0 (GMeasure (TSlice None None None)); ODagger 0 true false true; OAdd 1 2; OSetDefault 3 (Some "numba"%string)].
Definition ex_final : heap := snd (steps r0 (empty_heap 0) ex_program).
Lemma ex_steps_proper : proper [] ex_program (fst (steps r0 (empty_heap 0) ex_program)).
Proof. vm_compute. repeat split. Qed.
Lemma ex_reachable : exists seen, reachable r0 seen ex_final.
Proof.
  eapply steps_reachable; [apply (reach_start r0 0)| |exact ex_steps_proper]. unfold ex_final.
  destruct (steps r0 (empty_heap 0) ex_program); reflexivity.
Qed.
(** x[1].cx[0, 3].x[1].cx[0, 3].cx[0, 3].x[1] on four qubits *)
Definition ex_c : vcirc := VCirc [X 1; CX 0 3; X 1; CX 0 3; CX 0 3; X 1] 4 (Some "numba"%string).
Lemma ex_c_is : circuit_is ex_final 3 ex_c.
Proof. eexists. split; [vm_compute; reflexivity|]. split; [vm_compute; reflexivity|]. split; reflexivity. Qed.
Definition ex_a : vcirc := VCirc [X 1; CX 0 3; GMeasure (TSlice None None None)] 4 None.
Lemma ex_a_is : circuit_is ex_final 0 ex_a.
Proof. eexists. split; [vm_compute; reflexivity|]. split; [vm_compute; reflexivity|]. split; reflexivity. Qed.
Lemma ex_demand : nth_error (demands [] ex_program (fst (steps r0 (empty_heap 0) ex_program))) 3 =
  Some (0%Z, [TInt 1; TTuple [TInt 0; TInt 3]; TInt 1; TTuple [TInt 0; TInt 3]; TInt 1; TTuple [TInt 0; TInt 3]; TSlice None None None]).
Proof. vm_compute. reflexivity. Qed.

Lemma x_ops : forall n q, inside n q -> gate_ops n (X q) [sem1 KX (Z.to_nat q)].
Proof.
  intros n q H. apply (go_one n KX (TInt q) [q]); [|repeat constructor; apply H].
  apply slicing_iff; [lia|]. simpl. unfold inside in H. replace (q <? 0)%Z with false by (symmetry; apply Z.ltb_ge; lia). reflexivity.
Qed.
Lemma ex_c_ops : circuit_ops 4 (v_gates ex_c) [sem1 KX 1; sem2 KCX 0 3; sem1 KX 1; sem2 KCX 0 3; sem2 KCX 0 3; sem1 KX 1].
Proof.
  assert (A : gate_ops 4 (X 1) [sem1 KX 1]) by (apply (x_ops 4 1); unfold inside; lia).
  assert (B : gate_ops 4 (CX 0 3) [sem2 KCX 0 3]) by (apply (go_pair 4 KCX 0 3); unfold inside; lia).
  repeat (first [apply (co_cons 4 _ _ [sem1 KX 1] _ A)|apply (co_cons 4 _ _ [sem2 KCX 0 3] _ B)|constructor]).
Qed.
Lemma ex_separate : Forall (separate_call 4) (v_gates ex_c).
Proof.
  assert (B : separate_call 4 (CX 0 3)).
  { intros ps D p q Hp Hq. apply pairs_iff in D; [|lia]. vm_compute in D. injection D as <-.
    destruct Hp as [<-|[]]. destruct Hq as [<-|[]]. simpl. lia. }
  unfold ex_c. simpl v_gates. repeat (apply Forall_cons; [first [exact I|exact B]|]). apply Forall_nil.
Qed.
(** cx[(0, 1), (2, 2)]: one target, two controls; rzz with overlapping pairs *)
Lemma ex_separate_pairs : separate_call 3 (GTwo KCX (TTuple [TTuple [TInt 0; TInt 1]; TTuple [TInt 2; TInt 2]])) /\
  separate_call 3 (GTwo (KRZZ 1) (TTuple [TSlice (Some 0%Z) (Some 2%Z) None; TSlice (Some 1%Z) (Some 3%Z) None])).
Proof.
  split; intros ps D p q Hp Hq; [|exact I]. apply pairs_iff in D; [|lia]. vm_compute in D. injection D as <-.
  destruct Hp as [<-|[<-|[]]]; destruct Hq as [<-|[<-|[]]]; simpl; lia.
Qed.

(** ** A refused call: c = Circuit(); c.x[None] *)
Lemma refused_keeps_gate : exists h c g e h' v v', reachable r0 [] h /\ circuit_is h c v /\ step r0 h (OGate c g) = (Err e, h') /\
  circuit_is h' c v' /\ v' <> v.
Proof.
  set (s := step r0 (empty_heap 0) (ONew 1)).
  exists (snd s), 0, (GOne KX TOther), AttributeError. eexists. exists (VCirc [] 1 None), (VCirc [GOne KX TOther] 1 None).
  split; [exact (reach_step r0 [] (empty_heap 0) (ONew 1) (fst s) (snd s) (reach_start r0 0) I eq_refl)|].
  split; [eexists; split; [vm_compute; reflexivity|]; repeat split|].
  split; [reflexivity|]. split; [eexists; split; [vm_compute; reflexivity|]; repeat split|discriminate].
Qed.

(** ** dagger of cx[0:2, 1:3] *)
Definition ex_overlap : list gate := [X 0; GTwo KCX (TTuple [TSlice (Some 0%Z) (Some 2%Z) None; TSlice (Some 1%Z) (Some 3%Z) None])].
Lemma overlap_not_inverse : exists ops gs' v b, circuit_ops 3 ex_overlap ops /\ reversed ex_overlap gs' /\
  np_run r0 new_backend (ex_overlap ++ gs') 3 no_args 0 = (Ok (RState v), b, 0) /\ v <> arr 3 (ket 0).
Proof.
  exists [sem1 KX 0; sem2 KCX 0 1; sem2 KCX 1 2].
  exists [GTwo KCX (TTuple [TSlice (Some 0%Z) (Some 2%Z) None; TSlice (Some 1%Z) (Some 3%Z) None]); X 0]. eexists _, _. split; [|split; [|split]].
  - apply (co_cons 3 _ _ [sem1 KX 0]); [apply (x_ops 3 0); unfold inside; lia|].
    apply (co_cons 3 _ _ [sem2 KCX 0 1; sem2 KCX 1 2]); [|constructor].
    apply (go_two 3 KCX _ [(0, 1); (1, 2)]%Z); [apply pairs_iff; [lia|reflexivity]|ins].
  - apply (rv_gate (X 0) (X 0) _ [GTwo KCX (TTuple [TSlice (Some 0%Z) (Some 2%Z) None; TSlice (Some 1%Z) (Some 3%Z) None])]); [reflexivity|].
    apply (rv_gate _ _ [] []); [reflexivity|constructor].
  - vm_compute. reflexivity.
  - differ.
Qed.

(** ** dagger(copy_backends=True) after a run: c.cx[0, 1].x[0]; c.run(); c.dagger(copy_backends=True).run() *)
Definition ex_dagger (cb : bool) : list op :=
  [ONew 2; OGate 0 (CX 0 1); OGate 0 (X 0); ORun 0 SelDefault plain; ODagger 0 false cb false; ORun 1 SelDefault plain].
Lemma dagger_backends : exists v w,
  last (fst (steps r0 (empty_heap 0) (ex_dagger true))) (Err Undefined) = Ok (OutRun (RState v)) /\
  last (fst (steps r0 (empty_heap 0) (ex_dagger false))) (Err Undefined) = Ok (OutRun (RState w)) /\ v <> w.
Proof.
  eexists _, _. split; [vm_compute; reflexivity|]. split; [vm_compute; reflexivity|].
  differ.
Qed.

(** ** One backend object for two circuits: b = NumPyBackend(); Circuit().x[0].run(backend=b); Circuit().i[0].run(backend=b) *)
Lemma shared_backend : exists b p w,
  np_run r0 new_backend [X 0] 1 no_args 0 = (Ok (RState w), b, p) /\
  exists v b' v0 b0, np_run r0 b [GOne KI (TInt 0)] 1 no_args p = (Ok (RState v), b', p) /\
  np_run r0 new_backend [GOne KI (TInt 0)] 1 no_args p = (Ok (RState v0), b0, p) /\ v <> v0.
Proof.
  eexists _, _, _. split; [vm_compute; reflexivity|]. eexists _, _, _, _. split; [vm_compute; reflexivity|]. split; [vm_compute; reflexivity|].
  differ.
Qed.

(** ** Interrupted runs *)
Lemma interrupted_numpy : exists b b' v v0 b0, In (b, true) (np_points r0 new_backend [X 0] 1 no_args 0) /\
  np_run r0 b [X 0] 1 no_args 0 = (Ok (RState v), b', 0) /\ np_run r0 new_backend [X 0] 1 no_args 0 = (Ok (RState v0), b0, 0) /\ v <> v0.
Proof.
  eexists _, _, _, _, _. split; [|split; [|split]].
  - vm_compute. do 4 right. left. reflexivity.
  - vm_compute. reflexivity.
  - vm_compute. reflexivity.
  - differ.
Qed.

(** numba, between the two assignments at the end of a shot: x[0], run, x[0], interrupted run *)
Lemma interrupted_numba : exists b1 p1 w b b' v v0 b0, nb_run r0 new_backend [X 0] 1 plain 0 = (Ok (RState w), b1, p1) /\
  In (b, true) (nb_points r0 b1 [X 0; X 0] 1 plain p1) /\
  nb_run r0 b [X 0; X 0] 1 plain p1 = (Ok (RState v), b', p1) /\ nb_run r0 new_backend [X 0; X 0] 1 plain p1 = (Ok (RState v0), b0, p1) /\ v <> v0.
Proof.
  eexists _, _, _, _, _, _, _, _. split; [vm_compute; reflexivity|]. split; [|split; [|split]].
  - vm_compute. do 5 right. left. reflexivity.
  - vm_compute. reflexivity.
  - vm_compute. reflexivity.
  - differ.
Qed.
(** numba, from a measurement to the end of the shot: x[0].m[0:0] *)
Definition ex_measure0 : list gate := [X 0; GMeasure (TSlice (Some 0%Z) (Some 0%Z) None)].
Lemma interrupted_numba_measure : exists b b' v v0 b0,
  In (b, true) (nb_points r0 new_backend ex_measure0 1 plain 0) /\
  nb_run r0 b ex_measure0 1 plain 0 = (Ok (RState v), b', 0) /\ nb_run r0 new_backend ex_measure0 1 plain 0 = (Ok (RState v0), b0, 0) /\ v <> v0.
Proof.
  eexists _, _, _, _, _. split; [|split; [|split]].
  - vm_compute. do 5 right. left. reflexivity.
  - vm_compute. reflexivity.
  - vm_compute. reflexivity.
  - differ.
Qed.

(** ** Circuit(n, c.ops) shares the list *)
Definition ex_alias : heap := snd (steps r0 (empty_heap 0) [ONew 1; OGate 0 (X 0); ONewOps 1 0]).
Lemma ops_shared : exists v v' h', circuit_is ex_alias 0 v /\ step r0 ex_alias (OGate 1 (X 0)) = (Ok (OutCirc 1), h') /\
  ~ modifies (OGate 1 (X 0)) 0 /\ circuit_is h' 0 v' /\ v' <> v.
Proof.
  exists (VCirc [X 0] 1 None), (VCirc [X 0; X 0] 1 None). eexists.
  split; [eexists; split; [vm_compute; reflexivity|]; repeat split|]. split; [vm_compute; reflexivity|].
  split; [discriminate|]. split; [eexists; split; [vm_compute; reflexivity|]; repeat split|discriminate].
Qed.

(** ** Lives of backend objects *)
Lemma ex_np_lives : exists b v b', b <> new_backend /\ np_lives r0 [X 0; CX 0 1] b /\ np_run r0 b [X 0; CX 0 1] 2 no_args 0 = (Ok (RState v), b', 0).
Proof.
  set (b1 := snd (fst (np_run r0 new_backend [X 0] 1 no_args 0))).
  exists b1. eexists _, _. split; [vm_compute; discriminate|]. split; [|vm_compute; reflexivity].
  apply (nl_more r0 [X 0] [CX 0 1]). apply (nl_stop r0 [X 0] new_backend 1 no_args 0).
  - apply (nl_more r0 [] [X 0]). constructor.
  - vm_compute. do 5 right. left. reflexivity.
Qed.
Lemma ex_valid1 : valid 1 [X 0].
Proof. apply (circuit_valid 1 [X 0] [sem1 KX 0]). apply (co_cons 1 _ _ [sem1 KX 0]); [apply (x_ops 1 0); unfold inside; lia|constructor]. Qed.
Lemma ex_nb_lives : exists b, b <> new_backend /\ nb_lives r0 [X 0] b /\ valid 1 [X 0] /\ draws_ok r0.
Proof.
  exists (snd (fst (nb_run r0 new_backend [X 0] 1 plain 0))). split; [vm_compute; discriminate|]. split; [|split; [exact ex_valid1|intro; unfold r0; lra]].
  apply (bl_stop r0 [X 0] new_backend 1 plain 0).
  - apply (bl_more r0 [] [X 0]). constructor.
  - lia.
  - exact ex_valid1.
  - vm_compute. do 6 right. left. reflexivity.
Qed.
Lemma ex_grows : exists b, b <> new_backend /\ grows_to r0 [X 0; CX 0 1] b.
Proof.
  exists (snd (fst (np_run r0 new_backend [X 0] 1 no_args 0))). split; [vm_compute; discriminate|].
  apply (gt_more r0 [X 0] [CX 0 1]). eapply (gt_run r0 [X 0] new_backend 1 no_args 0); [apply (gt_more r0 [] [X 0]); constructor|].
  vm_compute. reflexivity.
Qed.
(** b + d of the program, for the properties of runs *)
Lemma ex_numba_ok : numba_ok r0 ex_c plain.
Proof.
  split; [intro; unfold r0; lra|]. split; [simpl; lia|]. split; [exact (circuit_valid _ _ _ ex_c_ops)|discriminate].
Qed.
Lemma ex_irreversible : Exists irreversible (v_gates ex_a).
Proof. apply Exists_exists. eexists. split; [simpl; right; right; left; reflexivity|exact I]. Qed.
