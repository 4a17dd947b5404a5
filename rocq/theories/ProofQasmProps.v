(** Proofs for the OpenQASM output: well formed statements, the operator of the text, and cases where the text is not OpenQASM. *)
From Coq Require Import String Ascii List Arith ZArith Bool Reals Lia Lra.
Import ListNotations.
From Verif Require Import Base Cplx Bits ModelTargets ModelGate ModelNumpy ModelBackend ModelQasm SpecTargets SpecQuantum SpecCircuit SpecQasm
  ProofTargets ProofPair ProofBackend ProofFallback ProofCircuit ProofSympy ProofQasm ProofQasmOps.
Local Open Scope list_scope.

(** ** Applications of a circuit *)
Lemma to_nat_neq : forall n a b, inside n a -> inside n b -> a <> b -> Z.to_nat a <> Z.to_nat b. Proof. unfold inside. intros. lia. Qed.
Lemma to_nat_lt : forall n a, inside n a -> Z.to_nat a < n. Proof. unfold inside. intros. lia. Qed.
Definition app_wf (n : nat) (a : app) : Prop :=
  match a with
  | A1 _ q | AMeasure q | AReset q => q < n
  | A2 _ c t => c < n /\ t < n /\ c <> t
  | A3 k a b c => a < n /\ b < n /\ c < n /\ a <> b /\ a <> c /\ b <> c /\ k <> KCCZ
  end.
Definition app_cu2 (a : app) : Prop := match a with A2 (KCU2 _ _) _ _ => True | _ => False end.
Lemma gate_wf : forall n g l, gate_apps n g l -> no_ccz g -> Forall (app_wf n) l.
Proof.
  intros n g l G NC. destruct G as [k tg l D F|k tg ps D F|k a b c Ia Ib Ic Nab Nac Nbc|tg l D F|tg l D F].
  - apply Forall_map. eapply Forall_impl; [|exact F]. intros z I. apply (to_nat_lt n z I).
  - apply Forall_map. destruct D as [? [? [? [? [_ [_ [_ [_ [_ D]]]]]]]]]. apply Forall_forall. intros [c t] I.
    rewrite Forall_forall in F, D. destruct (F _ I) as [Ic It]. specialize (D _ I). cbn [fst snd] in *. cbn.
    split; [apply (to_nat_lt n c Ic)|]. split; [apply (to_nat_lt n t It)|apply (to_nat_neq n); auto].
  - apply Forall_cons; [|constructor]. cbn. repeat split; try (apply (to_nat_lt n); assumption); try (apply (to_nat_neq n); assumption). intros ->. exact NC.
  - apply Forall_map. eapply Forall_impl; [|exact F]. intros z I. apply (to_nat_lt n z I).
  - apply Forall_map. eapply Forall_impl; [|exact F]. intros z I. apply (to_nat_lt n z I).
Qed.
Lemma gate_no_cu2 : forall n g l, gate_apps n g l -> not_cu2 g -> Forall (fun a => ~ app_cu2 a) l.
Proof.
  intros n g l G NC. apply Forall_forall. intros a I X.
  destruct G; try (apply in_map_iff in I; destruct I as [z [<- I]]); cbn in X; try contradiction.
  - destruct k; contradiction.
  - destruct I as [<- |[]]; contradiction.
Qed.
Lemma circuit_wf : forall n gs l, circuit_apps n gs l -> Forall is_method gs -> Forall (app_wf n) l.
Proof.
  intros n gs l C. induction C as [|g gs a l G C IH]; intros M; [constructor|]. inversion M; subst. apply Forall_app. split; auto.
  eapply gate_wf; eauto. apply method_no_ccz. auto.
Qed.
Lemma circuit_no_cu2 : forall n gs l, circuit_apps n gs l -> Forall not_cu2 gs -> Forall (fun a => ~ app_cu2 a) l.
Proof.
  intros n gs l C. induction C as [|g gs a l G C IH]; intros M; [constructor|]. inversion M; subst. apply Forall_app. split; auto. eapply gate_no_cu2; eauto.
Qed.

(** ** Statements *)
Lemma block_ok : forall n a, app_wf n a -> ~ app_cu2 a -> Forall (stmt_ok n) (block a).
Proof.
  intros n [k q|k c t|k x y z|q|q] W NC; cbn in W.
  - destruct k; cbn [block]; (apply Forall_cons; [cbn [stmt_ok]; (split; [apply Forall_cons; [exact W|constructor]|]);
      (split; [apply NoDup_cons; [intros []|constructor]|discriminate])|constructor]).
  - destruct W as [Hc [Ht N]].
    assert (Q2 : Forall (fun q => q < n) [c; t] /\ NoDup [c; t]).
    { split; [apply Forall_cons; [exact Hc|apply Forall_cons; [exact Ht|constructor]]|]. apply NoDup_cons; [intros [E|[]]; congruence|]. apply NoDup_cons; [intros []|constructor]. }
    assert (Qc : Forall (fun q => q < n) [c] /\ NoDup [c]) by (split; [apply Forall_cons; [exact Hc|constructor]|apply NoDup_cons; [intros []|constructor]]).
    assert (Qt : Forall (fun q => q < n) [t] /\ NoDup [t]) by (split; [apply Forall_cons; [exact Ht|constructor]|apply NoDup_cons; [intros []|constructor]]).
    destruct k; try (exfalso; apply NC; exact I); cbn [block];
      repeat (apply Forall_cons; [cbn [stmt_ok]; (split; [first [apply Q2|apply Qc|apply Qt]|split; [first [apply Q2|apply Qc|apply Qt]|discriminate]])|]); constructor.
  - destruct W as [Ha [Hb [Hc [N1 [N2 [N3 K]]]]]].
    assert (Q : Forall (fun q => q < n) [x; y; z] /\ NoDup [x; y; z]).
    { split; [apply Forall_cons; [exact Ha|apply Forall_cons; [exact Hb|apply Forall_cons; [exact Hc|constructor]]]|].
      apply NoDup_cons; [intros [E|[E|[]]]; congruence|]. apply NoDup_cons; [intros [E|[]]; congruence|]. apply NoDup_cons; [intros []|constructor]. }
    destruct k; try contradiction; cbn [block]; (apply Forall_cons; [cbn [stmt_ok]; split; [apply Q|split; [apply Q|discriminate]]|constructor]).
  - apply Forall_cons; [cbn; auto|constructor].
  - apply Forall_cons; [cbn; auto|constructor].
Qed.
Lemma blocks_ok : forall n gs apps, circuit_apps n gs apps -> Forall is_method gs -> Forall not_cu2 gs -> Forall (stmt_ok n) (flat_map block apps).
Proof.
  intros n gs apps C M NC. pose proof (circuit_wf n gs apps C M) as W. pose proof (circuit_no_cu2 n gs apps C NC) as N. clear - W N.
  induction W as [|a l Wa W IH]; [constructor|]. inversion N; subst. cbn [flat_map]. apply Forall_app. split; auto. apply block_ok; auto.
Qed.
Lemma block_named : forall n a, app_wf n a -> (named a = true -> exists s, block a = [s] /\ stmt_qubits s = app_qubits a) /\
  block a <> [] /\ Forall (fun s => incl (stmt_qubits s) (app_qubits a)) (block a).
Proof.
  intros n [k q|k c t|k x y z|q|q] W; cbn in W; try destruct k; try (destruct W as [_ [_ [_ [_ [_ [_ W]]]]]]; contradiction);
    (split; [intros X; try discriminate X; cbn [block]; eexists; split; reflexivity|]); (split; [discriminate|]); cbn [block];
    repeat (apply Forall_cons; [intros v I; cbn in *; tauto|]); constructor.
Qed.
Lemma text_read : forall show read n gs apps, circuit_apps n gs apps -> Forall is_method gs -> Forall (legible show read) (flat_map stmt_params (flat_map block apps)) ->
  (exists text, qasm_run show gs n true = Ok text /\ read_program read text = Some (Prog n n (flat_map block apps))) /\
  (exists text, qasm_run show gs n false = Ok text /\ read_body read text = Some (flat_map block apps)) /\
  Forall (fun a => (named a = true -> exists s, block a = [s] /\ stmt_qubits s = app_qubits a) /\
    block a <> [] /\ Forall (fun s => incl (stmt_qubits s) (app_qubits a)) (block a)) apps /\
  (Forall not_cu2 gs -> Forall (stmt_ok n) (flat_map block apps)).
Proof.
  intros show read n gs apps C M L. destruct (text_ok show read n gs apps C M L) as [A B]. split; auto. split; auto. split.
  - eapply Forall_impl; [|eapply circuit_wf; eauto]. intros a. apply block_named.
  - intros NC. eapply blocks_ok; eauto.
Qed.

(** ** Operator *)
Lemma gate_same : forall n g a o, gate_apps n g a -> gate_ops n g o -> o = map app_op a.
Proof.
  intros n g a o A O. destruct A as [k tg l D F|k tg ps D F|k a b c Ia Ib Ic Nab Nac Nbc|tg l D F|tg l D F]; inversion O; subst.
  - apply slicing_list in D. match goal with H : denotes _ _ _ |- _ => apply slicing_list in H; rewrite D in H; injection H as <- end. rewrite map_map. auto.
  - apply (pairs_iff (Z.of_nat n)) in D; [|lia]. match goal with H : denotes_pairs _ _ _ |- _ => apply (pairs_iff (Z.of_nat n)) in H; [|lia]; rewrite D in H; injection H as <- end.
    rewrite map_map. auto.
  - auto.
Qed.
Lemma circuit_same : forall n gs a, circuit_apps n gs a -> forall o, circuit_ops n gs o -> o = map app_op a.
Proof.
  intros n gs a A. induction A as [|g gs a l G A IH]; intros o O; inversion O; subst; [auto|]. rewrite map_app. f_equal; [eapply gate_same; eauto|apply IH; auto].
Qed.
Lemma circuit_good : forall n gs a o, circuit_apps n gs a -> circuit_ops n gs o -> Forall is_method gs -> Forall not_cu2 gs -> Forall app_good a.
Proof.
  intros n gs a o A O M NC. pose proof (circuit_wf n gs a A M) as W. pose proof (circuit_no_cu2 n gs a A NC) as N.
  assert (Q : Forall (fun x => match x with AMeasure _ | AReset _ => False | _ => True end) a).
  { clear - A O. revert o O. induction A as [|g gs a l G A IH]; intros o O; [constructor|]. inversion O; subst. apply Forall_app. split; [|eapply IH; eauto].
    destruct G; try (match goal with H : gate_ops _ _ _ |- _ => inversion H; fail end); try apply Forall_map; apply Forall_forall; intros x I; try (destruct I as [<- |[]]); exact Logic.I. }
  rewrite Forall_forall in *. intros x I. specialize (W x I). specialize (N x I). specialize (Q x I).
  destruct x as [k q|k c t|k p q r|q|q]; cbn in *; try contradiction; auto; try tauto. split; [tauto|]. destruct k; auto.
Qed.
Lemma text_operator : forall show read n gs apps ops, circuit_apps n gs apps -> circuit_ops n gs ops -> Forall is_method gs -> Forall not_cu2 gs ->
  Forall (legible show read) (flat_map stmt_params (flat_map block apps)) ->
  exists text body us k, qasm_run show gs n true = Ok text /\ read_program read text = Some (Prog n n body) /\ body_ops body = Some us /\
    Cnorm2 k = 1%R /\ forall psi, apply_all us psi = scl k (apply_all ops psi).
Proof.
  intros show read n gs apps ops A O M NC L. destruct (text_ok show read n gs apps A M L) as [[text [E R]] _].
  destruct (blocks_up apps) as [P [E2 [k [K U]]]]; [eapply circuit_good; eauto|]. rewrite <- (circuit_same n gs apps A ops O) in U.
  exists text, (flat_map block apps), (map prim_op P), k. auto.
Qed.
Lemma apps_exist : forall n gs ops, circuit_ops n gs ops -> exists apps, circuit_apps n gs apps.
Proof.
  intros n gs ops C. induction C as [|g gs o os G C [l IH]]; [exists []; constructor|]. destruct G; eexists; (apply ca_cons; [|exact IH]); constructor; eauto.
Qed.

(** ** Texts that are not OpenQASM *)
Definition cu2_gate (x y : R) : gate := GTwo (KCU2 x y) (TTuple [TInt 0; TInt 1]).
Lemma int_at : forall n z, inside n z -> denotes (Z.of_nat n) (TInt z) [z]. Proof. exact at_int. Qed.
Lemma cu2_undefined : forall show read x y, legible show read x -> legible show read y ->
  circuit_ops 2 [cu2_gate x y] [sem2 (KCU2 x y) 0 1] /\ is_method (cu2_gate x y) /\
  exists text, qasm_run show [cu2_gate x y] 2 true = Ok text /\ read_program read text = Some (Prog 2 2 [SGate "cu2" [x; y] [0; 1]]) /\ qelib "cu2" [x; y] [0; 1] = None.
Proof.
  intros show read x y Lx Ly.
  assert (I0 : inside 2 0) by (unfold inside; lia). assert (I1 : inside 2 1) by (unfold inside; lia).
  assert (D : denotes_pairs (Z.of_nat 2) (TTuple [TInt 0; TInt 1]) [(0, 1)%Z]) by (apply (at_pair 2 0 1); auto; lia).
  assert (F : Forall (fun p : Z * Z => inside 2 (fst p) /\ inside 2 (snd p)) [(0, 1)%Z]) by (apply Forall_cons; auto).
  split; [|split; [cbn; tauto|]].
  - pose proof (co_cons 2 _ [] _ [] (go_two 2 (KCU2 x y) _ _ D F) (co_nil 2)) as X. exact X.
  - pose proof (ca_cons 2 _ [] _ [] (ga_two 2 (KCU2 x y) _ _ D F) (ca_nil 2)) as X.
    destruct (text_ok show read 2 [cu2_gate x y] _ X) as [[text [E R]] _].
    + apply Forall_cons; [cbn; tauto|constructor].
    + cbn. repeat (apply Forall_cons; [assumption|]). constructor.
    + exists text. split; auto.
Qed.
(** Circuit(2).x[-3] and Circuit(3).ccx[0, 1, -1] *)
Lemma index_unreadable : forall show read,
  (exists text, qasm_run show [GOne KX (TInt (-3))] 2 true = Ok text /\ read_program read text = None) /\
  (exists text, qasm_run show [GThree KCCX (TTuple [TInt 0; TInt 1; TInt (-1)])] 3 true = Ok text /\ read_program read text = None).
Proof. intros. split; eexists; (split; [reflexivity|reflexivity]). Qed.

Lemma slice_unreadable : forall show read, exists text,
  qasm_run show [GThree KCCX (TTuple [TSlice None (Some 1%Z) None; TSlice (Some 1%Z) (Some 2%Z) (Some 1%Z); TInt 2])] 3 false = Ok text /\
  text = "ccx q[slice(None, 1, None)],q[slice(1, 2, 1)],q[2];"%string /\ read_body read text = None.
Proof. intros. eexists. split; [reflexivity|]. split; reflexivity. Qed.

(** ** An example *)
Local Open Scope R_scope.
Definition show_ex (x : R) : string := if Rle_dec 0 x then "1.0" else "-1.0".
Definition read_ex (s : string) : option R := if String.eqb s "1.0" then Some 1 else if String.eqb s "-1.0" then Some (-1) else None.
Definition qasm_gates : list gate :=
  [GOne KH (TSlice None None None); GTwo (KCRX 2) (TTuple [TInt 0; TInt (-1)]); GTwo (KCPhase 1) (TTuple [TTuple [TInt 1; TInt 0]; TTuple [TInt 0; TInt 1]])].
Lemma legible_1 : legible show_ex read_ex 1.
Proof. unfold legible, show_ex. destruct (Rle_dec 0 1); [|lra]. repeat split. discriminate. Qed.
Lemma legible_m1 : legible show_ex read_ex (-1).
Proof. unfold legible, show_ex. destruct (Rle_dec 0 (-1)); [lra|]. repeat split. discriminate. Qed.
Definition qasm_apps : list app := [A1 KH 0; A1 KH 1; A2 (KCRX 2) 0 1; A2 (KCPhase 1) 1 0; A2 (KCPhase 1) 0 1].
Lemma qasm_case : circuit_apps 2 qasm_gates qasm_apps /\ (exists ops, circuit_ops 2 qasm_gates ops) /\ Forall is_method qasm_gates /\ Forall not_cu2 qasm_gates /\
  Forall (legible show_ex read_ex) (flat_map stmt_params (flat_map block qasm_apps)).
Proof.
  assert (I0 : inside 2 0) by (unfold inside; lia). assert (I1 : inside 2 1) by (unfold inside; lia).
  assert (D1 : denotes (Z.of_nat 2) (TSlice None None None) [0; 1]%Z) by (apply slicing_iff; [lia|reflexivity]).
  assert (D2 : denotes_pairs (Z.of_nat 2) (TTuple [TInt 0; TInt (-1)]) [(0, 1)%Z]) by (apply pairs_iff; [lia|reflexivity]).
  assert (D3 : denotes_pairs (Z.of_nat 2) (TTuple [TTuple [TInt 1; TInt 0]; TTuple [TInt 0; TInt 1]]) [(1, 0); (0, 1)]%Z) by (apply pairs_iff; [lia|reflexivity]).
  assert (F1 : Forall (inside 2) [0; 1]%Z) by (repeat (apply Forall_cons; auto)).
  assert (F2 : Forall (fun p : Z * Z => inside 2 (fst p) /\ inside 2 (snd p)) [(0, 1)%Z]) by (repeat (apply Forall_cons; auto)).
  assert (F3 : Forall (fun p : Z * Z => inside 2 (fst p) /\ inside 2 (snd p)) [(1, 0); (0, 1)]%Z) by (repeat (apply Forall_cons; auto)).
  split; [|split; [|split; [|split]]].
  - exact (ca_cons 2 _ _ _ _ (ga_one 2 KH _ _ D1 F1) (ca_cons 2 _ _ _ _ (ga_two 2 (KCRX 2) _ _ D2 F2) (ca_cons 2 _ [] _ [] (ga_two 2 (KCPhase 1) _ _ D3 F3) (ca_nil 2)))).
  - eexists. exact (co_cons 2 _ _ _ _ (go_one 2 KH _ _ D1 F1) (co_cons 2 _ _ _ _ (go_two 2 (KCRX 2) _ _ D2 F2) (co_cons 2 _ [] _ [] (go_two 2 (KCPhase 1) _ _ D3 F3) (co_nil 2)))).
  - repeat (apply Forall_cons; [cbn; tauto|]). constructor.
  - repeat (apply Forall_cons; [exact I|]). constructor.
  - unfold qasm_apps. cbn [flat_map block stmt_params List.app]. replace (2 / 2) with 1 by field. replace (- (2) / 2) with (-1) by field.
    repeat (apply Forall_cons; [first [apply legible_1|apply legible_m1]|]). constructor.
Qed.
