(** Proofs for the backend qgate: conversion of the gates. *)
From Coq Require Import String Ascii List Arith ZArith Bool Reals Lia Lra FunctionalExtensionality Sorting.Sorted.
Import ListNotations.
From Verif Require Import Base Cplx Bits ModelTargets ModelGate ModelVqe ModelQgate SpecTargets SpecQuantum SpecCircuit SpecMeasure SpecQasm SpecQasmRun SpecIbmq SpecQgate
  ProofTargets ProofPair ProofUnitary ProofFallback ProofBackend ProofMeasure ProofBorn ProofQasm ProofQasmOps ProofQasmProps ProofQasmRun.
Local Open Scope nat_scope.

(** ** Registers *)
Lemma reg_inside : forall n z, inside n z -> reg n z = Ok (Z.to_nat z).
Proof.
  intros n z I. unfold inside in I. unfold reg, py_get. rewrite seq_length. replace (z <? 0)%Z with false by (symmetry; apply Z.ltb_ge; lia). cbv iota.
  replace (z <? 0)%Z with false by (symmetry; apply Z.ltb_ge; lia).
  rewrite (nth_error_nth' (seq 0 n) 0) by (rewrite seq_length; lia). rewrite seq_nth by lia. auto.
Qed.
Lemma reg_denotes : forall n a l, denotes (Z.of_nat n) (TInt a) l -> Forall (inside n) l -> exists z, l = [z] /\ reg n a = Ok (Z.to_nat z).
Proof.
  intros n a l D F. apply slicing_iff in D; [|lia]. cbn in D. injection D as <-. eexists. split; [reflexivity|]. inversion F as [|? ? I _]; subst.
  rewrite <- (reg_inside n _ I). revert I. unfold reg, py_get, inside. rewrite seq_length. destruct (Z.ltb_spec a 0) as [L|L]; intros I.
  - rewrite !(proj2 (Z.ltb_ge (a + Z.of_nat n) 0)) by lia. reflexivity.
  - rewrite !(proj2 (Z.ltb_ge a 0)) by lia. reflexivity.
Qed.
Lemma map_res_ok : forall A B (f : A -> res B) (g : A -> B) l, Forall (fun a => f a = Ok (g a)) l -> map_res f l = Ok (map g l).
Proof. intros A B f g l F. induction F as [|a l E F IH]; [auto|]. cbn. rewrite E. cbn. rewrite IH. auto. Qed.
(** operators of a list of applications *)
Fixpoint qops_of (l : list app) : option (list qop) :=
  match l with
  | [] => Some []
  | a :: r => match qop_of a, qops_of r with Some o, Some os => Some (o :: os) | _, _ => None end
  end.
Lemma qops_app : forall a b x y, qops_of a = Some x -> qops_of b = Some y -> qops_of (a ++ b) = Some (x ++ y).
Proof.
  induction a as [|h a IH]; intros b x y E F; cbn in *; [injection E as <-; auto|]. destruct (qop_of h); [|discriminate]. destruct (qops_of a) as [os|]; [|discriminate].
  injection E as <-. rewrite (IH b os y eq_refl F). auto.
Qed.
Lemma qops_map : forall A (f : A -> app) (g : A -> qop) l, (forall a, qop_of (f a) = Some (g a)) -> qops_of (map f l) = Some (map g l).
Proof. intros A f g l H. induction l as [|a l IH]; [auto|]. cbn. rewrite H, IH. auto. Qed.
Lemma create_ok : forall n ty ps tg l, denotes (Z.of_nat n) tg l -> Forall (inside n) l ->
  create_gates n ty ps tg = Ok (map (fun z => QGate ty ps false [] (Z.to_nat z)) l).
Proof.
  intros n ty ps tg l D F. apply slicing_iff in D; [|lia]. unfold create_gates, for_gen. rewrite D. cbn [yields raised].
  rewrite (map_res_ok _ _ _ (fun z => QGate ty ps false [] (Z.to_nat z))); [auto|]. eapply Forall_impl; [|exact F]. intros z I. cbn beta. rewrite (reg_inside n z I). auto.
Qed.
Lemma control_ok : forall n ty ps tg l, denotes_pairs (Z.of_nat n) tg l -> Forall (fun p => inside n (fst p) /\ inside n (snd p)) l ->
  (let* pr := qubit_pairs tg (Z.of_nat n) in
   map_res (fun p : Z * Z => let* c := reg n (fst p) in let* q := reg n (snd p) in Ok (QGate ty ps false [c] q)) pr) =
  Ok (map (fun p => QGate ty ps false [Z.to_nat (fst p)] (Z.to_nat (snd p))) l).
Proof.
  intros n ty ps tg l D F. apply pairs_iff in D; [|lia]. rewrite D. cbn [bind]. apply map_res_ok. eapply Forall_impl; [|exact F]. intros p [I J]. cbn beta.
  rewrite (reg_inside n _ I). cbn [bind]. rewrite (reg_inside n _ J). auto.
Qed.
Lemma map_adjoint : forall A ty ps (f : A -> nat) l, map set_adjoint (map (fun a => QGate ty ps false [] (f a)) l) = map (fun a => QGate ty ps true [] (f a)) l.
Proof. intros. rewrite map_map. auto. Qed.
Lemma convert_gate_ok : forall n g apps, gate_apps n g apps -> convertible g -> exists ops, qops_of apps = Some ops /\ convert_gate n g = Ok ops.
Proof.
  intros n g apps A C. destruct A.
  - destruct k; (eexists; split; [apply qops_map; intros; reflexivity|]); unfold convert_gate; cbn -[create_gates]; rewrite (create_ok n _ _ tg l H H0);
      cbn [bind]; rewrite ?map_adjoint; auto.
  - destruct k; try contradiction; try (eexists; split; [apply qops_map; intros; reflexivity|]; unfold convert_gate; cbn -[qubit_pairs reg];
      unfold convert_one_qubit_gate; cbn [Nat.eqb]; rewrite (control_ok n _ _ tg ps H H0); reflexivity).
    destruct C as [a [b ->]]. destruct H as [a' [b' [la [lb [Eq [Da [Db [Ma [Mb _]]]]]]]]]. injection Eq as <- <-.
    assert (Fa : Forall (inside n) la) by (rewrite <- Ma; apply Forall_map; eapply Forall_impl; [|exact H0]; intros p [I J]; auto).
    assert (Fb : Forall (inside n) lb) by (rewrite <- Mb; apply Forall_map; eapply Forall_impl; [|exact H0]; intros p [I J]; auto).
    destruct (reg_denotes n a la Da Fa) as [za [-> Ra]]. destruct (reg_denotes n b lb Db Fb) as [zb [-> Rb]].
    destruct ps as [|[x y] [|]]; try discriminate. cbn in Ma, Mb. injection Ma as ->. injection Mb as ->.
    eexists. split; [reflexivity|]. unfold convert_gate. cbn -[reg]. unfold convert_multi_qubit_gate. cbn -[reg]. rewrite Ra. cbn [bind]. rewrite Rb. auto.
  - cbn in C. subst k. eexists. split; [reflexivity|]. unfold convert_gate. cbn -[reg]. unfold convert_one_qubit_gate. cbn -[reg].
    rewrite !(reg_inside n) by auto. auto.
  - eexists. split; [apply qops_map; intros; reflexivity|]. unfold convert_gate. cbn -[convert_measure]. unfold convert_measure, for_gen.
    apply slicing_iff in H; [|lia]. rewrite H. cbn [yields raised].
    rewrite (map_res_ok _ _ _ (fun z => QMeasure (Z.to_nat z) (Z.to_nat z))); [auto|]. eapply Forall_impl; [|exact H0]. intros z I. cbn beta. rewrite (reg_inside n z I). auto.
  - contradiction.
Qed.

Lemma convert_from : forall n gs apps, circuit_apps n gs apps -> Forall convertible gs -> exists ops, qops_of apps = Some ops /\
  forall acc, for_list gs (fun g ops => let* l := convert_gate n g in Ok (ops ++ l)%list) acc = Ok (acc ++ ops).
Proof.
  intros n gs apps A. induction A as [|g gs a l G A IH]; intros C.
  - exists []. split; [auto|]. intros acc. cbn. rewrite app_nil_r. auto.
  - inversion C; subst. destruct (convert_gate_ok n g a G H1) as [o1 [E1 X1]]. destruct (IH H2) as [o2 [E2 X2]]. exists (o1 ++ o2). split; [apply qops_app; auto|].
    intros acc. cbn [for_list]. rewrite X1. cbn [bind]. rewrite X2, app_assoc. auto.
Qed.
Lemma convert_ok : forall n gs apps, circuit_apps n gs apps -> Forall convertible gs -> exists ops, qops_of apps = Some ops /\ convert_operators n gs = Ok ops.
Proof. intros n gs apps A C. destruct (convert_from n gs apps A C) as [ops [E X]]. exists ops. split; auto. apply (X []). Qed.
Lemma qops_each : forall l ops, qops_of l = Some ops <-> map (@Some qop) ops = map qop_of l.
Proof.
  induction l as [|a l IH]; intros ops; cbn.
  - split; [intros E; injection E as <-; auto|]. destruct ops; [auto|discriminate].
  - split.
    + destruct (qop_of a); [|discriminate]. destruct (qops_of l) as [os|]; [|discriminate]. intros E. injection E as <-. cbn. f_equal. apply IH. auto.
    + destruct ops as [|o ops]; [discriminate|]. cbn. intros E. injection E as <- E. apply IH in E. rewrite E. auto.
Qed.
(** what is not in the table *)
Lemma convert_unknown : forall n gs apps g rest, circuit_apps n gs apps -> Forall convertible gs -> unknown g ->
  convert_operators n (gs ++ g :: rest) = Err AssertionError.
Proof.
  intros n gs apps g rest A C U. destruct (convert_from n gs apps A C) as [ops [_ X]]. unfold convert_operators.
  assert (G : forall acc l, for_list (gs ++ l) (fun g ops => let* l := convert_gate n g in Ok (ops ++ l)%list) acc =
    bind (for_list gs (fun g ops => let* l := convert_gate n g in Ok (ops ++ l)%list) acc) (for_list l (fun g ops => let* l := convert_gate n g in Ok (ops ++ l)%list))).
  { clear. intros acc l. revert acc. induction gs as [|g gs IH]; intros acc; [auto|]. cbn [List.app for_list]. destruct (convert_gate n g) as [x|e]; cbn [bind]; auto. }
  rewrite G, X. cbn [bind for_list]. replace (convert_gate n g) with (@Err (list qop) AssertionError); [auto|].
  destruct g as [k tg|k tg|k tg|tg|tg]; cbn in U; try contradiction; try destruct k; try contradiction; try congruence; reflexivity.
Qed.

(** ** Meaning of the operators *)
Section Meaning.
Variable M : gtype -> list R -> mat2.
Variable phase : R -> R -> R -> C.
Hypothesis U : usual M phase.
Variable rng : nat -> R.

Lemma qop_exec_det : forall n o w w1 w2, qop_exec M rng n o w w1 -> qop_exec M rng n o w w2 -> w1 = w2.
Proof. intros n o w w1 w2 A B. destruct A; inversion B; subst; auto. Qed.
Lemma qops_exec_det : forall n l w w1 w2, qops_exec M rng n l w w1 -> qops_exec M rng n l w w2 -> w1 = w2.
Proof.
  intros n l w w1 w2 A. revert w2. induction A as [|o l w w1 w3 H A IH]; intros w2 B; inversion B; subst; auto. apply IH.
  match goal with X : qop_exec _ _ _ o w ?w4 |- _ => rewrite (qop_exec_det n o w w1 w4 H X) end. auto.
Qed.
Lemma qops_exec_app : forall n l m w w1 w2, qops_exec M rng n l w w1 -> qops_exec M rng n m w1 w2 -> qops_exec M rng n (l ++ m) w w2.
Proof. intros n l m w w1 w2 A. revert m w2. induction A as [|o l w w1 w3 H A IH]; intros m w2 B; [auto|]. cbn [List.app]. econstructor; [exact H|]. apply IH. auto. Qed.
Lemma adj_phase : forall x, madj (mPhase x) = mPhase (- x).
Proof.
  intros x. apply functional_extensionality. intros [|]; apply functional_extensionality; intros [|]; unfold madj, mPhase, mk2; ceq; unfold cis; cbn; rewrite ?cos_neg, ?sin_neg; ring.
Qed.
Definition mean (o : qop) : oper :=
  match o with
  | QGate ty ps a cs q => qgate_op M ty ps a cs q
  | QMulti _ _ a b => swp a b
  | QMeasure _ _ => fun psi => psi
  end.
Definition app_cu (a : app) : Prop := match a with A2 (KCU2 _ _) _ _ | A2 (KCU3 _ _ _) _ _ => True | _ => False end.
Lemma mean_up : forall a o, qop_of a = Some o -> plain a -> ~ app_cu a -> upto [mean o] [app_op a] /\ homog (mean o).
Proof.
  intros a o E P N. assert (Ho : homog (mean o)).
  { clear E. destruct o; cbn [mean]; [|intros k psi; reflexivity|intros k psi; reflexivity]. unfold qgate_op, controlled. induction ctrls; cbn; [apply homog_ap1|apply homog_ctl; auto]. }
  split; auto. destruct U.
  destruct a as [k q|k c t|k x y z|q|q]; try contradiction.
  - destruct k; cbn in E; injection E as <-; cbn [mean app_op]; unfold qgate_op, controlled; cbn [fold_right];
      try (apply upto_eq; intros; unfold sem1; cbn [mat1]; congruence).
    + apply upto_eq. intros. unfold sem1. cbn [mat1]. rewrite us_t, adj_phase. auto.
    + apply upto_eq. intros. unfold sem1. cbn [mat1]. rewrite us_s, adj_phase. auto.
    + rewrite us_u2. apply (upto_ap1 (phase (PI / 2) phi lambd)); auto.
    + rewrite us_u. apply (upto_ap1 (phase theta phi lambd)); auto.
  - destruct k; try discriminate E; cbn in E; injection E as <-; cbn [mean app_op]; try (exfalso; apply N; exact I);
      try (apply upto_eq; intros; unfold qgate_op, controlled; cbn [fold_right sem2]; congruence).
    unfold qgate_op, controlled. cbn [fold_right params2]. rewrite us_u1. exists (cis (lambd / 4)). split; [apply norm_cis|]. intros psi.
    apply functional_extensionality. intros y. unfold apply_all. cbn [fold_left sem2]. unfold scl. rewrite Cmul_assoc, cis_add.
    replace (lambd / 4 + - (lambd / 4))%R with 0%R by ring. rewrite cis_0. ring.
  - destruct k; try discriminate E. cbn in E. injection E as <-. cbn [mean app_op]. apply upto_eq. intros. unfold qgate_op, controlled. cbn [fold_right sem3]. congruence.
Qed.
Lemma qop_same : forall n a o w w', qop_of a = Some o -> ~ app_cu a -> same_world w w' -> exists u, qop_exec M rng n o w u /\ same_world u (app_exec rng n w' a).
Proof.
  intros n a o w w' E N S0. assert (P : plain a \/ (exists q, a = AMeasure q)) by (destruct a; cbn; eauto; discriminate E).
  destruct P as [P|[q ->]].
  - destruct (mean_up a o E P N) as [[k [K Up]] Ho]. destruct S0 as [B [Ps [k' [K' E']]]].
    exists (World (mean o (w_psi w)) (w_bits w) (w_pos w)). split.
    { destruct o as [ty ps ad cs q|ty ps x y|r q]; cbn [mean].
      - constructor.
      - assert (ty = TSWAP /\ ps = []) as [-> ->]; [|constructor]. clear - E. destruct a as [k q|k c t|k p q r|q|q]; try destruct k; try discriminate E; injection E as <- <-; auto.
      - exfalso. clear - E P. destruct a as [k z|k c t|k p z y|z|z]; try destruct k; try discriminate E; contradiction. }
    assert (X : app_exec rng n w' a = World (app_op a (w_psi w')) (w_bits w') (w_pos w')) by (destruct a; try contradiction; auto). rewrite X.
    split; [auto|]. split; [auto|]. cbn [w_psi]. exists (k' * k)%C. split; [rewrite norm_mul, K, K'; ring|].
    rewrite E', Ho. specialize (Up (w_psi w')). unfold apply_all in Up. cbn [fold_left] in Up. rewrite Up, scl_scl. auto.
  - cbn in E. injection E as <-. exists (qmeasure rng n q q w). split; [constructor|apply same_measure; auto].
Qed.
Lemma qops_same : forall n apps ops, qops_of apps = Some ops -> Forall (fun a => ~ app_cu a) apps -> forall w w', same_world w w' ->
  exists u, qops_exec M rng n ops w u /\ same_world u (fold_left (app_exec rng n) apps w').
Proof.
  intros n apps. induction apps as [|a l IH]; intros ops E N w w' S0; cbn in E.
  - injection E as <-. exists w. split; [constructor|auto].
  - destruct (qop_of a) as [o|] eqn:Ea; [|discriminate]. destruct (qops_of l) as [os|]; [|discriminate]. injection E as <-. inversion N; subst.
    destruct (qop_same n a o w w' Ea H1 S0) as [u1 [X1 S1]]. destruct (IH os eq_refl H2 u1 _ S1) as [u [X2 S2]]. exists u. split; [|exact S2]. econstructor; eauto.
Qed.
Lemma gate_no_cu : forall n g l, gate_apps n g l -> ~ controlled_u g -> Forall (fun a => ~ app_cu a) l.
Proof.
  intros n g l G N. apply Forall_forall. intros a Ia. destruct G; try (apply in_map_iff in Ia; destruct Ia as [p [<- _]]); cbn; auto.
  destruct Ia as [<-|[]]. cbn. auto.
Qed.
Lemma circuit_no_cu : forall n gs l, circuit_apps n gs l -> Forall (fun g => ~ controlled_u g) gs -> Forall (fun a => ~ app_cu a) l.
Proof.
  intros n gs l A. induction A as [|g gs a l G A IH]; intros F; [constructor|]. inversion F; subst. apply Forall_app. split; auto. eapply gate_no_cu; eauto.
Qed.
Lemma same_refl : forall w, same_world w w.
Proof. intros w. repeat split. exists C1. split; [apply norm_C1|rewrite scl_1; auto]. Qed.
(** one run of the operators *)
Lemma convert_exec : forall n gs apps, circuit_apps n gs apps -> Forall convertible gs -> Forall (fun g => ~ controlled_u g) gs ->
  exists ops, convert_operators n gs = Ok ops /\
    forall w w1, exec rng n gs w w1 -> exists u, qops_exec M rng n ops w u /\ same_world u w1 /\ forall u', qops_exec M rng n ops w u' -> u' = u.
Proof.
  intros n gs apps A C N. destruct (convert_ok n gs apps A C) as [ops [E X]]. exists ops. split; auto. intros w w1 Ex. rewrite (exec_apps rng n gs apps A w w1 Ex).
  destruct (qops_same n apps ops E (circuit_no_cu n gs apps A N) w w (same_refl w)) as [u [Eu Su]]. exists u. split; auto. split; auto.
  intros u' Eu'. eapply qops_exec_det; eauto.
Qed.
End Meaning.
(** one operator for each application *)
Lemma convert_apps : forall n gs apps, circuit_apps n gs apps -> Forall convertible gs ->
  exists ops, convert_operators n gs = Ok ops /\ map (@Some qop) ops = map qop_of apps.
Proof. intros n gs apps A C. destruct (convert_ok n gs apps A C) as [ops [E X]]. exists ops. split; auto. apply qops_each. auto. Qed.
(** *** The controlled U *)
Lemma munitary_cancel : forall U k, munitary U -> (k * U false false = U false false)%C -> (k * U true false = U true false)%C -> k = C1.
Proof.
  intros U k H A B. specialize (H false false). unfold mmul, madj in H. change (mI false false) with C1 in H.
  set (a := U false false) in *. set (b := U true false) in *.
  transitivity (Cconj a * (k * a) + Cconj b * (k * b))%C; [|rewrite A, B; exact H].
  transitivity (k * (Cconj a * a + Cconj b * b))%C; [rewrite H|]; ring.
Qed.
Lemma controlled_u_iff : forall U k c q, munitary U -> c <> q ->
  ((exists f, Cnorm2 f = 1%R /\ forall psi, ctl c (ap1 (mscale k U) q) psi = scl f (ctl c (ap1 U q) psi)) <-> k = C1).
Proof.
  intros U k c q HU N. split.
  - intros [f [_ E]]. set (psi := fun x => if bit x q then C0 else C1).
    assert (F : f = C1).
    { pose proof (f_equal (fun s => s 0) (E psi)) as X. cbv beta in X. unfold ctl, scl, psi in X. rewrite !Nat.bits_0 in X. cbv iota in X. rewrite X. ring. }
    subst f.
    assert (V : forall b, (k * U b false = U b false)%C).
    { intros b. pose proof (f_equal (fun s => s (setb (setb 0 c true) q b)) (E psi)) as X. cbv beta in X. unfold ctl, scl, ap1, mscale, psi in X.
      rewrite !(testbit_setb_neq _ q _ c), !testbit_setb_eq in X by auto. cbv iota in X.
      transitivity (k * U b false * C1 + k * U b true * C0)%C; [ring|]. rewrite X. ring. }
    apply (munitary_cancel U); auto.
  - intros ->. exists C1. split; [apply norm_C1|]. intros psi. rewrite scl_1. unfold ctl. apply functional_extensionality. intros x. destruct (bit x c); auto. unfold ap1, mscale. ring.
Qed.
Lemma cu3_iff : forall M phase, usual M phase -> forall c q theta phi lambd, c <> q ->
  ((exists f, Cnorm2 f = 1%R /\ forall psi, qgate_op M TU [theta; phi; lambd] false [c] q psi = scl f (sem2 (KCU3 theta phi lambd) c q psi)) <-> phase theta phi lambd = C1).
Proof. intros M phase U c q t p l N. unfold qgate_op, controlled. cbn [fold_right sem2]. rewrite (us_u M phase U). apply controlled_u_iff; auto. apply mu_u3. Qed.
Lemma cu2_iff : forall M phase, usual M phase -> forall c q phi lambd, c <> q ->
  ((exists f, Cnorm2 f = 1%R /\ forall psi, qgate_op M TU2 [phi; lambd] false [c] q psi = scl f (sem2 (KCU2 phi lambd) c q psi)) <-> phase (PI / 2)%R phi lambd = C1).
Proof. intros M phase U c q p l N. unfold qgate_op, controlled. cbn [fold_right sem2]. rewrite (us_u2 M phase U). apply controlled_u_iff; auto. apply mu_u3. Qed.
