(** Proofs for the execution of the OpenQASM text: bits, random numbers and state follow those of the circuit. *)
From Coq Require Import String List Arith ZArith Bool Reals Lia Lra FunctionalExtensionality.
Import ListNotations.
From Verif Require Import Base Cplx Bits ModelTargets ModelGate ModelNumpy ModelBackend ModelQasm SpecTargets SpecQuantum SpecCircuit SpecMeasure SpecRun SpecQasm SpecQasmRun
  ProofTargets ProofPair ProofBackend ProofMeasure ProofCache ProofBorn ProofWhole ProofSympy ProofQasm ProofQasmOps ProofQasmProps.
Local Open Scope nat_scope.

Section Random.
Variable rng : nat -> R.

(** one application of a gate, measurement or reset *)
Definition app_exec (n : nat) (w : world) (a : app) : world :=
  match a with
  | AMeasure q => measure1 rng n q w
  | AReset q => reset1 rng n q w
  | _ => World (app_op a (w_psi w)) (w_bits w) (w_pos w)
  end.

Lemma each_measure : forall n l w, each (measure1 rng n) l w = fold_left (app_exec n) (map (fun t => AMeasure (Z.to_nat t)) l) w.
Proof. intros n l. unfold each. induction l as [|z l IH]; intros w; [auto|]. apply IH. Qed.
Lemma each_reset : forall n l w, each (reset1 rng n) l w = fold_left (app_exec n) (map (fun t => AReset (Z.to_nat t)) l) w.
Proof. intros n l. unfold each. induction l as [|z l IH]; intros w; [auto|]. apply IH. Qed.
Definition plain (a : app) : Prop := match a with AMeasure _ | AReset _ => False | _ => True end.
Lemma plain_fold : forall n l w, Forall plain l -> fold_left (app_exec n) l w = World (apply_all (map app_op l) (w_psi w)) (w_bits w) (w_pos w).
Proof.
  intros n l w F. revert w. induction F as [|a l P F IH]; intros w; [destruct w; auto|]. cbn [fold_left map].
  destruct a; try contradiction; rewrite IH; reflexivity.
Qed.
Lemma ops_plain : forall n g a o, gate_apps n g a -> gate_ops n g o -> Forall plain a.
Proof.
  intros n g a o A O. destruct A; try (inversion O; fail); try apply Forall_map; apply Forall_forall; intros x I; try (destruct I as [<- |[]]); exact Logic.I.
Qed.
Lemma denotes_one : forall n tg l l', denotes (Z.of_nat n) tg l -> denotes (Z.of_nat n) tg l' -> l' = l.
Proof. intros n tg l l' A B. apply slicing_list in A. apply slicing_list in B. rewrite A in B. injection B as <-. auto. Qed.
Lemma exec1_apps : forall n g a w w', gate_apps n g a -> exec1 rng n g w w' -> w' = fold_left (app_exec n) a w.
Proof.
  intros n g a w w' A E. inversion E; subst.
  - rewrite (plain_fold n a w (ops_plain n g a ops A H)). rewrite (gate_same n g a ops A H). auto.
  - inversion A; subst. match goal with X : denotes _ tg l, Y : denotes _ tg l0 |- _ => rewrite (denotes_one _ _ _ _ X Y) end. apply each_measure.
  - inversion A; subst. match goal with X : denotes _ tg l, Y : denotes _ tg l0 |- _ => rewrite (denotes_one _ _ _ _ X Y) end. apply each_reset.
Qed.
Lemma exec_apps : forall n gs a, circuit_apps n gs a -> forall w w', exec rng n gs w w' -> w' = fold_left (app_exec n) a w.
Proof.
  intros n gs a A. induction A as [|g gs a l G A IH]; intros w w' E; inversion E; subst; [auto|].
  rewrite fold_left_app. apply IH. match goal with X : exec1 _ _ _ _ _ |- _ => rewrite <- (exec1_apps n g a w _ G X) end. auto.
Qed.

(** ** Phases *)
Lemma outcome_scl : forall n q w w', same_world w w' -> outcome rng n q w = outcome rng n q w'.
Proof.
  intros n q w w' [B [P [k [K E]]]]. unfold outcome. rewrite P, E, prob_scl, K, Rmult_1_l. auto.
Qed.
Lemma collapse_phase : forall n q b k psi, Cnorm2 k = 1%R -> collapse n q b (scl k psi) = scl k (collapse n q b psi).
Proof.
  intros n q b k psi K. unfold collapse. rewrite prob_scl, K, Rmult_1_l.
  apply functional_extensionality. intros x. unfold scl, project. destruct (Bool.eqb (bit x q) b); ring.
Qed.
Lemma same_measure : forall n q w w', same_world w w' -> same_world (qmeasure rng n q q w) (measure1 rng n q w').
Proof.
  intros n q w w' S0. pose proof (outcome_scl n q w w' S0) as O. destruct S0 as [B [P [k [K E]]]]. unfold qmeasure, measure1. rewrite O.
  split; [cbn; rewrite B; auto|]. split; [cbn; rewrite P; auto|]. exists k. split; auto. cbn [w_psi]. rewrite E. apply collapse_phase. auto.
Qed.
Lemma same_reset : forall n q w w', same_world w w' -> same_world (reset1 rng n q w) (reset1 rng n q w').
Proof.
  intros n q w w' S0. pose proof (outcome_scl n q w w' S0) as O. destruct S0 as [B [P [k [K E]]]]. unfold reset1. rewrite O.
  split; [cbn; rewrite B; auto|]. split; [cbn; rewrite P; auto|]. exists k. split; auto. cbn [w_psi]. rewrite E.
  destruct (outcome rng n q w'); rewrite collapse_phase by auto; auto. apply homog_ap1.
Qed.

(** ** Programs *)
Lemma body_exec_app : forall n l m w w1 w2, body_exec rng n l w w1 -> body_exec rng n m w1 w2 -> body_exec rng n (l ++ m) w w2.
Proof. intros n l m w w1 w2 A. revert m w2. induction A as [|s l w w1 w3 H A IH]; intros m w2 B; [auto|]. cbn [List.app]. econstructor; [exact H|]. apply IH. auto. Qed.
Lemma body_exec_ops : forall n l us w, body_ops l = Some us -> body_exec rng n l w (World (apply_all us (w_psi w)) (w_bits w) (w_pos w)).
Proof.
  intros n l. induction l as [|s l IH]; intros us w E; cbn [body_ops] in E; [injection E as <-; destruct w; constructor|].
  destruct (stmt_ops s) as [a|] eqn:Es; [|discriminate]. destruct (body_ops l) as [b|]; [|discriminate]. injection E as <-.
  destruct s as [name ps qs|q c|q]; try discriminate Es. cbn [stmt_ops] in Es. destruct (qelib name ps qs) as [P|] eqn:Q; [|discriminate Es]. injection Es as <-.
  econstructor; [apply se_gate; exact Q|]. unfold apply_all. rewrite fold_left_app. apply (IH b (World _ _ _)). auto.
Qed.
Lemma body_exec_det : forall n l w w1 w2, body_exec rng n l w w1 -> body_exec rng n l w w2 -> w1 = w2.
Proof.
  intros n l w w1 w2 A. revert w2. induction A as [|s l w w1 w3 H A IH]; intros w2 B; inversion B; subst; [auto|]. apply IH.
  match goal with X : stmt_exec _ _ s w ?w4 |- _ => assert (w4 = w1) as <-; auto; inversion X; subst; inversion H; subst; auto; congruence end.
Qed.
Lemma plain_good : forall n a, app_wf n a -> ~ app_cu2 a -> plain a -> app_good a.
Proof.
  intros n [k q|k c t|k p q r|q|q] W N P; cbn in *; try contradiction; auto; try tauto. split; [tauto|]. destruct k; auto.
Qed.
Lemma block_exec : forall n a w w', app_wf n a -> ~ app_cu2 a -> same_world w w' ->
  exists u, body_exec rng n (block a) w u /\ same_world u (app_exec n w' a).
Proof.
  intros n a w w' W N S0. assert (P : plain a \/ (exists q, a = AMeasure q) \/ (exists q, a = AReset q)).
  { destruct a; cbn; eauto. }
  destruct P as [P|[[q ->]|[q ->]]].
  - destruct (block_up a (plain_good n a W N P)) as [Q [E [k [K U]]]]. destruct S0 as [B [Ps [k' [K' E']]]].
    exists (World (apply_all (map prim_op Q) (w_psi w)) (w_bits w) (w_pos w)). split; [apply body_exec_ops; auto|].
    assert (X : app_exec n w' a = World (app_op a (w_psi w')) (w_bits w') (w_pos w')) by (destruct a; try contradiction; auto). rewrite X.
    split; [auto|]. split; [auto|]. cbn [w_psi]. exists (k' * k)%C. split; [rewrite norm_mul, K, K'; ring|].
    rewrite E', (homog_all _ (homog_prims Q)), U, scl_scl. auto.
  - exists (qmeasure rng n q q w). split; [|apply same_measure; auto]. cbn [block]. econstructor; [apply se_measure|constructor].
  - exists (reset1 rng n q w). split; [|apply same_reset; auto]. cbn [block]. econstructor; [apply se_reset|constructor].
Qed.
Lemma blocks_exec : forall n apps, Forall (app_wf n) apps -> Forall (fun a => ~ app_cu2 a) apps -> forall w w', same_world w w' ->
  exists u, body_exec rng n (flat_map block apps) w u /\ same_world u (fold_left (app_exec n) apps w').
Proof.
  intros n apps W. induction W as [|a l Wa W IH]; intros N w w' S0; [exists w; split; [constructor|auto]|]. inversion N; subst.
  destruct (block_exec n a w w') as [u1 [E1 S1]]; auto. destruct (IH H2 u1 (app_exec n w' a) S1) as [u [E2 S2]].
  exists u. split; [|exact S2]. cbn [flat_map]. eapply body_exec_app; eauto.
Qed.
Lemma same_start : forall pos, same_world (start pos) (start pos).
Proof. intros. repeat split. exists C1. split; [apply norm_C1|rewrite scl_1; auto]. Qed.

(** the text, one shot *)
Lemma text_exec : forall show read n gs apps, circuit_apps n gs apps -> Forall is_method gs -> Forall not_cu2 gs ->
  Forall (legible show read) (flat_map stmt_params (flat_map block apps)) ->
  exists text body, qasm_run show gs n true = Ok text /\ read_program read text = Some (Prog n n body) /\
    forall w w1, exec rng n gs w w1 -> exists u, body_exec rng n body w u /\ same_world u w1 /\ forall u', body_exec rng n body w u' -> u' = u.
Proof.
  intros show read n gs apps A M N L. destruct (text_ok show read n gs apps A M L) as [[text [E R]] _]. exists text, (flat_map block apps).
  split; auto. split; auto. intros w w1 X. rewrite (exec_apps n gs apps A w w1 X).
  assert (S0 : same_world w w) by (repeat split; exists C1; split; [apply norm_C1|rewrite scl_1; auto]).
  destruct (blocks_exec n apps (circuit_wf n gs apps A M) (circuit_no_cu2 n gs apps A N) w w S0) as [u [Eu Su]].
  exists u. split; auto. split; auto. intros u' Eu'. eapply body_exec_det; eauto.
Qed.
(** shots *)
Lemma text_shots : forall show read n gs apps, circuit_apps n gs apps -> Forall is_method gs -> Forall not_cu2 gs ->
  Forall (legible show read) (flat_map stmt_params (flat_map block apps)) ->
  exists text p, qasm_run show gs n true = Ok text /\ read_program read text = Some p /\ p_qreg p = n /\ p_creg p = n /\
    forall pos ws, shots rng n gs pos ws -> exists us, prog_shots rng p pos us /\ Forall2 same_world us ws.
Proof.
  intros show read n gs apps A M N L. destruct (text_exec show read n gs apps A M N L) as [text [body [E [R X]]]]. exists text, (Prog n n body).
  repeat (split; [auto; fail|]). intros pos ws S0. induction S0 as [pos|pos w ws H S0 IH]; [exists []; split; constructor|].
  destruct IH as [us [U F]]. destruct (X _ _ H) as [u [Eu [Su _]]]. exists (u :: us). split; [|constructor; auto]. constructor; [exact Eu|].
  destruct Su as [_ [-> _]]. exact U.
Qed.
Lemma prog_shots_det : forall p pos us us', prog_shots rng p pos us -> prog_shots rng p pos us' -> List.length us = List.length us' -> us = us'.
Proof.
  intros p pos us us' A. revert us'. induction A as [pos|pos w ws H A IH]; intros us' B L; destruct us' as [|w' us']; try discriminate; auto.
  inversion B; subst. assert (w' = w) as -> by (eapply body_exec_det; eauto). f_equal. apply IH; auto.
Qed.

(** ** Valid circuits have applications *)
Lemma valid_apps : forall n gs, valid n gs -> exists apps, circuit_apps n gs apps.
Proof.
  intros n gs V. induction V as [|g gs G V [l IH]]; [exists []; constructor|].
  assert (X : exists a, gate_apps n g a).
  { destruct g; cbn in G; destruct G as [o G]; try (inversion G; subst; eexists; constructor; eauto; fail); destruct G as [D F]; eexists; constructor; eauto. }
  destruct X as [a X]. exists (a ++ l). constructor; auto.
Qed.
Lemma apps_valid : forall n gs apps, circuit_apps n gs apps -> valid n gs.
Proof.
  intros n gs apps A. induction A as [|g gs a l G A IH]; constructor; auto. destruct G; cbn; eexists; try (constructor; eauto; fail); eauto.
Qed.
(** the counts of numpy are those of the text *)
Lemma text_counts : forall show read n gs apps N pos b, draws_ok rng -> 0 < n -> circuit_apps n gs apps -> Forall is_method gs -> Forall not_cu2 gs ->
  Forall (legible show read) (flat_map stmt_params (flat_map block apps)) -> cache_ok n gs (clear_cache_if_invalid b n) ->
  exists text p c us b' pos', qasm_run show gs n true = Ok text /\ read_program read text = Some p /\ prog_shots rng p pos us /\ List.length us = N /\
    np_run rng b gs n (RunArgs (Some (Z.of_nat N)) None false) pos = (Ok (RShots c), b', pos') /\
    forall k, lookup c k = count_occ (list_eq_dec Nat.eq_dec) (map (outcomes n) us) k.
Proof.
  intros show read n gs apps N pos b D Hn A M NC L C.
  destruct (run_counts rng n gs N pos b D Hn (apps_valid n gs apps A) C) as [c [ws [b' [p' [E [S0 [Len [_ [_ [K _]]]]]]]]]].
  destruct (text_shots show read n gs apps A M NC L) as [text [p [Et [R [_ [_ X]]]]]].
  destruct (X pos ws S0) as [us [U F]]. exists text, p, c, us, b', p'.
  assert (O : map (outcomes n) us = map (outcomes n) ws).
  { clear - F. induction F as [|u w us ws [B _] F IH]; [auto|]. cbn [map]. rewrite IH. unfold outcomes at 1 3. rewrite B. auto. }
  split; auto. split; auto. split; auto. split; [rewrite <- Len; clear - F; induction F; cbn; auto|]. split; auto. intros k. rewrite O. apply K.
Qed.
End Random.
