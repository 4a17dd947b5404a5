(** Whole runs of the backend qgate, a qgate that simulates, and examples. *)
From Coq Require Import String Ascii List Arith ZArith Bool Reals Lia Lra FunctionalExtensionality Sorting.Sorted.
Import ListNotations.
From Verif Require Import Base Cplx Bits ModelTargets ModelGate ModelVqe ModelQgate SpecTargets SpecQuantum SpecCircuit SpecMeasure SpecRun SpecQasm SpecQasmRun SpecIbmq SpecVqe SpecQgate
  ProofTargets ProofPair ProofUnitary ProofFallback ProofBackend ProofMeasure ProofBorn ProofQasm ProofQasmOps ProofQasmProps ProofQasmRun ProofIbmq ProofVqeSample ProofIbmqVqe ProofQgate ProofQgateRun ProofQgatePool.
Local Open Scope nat_scope.

(** ** Runs *)
Lemma asked_text : forall Q (a : qg_args Q) s, asked (qa_returns Q a) (qa_shots Q a) s ->
  (let r := default "" (qa_returns Q a) in let shots := default 0%Z (qa_shots Q a) in
   if negb (shots =? 0)%Z && String.eqb r "" then "shots" else if String.eqb r "" then "statevector" else r)%string = s.
Proof.
  intros Q a s H. destruct H as [[E N]|[R H]].
  - rewrite E. cbn [default]. cbv zeta. apply String.eqb_neq in N. rewrite N, andb_false_r. auto.
  - assert (D : default ""%string (qa_returns Q a) = ""%string) by (destruct R as [-> | ->]; auto). cbv zeta. rewrite D. cbn [String.eqb].
    destruct H as [[S0 ->]|[z [S0 [Nz ->]]]].
    + replace (default 0%Z (qa_shots Q a)) with 0%Z by (destruct S0 as [-> | ->]; auto). auto.
    + rewrite S0. cbn [default]. apply Z.eqb_neq in Nz. rewrite Nz. auto.
Qed.
Lemma runtime_in : forall r, runtime_known r -> In (default "cpu"%string r) ["cuda"; "cpu"; "py"]%string.
Proof. intros [s|] H; [exact H|cbn; auto]. Qed.
Lemma runtime_test : forall s, existsb (String.eqb s) ["cuda"; "cpu"; "py"]%string = true <-> In s ["cuda"; "cpu"; "py"]%string.
Proof.
  intros s. rewrite existsb_exists. split.
  - intros [x [I E]]. apply String.eqb_eq in E. subst. auto.
  - intros I. exists s. split; auto. apply String.eqb_refl.
Qed.

Section Runs.
Variables (Q : qgate) (n : nat) (gs : list gate) (a : qg_args Q).
Lemma run_unknown_runtime : ~ runtime_known (qa_runtime Q a) -> qgate_run Q gs n a = Err RuntimeError.
Proof.
  intros N. unfold qgate_run. destruct (existsb (String.eqb (default "cpu"%string (qa_runtime Q a))) ["cuda"; "cpu"; "py"]%string) eqn:E; [|reflexivity].
  exfalso. apply N. destruct (qa_runtime Q a) as [s|]; cbn [runtime_known]; [|auto]. apply runtime_test. exact E.
Qed.
Variables (M : gtype -> list R -> mat2) (rng : nat -> R) (pos : nat).
Hypotheses (Sim : simulates Q M rng pos n) (Rk : runtime_known (qa_runtime Q a)).
Lemma run_start : exists s0 s, qg_new Q (default "cpu"%string (qa_runtime Q a)) (default (qg_dynamic Q) (qa_prep Q a)) = Ok s0 /\ qg_ordering Q s0 n = Ok s /\
  forall s', asked (qa_returns Q a) (qa_shots Q a) s' ->
  qgate_run Q gs n a = let* ops := convert_operators n gs in
    if String.eqb s' "statevector" then let* sim := qg_run Q s ops in let* v := qg_states Q sim in Ok (QVec v)
    else if String.eqb s' "shots" then let* d := sample Q n s ops (default 0%Z (qa_shots Q a)) (default "qgate"%string (qa_sampling Q a)) in Ok (QHist d)
    else if String.eqb s' "statevector_and_shots" then
      if (1 <? default 0%Z (qa_shots Q a))%Z then Err RuntimeError else let* (v, d) := get_state_vector_and_sample Q n s ops in Ok (QBoth v d)
    else Err RuntimeError.
Proof.
  destruct (Sim _ (default (qg_dynamic Q) (qa_prep Q a)) (runtime_in _ Rk)) as [s0 [s [E0 [E1 _]]]]. exists s0, s. split; auto. split; auto.
  intros s' H. apply asked_text in H. cbv zeta in H. unfold qgate_run. cbv zeta. rewrite H. rewrite (proj2 (runtime_test _) (runtime_in _ Rk)), E0. cbn [bind]. rewrite E1. reflexivity.
Qed.
Lemma run_convert_error : forall s' e, asked (qa_returns Q a) (qa_shots Q a) s' -> convert_operators n gs = Err e -> qgate_run Q gs n a = Err e.
Proof. intros s' e H E. destruct run_start as [s0 [s [_ [_ R]]]]. rewrite (R s' H), E. auto. Qed.
Lemma run_returns_error : forall s' ops, asked (qa_returns Q a) (qa_shots Q a) s' -> convert_operators n gs = Ok ops ->
  ~ In s' ["statevector"; "shots"; "statevector_and_shots"]%string \/ (s' = "statevector_and_shots"%string /\ exists z, qa_shots Q a = Some z /\ (1 < z)%Z) ->
  qgate_run Q gs n a = Err RuntimeError.
Proof.
  intros s' ops H E K. destruct run_start as [s0 [s [_ [_ R]]]]. rewrite (R s' H), E. cbn [bind]. destruct K as [K|[-> [z [Ez Hz]]]].
  - assert (X : forall t, In t ["statevector"; "shots"; "statevector_and_shots"]%string -> String.eqb s' t = false) by (intros t I; apply String.eqb_neq; intros ->; contradiction).
    rewrite !X by (cbn; auto). auto.
  - cbn [String.eqb Ascii.eqb Bool.eqb]. rewrite Ez. cbn [default]. rewrite (proj2 (Z.ltb_lt 1 z) Hz). auto.
Qed.

Variables (phase : R -> R -> R -> C) (apps : list app).
Hypotheses (U : usual M phase) (A : circuit_apps n gs apps) (Cv : Forall convertible gs) (Nc : Forall (fun g => ~ controlled_u g) gs).
Lemma run_vector : asked (qa_returns Q a) (qa_shots Q a) "statevector" -> forall w, exec rng n gs (start pos) w ->
  exists k, Cnorm2 k = 1%R /\ qgate_run Q gs n a = Ok (QVec (arr n (scl k (w_psi w)))).
Proof.
  intros H w X. destruct run_start as [s0 [s [E0 [E1 R]]]]. rewrite (R _ H). destruct (convert_ok n gs apps A Cv) as [ops [_ Ec]]. rewrite Ec. cbn [bind String.eqb Ascii.eqb Bool.eqb].
  destruct (vector_ok Q M phase rng pos n U Sim gs apps A Cv Nc _ _ s0 s ops w (runtime_in _ Rk) E0 E1 Ec X) as [s' [u [E2 [[_ [_ [k [K Eu]]]] [E3 _]]]]].
  exists k. split; auto. rewrite E2. cbn [bind]. rewrite E3. cbn [bind]. rewrite Eu. auto.
Qed.
Lemma run_both : 0 < n -> asked (qa_returns Q a) (qa_shots Q a) "statevector_and_shots" -> (forall z, qa_shots Q a = Some z -> (z <= 1)%Z) -> forall w, exec rng n gs (start pos) w ->
  exists k, Cnorm2 k = 1%R /\ qgate_run Q gs n a = Ok (QBoth (arr n (scl k (w_psi w))) [(shot_text n w, 1)]).
Proof.
  intros Hn H Hz w X. destruct run_start as [s0 [s [E0 [E1 R]]]]. rewrite (R _ H). destruct (convert_ok n gs apps A Cv) as [ops [_ Ec]]. rewrite Ec. cbn [bind String.eqb Ascii.eqb Bool.eqb].
  assert (Z1 : (1 <? default 0%Z (qa_shots Q a))%Z = false). { apply Z.ltb_ge. destruct (qa_shots Q a) as [z|]; cbn [default]; [auto|lia]. }
  rewrite Z1. destruct (vector_ok Q M phase rng pos n U Sim gs apps A Cv Nc _ _ s0 s ops w (runtime_in _ Rk) E0 E1 Ec X) as [s' [u [E2 [[Eb [_ [k [K Eu]]]] [E3 E4]]]]].
  exists k. split; auto. unfold get_state_vector_and_sample. rewrite E2. cbn [bind]. rewrite E3. cbn [bind]. rewrite E4. cbn [bind]. rewrite Eu, obs_text by auto. unfold shot_text. rewrite Eb. auto.
Qed.
Lemma run_shots : 0 < n -> asked (qa_returns Q a) (qa_shots Q a) "shots" -> forall N qs, default 0%Z (qa_shots Q a) = Z.of_nat N -> ascending qs -> (forall q, In q qs <-> measures apps q) ->
  exists d ws, qgate_run Q gs n a = Ok (QHist d) /\ shots rng n (measured_last gs qs) pos ws /\ List.length ws = N /\ tallies string_dec d (map (shot_text n) ws).
Proof.
  intros Hn H N qs Hs Asc Mem. destruct run_start as [s0 [s [E0 [E1 R]]]]. rewrite (R _ H). destruct (convert_ok n gs apps A Cv) as [ops [_ Ec]]. rewrite Ec. cbn [bind String.eqb Ascii.eqb Bool.eqb]. rewrite Hs.
  destruct (sample_ok Q M phase rng pos n U Sim gs apps A Cv Nc _ _ s0 s ops N (default "qgate"%string (qa_sampling Q a)) qs (runtime_in _ Rk) E0 E1 Hn Ec Asc Mem) as [d [ws [Es [S0 [L T]]]]].
  exists d, ws. rewrite Es. auto.
Qed.
End Runs.

(** measurements at the end, in ascending order *)
Section Once.
Variable rng : nat -> R.
Lemma once_apps : forall n pre apps tg l, circuit_apps n pre apps -> denotes (Z.of_nat n) tg l -> Forall (inside n) l ->
  circuit_apps n (pre ++ [GMeasure tg]) (apps ++ map (fun t => AMeasure (Z.to_nat t)) l).
Proof. intros n pre apps tg l A D F. apply apps_app; auto. rewrite <- (app_nil_r (map _ l)). constructor; constructor; auto. Qed.
Lemma unmeasured_filter : forall pre, Forall unmeasured pre -> filter (fun g => negb (is_measure g)) pre = pre.
Proof. intros pre F. induction F as [|g l H F IH]; [auto|]. cbn [filter]. destruct g; try contradiction; cbn [is_measure negb]; rewrite IH; auto. Qed.
Lemma unmeasured_apps : forall n pre apps, circuit_apps n pre apps -> Forall unmeasured pre -> forall q, ~ measures apps q.
Proof.
  intros n pre apps A F q. unfold measures. induction A as [|g gs a l G A IH]; [auto|]. inversion F as [|? ? Hg Fl]; subst. rewrite in_app_iff. intros [I|I]; [|apply IH; auto].
  destruct G; try contradiction; try (apply in_map_iff in I; destruct I as [z [E _]]; discriminate E). destruct I as [E|[]]; discriminate.
Qed.
Lemma once_shots : forall n pre apps tg l, circuit_apps n pre apps -> Forall unmeasured pre -> denotes (Z.of_nat n) tg l -> Forall (inside n) l ->
  forall pos ws, shots rng n (measured_last (pre ++ [GMeasure tg]) (map Z.to_nat l)) pos ws -> shots rng n (pre ++ [GMeasure tg]) pos ws.
Proof.
  intros n pre apps tg l A F D Fl pos ws S0.
  assert (E : measured_last (pre ++ [GMeasure tg]) (map Z.to_nat l) = pre ++ [GMeasure (TTuple (map (fun q => TInt (Z.of_nat q)) (map Z.to_nat l)))]).
  { unfold measured_last. rewrite filter_app, unmeasured_filter by auto. cbn. rewrite app_nil_r. auto. }
  rewrite E in S0. clear E. pose proof (once_apps n pre apps tg l A D Fl) as A1.
  assert (Fq : Forall (fun q => q < n) (map Z.to_nat l)). { apply Forall_map. eapply Forall_impl; [|exact Fl]. unfold inside. intros z Hz. lia. }
  assert (A2 : circuit_apps n (pre ++ [GMeasure (TTuple (map (fun q => TInt (Z.of_nat q)) (map Z.to_nat l)))]) (apps ++ map AMeasure (map Z.to_nat l))).
  { apply apps_app; auto. pose proof (measure_apps n (map Z.to_nat l) Fq) as X. unfold measure_gate_of in X. rewrite map_map in X. exact X. }
  induction S0 as [pos|pos w ws X S0 IH]; constructor; auto.
  destruct (exec_exists rng n _ (start pos) (apps_valid _ _ _ A1)) as [w1 X1]. pose proof (exec_apps rng n _ _ A1 _ _ X1) as E1. pose proof (exec_apps rng n _ _ A2 _ _ X) as E2.
  rewrite map_map in E2. rewrite E2, <- E1. exact X1.
Qed.
End Once.
Lemma run_once : forall Q n (a : qg_args Q) M rng pos, simulates Q M rng pos n -> runtime_known (qa_runtime Q a) ->
  forall phase pre apps tg l, usual M phase -> circuit_apps n pre apps -> Forall convertible pre -> Forall (fun g => ~ controlled_u g) pre -> Forall unmeasured pre ->
  denotes (Z.of_nat n) tg l -> Forall (inside n) l -> ascending (map Z.to_nat l) ->
  0 < n -> asked (qa_returns Q a) (qa_shots Q a) "shots" -> forall N, default 0%Z (qa_shots Q a) = Z.of_nat N ->
  exists d ws, qgate_run Q (pre ++ [GMeasure tg]) n a = Ok (QHist d) /\ shots rng n (pre ++ [GMeasure tg]) pos ws /\ List.length ws = N /\ tallies string_dec d (map (shot_text n) ws).
Proof.
  intros Q n a M rng pos Sim Rk phase pre apps tg l U A Cv Nc Um D F Asc Hn H N Hs. pose proof (once_apps n pre apps tg l A D F) as A1.
  destruct (run_shots Q n (pre ++ [GMeasure tg]) a M rng pos Sim Rk phase _ U A1) with (N := N) (qs := map Z.to_nat l) as [d [ws [E [S0 [L T]]]]]; auto.
  - apply Forall_app. split; [auto|]. apply Forall_cons; [exact I|constructor].
  - apply Forall_app. split; [auto|]. apply Forall_cons; [intros []|constructor].
  - intros q. unfold measures. rewrite in_app_iff. split.
    + intros I0. apply in_map_iff in I0. destruct I0 as [z [<- I0]]. right. apply in_map_iff. exists z. auto.
    + intros [I0|I0]; [exfalso; exact (unmeasured_apps n pre apps A Um q I0)|]. apply in_map_iff in I0. destruct I0 as [z [E I0]]. injection E as <-. apply in_map. auto.
  - exists d, ws. repeat (split; [auto; fail|]). split; [|auto]. eapply once_shots; eauto.
Qed.

(** ** A qgate that simulates *)
Section Simulator.
Variables (M : gtype -> list R -> mat2) (rng : nat -> R) (pos : nat).
Definition sq_op (n : nat) (o : qop) (w : world) : option world :=
  match o with
  | QGate ty ps ad cs q => Some (World (qgate_op M ty ps ad cs q (w_psi w)) (w_bits w) (w_pos w))
  | QMulti TSWAP [] a b => Some (World (swp a b (w_psi w)) (w_bits w) (w_pos w))
  | QMulti _ _ _ _ => None
  | QMeasure r q => Some (qmeasure rng n q r w)
  end.
Fixpoint sq_ops (n : nat) (l : list qop) (w : world) : option world :=
  match l with [] => Some w | o :: r => match sq_op n o w with Some w => sq_ops n r w | None => None end end.
Fixpoint sq_pool (n : nat) (psi : state) (qs : list nat) (N pos : nat) : list world :=
  match N with
  | O => []
  | S k => let w := each (measure1 rng n) (map Z.of_nat qs) (World psi (fun _ => 0) pos) in w :: sq_pool n psi qs k (w_pos w)
  end.
Definition ztally (l : list Z) : list (Z * nat) := map (fun k => (k, count_occ Z.eq_dec l k)) (nodup Z.eq_dec l).
Definition qgate_simulator : qgate := {|
  qg_sim := nat * world; qg_prep := unit; qg_dynamic := tt;
  qg_new := fun _ _ => Ok (0, start pos);
  qg_ordering := fun s n => Ok (n, snd s);
  qg_run := fun s ops => match sq_ops (fst s) ops (snd s) with Some w => Ok (fst s, w) | None => Err ValueError end;
  qg_states := fun s => Ok (arr (fst s) (w_psi (snd s)));
  qg_hist := fun s qs _ N => Ok (ztally (map (places qs) (sq_pool (fst s) (w_psi (snd s)) qs (Z.to_nat N) (w_pos (snd s)))));
  qg_obs := fun s refs => Ok (places refs (snd s)) |}.
Lemma sq_ops_ok : forall n ops w w', qops_exec M rng n ops w w' -> sq_ops n ops w = Some w'.
Proof. intros n ops w w' X. induction X as [w|o l w w1 w2 X1 X IH]; [auto|]. cbn [sq_ops]. destruct X1; cbn [sq_op]; auto. Qed.
Lemma sq_pool_ok : forall n psi qs N p, pool_shots rng n psi qs p (sq_pool n psi qs N p) /\ List.length (sq_pool n psi qs N p) = N.
Proof. intros n psi qs. induction N as [|N IH]; intros p; cbn [sq_pool]; [split; constructor|]. destruct (IH (w_pos (each (measure1 rng n) (map Z.of_nat qs) (World psi (fun _ => 0) p)))) as [A B]. split; [econstructor; auto|cbn; auto]. Qed.
Lemma ztally_ok : forall l, tallies Z.eq_dec (ztally l) l.
Proof.
  intros l. unfold ztally. split.
  - rewrite map_map. cbn [fst]. rewrite map_id. apply NoDup_nodup.
  - intros k c. split.
    + intros I. apply in_map_iff in I. destruct I as [k' [E I]]. injection E as <- <-. apply nodup_In in I. auto.
    + intros [I ->]. apply in_map_iff. exists k. split; auto. apply nodup_In. auto.
Qed.
Lemma simulator_simulates : forall n, simulates qgate_simulator M rng pos n.
Proof.
  intros n runtime prep _. exists (0, start pos), (n, start pos). split; [reflexivity|]. split; [reflexivity|]. intros ops w X. apply sq_ops_ok in X. exists (n, w). cbn. rewrite X.
  split; [auto|]. split; [auto|]. split; [auto|]. intros qs b N ND. rewrite Nat2Z.id. destruct (sq_pool_ok n (w_psi w) qs N (w_pos w)) as [P L].
  eexists _, _. split; [reflexivity|]. split; [exact P|]. split; [exact L|]. apply ztally_ok.
Qed.
End Simulator.
(** matrices with a given phase of U *)
Definition usual_matrix (phase : R -> R -> R -> C) (ty : gtype) (ps : list R) : mat2 :=
  match ty, ps with
  | TID, [] => mI | TX, [] => mX | TY, [] => mY | TZ, [] => mZ | TH, [] => mH | TT, [] => mPhase (PI / 4) | TS, [] => mPhase (PI / 2)
  | TRX, [x] => mRX x | TRY, [x] => mRY x | TRZ, [x] => mRZ x | TU1, [x] => mPhase x
  | TU2, [x; y] => mscale (phase (PI / 2)%R x y) (mU3 (PI / 2) x y)
  | TU, [x; y; z] => mscale (phase x y z) (mU3 x y z)
  | _, _ => mI
  end.
Lemma usual_matrix_ok : forall phase, (forall x y z, Cnorm2 (phase x y z) = 1%R) -> usual (usual_matrix phase) phase.
Proof. intros phase H. constructor; auto. Qed.

(** ** m[0].x[0] *)
Definition mx : list gate := [GMeasure (TInt 0); GOne KX (TInt 0)].
Lemma denotes_0 : forall n, 0 < n -> denotes (Z.of_nat n) (TInt 0) [0%Z].
Proof. intros n H. constructor. pose proof (den_int (Z.of_nat n) 0%Z) as X. unfold rel in X. exact X. Qed.
Lemma mx_apps : circuit_apps 1 mx [AMeasure 0; A1 KX 0].
Proof.
  assert (F : Forall (inside 1) [0%Z]) by (constructor; [unfold inside; lia|constructor]).
  apply (ca_cons 1 (GMeasure (TInt 0)) [GOne KX (TInt 0)] [AMeasure 0] [A1 KX 0]); [apply (ga_measure 1 (TInt 0) [0%Z]); [apply denotes_0; lia|auto]|].
  apply (ca_cons 1 (GOne KX (TInt 0)) [] [A1 KX 0] []); [apply (ga_one 1 KX (TInt 0) [0%Z]); [apply denotes_0; lia|auto]|constructor].
Qed.
Lemma mx_last : circuit_apps 1 (measured_last mx [0]) [A1 KX 0; AMeasure 0].
Proof. apply (measured_last_apps 1 mx [AMeasure 0; A1 KX 0] [0] mx_apps). constructor; [lia|constructor]. Qed.
Lemma x_ket : ap1 mX 0 (ket 0) = ket 1.
Proof.
  apply functional_extensionality. intros x. unfold ap1, ket, mX, mk2. destruct (bit x 0) eqn:B.
  - assert (E : setb x 0 true = x) by (apply setb_same; auto). rewrite E.
    assert (X : (setb x 0 false =? 0) = (x =? 1)). { destruct (Nat.eqb_spec x 1) as [->|N]; [reflexivity|]. apply Nat.eqb_neq. intros Z0. apply N. rewrite <- E, <- (setb_setb x 0 false true), Z0. reflexivity. }
    rewrite X. destruct x as [|x]; [discriminate B|]. cbn [Nat.eqb]. destruct (x =? 0); ring.
  - assert (E : setb x 0 false = x) by (apply setb_same; auto). rewrite E.
    assert (X : (setb x 0 true =? 0) = false). { apply Nat.eqb_neq. intros Z0. pose proof (testbit_setb_eq x 0 true) as Y. rewrite Z0 in Y. discriminate Y. }
    assert (Y : (x =? 1) = false). { apply Nat.eqb_neq. intros ->. discriminate B. }
    rewrite X, Y. destruct (x =? 0); ring.
Qed.
Section Mx.
Variable rng : nat -> R.
Hypothesis D : draws_ok rng.
Lemma prob_ket1 : forall k b, (k = 0 \/ k = 1) -> prob 1 0 b (ket k) = if Bool.eqb b (k =? 1) then 1%R else 0%R.
Proof.
  intros k b H. unfold prob, norm2, project, ket. change (seq 0 (2 ^ 1)) with [0; 1]. cbn [Rsum]. change (bit 0 0) with false. change (bit 1 0) with true.
  destruct H as [-> | ->], b; cbn; unfold Cnorm2; cbn; ring.
Qed.
Lemma mx_text : forall pos ws, shots rng 1 mx pos ws -> Forall (fun w => shot_text 1 w = "0"%string) ws.
Proof.
  intros pos ws S0. induction S0 as [pos|pos w ws X S0 IH]; constructor; auto. rewrite (exec_apps rng 1 _ _ mx_apps _ _ X). cbn [fold_left app_exec].
  unfold measure1, outcome. cbn [start w_psi w_pos w_bits]. rewrite prob_ket1 by auto. cbn [Nat.eqb Bool.eqb]. pose proof (D pos) as Dp.
  replace (Rltb (rng pos) 1) with true by (symmetry; apply Rltb_true; lra). reflexivity.
Qed.
Lemma mx_last_text : forall pos ws, shots rng 1 (measured_last mx [0]) pos ws -> Forall (fun w => shot_text 1 w = "1"%string) ws.
Proof.
  intros pos ws S0. induction S0 as [pos|pos w ws X S0 IH]; constructor; auto. rewrite (exec_apps rng 1 _ _ mx_last _ _ X). cbn [fold_left app_exec app_op]. unfold sem1. cbn [mat1 start w_psi]. rewrite x_ket.
  unfold measure1, outcome. cbn [start w_psi w_pos w_bits]. rewrite prob_ket1 by auto. cbn [Nat.eqb Bool.eqb]. pose proof (D pos) as Dp.
  replace (Rltb (rng pos) 0) with false by (symmetry; apply Rltb_false; lra). reflexivity.
Qed.
End Mx.
Lemma measured_early : exists n gs apps, circuit_apps n gs apps /\ Forall convertible gs /\
  forall Q M phase rng pos, usual M phase -> simulates Q M rng pos n -> draws_ok rng -> forall N ws, 0 < N -> shots rng n gs pos ws -> List.length ws = N ->
  exists d, qgate_run Q gs n (QgArgs Q None None None (Some (Z.of_nat N)) None) = Ok (QHist d) /\ ~ tallies string_dec d (map (shot_text n) ws).
Proof.
  exists 1, mx, [AMeasure 0; A1 KX 0]. split; [exact mx_apps|]. assert (Cv : Forall convertible mx) by (apply Forall_cons; [exact I|apply Forall_cons; [exact I|constructor]]). split; [exact Cv|].
  intros Q M phase rng pos U Sim D N ws HN S0 L. set (a := QgArgs Q None None None (Some (Z.of_nat N)) None).
  destruct (run_shots Q 1 mx a M rng pos Sim I phase [AMeasure 0; A1 KX 0] U mx_apps Cv) with (N := N) (qs := [0]) as [d [ws' [E [S1 [L1 T]]]]].
  - apply Forall_cons; [intros []|apply Forall_cons; [intros []|constructor]].
  - lia.
  - right. split; [left; reflexivity|]. right. exists (Z.of_nat N). split; [reflexivity|]. split; [lia|reflexivity].
  - reflexivity.
  - repeat constructor.
  - intros q. unfold measures. cbn. split; [intros [<-|[]]; auto|]. intros [E|[E|[]]]; [injection E as <-; auto|discriminate].
  - exists d. split; [exact E|]. intros T'. pose proof (mx_text rng D pos ws S0) as F0. pose proof (mx_last_text rng D pos ws' S1) as F1.
    destruct ws as [|w ws]; [cbn in L; lia|]. destruct T' as [_ T']. destruct T as [_ T].
    assert (I0 : In (shot_text 1 w, count_occ string_dec (map (shot_text 1) (w :: ws)) (shot_text 1 w)) d) by (apply T'; split; [left; auto|auto]).
    apply T in I0. destruct I0 as [I0 _]. apply in_map_iff in I0. destruct I0 as [w' [E' I']]. inversion F0; subst. rewrite Forall_forall in F1. rewrite (F1 w' I') in E'. congruence.
Qed.

(** ** swap *)
Lemma swap_tuples : exists n gs apps, circuit_apps n gs apps /\ convert_operators n gs = Err TypeError.
Proof.
  exists 4, [GTwo KSwap (TTuple [TTuple [TInt 0; TInt 1]; TTuple [TInt 2; TInt 3]])], [A2 KSwap 0 2; A2 KSwap 1 3]. split; [|reflexivity].
  apply (ca_cons 4 _ [] [A2 KSwap 0 2; A2 KSwap 1 3] []); [|constructor].
  apply (ga_two 4 KSwap _ [(0, 2); (1, 3)]%Z); [apply pairs_iff; [lia|reflexivity]|]. apply Forall_cons; [unfold inside; cbn; lia|apply Forall_cons; [unfold inside; cbn; lia|constructor]].
Qed.
Lemma swap_same : exists n tg ops, qubit_pairs tg (Z.of_nat n) = Err ValueError /\ convert_operators n [GTwo KSwap tg] = Ok ops.
Proof. exists 1, (TTuple [TInt 0; TInt 0]), [QMulti TSWAP [] 0 0]. split; reflexivity. Qed.

(** ** A circuit *)
Definition bell : list gate := [GOne KH (TInt 0); GTwo KCX (TTuple [TInt 0; TInt 1]); GMeasure (TTuple [TInt 0; TInt (-1)])].
Definition bell_apps : list app := [A1 KH 0; A2 KCX 0 1; AMeasure 0; AMeasure 1].
Lemma bell_ok : circuit_apps 2 bell bell_apps /\ Forall convertible bell /\ Forall (fun g => ~ controlled_u g) bell.
Proof.
  split; [|split].
  - apply (ca_cons 2 _ _ [A1 KH 0] [A2 KCX 0 1; AMeasure 0; AMeasure 1]).
    { apply (ga_one 2 KH (TInt 0) [0%Z]); [apply denotes_0; lia|]. constructor; [unfold inside; lia|constructor]. }
    apply (ca_cons 2 _ _ [A2 KCX 0 1] [AMeasure 0; AMeasure 1]).
    { apply (ga_two 2 KCX _ [(0, 1)]%Z); [apply pairs_iff; [lia|reflexivity]|]. apply Forall_cons; [unfold inside; cbn; lia|constructor]. }
    apply (ca_cons 2 _ [] [AMeasure 0; AMeasure 1] []); [|constructor].
    apply (ga_measure 2 _ [0; 1]%Z); [apply slicing_iff; [lia|reflexivity]|]. apply Forall_cons; [unfold inside; lia|apply Forall_cons; [unfold inside; lia|constructor]].
  - apply Forall_cons; [exact I|apply Forall_cons; [exact I|apply Forall_cons; [exact I|constructor]]].
  - apply Forall_cons; [intros []|apply Forall_cons; [intros []|apply Forall_cons; [intros []|constructor]]].
Qed.
Definition bell_ops : list qop := [QGate TH [] false [] 0; QGate TX [] false [0] 1; QMeasure 0 0; QMeasure 1 1].
Lemma bell_example : circuit_apps 2 bell bell_apps /\ Forall convertible bell /\ Forall (fun g => ~ controlled_u g) bell /\
  convert_operators 2 bell = Ok bell_ops /\ (exists M phase, usual M phase) /\
  convert_operators 2 [GOne KH (TInt 0); GTwo KCY (TTuple [TInt 0; TInt 1])] = Err AssertionError.
Proof.
  destruct bell_ok as [A [B C0]]. refine (conj A (conj B (conj C0 (conj eq_refl (conj _ eq_refl))))).
  exists (usual_matrix (fun _ _ _ => C1)), (fun _ _ _ => C1). apply usual_matrix_ok. intros. apply norm_C1.
Qed.
Lemma run_example : forall rng, exists Q M phase, usual M phase /\ (forall n, simulates Q M rng 0 n) /\
  circuit_apps 2 bell bell_apps /\ Forall convertible bell /\ Forall (fun g => ~ controlled_u g) bell /\
  asked None (Some 5%Z) "shots" /\ asked (Some "statevector_and_shots"%string) (Some 1%Z) "statevector_and_shots" /\ asked None None "statevector" /\
  ascending [0; 1] /\ (forall q, In q [0; 1] <-> measures bell_apps q) /\ format_bits 3 4 = "100"%string /\ format_bits 0 0 = "0"%string.
Proof.
  intros rng. set (M := usual_matrix (fun _ _ _ => C1)). exists (qgate_simulator M rng 0), M, (fun _ _ _ => C1). split; [apply usual_matrix_ok; intros; apply norm_C1|].
  split; [apply simulator_simulates|]. destruct bell_ok as [A [B C0]]. refine (conj A (conj B (conj C0 (conj _ (conj _ (conj _ (conj _ (conj _ (conj eq_refl eq_refl))))))))).
  - right. split; auto. right. exists 5%Z. repeat split. lia.
  - left. split; auto. discriminate.
  - right. split; auto.
  - repeat constructor.
  - intros q. unfold measures, bell_apps. cbn. split.
    + intros [<-|[<-|[]]]; auto.
    + intros [E|[E|[E|[E|[]]]]]; try discriminate E; injection E as <-; auto.
Qed.
Lemma pool_example : draws_ok (fun _ => (/ 2)%R) /\ NoDup [0] /\ norm2 1 (ket 1) = 1%R /\ ascending [1; 3] /\
  shift_masks [1; 3] = Ok [1; 4; -16]%Z /\ shift_value [1; 4; -16]%Z 7 = 21%Z /\ lanes_below [1; 3] 4 = 2.
Proof.
  split; [intros i; lra|]. split; [repeat constructor; auto|]. split.
  - unfold norm2. change (seq 0 (2 ^ 1)) with [0; 1]. cbn. unfold Cnorm2. cbn. ring.
  - split; [repeat constructor|]. repeat split.
Qed.
