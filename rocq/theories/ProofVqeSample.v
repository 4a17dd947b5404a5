(** Samplers that draw random numbers. *)
From Coq Require Import List Arith ZArith Bool String Reals Lia Lra.
Import ListNotations.
From Verif Require Import Base Cplx Bits ModelTargets ModelGate ModelNumpy ModelNumba ModelCircuit ModelPauli ModelVqe
  SpecTargets SpecQuantum SpecCircuit SpecMeasure SpecRun SpecAPI SpecVqe
  ProofTargets ProofArray ProofRun ProofUnitary ProofMeasure ProofBorn ProofWhole ProofNumbaProps ProofAPI ProofProgram ProofReach ProofVqe ProofVqeRun.
Local Open Scope nat_scope.

Section Random.
Variable rng : nat -> R.

Lemma run_agreed : forall seen h c v a, reachable rng seen h -> circuit_is h c v -> simulated rng h v -> valid (Z.to_nat (v_n v)) (v_gates v) ->
  a_returns a <> Some "_inner_ctx"%string ->
  exists r0 b r h', np_run rng new_backend (v_gates v) (Z.to_nat (v_n v)) a (h_pos h) = (r0, b, h_pos h') /\
    step rng h (ORun c SelDefault (NbArgs a true)) = (r, h') /\ same_out r r0 /\ reachable rng seen h' /\ h_default h' = h_default h /\
    (forall c' v', circuit_is h c' v' -> circuit_is h' c' v').
Proof.
  intros seen h c v a Re Ci Si Va Rt. destruct (step rng h (ORun c SelDefault (NbArgs a true))) as [r h'] eqn:E.
  assert (Re' : match r with Ok (OutObj x) => True | _ => reachable rng seen h' end).
  { pose proof (reach_step rng seen h (ORun c SelDefault (NbArgs a true)) _ h' Re I E) as X. destruct r as [[]|]; auto. }
  pose proof E as E0. rewrite (default_run rng h c v _ Ci) in E0. unfold simulated in Si. set (d := match v_default v with Some d => d | None => h_default h end) in *.
  assert (K : exists r0 b, np_run rng new_backend (v_gates v) (Z.to_nat (v_n v)) a (h_pos h) = (r0, b, h_pos h') /\ same_out r r0).
  { destruct Si as [D|[D [Dr Le]]]; rewrite D in E0.
    - destruct (run_numpy_fresh rng _ _ _ _ _ _ _ Re Ci E0) as [r0 [b [X Y]]]. eauto.
    - assert (No : numba_ok rng v (NbArgs a true)) by (split; auto). assert (L : Z.to_nat (v_n v) <= 64) by lia.
      destruct (run_numba_fresh rng _ _ _ _ _ _ _ Re Ci No E0) as [r0 [b [X Y]]].
      destruct (run_agree rng _ (v_gates v) a true (h_pos h) L Dr Va Rt) as [r1 [p1 [b1 [b2 [A1 A2]]]]]. rewrite X in A1. injection A1 as <- _ <-. eauto. }
  destruct K as [r0 [b [X Y]]]. exists r0, b, r, h'. split; auto. split; auto. split; auto. split.
  - destruct r as [[]|]; auto. simpl in Y. contradiction.
  - split; [eapply global_keep; eauto; intros name; discriminate|].
    intros c' v' H. exact (frame rng seen h (ORun c SelDefault (NbArgs a true)) _ h' c' v' Re I E (fun x => x) H).
Qed.

(** ** Reading the counter *)
Definition mirror (n : nat) (meas : list nat) (bits : list nat) : list nat := map (fun m => nth (n - 1 - m) bits 0) meas.
Lemma py_get_rev : forall n bits m, List.length bits = n -> m < n -> py_get (rev bits) (Z.of_nat m) = Ok (nth (n - 1 - m) bits 0).
Proof.
  intros n bits m L Lm. unfold py_get. destruct (Z.ltb_spec (Z.of_nat m) 0); [lia|]. destruct (Z.ltb_spec (Z.of_nat m) 0); [lia|]. rewrite Nat2Z.id.
  rewrite (nth_error_nth' (rev bits) 0) by (rewrite rev_length; lia). f_equal. rewrite rev_nth by lia. f_equal. lia.
Qed.
Lemma reduce_bits_ok : forall n bits meas, List.length bits = n -> Forall (fun m => m < n) meas -> reduce_bits bits (map Z.of_nat meas) = Ok (mirror n meas bits).
Proof.
  intros n bits meas L F. unfold reduce_bits, mirror. induction F as [|m meas Hm F IH]; auto. simpl. rewrite (py_get_rev n) by auto. cbn [bind]. rewrite IH. auto.
Qed.
Lemma reduce_counter_ok : forall n meas cnt, Forall (fun m => m < n) meas -> Forall (fun kv => List.length (fst kv) = n) cnt ->
  reduce_counter cnt (map Z.of_nat meas) = Ok (fold_left (fun d kv => dset key_eqb d (mirror n meas (fst kv)) (snd kv)) cnt []).
Proof.
  intros n meas cnt Fm F. unfold reduce_counter. generalize (@nil (list nat * nat)) as d. induction F as [|[k x] cnt Hk F IH]; intros d; auto.
  simpl in *. rewrite (reduce_bits_ok n) by auto. cbn [bind]. apply IH.
Qed.
Section Fold.
Variables (A V : Type) (f : A -> list nat) (g : A -> V).
Lemma dfold_NoDup : forall l d, NoDup (map fst d) -> NoDup (map fst (fold_left (fun d x => dset key_eqb d (f x) (g x)) l d)).
Proof. induction l; intros d N; simpl; auto. apply IHl. apply dset_NoDup; auto. apply key_eqb_ok. Qed.
Lemma dfold_keys : forall l d k, In k (map fst (fold_left (fun d x => dset key_eqb d (f x) (g x)) l d)) <-> In k (map fst d) \/ exists x, In x l /\ f x = k.
Proof.
  induction l as [|a l IH]; intros d k; simpl.
  - split; auto. intros [H|[x [[] _]]]; auto.
  - rewrite IH, (dset_keys _ key_eqb_ok). split.
    + intros [[->|H]|[x [I E]]]; auto; right; [exists a|exists x]; auto.
    + intros [H|[x [[->|I] E]]]; auto. right. exists x. auto.
Qed.
Lemma dset_In : forall (d : list (list nat * V)) k v k' v', In (k', v') (dset key_eqb d k v) -> (k' = k /\ v' = v) \/ In (k', v') d.
Proof.
  induction d as [|[a x] d IH]; intros k v k' v' H; simpl in *.
  - destruct H as [H|[]]. injection H as -> ->. auto.
  - destruct (key_eqb k a) eqn:E; simpl in H.
    + apply key_eqb_ok in E. subst a. destruct H as [H|H]; auto. injection H as -> ->. auto.
    + destruct H as [H|H]; auto. apply IH in H. tauto.
Qed.
Lemma dfold_In : forall l d k v, In (k, v) (fold_left (fun d x => dset key_eqb d (f x) (g x)) l d) -> In (k, v) d \/ exists x, In x l /\ k = f x /\ v = g x.
Proof.
  induction l as [|a l IH]; intros d k v H; simpl in *; auto. apply IH in H. destruct H as [H|[x [I E]]]; [|right; exists x; auto].
  apply dset_In in H. destruct H as [[-> ->]|H]; auto. right. exists a. auto.
Qed.
End Fold.
Lemma dset_sum : forall (d : list (list nat * nat)) k v, list_sum (map snd (dset key_eqb d k v)) <= list_sum (map snd d) + v.
Proof. induction d as [|[a x] d IH]; intros k v; simpl; [lia|]. destruct (key_eqb k a); simpl; [lia|]. specialize (IH k v). lia. Qed.
Lemma dfold_sum : forall A (f : A -> list nat) g l d, list_sum (map snd (fold_left (fun d x => dset key_eqb d (f x) (g x)) l d)) <= list_sum (map snd d) + list_sum (map g l).
Proof. induction l as [|a l IH]; intros d; simpl; [lia|]. specialize (IH (dset key_eqb d (f a) (g a))). pose proof (dset_sum d (f a) (g a)). lia. Qed.
Lemma total_sum : forall c, total c = list_sum (map snd c).
Proof. induction c as [|[k x] c IH]; simpl; auto. Qed.
Lemma mass_div : forall (l : list (list nat * nat)) (N : R), mass (map (fun kv : list nat * nat => (fst kv, INR (snd kv) / N)%R) l) = (INR (list_sum (map snd l)) / N)%R.
Proof.
  intros l N. unfold mass. rewrite Rsum_map. cbn [snd]. induction l as [|[k x] l IH]; simpl; [unfold Rdiv; ring|]. rewrite IH. rewrite plus_INR. unfold Rdiv. ring.
Qed.
Lemma mirrored_outcomes : forall n meas w, Forall (fun m => m < n) meas -> mirrored n meas w = mirror n meas (outcomes n w).
Proof.
  intros n meas w F. unfold mirrored, mirror. apply map_ext_in. intros m I. rewrite Forall_forall in F. specialize (F m I). unfold outcomes.
  rewrite (nth_indep _ 0 (w_bits w 0)) by (rewrite map_length, seq_length; lia). rewrite map_nth, seq_nth by lia. auto.
Qed.
Lemma mirror_inj : forall n meas a b, (forall q, q < n -> In q meas) -> List.length a = n -> List.length b = n -> mirror n meas a = mirror n meas b -> a = b.
Proof.
  intros n meas a b Cov La Lb E. apply nth_ext with (d := 0) (d' := 0); [congruence|]. intros i Li. unfold mirror in E.
  assert (G : forall l, map (fun m => nth (n - 1 - m) a 0) l = map (fun m => nth (n - 1 - m) b 0) l -> forall m, In m l -> nth (n - 1 - m) a 0 = nth (n - 1 - m) b 0).
  { induction l as [|x l IH]; intros E' m I; [destruct I|]. simpl in E'. injection E' as E1 E2. destruct I as [->|I]; auto. }
  specialize (G meas E (n - 1 - i) (Cov (n - 1 - i) ltac:(lia))). replace (n - 1 - (n - 1 - i)) with i in G by lia. auto.
Qed.
Lemma count_map_le : forall A (dec : forall x y : A, {x = y} + {x <> y}) (f : A -> list nat) l k, count_occ dec l k <= count_occ (list_eq_dec Nat.eq_dec) (map f l) (f k).
Proof.
  induction l as [|a l IH]; intros k; simpl; auto. specialize (IH k). destruct (dec a k) as [E|E].
  - subst. destruct (list_eq_dec Nat.eq_dec (f k) (f k)); [lia|congruence].
  - destruct (list_eq_dec Nat.eq_dec (f a) (f k)); lia.
Qed.
Lemma count_map_inj : forall A (dec : forall x y : A, {x = y} + {x <> y}) (f : A -> list nat) l k, (forall a, In a l -> f a = f k -> a = k) ->
  count_occ dec l k = count_occ (list_eq_dec Nat.eq_dec) (map f l) (f k).
Proof.
  induction l as [|a l IH]; intros k H; simpl; auto. rewrite (IH k) by (intros; apply H; simpl; auto).
  destruct (dec a k) as [Ea|Na]; destruct (list_eq_dec Nat.eq_dec (f a) (f k)) as [E|E]; try congruence.
  exfalso. apply Na. apply H; simpl; auto.
Qed.

(** ** The measurement sampler *)
Lemma measure_denotes : forall n meas, Forall (fun m => m < n) meas -> denotes (Z.of_nat n) (TTuple (map TInt (map Z.of_nat meas))) (map Z.of_nat meas).
Proof.
  intros n meas F. assert (G : Forall (fun z => 0 <= z < Z.of_nat n)%Z (map Z.of_nat meas)) by (apply Forall_map; eapply Forall_impl; [|exact F]; intros; simpl in *; lia).
  revert G. generalize (map Z.of_nat meas) as zs. clear. intros zs F.
  replace zs with (List.concat (map (fun z => [z]) zs)) at 2 by (clear; induction zs; simpl; congruence).
  apply den_tuple. induction F as [|z zs Hz F IH]; simpl; constructor; auto.
  replace [z] with [rel (Z.of_nat n) z]; [constructor|]. unfold rel. destruct (Z.ltb_spec z 0); [lia|auto].
Qed.
Lemma measured_run : forall seen h c v N meas, let n := Z.to_nat (v_n v) in reachable rng seen h -> circuit_is h c v -> simulated rng h v -> draws_ok rng ->
  valid n (v_gates v) -> 0 < n -> 0 < N -> Forall (fun m => m < n) meas ->
  exists ws d h', measurement_sampler rng (Z.of_nat N) h c (map Z.of_nat meas) = (Ok d, h') /\
    shots rng n (v_gates v ++ [measure_gate_of meas]) (h_pos h) ws /\ List.length ws = N /\ NoDup (map fst d) /\
    (forall o, In o (map fst d) <-> In o (map (mirrored n meas) ws)) /\
    (forall o p, In (o, p) d -> exists w, In w ws /\ o = mirrored n meas w /\ p = frequency (map (outcomes n) ws) (outcomes n w)) /\
    (mass d <= 1)%R /\ ((forall q, q < n -> In q meas) -> mass d = 1%R) /\
    reachable rng seen h' /\ circuit_is h' c (VCirc (v_gates v ++ [measure_gate_of meas]) (v_n v) (v_default v)).
Proof.
  intros seen h c v N meas n Re Ci Si Dr Va Pn PN Fm.
  pose proof (width_nonneg rng _ _ _ _ Re Ci) as Wn.
  destruct (gate_step rng seen h c v (measure_gate_of meas) Re Ci) as [h1 [E1 [R1 [P1 [D1 [C1 K1]]]]]].
  { simpl. apply Forall_map, Forall_map, Forall_forall. simpl. auto. }
  { simpl. apply Forall_map, Forall_map. eapply Forall_impl; [|exact Fm]. simpl. intros. lia. }
  set (v1 := VCirc (v_gates v ++ [measure_gate_of meas]) (v_n v) (v_default v)) in *.
  assert (Va1 : valid n (v_gates v1)).
  { apply Forall_app. split; auto. apply Forall_cons; [|constructor]. simpl. exists (map Z.of_nat meas). split; [apply measure_denotes; auto|].
    apply Forall_map. eapply Forall_impl; [|exact Fm]. intros. unfold inside. simpl in *. lia. }
  assert (Si1 : simulated rng h1 v1) by (unfold simulated in *; simpl; rewrite D1; auto).
  destruct (run_agreed seen h1 c v1 (RunArgs (Some (Z.of_nat N)) (Some "shots"%string) false) R1 C1 Si1 Va1) as [r0 [b [r [h2 [X [E2 [Y [R2 [D2 K2]]]]]]]]]; [discriminate|].
  change (Z.to_nat (v_n v1)) with n in X.
  destruct (run_counts rng n (v_gates v1) N (h_pos h1) new_backend Dr Pn Va1 (new_cache_ok _ _)) as [cnt [ws [b' [p [X' [Sh [Lw [Tc [Nc [Lk [Kk Ky]]]]]]]]]]].
  change (np_run rng new_backend (v_gates v1) n (RunArgs (Some (Z.of_nat N)) (Some "shots"%string) false) (h_pos h1))
    with (np_run rng new_backend (v_gates v1) n (RunArgs (Some (Z.of_nat N)) None false) (h_pos h1)) in X. rewrite X' in X. injection X as <- <- ->.
  assert (r = Ok (OutRun (RShots cnt))) as ->.
  { destruct r as [[]|]; simpl in Y; try contradiction. destruct r; simpl in Y; try contradiction; congruence. }
  assert (Fk : Forall (fun kv => List.length (fst kv) = n) cnt).
  { apply Forall_forall. intros [k x] I. apply Ky. apply in_map_iff. exists (k, x). auto. }
  set (q := fold_left (fun d kv => dset key_eqb d (mirror n meas (fst kv)) (snd kv)) cnt []).
  exists ws, (map (fun kv : list nat * nat => (fst kv, INR (snd kv) / IZR (Z.of_nat N))%R) q), h2.
  assert (PI : (0 < INR N)%R) by (apply lt_0_INR; auto).
  assert (Kc : forall k x, In (k, x) cnt -> x = count_occ (list_eq_dec Nat.eq_dec) (map (outcomes n) ws) k /\ In k (map (outcomes n) ws)).
  { intros k x I. rewrite <- Lk. assert (Ex : ProofBorn.lookup cnt k = x).
    { unfold ProofBorn.lookup. clear -I Nc. induction cnt as [|[a y] cnt IH]; [destruct I|]. simpl. inversion Nc; subst. destruct I as [I|I].
      - injection I as -> ->. destruct (list_eq_dec Nat.eq_dec k k); [auto|congruence].
      - destruct (list_eq_dec Nat.eq_dec a k) as [->|]; [|apply IH; auto]. exfalso. apply H1. apply in_map_iff. exists (k, x). auto. }
    split; auto. apply Kk. apply in_map_iff. exists (k, x). auto. }
  assert (Fq : forall w, mirror n meas (outcomes n w) = mirrored n meas w) by (intros; symmetry; apply mirrored_outcomes; auto).
  split.
  { unfold measurement_sampler. fold (measure_gate_of meas). rewrite E1, E2. rewrite (reduce_counter_ok n) by auto. fold q. cbn [bind].
    reflexivity. }
  rewrite P1 in Sh. split; auto. split; auto.
  assert (Kq : map fst (map (fun kv : list nat * nat => (fst kv, (INR (snd kv) / IZR (Z.of_nat N))%R)) q) = map fst q) by (rewrite map_map; auto).
  rewrite Kq. split; [apply dfold_NoDup; constructor|]. split.
  { intros o. unfold q. rewrite dfold_keys. simpl. split.
    - intros [[]|[[k x] [I E]]]. simpl in E. subst o. destruct (Kc k x I) as [_ J]. apply in_map_iff in J. destruct J as [w [<- J]]. rewrite Fq. apply in_map. auto.
    - intros I. apply in_map_iff in I. destruct I as [w [<- I]]. right.
      assert (J : In (outcomes n w) (map fst cnt)) by (apply Kk; apply in_map; auto). apply in_map_iff in J. destruct J as [[k x] [E J]]. simpl in E. subst k.
      exists (outcomes n w, x). split; auto. apply Fq. }
  split.
  { intros o p0 I. apply in_map_iff in I. destruct I as [[k x] [E I]]. simpl in E. injection E as -> <-. unfold q in I. apply dfold_In in I. destruct I as [[]|[[k y] [I [E1' E2']]]].
    simpl in E1', E2'. subst o x. destruct (Kc k y I) as [-> J]. apply in_map_iff in J. destruct J as [w [<- J]]. exists w. split; auto. split; [apply Fq|].
    unfold frequency. rewrite map_length, Lw, <- INR_IZR_INZ. auto. }
  rewrite mass_div, <- INR_IZR_INZ.
  split.
  { apply Rmult_le_reg_r with (INR N); auto. unfold Rdiv. rewrite Rmult_assoc, Rinv_l, Rmult_1_r, Rmult_1_l by lra. apply le_INR.
    unfold q. eapply Nat.le_trans; [apply dfold_sum|]. simpl. rewrite <- total_sum. lia. }
  split.
  { intros Cov. replace (list_sum (map snd q)) with N; [unfold Rdiv; rewrite Rinv_r; lra|].
    unfold q. rewrite (dset_all_new _ key_eqb_ok _ (fun kv => mirror n meas (fst kv)) snd).
    - simpl. rewrite map_map. simpl. rewrite <- total_sum. auto.
    - simpl. rewrite <- (map_map fst (mirror n meas)). apply NoDup_map_inj; auto. intros a b Ia Ib E. apply (mirror_inj n meas a b); auto; apply Ky; auto. }
  split; auto.
Qed.
End Random.
