(** circuit_to_unitary. *)
From Coq Require Import String List Arith ZArith Bool Reals Lia Lra FunctionalExtensionality.
Import ListNotations.
From Verif Require Import Base Cplx Bits ModelTargets ModelGate ModelNumpy ModelNumba ModelCircuit ModelUnitary
  SpecTargets SpecQuantum SpecCircuit SpecMeasure SpecRun SpecAPI SpecVqe SpecSympy SpecUnitary
  ProofTargets ProofArray ProofRun ProofUnitary ProofMeasure ProofBorn ProofWhole ProofNumbaProps ProofAPI ProofProgram ProofReach ProofVqeRun ProofVqeSample ProofQaoa ProofVqeEx.
Local Open Scope nat_scope.

(** ** Basis states *)
Lemma x_ket : forall t a, ap1 mX t (ket a) = ket (flip a t).
Proof.
  intros. apply functional_extensionality. intros x. unfold ap1, ket, mX, mk2.
  assert (K : (x =? flip a t) = (setb x t (negb (bit x t)) =? a)).
  { rewrite <- flip_setb. destruct (Nat.eqb_spec x (flip a t)) as [->|N].
    - rewrite flip_flip, Nat.eqb_refl. auto.
    - symmetry. apply Nat.eqb_neq. intros E. apply N. rewrite <- E, flip_flip. auto. }
  rewrite K. destruct (bit x t); cbn [negb]; destruct (setb x t _ =? a); ceq.
Qed.
Lemma xs_ket : forall l a, apply_all (map (fun t => sem1 KX t) l) (ket a) = ket (fold_left flip l a).
Proof. induction l as [|t l IH]; intros a; [reflexivity|]. cbn [map fold_left]. rewrite <- IH, <- x_ket. reflexivity. Qed.
Lemma flips : forall l a u, NoDup l -> bit (fold_left flip l a) u = if in_dec Nat.eq_dec u l then negb (bit a u) else bit a u.
Proof.
  induction l as [|t l IH]; intros a u N; [reflexivity|]. inversion N; subst. cbn [fold_left]. rewrite IH by auto. rewrite testbit_flip.
  destruct (in_dec Nat.eq_dec u l) as [I|I], (in_dec Nat.eq_dec u (t :: l)) as [J|J]; destruct (Nat.eqb_spec t u) as [E|E]; subst; auto; simpl in J; intuition congruence.
Qed.
Lemma mask_in : forall n i k, In k (bitmask n i) <-> k < n /\ bit i k = true.
Proof.
  intros. unfold bitmask. rewrite filter_In, in_seq, Nat.land_comm, land_pow2_eqb, negb_involutive. intuition lia.
Qed.
Lemma mask_bound : forall n i, Forall (fun k => k < n) (bitmask n i).
Proof. intros. apply Forall_forall. intros k I. apply mask_in in I. tauto. Qed.
Lemma mask_flips : forall n i, i < 2 ^ n -> fold_left flip (bitmask n i) 0 = i.
Proof.
  intros n i L. apply Nat.bits_inj. intros u. rewrite flips; [|apply NoDup_filter, seq_NoDup]. rewrite Nat.bits_0.
  destruct (in_dec Nat.eq_dec u (bitmask n i)) as [I|I]; rewrite mask_in in I.
  - destruct I as [_ ->]. auto.
  - destruct (bit i u) eqn:E; auto. exfalso. apply I. split; auto. destruct (Nat.lt_ge_cases u n) as [|G]; auto.
    rewrite (proj1 (lt_pow2_bits n i) L u G) in E. discriminate.
Qed.
Definition x_call (l : list nat) : gate := GOne KX (TTuple (map (fun k => TInt (Z.of_nat k)) l)).
Definition x_calls (l : list nat) : list gate := match l with [] => [] | _ => [x_call l] end.
Lemma x_call_ops : forall n l, Forall (fun k => k < n) l -> gate_ops n (x_call l) (map (fun t => sem1 KX t) l).
Proof.
  intros n l F. unfold x_call. replace (map (fun t => sem1 KX t) l) with (map (fun t => sem1 KX (Z.to_nat t)) (map Z.of_nat l)) by (rewrite map_map; apply map_ext; intros; rewrite Nat2Z.id; auto).
  apply go_one.
  - rewrite <- (map_map Z.of_nat TInt). apply measure_denotes. auto.
  - apply Forall_map. eapply Forall_impl; [|exact F]. unfold inside. intros. lia.
Qed.
Lemma x_calls_ops : forall n l, Forall (fun k => k < n) l -> circuit_ops n (x_calls l) (map (fun t => sem1 KX t) l).
Proof.
  intros n l F. destruct l as [|a l]; [constructor|]. unfold x_calls. rewrite <- (app_nil_r (map _ _)). constructor; [apply x_call_ops; auto|constructor].
Qed.

Section Random.
Variable rng : nat -> R.

(** ** A call that may widen the register *)
Lemma gate_grow : forall seen h c v g, reachable rng seen h -> circuit_is h c v -> flat (targets g) ->
  exists h' w, step rng h (OGate c g) = (Ok (OutCirc c), h') /\ reachable rng seen h' /\ h_pos h' = h_pos h /\ h_default h' = h_default h /\ grown (v_n v) (targets g) w /\
    circuit_is h' c (VCirc (v_gates v ++ [g]) w (v_default v)) /\ (forall c' v', c' <> c -> circuit_is h c' v' -> circuit_is h' c' v').
Proof.
  intros seen h c v g Re Ci Fl. destruct (step rng h (OGate c g)) as [r h'] eqn:E. exists h'.
  destruct (reach_sim rng _ _ Re) as [s [S U]]. pose proof Ci as Ci0. apply (shows_sim rng _ _ _ _ S) in Ci.
  destruct (step_sim2 rng _ _ _ _ _ S E I) as [s' [V S']].
  assert (K : exists w, r = Ok (OutCirc c) /\ grown (v_n v) (targets g) w /\ s' = set_circ s c (VCirc (v_gates v ++ [g]) w (v_default v))).
  { inversion V as [|? ? v1 w1 Hv1 Hf1 Hg1| | | | | | | | | | | | | | | | | | | | | | | |? c1 Hin Hn]; subst; try congruence.
    - rewrite Ci in Hv1. injection Hv1 as <-. eauto.
    - exfalso. simpl in Hin. destruct Hin as [<-|[]]. congruence. }
  destruct K as [w [-> [G ->]]]. exists w. split; auto. assert (Re' : reachable rng seen h') by (exact (reach_step rng seen h (OGate c g) _ h' Re I E)).
  split; auto. split; [rewrite (sm_pos rng _ _ S'), (sm_pos rng _ _ S); reflexivity|]. split; [eapply global_keep; eauto; intros name; discriminate|]. split; auto. split.
  - apply (shows_sim rng _ _ _ _ S'). simpl. eapply nth_put_eq; eauto.
  - intros c' v' N H. refine (frame rng seen h (OGate c g) _ h' c' v' Re I E _ H). simpl. auto.
Qed.
Lemma iadd_step : forall seen h a b va vb, reachable rng seen h -> circuit_is h a va -> circuit_is h b vb ->
  exists h', step rng h (OIAdd a b) = (Ok (OutCirc a), h') /\ reachable rng seen h' /\ h_pos h' = h_pos h /\ h_default h' = h_default h /\
    circuit_is h' a (VCirc (v_gates va ++ v_gates vb) (Z.max (v_n va) (v_n vb)) (v_default va)) /\ (forall c' v', c' <> a -> circuit_is h c' v' -> circuit_is h' c' v').
Proof.
  intros seen h a b va vb Re Ca Cb. destruct (iadd_ok rng _ _ _ _ _ _ Re Ca Cb) as [h' [E [R1 C1]]]. exists h'. split; auto. split; auto. split; [|split; [|split; auto]].
  - cbn [step] in E. unfold do_iadd, get_circ in E. repeat match goal with H : (match get ?l ?i with _ => _ end) = _ |- _ => destruct (get l i); [|discriminate] end.
    injection E as <-. reflexivity.
  - eapply global_keep; eauto. intros name. discriminate.
  - intros c' v' N H. refine (frame rng seen h (OIAdd a b) _ h' c' v' Re I E _ H). simpl. auto.
Qed.

(** ** The circuit of a column *)
Lemma column_start : forall seen h circ v i, reachable rng seen h -> circuit_is h circ v ->
  let n := Z.to_nat (v_n v) in
  exists c h1 h3, step rng h (ONew 0) = (Ok (OutCirc c), h1) /\ c <> circ /\
    (exists o h2, (match bitmask n i with [] => (Ok (OutCirc c), h1) | ks => step rng h1 (OGate c (x_call ks)) end) = (Ok o, h2) /\
       step rng h2 (OIAdd c circ) = (Ok (OutCirc c), h3)) /\
    reachable rng seen h3 /\ h_pos h3 = h_pos h /\ h_default h3 = h_default h /\
    circuit_is h3 c (VCirc (x_calls (bitmask n i) ++ v_gates v) (v_n v) None) /\ (forall c' v', circuit_is h c' v' -> circuit_is h3 c' v').
Proof.
  intros seen h circ v i Re Ci n. pose proof (width_nonneg rng _ _ _ _ Re Ci) as W.
  destruct (new_step rng seen h 0 Re) as [c [h1 [E1 [R1 [C1' [D1 [P1 K1]]]]]]]. destruct (K1 _ _ Ci) as [Ci1 N1]. exists c, h1.
  assert (B : forall h2 w, reachable rng seen h2 -> h_pos h2 = h_pos h1 -> h_default h2 = h_default h1 -> (forall c' v', c' <> c -> circuit_is h1 c' v' -> circuit_is h2 c' v') ->
    circuit_is h2 c (VCirc (x_calls (bitmask n i)) w None) -> (w <= v_n v)%Z ->
    exists h3, step rng h2 (OIAdd c circ) = (Ok (OutCirc c), h3) /\ reachable rng seen h3 /\ h_pos h3 = h_pos h /\ h_default h3 = h_default h /\
    circuit_is h3 c (VCirc (x_calls (bitmask n i) ++ v_gates v) (v_n v) None) /\ (forall c' v', circuit_is h c' v' -> circuit_is h3 c' v')).
  { intros h2 w R2 P2 D2 K2 C2 Le. destruct (iadd_step seen h2 c circ _ _ R2 C2 (K2 _ _ N1 Ci1)) as [h3 [E3 [R3 [P3 [D3 [C3 K3]]]]]]. exists h3.
    cbn [v_gates v_n v_default] in C3. rewrite Z.max_r in C3 by auto. split; auto. split; auto. split; [congruence|]. split; [congruence|]. split; auto.
    intros c' v' H. destruct (K1 _ _ H). apply K3; auto. }
  destruct (bitmask n i) as [|k ks] eqn:Em.
  - destruct (B h1 0%Z R1 eq_refl eq_refl (fun c' v' _ H => H) C1' W) as [h3 [E3 [R3 [P3 [D3 [C3 K3]]]]]]. exists h3. split; auto. split; auto. split; [eauto|]. auto.
  - assert (Fb := mask_bound n i). rewrite Em in Fb.
    destruct (gate_grow seen h1 c _ (x_call (k :: ks)) R1 C1') as [h2 [w [E2 [R2 [P2 [D2 [G2 [C2 K2]]]]]]]].
    { simpl. apply Forall_cons; [exact I|]. apply Forall_map, Forall_forall. simpl. auto. }
    assert (Le : (w <= v_n v)%Z).
    { destruct G2 as [_ [_ G2]]. apply G2; [simpl; auto|]. unfold x_call. cbn [targets]. apply Forall_map. eapply Forall_impl; [|exact Fb]. simpl. unfold n. intros. lia. }
    destruct (B h2 w R2 P2 D2 K2 C2 Le) as [h3 [E3 [R3 [P3 [D3 [C3 K3]]]]]]. exists h3. split; auto. split; auto. split; [eauto|]. auto.
Qed.

(** ** Columns *)
Lemma exec_app : forall n a b w w1 w2, exec rng n a w w1 -> exec rng n b w1 w2 -> exec rng n (a ++ b) w w2.
Proof. intros n a b w w1 w2 H. revert w2. induction H; intros; simpl; auto. econstructor; eauto. Qed.
Lemma exec_calls : forall n i pos, i < 2 ^ n -> exec rng n (x_calls (bitmask n i)) (start pos) (World (ket i) (fun _ => 0) pos).
Proof.
  intros n i pos L. pose proof (xs_ket (bitmask n i) 0) as X. rewrite mask_flips in X by auto. pose proof (mask_bound n i) as B.
  destruct (bitmask n i) as [|k ks] eqn:Em.
  - simpl in X. rewrite <- X. apply exec_nil.
  - rewrite <- X. change (fun _ : nat => 0) with (w_bits (start pos)). change pos with (w_pos (start pos)) at 2. change (ket 0) with (w_psi (start pos)).
    eapply exec_cons; [|apply exec_nil]. apply ex_ops. apply x_call_ops. auto.
Qed.
Lemma simulated_like : forall h h' v v', h_default h' = h_default h -> v_default v' = v_default v -> v_n v' = v_n v -> simulated rng h v -> simulated rng h' v'.
Proof. intros h h' v v' A B C. unfold simulated. rewrite A, B, C. auto. Qed.
Lemma column_unitary : forall seen h circ v ops i, reachable rng seen h -> circuit_is h circ v -> simulated rng h (VCirc (v_gates v) (v_n v) None) ->
  let n := Z.to_nat (v_n v) in i < 2 ^ n -> circuit_ops n (v_gates v) ops ->
  exists h', unitary_column rng h circ n i SelDefault (unitary_args None None) = (Ok (arr n (apply_all ops (ket i))), h') /\
    reachable rng seen h' /\ h_pos h' = h_pos h /\ h_default h' = h_default h /\ (forall c' v', circuit_is h c' v' -> circuit_is h' c' v').
Proof.
  intros seen h circ v ops i Re Ci Si n L Co.
  destruct (column_start seen h circ v i Re Ci) as [c [h1 [h3 [E1 [Nc [[o [h2 [E2 E3]]] [R3 [P3 [D3 [C3 K3]]]]]]]]]]. fold n in E2, C3.
  assert (Co' : circuit_ops n (x_calls (bitmask n i) ++ v_gates v) (map (fun t => sem1 KX t) (bitmask n i) ++ ops)) by (apply circuit_ops_app; auto; apply x_calls_ops, mask_bound).
  destruct (circuit_run rng seen h3 c _ _ (Some "statevector"%string) R3 C3 (simulated_like _ _ _ _ D3 eq_refl eq_refl Si) Co' (or_intror eq_refl)) as [h4 [E4 [R4 [P4 [D4 K4]]]]].
  exists h4. unfold unitary_column. rewrite E1.
  rewrite apply_all_app, xs_ket, mask_flips in E4 by auto.
  split; [|split; [auto|split; [congruence|split; [congruence|auto]]]].
  unfold x_call in E2. destruct (bitmask n i) as [|k ks]; [injection E2 as <- <-|rewrite E2]; rewrite E3; unfold unitary_args; rewrite E4; reflexivity.
Qed.
Lemma column_valid : forall seen h circ v i, reachable rng seen h -> circuit_is h circ v -> simulated rng h (VCirc (v_gates v) (v_n v) None) -> draws_ok rng ->
  let n := Z.to_nat (v_n v) in i < 2 ^ n -> valid n (v_gates v) ->
  exists h' w, exec rng n (v_gates v) (World (ket i) (fun _ => 0) (h_pos h)) w /\
    unitary_column rng h circ n i SelDefault (unitary_args None None) = (Ok (arr n (w_psi w)), h') /\
    reachable rng seen h' /\ h_pos h' = w_pos w /\ h_default h' = h_default h /\ (forall c' v', circuit_is h c' v' -> circuit_is h' c' v').
Proof.
  intros seen h circ v i Re Ci Si Dr n L Va.
  destruct (column_start seen h circ v i Re Ci) as [c [h1 [h3 [E1 [Nc [[o [h2 [E2 E3]]] [R3 [P3 [D3 [C3 K3]]]]]]]]]]. fold n in E2, C3.
  destruct (exec_exists rng n (v_gates v) (World (ket i) (fun _ => 0) (h_pos h)) Va) as [w Ew].
  assert (Va' : valid n (x_calls (bitmask n i) ++ v_gates v)).
  { apply Forall_app. split; auto. eapply ops_valid, x_calls_ops, mask_bound. }
  destruct (run_agreed rng seen h3 c _ (RunArgs None (Some "statevector"%string) false) R3 C3 (simulated_like _ _ _ _ D3 eq_refl eq_refl Si) Va') as [r0 [b [r [h4 [X [E4 [Y [R4 [D4 K4]]]]]]]]]; [discriminate|].
  cbn [v_gates v_n] in X. fold n in X.
  assert (Ex : exec rng n (x_calls (bitmask n i) ++ v_gates v) (start (h_pos h3)) w).
  { rewrite P3. eapply exec_app; [apply exec_calls; auto|auto]. }
  destruct (run_valid rng n (x_calls (bitmask n i) ++ v_gates v) (RunArgs None (Some "statevector"%string) false) (h_pos h3) 1 "statevector" false [w] new_backend Dr eq_refl) as [b' Rv]; [discriminate| |reflexivity|apply new_cache_ok|].
  { econstructor; eauto. constructor. }
  rewrite Rv in X. injection X as <- <- Pw. cbn [last] in Pw. cbn in Y.
  exists h4, w. split; auto. unfold unitary_column. rewrite E1.
  split; [|split; [auto|split; [congruence|split; [congruence|auto]]]].
  assert (r = Ok (OutRun (RState (arr n (w_psi w))))) as ->.
  { destruct r as [[]|]; simpl in Y; try contradiction. apply same_state in Y. subst. reflexivity. }
  unfold x_call in E2. destruct (bitmask n i) as [|k ks]; [injection E2 as <- <-|rewrite E2]; rewrite E3; unfold unitary_args; rewrite E4; reflexivity.
Qed.
Lemma columns_unitary : forall is seen h circ v ops, reachable rng seen h -> circuit_is h circ v -> simulated rng h (VCirc (v_gates v) (v_n v) None) ->
  let n := Z.to_nat (v_n v) in Forall (fun i => i < 2 ^ n) is -> circuit_ops n (v_gates v) ops ->
  exists h', unitary_columns rng h circ n is SelDefault (unitary_args None None) = (Ok (map (fun i => arr n (apply_all ops (ket i))) is), h') /\
    reachable rng seen h' /\ h_pos h' = h_pos h /\ h_default h' = h_default h /\ (forall c' v', circuit_is h c' v' -> circuit_is h' c' v').
Proof.
  induction is as [|i is IH]; intros seen h circ v ops Re Ci Si n F Co; [exists h; simpl; auto 8|]. inversion F; subst.
  destruct (column_unitary seen h circ v ops i Re Ci Si ltac:(auto) Co) as [h1 [E1 [R1 [P1 [D1 K1]]]]]. fold n in E1.
  destruct (IH seen h1 circ v ops R1 (K1 _ _ Ci) (simulated_like _ _ _ _ D1 eq_refl eq_refl Si) ltac:(auto) Co) as [h2 [E2 [R2 [P2 [D2 K2]]]]]. fold n in E2.
  exists h2. cbn [unitary_columns map]. rewrite E1, E2. split; auto. split; auto. split; [congruence|]. split; [congruence|]. auto.
Qed.
Lemma columns_valid : forall is seen h circ v, reachable rng seen h -> circuit_is h circ v -> simulated rng h (VCirc (v_gates v) (v_n v) None) -> draws_ok rng ->
  let n := Z.to_nat (v_n v) in Forall (fun i => i < 2 ^ n) is -> valid n (v_gates v) ->
  exists h' psis, basis_runs rng n (v_gates v) (h_pos h) is psis (h_pos h') /\
    unitary_columns rng h circ n is SelDefault (unitary_args None None) = (Ok (map (arr n) psis), h') /\
    reachable rng seen h' /\ h_default h' = h_default h /\ (forall c' v', circuit_is h c' v' -> circuit_is h' c' v').
Proof.
  induction is as [|i is IH]; intros seen h circ v Re Ci Si Dr n F Va.
  { exists h, []. split; [constructor|]. simpl. auto 8. }
  inversion F; subst.
  destruct (column_valid seen h circ v i Re Ci Si Dr ltac:(auto) Va) as [h1 [w [Ew [E1 [R1 [P1 [D1 K1]]]]]]]. fold n in E1, Ew.
  destruct (IH seen h1 circ v R1 (K1 _ _ Ci) (simulated_like _ _ _ _ D1 eq_refl eq_refl Si) Dr ltac:(auto) Va) as [h2 [psis [B2 [E2 [R2 [D2 K2]]]]]]. fold n in E2, B2.
  exists h2, (w_psi w :: psis). split; [econstructor; eauto; rewrite <- P1; auto|]. cbn [unitary_columns map]. rewrite E1, E2. split; auto. split; auto. split; [congruence|]. auto.
Qed.
Lemma transposed_columns : forall n psis, psis <> [] -> has_columns n psis (transposed (map (arr n) psis)).
Proof.
  intros n psis N. unfold transposed.
  assert (E : (match map (arr n) psis with [] => 0 | v :: _ => List.length v end) = 2 ^ n) by (destruct psis; [congruence|]; simpl; apply arr_length).
  rewrite E. split; [rewrite map_length, seq_length; auto|]. split.
  - apply Forall_map, Forall_forall. intros x _. rewrite !map_length. auto.
  - intros r c Hr Hc. rewrite nth_indep with (d' := map (fun v => nth 0 v C0) (map (arr n) psis)) by (rewrite map_length, seq_length; auto).
    rewrite (map_nth (fun x => map (fun v => nth x v C0) (map (arr n) psis)) (seq 0 (2 ^ n)) 0 r). rewrite seq_nth by auto. cbn [Nat.add].
    rewrite map_map. rewrite nth_indep with (d' := (fun psi => nth r (arr n psi) C0) (ket 0)) by (rewrite map_length; auto).
    rewrite (map_nth (fun psi => nth r (arr n psi) C0)). apply arr_nth. auto.
Qed.
Lemma runs_length : forall n gs pos js psis pos', basis_runs rng n gs pos js psis pos' -> List.length psis = List.length js.
Proof. induction 1; simpl; auto. Qed.

(** ** The matrix *)
Lemma no_qubits : forall gs ops, circuit_ops 0 gs ops -> ops = [].
Proof.
  induction 1 as [|g gs o os G C IH]; auto. subst. rewrite app_nil_r. inversion G; subst; auto.
  - match goal with H : Forall _ l |- _ => inversion H as [|z l' Hz Hl]; subst; auto end. unfold inside in *. lia.
  - match goal with H : Forall _ ps |- _ => inversion H as [|z l' Hz Hl]; subst; auto end. unfold inside in *. lia.
  - unfold inside in *. lia.
Qed.
Lemma unitary_matrix : forall seen h circ v ops, reachable rng seen h -> circuit_is h circ v -> simulated rng h (VCirc (v_gates v) (v_n v) None) ->
  circuit_ops (Z.to_nat (v_n v)) (v_gates v) ops ->
  exists m h', circuit_to_unitary rng h circ SelDefault (unitary_args None None) = (Ok m, h') /\ is_matrix (Z.to_nat (v_n v)) (apply_all ops) m /\
    reachable rng seen h' /\ h_pos h' = h_pos h /\ h_default h' = h_default h /\ (forall c' v', circuit_is h c' v' -> circuit_is h' c' v').
Proof.
  intros seen h circ v ops Re Ci Si Co. pose proof (width_nonneg rng _ _ _ _ Re Ci) as W. pose proof Ci as [x [Hx [Hl [Hn Hd]]]].
  unfold circuit_to_unitary, get. rewrite Hx, Hn. set (n := Z.to_nat (v_n v)) in *. destruct (Z.eqb_spec (v_n v) 0) as [Z|Z].
  - exists [[C1]], h. split; auto. split; [|auto]. assert (n = 0) as E by (unfold n; lia). rewrite E in *. rewrite (no_qubits _ _ Co).
    split; auto. split; [repeat constructor|]. intros r c Hr Hc. simpl in Hr, Hc. assert (r = 0) by lia. assert (c = 0) by lia. subst. reflexivity.
  - destruct (columns_unitary (seq 0 (2 ^ n)) seen h circ v ops Re Ci Si) as [h' [E [R1 [P1 [D1 K1]]]]]; auto.
    { apply Forall_forall. intros i I. apply in_seq in I. fold n. lia. }
    fold n in E. rewrite E. eexists. exists h'. split; [reflexivity|]. split; [|auto 6].
    rewrite <- (map_map (fun i => apply_all ops (ket i)) (arr n)).
    destruct (transposed_columns n (map (fun i => apply_all ops (ket i)) (seq 0 (2 ^ n)))) as [T1 [T2 T3]].
    { pose proof (pow2_pos n). destruct (2 ^ n); [lia|]. discriminate. }
    rewrite map_length, seq_length in T2, T3. split; auto. split; auto. intros r c Hr Hc. rewrite T3 by auto.
    rewrite nth_indep with (d' := (fun i => apply_all ops (ket i)) 0) by (rewrite map_length, seq_length; auto). rewrite (map_nth (fun i => apply_all ops (ket i))), seq_nth by auto. reflexivity.
Qed.
Lemma unitary_runs : forall seen h circ v, reachable rng seen h -> circuit_is h circ v -> simulated rng h (VCirc (v_gates v) (v_n v) None) -> draws_ok rng ->
  valid (Z.to_nat (v_n v)) (v_gates v) -> (v_n v <> 0)%Z ->
  let n := Z.to_nat (v_n v) in
  exists m h' psis, circuit_to_unitary rng h circ SelDefault (unitary_args None None) = (Ok m, h') /\
    basis_runs rng n (v_gates v) (h_pos h) (seq 0 (2 ^ n)) psis (h_pos h') /\ has_columns n psis m /\
    reachable rng seen h' /\ h_default h' = h_default h /\ (forall c' v', circuit_is h c' v' -> circuit_is h' c' v').
Proof.
  intros seen h circ v Re Ci Si Dr Va Z n. pose proof (width_nonneg rng _ _ _ _ Re Ci) as W. pose proof Ci as [x [Hx [Hl [Hn Hd]]]].
  destruct (columns_valid (seq 0 (2 ^ n)) seen h circ v Re Ci Si Dr) as [h' [psis [B [E [R1 [D1 K1]]]]]]; auto.
  { apply Forall_forall. intros i I. apply in_seq in I. fold n. lia. }
  fold n in E, B. exists (transposed (map (arr n) psis)), h', psis. unfold circuit_to_unitary, get. rewrite Hx, Hn. destruct (Z.eqb_spec (v_n v) 0); [contradiction|].
  fold n. rewrite E. split; auto. split; auto. split; [|auto]. apply transposed_columns. intros ->. apply runs_length in B. rewrite seq_length in B. simpl in B.
  pose proof (pow2_pos n). lia.
Qed.
End Random.

Definition x0_measured : vcirc := VCirc [on KX 0; measure_gate_of [0]] 2 None.
Lemma measured_case : forall rng, exists h c, reachable rng [] h /\ circuit_is h c x0_measured /\ simulated rng h x0_measured /\ valid 2 (v_gates x0_measured).
Proof.
  intros rng. destruct (x0_prepared rng) as [h [c [Re [Ci [D P]]]]].
  destruct (gate_step rng [] h c x0 (measure_gate_of [0]) Re Ci) as [h1 [E1 [R1 [P1 [D1 [C1 K1]]]]]].
  { simpl. apply Forall_cons; [exact I|constructor]. }
  { simpl. apply Forall_cons; [simpl; lia|constructor]. }
  exists h1, c. split; auto. split; [exact C1|]. split; [left; simpl; congruence|].
  apply Forall_cons; [|apply Forall_cons; [|constructor]].
  - pose proof x0_valid as V. inversion V; auto.
  - simpl. exists [0%Z]. split; [apply (measure_denotes 2 [0]); apply Forall_cons; [lia|constructor]|]. apply Forall_cons; [unfold inside; lia|constructor].
Qed.
