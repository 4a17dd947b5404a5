(** Interrupted runs. *)
From Coq Require Import List Arith NArith ZArith Bool String Reals Lia Lra FunctionalExtensionality.
Import ListNotations.
From Verif Require Import Base Cplx Bits ModelTargets ModelGate ModelNumpy ModelNumba ModelCircuit ModelCrash SpecTargets SpecQuantum SpecCircuit
  SpecMeasure SpecRun SpecAPI SpecCrash ProofTargets ProofArray ProofNumpy ProofRun ProofUnitary ProofCache ProofMeasure ProofWhole
  ProofExamples ProofKernel ProofNumba ProofNumbaRun ProofAPI.

(** ** numpy *)
Section Numpy.
Variable rng : nat -> R.

Lemma np_gate_points_states : forall rest ctx b b', In (b', false) (np_gate_points rng rest ctx b) ->
  exists j, b' = snd (np_run_gates rng (firstn j rest) ctx b).
Proof.
  induction rest as [|g rest IH]; intros ctx b b' H; cbn [np_gate_points] in H.
  - destruct H as [E|[]]. exists 0. simpl. congruence.
  - destruct H as [E|H]; [exists 0; simpl; congruence|].
    destruct (np_run_single rng recursion_limit g ctx) as [ctx'|e p] eqn:E1; [|destruct H].
    assert (K : In (b', false) (np_gate_points rng rest ctx' (if x_save ctx' then Backend (Some (x_qubits ctx')) (b_idx b + 1) else b))).
    { destruct (x_save ctx'); [destruct H as [H|H]; [discriminate|]|]; exact H. }
    destruct (IH _ _ _ K) as [j ->]. exists (S j). cbn [firstn np_run_gates]. rewrite E1. reflexivity.
Qed.

(** the first [j] of the remaining gates *)
Lemma np_prefix_ok : forall n gs rest k j ctx b, rest = skipn k gs -> x_n ctx = n -> List.length (x_qubits ctx) = 2 ^ n ->
  List.length (x_buf ctx) = 2 ^ n -> k <= List.length gs -> cache_ok n gs b -> b_idx b = (Z.of_nat k - 1)%Z ->
  (x_save ctx = true -> b_idx b = (Z.of_nat k - 1)%Z /\ prefix_state n gs k (x_qubits ctx)) ->
  cache_ok n gs (snd (np_run_gates rng (firstn j rest) ctx b)).
Proof.
  intros n gs rest k j ctx b Hr Hn Hq Hb Hk Hok Hi Hs.
  set (gs' := firstn (k + j) gs).
  assert (F : firstn j rest = skipn k gs').
  { unfold gs'. rewrite Hr, firstn_skipn_comm. reflexivity. }
  assert (P : forall q, prefix_state n gs k q <-> prefix_state n gs' k q).
  { intros q. unfold prefix_state, gs'. rewrite firstn_firstn, Nat.min_l by lia. tauto. }
  assert (L : k <= List.length gs') by (unfold gs'; rewrite firstn_length; lia).
  assert (Hok' : cache_ok n gs' b).
  { destruct Hok as [->|[m [c [Hm [E [Hl PS]]]]]]; [left; reflexivity|right].
    assert (m = k) by (rewrite E in Hi; simpl in Hi; lia). subst m. exists k, c. split; [lia|]. split; [exact E|]. split; [exact Hl|]. apply P. exact PS. }
  rewrite F.
  assert (R : cache_ok n gs' (snd (np_run_gates rng (skipn k gs') ctx b))).
  { apply (run_gates_spec rng n gs' (skipn k gs') k ctx b); auto. intros S. destruct (Hs S) as [A B]. split; auto. apply P. exact B. }
  replace gs with (gs' ++ skipn (k + j) gs) by apply firstn_skipn. apply cache_ok_extend. exact R.
Qed.

Lemma np_shot_points_ok : forall n gs N ctx b b', x_n ctx = n -> List.length (x_buf ctx) = 2 ^ n -> cache_ok n gs b ->
  In (b', false) (np_shot_points rng N gs ctx b) -> cache_ok n gs b'.
Proof.
  intros n gs. induction N as [|N IH]; intros ctx b b' Hn Hb Hok H; cbn [np_shot_points] in H.
  - destruct H as [E|[]]. congruence.
  - destruct (cache_ok_cases n gs b Hok) as [k [q [Hk [Hidx [PS [Hlq Hq]]]]]].
    set (pa := prepare ctx (b_cache b)) in *.
    assert (Hpa : x_qubits pa = q) by (unfold pa, prepare; simpl; rewrite <- Hq; destruct (b_cache b); auto; rewrite Hn; auto).
    replace (Z.to_nat (b_idx b + 1)) with k in H by (rewrite Hidx; lia).
    destruct (run_gates_spec rng n gs (skipn k gs) k pa b eq_refl) as [E1 E2]; auto.
    { rewrite Hpa; auto. }
    { rewrite Hpa. auto. }
    apply in_app_or in H. destruct H as [H|H].
    + destruct (np_gate_points_states _ _ _ _ H) as [j ->]. apply (np_prefix_ok n gs (skipn k gs) k j pa b); auto; rewrite Hpa; auto.
    + destruct (np_run_gates rng (skipn k gs) pa b) as [r b1] eqn:Er. cbn [fst snd] in E1, E2. subst r.
      assert (S : ctx_sim n pa pa).
      { split; [repeat split; reflexivity|]. rewrite Hpa. unfold pa, prepare. simpl. auto. }
      pose proof (list_sim rng recursion_limit (skipn k gs) n pa pa S) as S1.
      destruct (run_list (np_run_single rng recursion_limit) (skipn k gs) pa) as [c1|e p]; [|destruct H].
      destruct S1 as [_ [N1 [_ [B1 _]]]]. apply (IH _ _ _) in H; auto.
      * destruct (x_cregs c1); auto.
      * destruct (x_cregs c1); auto.
Qed.

Lemma np_points_good : forall gs b n a pos b', good rng gs (BObj BNumpy b) -> In (b', false) (np_points rng b gs n a pos) ->
  good rng gs (BObj BNumpy b').
Proof.
  intros gs b n a pos b' G H. unfold np_points in H. destruct (parse_run_args a) as [[[N ret] ig]|]; [|destruct H as [E|[]]; injection E as <-; exact G].
  unfold good in *. simpl in *.
  assert (K : cache_ok n gs b' -> forall n', cache_ok n' gs (clear_cache_if_invalid b' n')).
  { intros Hok n'. assert (L : forall c, b_cache b' = Some c -> List.length c = 2 ^ n).
    { destruct Hok as [->|[k [c [Hk [-> [Hl _]]]]]]; simpl; intros c' E'; [discriminate|congruence]. }
    destruct (Nat.eq_dec n n') as [<-|M]; [apply cache_ok_clear; auto|]. rewrite (clear_other n n' b' L M). left; reflexivity. }
  destruct H as [E|[E|[E|H]]].
  - injection E as <-. exact G.
  - injection E as <-. unfold clear_cache_if_invalid at 2. intros n'. unfold clear_cache_if_invalid at 2 in K.
    destruct (b_cache b) as [c|] eqn:Ec; simpl; [|left; reflexivity].
    destruct (Nat.eqb_spec (List.length c) (2 ^ n)) as [El|El]; simpl; [|left; reflexivity].
    replace (Backend (b_cache b) (b_idx b)) with b by (destruct b; reflexivity). apply G.
  - injection E as <-. apply K. apply G.
  - apply K. eapply np_shot_points_ok; [| | |exact H]; auto. unfold new_ctx. simpl. apply zeros_length.
Qed.

Lemma np_lives_good : forall gs b, np_lives rng gs b -> good rng gs (BObj BNumpy b).
Proof.
  induction 1 as [|gs more b H IH|gs b n a pos r b' p H IH E|gs b n a pos b' H IH E].
  - apply good_new.
  - apply good_extend; auto.
  - eapply good_np_run; eauto.
  - eapply np_points_good; eauto.
Qed.
Lemma np_lives_fresh : forall gs b n a pos r b' p, np_lives rng gs b -> np_run rng b gs n a pos = (r, b', p) ->
  exists r0 b0, np_run rng new_backend gs n a pos = (r0, b0, p) /\ outcome_same r r0.
Proof. intros. eapply good_np_run; eauto. apply np_lives_good; auto. Qed.
End Numpy.

(** ** numba *)
Section Numba.
Variable rng : nat -> R.
Hypothesis Hrng : draws_ok rng.

Lemma nb_points_unsaved : forall n rest w w', (n <= 64)%nat -> exec rng n rest w w' -> forall ctx b amid b' f,
  norm2 n (w_psi w) = 1%R -> nshows n ctx w -> x_save ctx = false ->
  In (b', f) (nb_gate_points rng rest ctx b amid) -> b' = b /\ f = amid.
Proof.
  intros n rest w w' Hn H. induction H as [w|g rest w w1 w2 H1 H2 IH]; intros ctx b amid b' f Hw Hs Sv Hin; cbn [nb_gate_points] in Hin.
  - destruct Hin as [E|[]]. injection E as <- <-. auto.
  - destruct Hin as [E|Hin]; [injection E as <- <-; auto|].
    destruct (nb_exec1 rng Hrng n g w w1 ctx b Hn H1 Hw Hs) as [c1 [b1 [E1 [S1 [Sh1 K]]]]].
    assert (K' : x_save c1 = false /\ b1 = b).
    { destruct (measuring g); [destruct K as [A B]; rewrite Sv in B; auto|destruct K as [A [B _]]; split; congruence]. }
    destruct K' as [Sv1 ->]. rewrite E1, Sv in Hin. simpl in Hin. rewrite orb_false_r in Hin.
    eapply IH; [| | |exact Hin]; auto. eapply exec1_norm; eauto.
Qed.
Lemma nb_points_saved : forall n rest w w', (n <= 64)%nat -> exec rng n rest w w' -> forall ctx b b',
  norm2 n (w_psi w) = 1%R -> nshows n ctx w -> In (b', false) (nb_gate_points rng rest ctx b false) -> b' = b.
Proof.
  intros n rest w w' Hn H. induction H as [w|g rest w w1 w2 H1 H2 IH]; intros ctx b b' Hw Hs Hin; cbn [nb_gate_points] in Hin.
  - destruct Hin as [E|[]]. congruence.
  - destruct Hin as [E|Hin]; [congruence|].
    destruct (nb_exec1 rng Hrng n g w w1 ctx b Hn H1 Hw Hs) as [c1 [b1 [E1 [S1 [Sh1 K]]]]]. rewrite E1 in Hin. simpl in Hin.
    pose proof (exec1_norm rng Hrng n g w w1 H1 Hw) as Hw1.
    destruct (x_save ctx && collapses g) eqn:M.
    + apply andb_prop in M as [Sv M]. assert (M' : measuring g = true) by (destruct g; auto). rewrite M' in K. destruct K as [Sv1 _].
      destruct (nb_points_unsaved n rest w1 w2 Hn H2 c1 b1 true b' false Hw1 S1 Sv1 Hin). discriminate.
    + assert (b1 = b).
      { destruct (measuring g) eqn:M'; [|apply K]. destruct K as [_ ->]. destruct (x_save ctx); auto. destruct g; discriminate. }
      subst b1. eapply IH; [| |exact Hin]; auto.
Qed.

Lemma nb_shot_points_ok : forall n gs N pos ctx b b', (n <= 64)%nat -> valid n gs -> x_n ctx = n -> x_pos ctx = pos -> ncache_ok n gs b ->
  In (b', false) (nb_shot_points rng N gs ctx b) -> ncache_ok n gs b'.
Proof.
  intros n gs. induction N as [|N IH]; intros pos ctx b b' Hn Hv Hxn Hpos Hok H; cbn [nb_shot_points] in H.
  - destruct H as [E|[]]. congruence.
  - destruct (shots_exist rng n gs Hv 1 pos) as [ws [HL Hsh]]. destruct ws as [|w [|]]; try discriminate.
    assert (Hex : exec rng n gs (start pos) w) by (inversion Hsh; auto). subst pos.
    destruct (ncache_prefix n gs b Hok) as [m [psi [P [Ei Ec]]]].
    pose proof (exec_prefix rng n gs m psi _ w P Hex) as Hex'.
    set (w0 := World psi (fun _ => 0%nat) (x_pos ctx)) in *.
    assert (S0 : nshows n (prepare ctx (b_cache b)) w0).
    { unfold prepare, nshows. simpl. rewrite Hxn. repeat split; auto.
      - destruct (b_cache b); [exact Ec|]. rewrite Ec. apply arr_basis0.
      - unfold outcomes. simpl. apply repeat_0. }
    assert (W0 : norm2 n (w_psi w0) = 1%R) by (eapply prefix_norm; eauto).
    apply in_app_or in H. destruct H as [H|H].
    + replace (Z.to_nat (b_idx b + 1)) with m in H by lia.
      rewrite (nb_points_saved n _ _ _ Hn Hex' _ _ _ W0 S0 H). exact Hok.
    + destruct (nb_shots_ok rng Hrng n gs [w] _ Hn Hsh ctx b Hxn eq_refl Hok) as [c3 [b3 [E3 [N3 [O3 _]]]]].
      cbn [nb_shots List.length] in E3.
      destruct (nb_run_gates rng _ (prepare ctx (b_cache b)) b (b_idx b)) as [[c1 b1|e p b1] idx] eqn:E1; [|destruct H].
      cbv beta iota zeta in E3. injection E3 as E3 E4.
      apply in_app_or in H. destruct H as [H|H].
      * destruct (b_idx b1 =? idx)%Z; [destruct H|destruct H as [H|[]]; discriminate].
      * eapply IH; [exact Hn|exact Hv| |reflexivity| |exact H].
        -- rewrite E3. exact N3.
        -- rewrite E4. exact O3.
Qed.

Lemma nb_points_good : forall gs b n a pos b', (n <= 64)%nat -> valid n gs -> good rng gs (BObj BNumba b) ->
  In (b', false) (nb_points rng b gs n a pos) -> good rng gs (BObj BNumba b').
Proof.
  intros gs b n a pos b' Hn Hv G H. unfold nb_points in H. destruct (parse_run_args (na_args a)) as [[[N ret] ig]|]; [|destruct H as [E|[]]; injection E as <-; exact G].
  unfold good in *. simpl in *. specialize (G Hrng).
  assert (K : ncache_ok n gs b' -> forall n', n' <= 64 -> valid n' gs -> ncache_ok n' gs (clear_cache_if_invalid b' n')).
  { intros Hok n' Hn' Hv'. assert (L : forall c, b_cache b' = Some c -> List.length c = 2 ^ n).
    { destruct Hok as [[E _]|[m [psi [P ->]]]]; intros c' E'; [congruence|]. simpl in E'. injection E' as <-. unfold arr. rewrite map_length, seq_length. reflexivity. }
    destruct (Nat.eq_dec n n') as [<-|M]; [apply ncache_clear; auto|]. rewrite (clear_other n n' b' L M). apply ncache_new. }
  assert (B0 : ncache_ok n gs (if na_enable_cache a then clear_cache_if_invalid b n else new_backend)).
  { destruct (na_enable_cache a); [apply G; auto|apply ncache_new]. }
  intros _. destruct H as [E|[E|[E|H]]].
  - injection E as <-. exact G.
  - injection E as <-. intros n' Hn' Hv'. destruct (na_enable_cache a); simpl; [|apply ncache_new]. unfold clear_cache_if_invalid at 2.
    destruct (b_cache b) as [c|] eqn:Ec; simpl; [|apply ncache_new].
    destruct (Nat.eqb_spec (List.length c) (2 ^ n)) as [El|El]; simpl; [|apply ncache_new].
    replace (Backend (b_cache b) (b_idx b)) with b by (destruct b; reflexivity). apply G; auto.
  - injection E as <-. apply K. exact B0.
  - apply K. eapply nb_shot_points_ok; [exact Hn|exact Hv| |reflexivity|exact B0|exact H]. reflexivity.
Qed.

Lemma nb_lives_good : forall gs b, nb_lives rng gs b -> good rng gs (BObj BNumba b).
Proof.
  induction 1 as [|gs more b H IH|gs b n a pos r b' p H IH Hn Hv E|gs b n a pos b' H IH Hn Hv E].
  - apply good_new.
  - apply good_extend; auto.
  - eapply good_nb_run; eauto.
  - eapply nb_points_good; eauto.
Qed.
Lemma nb_lives_fresh : forall gs b n a pos r b' p, nb_lives rng gs b -> (n <= 64)%nat -> valid n gs ->
  a_returns (na_args a) <> Some "_inner_ctx"%string -> nb_run rng b gs n a pos = (r, b', p) ->
  exists b0, nb_run rng new_backend gs n a pos = (r, b0, p).
Proof.
  intros gs b n a pos r b' p H Hn Hv Ha E. destruct (good_nb_run rng _ _ _ _ _ _ _ _ (nb_lives_good _ _ H) E) as [_ [r0 [b0 [p0 [E0 K]]]]].
  destruct (K Hrng Hn Hv Ha) as [-> ->]. eauto.
Qed.
End Numba.
