(** Fallbacks end in gates that the backend has. *)
From Coq Require Import List Arith ZArith Bool String Reals Lia.
Import ListNotations.
From Verif Require Import Base Cplx ModelTargets ModelGate ModelBackend ModelNumpy SpecTargets SpecQuantum SpecCircuit SpecMeasure
  ProofTargets ProofFallback ProofRun.

(** the gates without which nothing else can be expressed *)
Definition base_names : list string := ["x"; "y"; "z"; "h"; "rx"; "ry"; "rz"; "phase"; "u3"; "cx"; "cz"]%string.
Definition has_base (names : list string) : Prop := forall s, In s base_names -> In s names.

Definition depth (g : gate) : nat :=
  match g with
  | GOne k _ => match k with KI | KT | KTdg | KS | KSdg | KU1 _ | KU2 _ _ => 1 | _ => 0 end
  | GTwo k _ => match k with KCX | KCZ => 0 | KCY | KCPhase _ | KRXX _ | KRYY _ | KCU1 _ | KCU3 _ _ _ => 2
                | KCU2 _ _ => 3 | _ => 1 end
  | GThree k _ => match k with KCCX => 2 | KCCZ => 0 | KCSwap => 3 end
  | GMeasure _ | GReset _ => 0
  end.

Lemma depth_decreases : forall g gs n, fallback g n = Ok gs -> is_phase g = false ->
  Forall (fun g' => depth g' < depth g)%nat gs.
Proof.
  intros g gs n Hf Hp.
  assert (FM : forall A (f : A -> list gate) l, (forall a, Forall (fun g' => depth g' < depth g)%nat (f a)) ->
    Forall (fun g' => depth g' < depth g)%nat (flat_map f l)).
  { induction l; intros; simpl; auto. apply Forall_app; auto. }
  destruct g as [k tg|k tg|k tg|tg|tg]; try discriminate.
  - destruct k; try discriminate Hp; simpl in Hf; try discriminate; try (injection Hf; intros <-; constructor; fail);
      destruct (gen_list _) as [l|e]; simpl in Hf; try discriminate; injection Hf; intros <-;
      apply FM; intros; repeat constructor.
  - destruct k; simpl in Hf; try discriminate;
      destruct (qubit_pairs tg n) as [l|e]; simpl in Hf; try discriminate; injection Hf; intros <-;
      apply FM; intros; repeat constructor.
  - destruct k; try discriminate Hf; simpl in Hf; destruct (unpack3 tg) as [[[a b] c]|e]; simpl in Hf; try discriminate;
    injection Hf; intros <-; repeat constructor.
Qed.

Lemma has_action_in : forall names g, has_action names g = true <-> In (lowername g) names.
Proof.
  intros. unfold has_action. rewrite existsb_exists. split.
  - intros [x [Hx E]]. apply String.eqb_eq in E. subst; auto.
  - intros H. exists (lowername g). split; auto. apply String.eqb_refl.
Qed.

(** CCZ is no method of a circuit and has no fallback *)
Definition no_ccz (g : gate) : Prop := match g with GThree KCCZ _ => False | _ => True end.

Lemma depth0_base : forall g n ops, gate_ops n g ops -> depth g = 0 -> no_ccz g -> In (lowername g) base_names.
Proof.
  intros g n ops H Hd Hc. destruct H as [k tg l D F|k tg ps D F|k a b c Ha Hb Hc' Hab Hac Hbc];
    destruct k; simpl in *; try discriminate; try contradiction; tauto.
Qed.

Lemma fallback_ok : forall names n g ops, has_base names -> gate_ops n g ops -> no_ccz g -> has_action names g = false ->
  exists gs, fallback g (Z.of_nat n) = Ok gs.
Proof.
  intros names n g ops Hb H Hc Hn.
  assert (NB : ~ In (lowername g) base_names).
  { intros I. apply Hb, has_action_in in I. congruence. }
  destruct H as [k tg l D F|k tg ps D F|k a b c Ha Hb' Hc' Hab Hac Hbc].
  - apply slicing_iff in D; [|lia].
    destruct k; simpl in *; rewrite ?D; simpl; try (eexists; reflexivity); tauto.
  - apply pairs_iff in D; [|lia].
    destruct k; simpl in *; rewrite ?D; simpl; try (eexists; reflexivity); tauto.
  - destruct k; simpl in *; try contradiction; eexists; reflexivity.
Qed.

Lemma no_ccz_fallback : forall g gs n, fallback g n = Ok gs -> Forall no_ccz gs.
Proof.
  intros g gs n Hf.
  assert (FM : forall A (f : A -> list gate) l, (forall a, Forall no_ccz (f a)) -> Forall no_ccz (flat_map f l)).
  { induction l; intros; simpl; auto. apply Forall_app; auto. }
  destruct g as [k tg|k tg|k tg|tg|tg]; try discriminate.
  - destruct k; simpl in Hf; try discriminate; try (injection Hf; intros <-; constructor; fail);
      destruct (gen_list _) as [l|e]; simpl in Hf; try discriminate; injection Hf; intros <-;
      apply FM; intros; repeat constructor.
  - destruct k; simpl in Hf; try discriminate;
      destruct (qubit_pairs tg n) as [l|e]; simpl in Hf; try discriminate; injection Hf; intros <-;
      apply FM; intros; repeat constructor.
  - destruct k; try discriminate Hf; simpl in Hf; destruct (unpack3 tg) as [[[a b] c]|e]; simpl in Hf; try discriminate;
    injection Hf; intros <-; repeat constructor.
Qed.

Lemma resolve_list : forall (f : gate -> res (list gate)) names n gs ops, circuit_ops n gs ops ->
  (forall g o, In g gs -> gate_ops n g o -> exists l o', f g = Ok l /\
     Forall (fun g' => has_action names g' = true) l /\ circuit_ops n l o' /\ forall psi, apply_all o' psi = apply_all o psi) ->
  exists ls o', map_res f gs = Ok ls /\ Forall (fun g' => has_action names g' = true) (List.concat ls) /\
    circuit_ops n (List.concat ls) o' /\ forall psi, apply_all o' psi = apply_all ops psi.
Proof.
  intros f names n gs ops H. induction H as [|g gs o os Hg Hgs IH]; intros Hf.
  - exists [], []. simpl. repeat split; auto. constructor.
  - destruct (Hf g o (or_introl eq_refl) Hg) as [l [o1 [E1 [F1 [C1 A1]]]]].
    destruct IH as [ls [o2 [E2 [F2 [C2 A2]]]]].
    { intros; apply Hf; auto. right; auto. }
    exists (l :: ls), (o1 ++ o2). simpl. rewrite E1. simpl. rewrite E2. simpl. split; auto.
    split; [apply Forall_app; auto|]. split; [apply circuit_ops_app; auto|].
    intros. rewrite !apply_all_app, A1. apply A2.
Qed.

Lemma resolve_ok : forall names, has_base names -> forall fuel n g ops, gate_ops n g ops ->
  (no_ccz g \/ In "ccz"%string names) -> (depth g <= fuel)%nat ->
  exists l ops', resolve names fuel g (Z.of_nat n) = Ok l /\ Forall (fun g' => has_action names g' = true) l /\
    circuit_ops n l ops' /\ forall psi, apply_all ops' psi = apply_all ops psi.
Proof.
  intros names Hb. induction fuel as [|fuel IH]; intros n g ops H Hc Hd.
  - assert (A : has_action names g = true).
    { apply has_action_in. destruct Hc as [Hc|Hc].
      - apply Hb. eapply depth0_base; eauto. lia.
      - destruct g as [k tg|k tg|k tg|tg|tg]; try (apply Hb; eapply depth0_base; [eauto|lia|simpl; auto]; fail); try (inversion H; fail).
        destruct k; simpl in Hd; try lia. exact Hc. }
    exists [g], ops. simpl. rewrite A. repeat split; auto. rewrite <- (app_nil_r ops). constructor; auto. constructor.
  - cbn [resolve]. destruct (has_action names g) eqn:A.
    + exists [g], ops. repeat split; auto. rewrite <- (app_nil_r ops). constructor; auto. constructor.
    + assert (Hc' : no_ccz g).
      { destruct Hc as [Hc|Hc]; auto. destruct g as [k tg|k tg|k tg|tg|tg]; simpl; auto. destruct k; auto.
        apply (has_action_in names (GThree KCCZ tg)) in Hc. congruence. }
      destruct (fallback_ok names n g ops Hb H Hc' A) as [gs Hgs].
      assert (Hp : is_phase g = false).
      { destruct g as [[]| | | |]; auto. exfalso.
        assert (I : In "phase"%string base_names) by (simpl; tauto). apply Hb in I.
        apply (has_action_in names (GOne (KPhase theta) tg)) in I. congruence. }
      destruct (fallback_sound n g gs ops Hgs H Hp) as [o' [C E]].
      pose proof (depth_decreases g gs _ Hgs Hp) as DD. rewrite Forall_forall in DD.
      pose proof (no_ccz_fallback g gs _ Hgs) as NC. rewrite Forall_forall in NC.
      destruct (resolve_list (fun g' => resolve names fuel g' (Z.of_nat n)) names n gs o' C) as [ls [o2 [E2 [F2 [C2 A2]]]]].
      { intros g' o1 I Hg'. apply IH; auto. specialize (DD g' I). lia. }
      rewrite Hgs. cbn [bind]. rewrite E2. exists (List.concat ls), o2. repeat split; auto. intros. rewrite A2. apply E.
Qed.

Lemma depth_le_3 : forall g, (depth g <= 3)%nat.
Proof. intros. destruct g as [k tg|k tg|k tg|tg|tg]; try destruct k; simpl; lia. Qed.

(** A run is the run of the resolved gates. *)
Lemma run_gate_resolve : forall S names (act : gate -> S -> res S) fuel g n l, resolve names fuel g n = Ok l ->
  forall s, run_gate names act fuel g n s = for_list l act s.
Proof.
  induction fuel as [|fuel IH]; intros g n l H s; simpl in *.
  - destruct (has_action names g); [|discriminate]. injection H; intros <-. simpl. destruct (act g s); reflexivity.
  - destruct (has_action names g).
    + injection H; intros <-. simpl. destruct (act g s); reflexivity.
    + destruct (fallback g n) as [gs|e]; simpl in *; [|discriminate].
      revert s l H. induction gs as [|g' gs IHg]; intros s l H; simpl in *.
      * injection H; intros <-. reflexivity.
      * destruct (resolve names fuel g' n) as [l1|] eqn:E1; simpl in H; [|discriminate].
        destruct (map_res _ gs) as [ls|] eqn:E2; simpl in H; [|discriminate]. injection H; intros <-.
        simpl. rewrite (IH g' n l1 E1), for_list_app. destruct (for_list l1 act s); simpl; auto.
Qed.
Lemma run_gates_resolve : forall S names (act : gate -> S -> res S) fuel gs n l, resolve_fallback names fuel gs n = Ok l ->
  forall s, run_gates names act fuel gs n s = for_list l act s.
Proof.
  unfold resolve_fallback, run_gates. induction gs as [|g gs IH]; intros n l H s; simpl in *.
  - injection H; intros <-. reflexivity.
  - destruct (resolve names fuel g n) as [l1|] eqn:E1; simpl in H; [|discriminate].
    destruct (map_res _ gs) as [ls|] eqn:E2; simpl in H; [|discriminate]. injection H; intros <-.
    simpl. rewrite (run_gate_resolve _ _ _ _ _ _ _ E1), for_list_app. destruct (for_list l1 act s); simpl; auto.
    apply IH. rewrite E2. reflexivity.
Qed.

Lemma resolve_fallback_ok : forall names, has_base names -> forall fuel n gs ops, circuit_ops n gs ops ->
  (Forall no_ccz gs \/ In "ccz"%string names) -> (3 <= fuel)%nat ->
  exists l ops', resolve_fallback names fuel gs (Z.of_nat n) = Ok l /\ Forall (fun g' => has_action names g' = true) l /\
    circuit_ops n l ops' /\ forall psi, apply_all ops' psi = apply_all ops psi.
Proof.
  intros names Hb fuel n gs ops H Hc Hf. unfold resolve_fallback.
  destruct (resolve_list (fun g => resolve names fuel g (Z.of_nat n)) names n gs ops H) as [ls [o2 [E2 [F2 [C2 A2]]]]].
  - intros g o I Hg. apply resolve_ok; auto.
    + destruct Hc as [Hc|Hc]; auto. rewrite Forall_forall in Hc. auto.
    + pose proof (depth_le_3 g). lia.
  - exists (List.concat ls), o2. rewrite E2. auto.
Qed.

(** The gates that circuit methods create. *)
Definition is_method (g : gate) : Prop := In (lowername g) (map snd gate_set).

Lemma method_no_ccz : forall g, is_method g <-> no_ccz g.
Proof.
  intros g. unfold is_method. split.
  - destruct g as [k tg|k tg|k tg|tg|tg]; try destruct k; simpl; auto. intros H.
    repeat (destruct H as [H|H]; [discriminate H|]). exact H.
  - destruct g as [k tg|k tg|k tg|tg|tg]; try destruct k; cbn; tauto.
Qed.

Lemma has_base_numpy : has_base numpy_names. Proof. intros s H. cbn in *. tauto. Qed.
Lemma has_base_numba : has_base numba_names. Proof. intros s H. cbn in *. tauto. Qed.
Lemma has_base_sympy : has_base sympy_names. Proof. intros s H. cbn in *. tauto. Qed.
Lemma has_base_qasm : has_base qasm_names. Proof. intros s H. cbn in *. tauto. Qed.

Lemma all_backends_ok : forall names, In names [numpy_names; numba_names; sympy_names; qasm_names] ->
  forall n g, is_method g -> valid_gate n g ->
  exists l, resolve names 3 g (Z.of_nat n) = Ok l /\ Forall (fun g' => has_action names g' = true) l.
Proof.
  intros names Hn n g Hm Hv.
  assert (Hb : has_base names).
  { simpl in Hn. repeat (destruct Hn as [<-|Hn]; [first [apply has_base_numpy|apply has_base_numba|apply has_base_sympy|apply has_base_qasm]|]). contradiction. }
  assert (HM : In "measure"%string names /\ In "reset"%string names).
  { cbn in Hn. repeat (destruct Hn as [<-|Hn]; [cbn; tauto|]). contradiction. }
  apply method_no_ccz in Hm.
  destruct g as [k tg|k tg|k tg|tg|tg]; simpl in Hv.
  4,5: match goal with |- context [resolve _ _ ?g _] => assert (A : has_action names g = true) by (apply has_action_in; simpl; tauto); exists [g]; cbn [resolve]; rewrite A; split; [reflexivity|constructor; [exact A|constructor]] end.
  all: destruct Hv as [ops Hv]; destruct (resolve_ok names Hb 3 n _ ops Hv (or_introl Hm) (depth_le_3 _)) as [l [o [E [F _]]]]; eauto.
Qed.

(** the table of the numpy backend is the one that its model dispatches on *)
Lemma numpy_table : forall rng g n, has_action numpy_names g = match np_action rng g n with Some _ => true | None => false end.
Proof. intros. destruct g as [k tg|k tg|k tg|tg|tg]; try destruct k; reflexivity. Qed.

Lemma single_no_recursion : forall a n, raised (slicing_singlevalue a n) <> Some RecursionError.
Proof.
  intros [] n; simpl; try discriminate. unfold slicing_singlevalue. destruct (slice_indices _ _ _ _) as [[[x y] z]|e] eqn:E; [destruct (0 <? z)%Z; discriminate|].
  unfold slice_indices in E. destruct (_ =? 0)%Z; [injection E as <-; discriminate|discriminate].
Qed.
Lemma slicing_no_recursion : forall tg n, raised (slicing tg n) <> Some RecursionError.
Proof.
  intros [] n; try apply (single_no_recursion _ n). simpl. induction l as [|a l IH]; simpl; [discriminate|].
  unfold gen_app. pose proof (single_no_recursion a n). destruct (raised (slicing_singlevalue a n)) eqn:E; simpl; auto. rewrite E. auto.
Qed.
Lemma pairs_no_recursion : forall tg n, qubit_pairs tg n <> Err RecursionError.
Proof.
  intros [| |[|a [|b [|]]]|] n; simpl; try discriminate. unfold gen_list.
  pose proof (slicing_no_recursion a n). pose proof (slicing_no_recursion b n).
  destruct (raised (slicing a n)); simpl; [congruence|]. destruct (raised (slicing b n)); simpl; [congruence|].
  destruct (negb _); [discriminate|]. destruct (all_differ _); discriminate.
Qed.

(** the nesting of fallbacks is bounded for every gate and any targets *)
Lemma never_recursion : forall names, has_base names -> In "ccz"%string names -> In "measure"%string names -> In "reset"%string names ->
  forall fuel g n, (depth g <= fuel)%nat -> resolve names fuel g n <> Err RecursionError.
Proof.
  intros names Hb Hc Hm Hr. induction fuel as [|fuel IH]; intros g n Hd.
  - assert (A : has_action names g = true).
    { apply has_action_in. destruct g as [k tg|k tg|k tg|tg|tg]; try destruct k; simpl in Hd; try lia; auto; apply Hb; cbn; tauto. }
    simpl. rewrite A. discriminate.
  - simpl. destruct (has_action names g) eqn:A; [discriminate|].
    destruct (fallback g n) as [gs|e] eqn:Hgs; simpl.
    + assert (Hp : is_phase g = false).
      { destruct g as [[]| | | |]; auto. exfalso.
        assert (I : In "phase"%string base_names) by (simpl; tauto). apply Hb in I.
        apply (has_action_in names (GOne (KPhase theta) tg)) in I. congruence. }
      pose proof (depth_decreases g gs n Hgs Hp) as DD. clear Hgs.
      induction gs as [|g' gs IHg]; simpl; [discriminate|]. inversion DD; subst.
      specialize (IHg H2). pose proof (IH g' n ltac:(lia)) as N1.
      destruct (resolve names fuel g' n); simpl; [|congruence].
      destruct (map_res _ gs); simpl in *; [discriminate|congruence].
    + intros E. injection E as ->. clear - Hgs.
      assert (G : gen_list (A:=Z) (Gen [] None) = Ok []) by reflexivity.
      assert (SN : forall tg, raised (slicing tg n) <> Some RecursionError) by (intros; apply slicing_no_recursion).
      destruct g as [k tg|k tg|k tg|tg|tg]; try discriminate Hgs.
      * specialize (SN tg). destruct k; simpl in Hgs; try discriminate; unfold gen_list in Hgs;
        destruct (raised (slicing tg n)) eqn:E; simpl in Hgs; congruence.
      * destruct k; simpl in Hgs; try discriminate; destruct (qubit_pairs tg n) eqn:E; simpl in Hgs; try discriminate;
        injection Hgs as ->; revert E; apply pairs_no_recursion.
      * destruct k; simpl in Hgs; try discriminate; destruct tg as [| |[|? [|? [|? [|]]]]|]; discriminate.
Qed.
