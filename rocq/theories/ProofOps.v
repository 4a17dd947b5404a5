(** Proofs for the class Ops. *)
From Coq Require Import List Arith ZArith Bool String Reals Lia.
Import ListNotations.
From Verif Require Import Base ModelTargets ModelGate ModelBackend ModelNumpy ModelNumba ModelCircuit ModelOps SpecAPI SpecOps ProofAPI.

Lemma nth_app : forall A (l r : list A) i x, nth_error l i = Some x -> nth_error (l ++ r) i = Some x.
Proof. intros. rewrite nth_error_app1; auto. apply nth_error_Some. congruence. Qed.
Lemma nth_new : forall A (l : list A) x, nth_error (l ++ [x]) (List.length l) = Some x.
Proof. intros. rewrite nth_error_app2, Nat.sub_diag by auto. reflexivity. Qed.

Lemma get_some : forall A (l : list A) i x, nth_error l i = Some x -> get l i = Ok x. Proof. intros. unfold get. rewrite H. auto. Qed.
Lemma with_is : forall m o n gs f, is_ops m o n gs -> with_ops m o f = f n gs.
Proof. intros m o n gs f [x [H [E T]]]. unfold with_ops. rewrite (get_some _ _ _ _ H), (get_some _ _ _ _ T), E. auto. Qed.
Definition extends (m m' : memory) : Prop := exists a b, m_tuples m' = m_tuples m ++ a /\ m_objs m' = m_objs m ++ b.
Lemma extends_refl : forall m, extends m m. Proof. intros. exists [], []. rewrite !app_nil_r. auto. Qed.
Lemma extends_is : forall m m' o n gs, extends m m' -> is_ops m o n gs -> is_ops m' o n gs.
Proof. intros m m' o n gs [a [b [E1 E2]]] [x [H [E T]]]. exists x. rewrite E1, E2. auto using nth_app. Qed.
Lemma extends_new : forall m n gs, extends m (snd (new_ops m n gs)).
Proof. intros. exists [gs], [OpsObj n (List.length (m_tuples m))]. auto. Qed.
Lemma with_extends : forall m o f, (forall n gs, extends m (snd (f n gs))) -> extends m (snd (with_ops m o f)).
Proof. intros m o f H. unfold with_ops. destruct (get (m_objs m) o); [|apply extends_refl]. destruct (get (m_tuples m) (p_ops a)); [apply H|apply extends_refl]. Qed.

Section Random.
Variable rng : nat -> R.
Lemma step_extends : forall m k, extends m (snd (ostep rng m k)).
Proof.
  intros m k. destruct k; cbn [ostep].
  - apply extends_new.
  - apply with_extends. intros. destruct (lookup ops_gate_set name); [exists [], []; rewrite !app_nil_r; auto|apply extends_refl].
  - destruct (get (m_wraps m) w); [exists [], []; rewrite !app_nil_r; auto|apply extends_refl].
  - destruct (get (m_wraps m) w); [|apply extends_refl]. apply with_extends. intros. destruct (get_maximum_index tg); [|apply extends_refl].
    destruct (w_gate a (w_args a) tg); [apply extends_new|apply extends_refl].
  - apply with_extends. intros. apply with_extends. intros. apply extends_new.
  - apply with_extends. intros. destruct (map_res gate_dagger (rev gs)); [apply extends_new|apply extends_refl].
  - apply with_extends. intros. destruct (alloc_list (m_heap m) gs) as [l h]. destruct (alloc_circ h _) as [c h']. exists [], []. rewrite !app_nil_r. auto.
  - destruct (step rng (m_heap m) k) as [r h]. exists [], []. rewrite !app_nil_r. auto.
Qed.
Lemma ops_unchanged : forall ks m rs m' o n gs, osteps rng m ks = (rs, m') -> is_ops m o n gs -> is_ops m' o n gs.
Proof.
  induction ks as [|k ks IH]; intros m rs m' o n gs H I; cbn [osteps] in H; [injection H as <- <-; auto|].
  destruct (ostep rng m k) as [r m1] eqn:E1. destruct (osteps rng m1 ks) as [rs2 m2] eqn:E2. injection H as <- <-. eapply IH; eauto.
  eapply extends_is; [|eauto]. replace m1 with (snd (ostep rng m k)) by (rewrite E1; auto). apply step_extends.
Qed.
Lemma new_is : forall m n gs, exists m', new_ops m n gs = (Ok (VOps (List.length (m_objs m))), m') /\ is_ops m' (List.length (m_objs m)) n gs.
Proof. intros. eexists. split; [reflexivity|]. eexists. cbn [m_objs m_tuples]. split; [apply nth_new|]. split; [reflexivity|]. cbn [p_ops]. apply nth_new. Qed.

(** ** Gates *)
Lemma in_lookup : forall A (l : list (string * A)) k v, lookup l k = Some v -> In (k, v) l.
Proof.
  induction l as [|[a b] l IH]; intros k v H; cbn [lookup] in H; [discriminate|]. destruct (String.eqb_spec k a) as [->|]; [injection H as ->; left; auto|right; auto].
Qed.
Lemma class_made : forall name c args tg g, lookup ops_gate_set name = Some c -> c args tg = Ok g -> builds name args tg g.
Proof.
  intros name c args tg g H G. apply in_lookup in H. unfold ops_gate_set in H. cbn [In] in H.
  repeat (destruct H as [H|H]; [injection H as <- <-;
    cbv [IGate XGate YGate ZGate HGate TGate TDagGate SGate SDagGate CZGate CXGate CYGate CHGate SwapGate ToffoliGate RXGate RYGate RZGate PhaseGate CRXGate CRYGate CRZGate
         CPhaseGate U1Gate U2Gate U3Gate CU1Gate CU2Gate CU3Gate Measurement no_par one_par two_par three_par] in G;
    repeat match type of G with match ?a with _ => _ end = _ => destruct a; try discriminate G end; injection G as <-;
    (split; [cbn; tauto|split; [first [left; reflexivity|right; split; [reflexivity|eexists; reflexivity]]|reflexivity]])|]). destruct H.
Qed.
Lemma class_error : forall name c args tg e, lookup ops_gate_set name = Some c -> c args tg = Err e -> e = TypeError /\ forall g, ~ builds name args tg g.
Proof.
  intros name c args tg e H G. apply in_lookup in H. unfold ops_gate_set in H. cbn [In] in H.
  repeat (destruct H as [H|H]; [injection H as <- <-;
    cbv [IGate XGate YGate ZGate HGate TGate TDagGate SGate SDagGate CZGate CXGate CYGate CHGate SwapGate ToffoliGate RXGate RYGate RZGate PhaseGate CRXGate CRYGate CRZGate
         CPhaseGate U1Gate U2Gate U3Gate CU1Gate CU2Gate CU3Gate Measurement no_par one_par two_par three_par] in G;
    (split; [repeat match type of G with match ?a with _ => _ end = _ => destruct a; try discriminate G end; injection G as <-; reflexivity|]);
    intros g [M1 [M2 M3]]; cbn in M1;
    repeat (destruct M1 as [M1|M1]; [try discriminate M1; injection M1 as M1|]); try contradiction;
    destruct g as [k x|k x|k x|x|x]; try destruct k; try discriminate M1; cbn in M2;
    destruct M2 as [M2|[M2 [a0 M4]]]; try discriminate M2; subst args; discriminate G|]). destruct H.
Qed.
Lemma has_class : forall name, ops_has name <-> exists c, lookup ops_gate_set name = Some c.
Proof.
  intros name. split.
  - intros [H N]. cbn in H, N. repeat (destruct H as [<-|H]; [first [exfalso; tauto|eexists; reflexivity]|]). destruct H.
  - intros [c H]. apply in_lookup in H. unfold ops_gate_set in H. cbn [In] in H. unfold ops_has.
    repeat (destruct H as [H|H]; [injection H as <- <-; cbn; split; [tauto|intros K; repeat (destruct K as [K|K]; [discriminate K|]); exact K]|]). destruct H.
Qed.
Lemma attr_step : forall m o n gs name, is_ops m o n gs ->
  (ops_has name -> exists m', ostep rng m (Attr o name) = (Ok (VWrapper (List.length (m_wraps m))), m') /\ is_wrapper m' (List.length (m_wraps m)) o name []) /\
  (~ ops_has name -> ostep rng m (Attr o name) = (Err AttributeError, m)).
Proof.
  intros m o n gs name I. cbn [ostep]. rewrite (with_is _ _ _ _ _ I). split; intros H.
  - apply has_class in H as [c E]. rewrite E. eexists. split; [reflexivity|]. eexists. cbn [m_wraps]. split; [apply nth_new|]. auto.
  - destruct (lookup ops_gate_set name) eqn:E; auto. exfalso. apply H. apply has_class. eauto.
Qed.
Lemma nth_put : forall A (l : list A) i v x, nth_error l i = Some x -> nth_error (put l i v) i = Some v.
Proof. induction l as [|a l IH]; intros [|i] v x H; cbn in *; try discriminate; auto. eapply IH; eauto. Qed.
Lemma call_step : forall m w o name args0 args, is_wrapper m w o name args0 ->
  exists m', ostep rng m (ModelOps.Call w args) = (Ok (VWrapper w), m') /\ is_wrapper m' w o name args.
Proof.
  intros m w o name args0 args [x [H [E1 [E2 E3]]]]. cbn [ostep]. rewrite (get_some _ _ _ _ H). eexists. split; [reflexivity|]. eexists. cbn [m_wraps].
  split; [eapply nth_put; eauto|]. cbn. auto.
Qed.
Lemma item_step : forall m w o name args tg n gs, is_wrapper m w o name args -> is_ops m o n gs -> (0 <= n)%Z ->
  (flat tg /\ exists g n' m', builds name args tg g /\ grown n tg n' /\ ostep rng m (Item w tg) = (Ok (VOps (List.length (m_objs m))), m') /\
     is_ops m' (List.length (m_objs m)) n' (gs ++ [g])) \/
  (flat tg /\ (forall g, ~ builds name args tg g) /\ ostep rng m (Item w tg) = (Err TypeError, m)) \/
  (~ flat tg /\ ostep rng m (Item w tg) = (Err AttributeError, m)).
Proof.
  intros m w o name args tg n gs [x [H [<- [E2 E3]]]] I P. cbn [ostep]. rewrite (get_some _ _ _ _ H), (with_is _ _ _ _ _ I).
  destruct (get_maximum_index tg) as [i|e] eqn:M.
  - destruct (max_index _ _ M) as [F _]. destruct (w_gate x (w_args x) tg) as [g|e] eqn:G.
    + left. split; auto. destruct (new_is m (Z.max n (i + 1)) (gs ++ [g])) as [m' [N1 N2]]. exists g, (Z.max n (i + 1))%Z, m'. split; [subst; eapply class_made; eauto|].
      split; [rewrite Z.max_comm; apply max_grown; auto|]. auto.
    + right. left. destruct (class_error _ _ _ _ _ E2 G) as [-> N]. subst. auto.
  - right. right. destruct (max_index_err _ _ M) as [-> F]. auto.
Qed.
Lemma plus_step : forall m a b n gs n' gs', is_ops m a n gs -> is_ops m b n' gs' ->
  exists m', ostep rng m (Plus a b) = (Ok (VOps (List.length (m_objs m))), m') /\ is_ops m' (List.length (m_objs m)) (Z.max n n') (gs ++ gs').
Proof. intros m a b n gs n' gs' A B. cbn [ostep]. rewrite (with_is _ _ _ _ _ A), (with_is _ _ _ _ _ B). apply new_is. Qed.
Lemma dagger_same : forall l, map_res gate_dagger l = dagger_ops l false.
Proof.
  induction l as [|g l IH]; [auto|]. cbn [map_res dagger_ops]. rewrite IH. destruct (gate_dagger g) eqn:E; [auto|]. cbn [bind]. destruct (dagger_err _ _ E) as [-> _]. auto.
Qed.
Lemma odagger_step : forall m o n gs, is_ops m o n gs ->
  (Forall (fun g => ~ irreversible g) gs /\ exists gs' m', ostep rng m (Dagger o) = (Ok (VOps (List.length (m_objs m))), m') /\ reversed gs gs' /\
     is_ops m' (List.length (m_objs m)) n gs') \/
  (Exists irreversible gs /\ ostep rng m (Dagger o) = (Err ValueError, m)).
Proof.
  intros m o n gs I. cbn [ostep]. rewrite (with_is _ _ _ _ _ I), dagger_same. destruct (dagger_ops_spec gs false) as [[r [E [Hr Hi]]]|[E [_ X]]]; rewrite E.
  - left. split; auto. destruct (new_is m n r) as [m' [N1 N2]]. exists r, m'. auto.
  - right. auto.
Qed.
Lemma circuit_step : forall m o n gs, is_ops m o n gs -> exists m',
  ostep rng m (ToCircuit o) = (Ok (VCircuit (List.length (h_circs (m_heap m)))), m') /\
  circuit_is (m_heap m') (List.length (h_circs (m_heap m))) (VCirc gs n None) /\ (forall c v, circuit_is (m_heap m) c v -> circuit_is (m_heap m') c v).
Proof.
  intros m o n gs I. cbn [ostep]. rewrite (with_is _ _ _ _ _ I). eexists. split; [reflexivity|]. cbn [m_heap h_circs]. split.
  - eexists. cbn [h_circs h_lists]. split; [apply nth_new|]. split; [apply nth_new|]. auto.
  - intros c v [x [H [L [E D]]]]. exists x. cbn [h_circs h_lists]. auto using nth_app.
Qed.

(** Creating *)
Lemma create_step : forall m n, exists m', ostep rng m (Create n) = (Ok (VOps (List.length (m_objs m))), m') /\ is_ops m' (List.length (m_objs m)) n [].
Proof. intros. apply new_is. Qed.

(** ** A chain of gate calls makes the gates and the width that the same calls on a circuit make *)
Lemma circuit_gate : forall h c gs n g, circuit_is h c (VCirc gs n None) -> forall i, get_maximum_index (targets g) = Ok i ->
  exists h', step rng h (OGate c g) = (Ok (OutCirc c), h') /\ circuit_is h' c (VCirc (gs ++ [g]) (Z.max n (i + 1)) None).
Proof.
  intros h c gs n g [x [H [L [E D]]]] i M. cbn in L, E, D. cbn [step]. unfold get_circ. rewrite (get_some _ _ _ _ H), (get_some _ _ _ _ L), M.
  eexists. split; [reflexivity|]. eexists. cbn [put_circ put_list h_circs h_lists]. split; [eapply nth_put; eauto|]. cbn. split; [eapply nth_put; eauto|].
  rewrite E, Z.max_comm. auto.
Qed.
Lemma item_inv : forall m w o name args tg n gs v m', is_wrapper m w o name args -> is_ops m o n gs -> ostep rng m (Item w tg) = (Ok v, m') ->
  exists g i, get_maximum_index tg = Ok i /\ builds name args tg g /\ v = VOps (List.length (m_objs m)) /\ is_ops m' (List.length (m_objs m)) (Z.max n (i + 1)) (gs ++ [g]) /\
    m_wraps m' = m_wraps m /\ List.length (m_objs m') = S (List.length (m_objs m)).
Proof.
  intros m w o name args tg n gs v m' [x [H [<- [E2 E3]]]] I S. cbn [ostep] in S. rewrite (get_some _ _ _ _ H), (with_is _ _ _ _ _ I) in S.
  destruct (get_maximum_index tg) as [i|e]; [|discriminate]. destruct (w_gate x (w_args x) tg) as [g|e] eqn:G; [|discriminate].
  destruct (new_is m (Z.max n (i + 1)) (gs ++ [g])) as [m2 [N1 N2]]. rewrite N1 in S. injection S as <- <-. exists g, i. split; auto.
  split; [subst; eapply class_made; eauto|]. split; auto. split; auto. injection N1 as <-. cbn. rewrite app_length. cbn. split; [auto|lia].
Qed.
Lemma chain_same : forall l m a n gs rs m' h c, is_ops m a n gs -> S a = List.length (m_objs m) -> circuit_is h c (VCirc gs n None) ->
  osteps rng m (chain a (List.length (m_wraps m)) l) = (rs, m') -> all_ok rs ->
  exists gs' n' cs h', Forall2 (fun x g => builds (fst (fst x)) (snd (fst x)) (snd x) g) l gs' /\ is_ops m' (a + List.length l) n' (gs ++ gs') /\
    steps rng h (map (OGate c) gs') = (cs, h') /\ all_ok cs /\ circuit_is h' c (VCirc (gs ++ gs') n' None).
Proof.
  induction l as [|[[name args] tg] l IH]; intros m a n gs rs m' h c I A C H OK; cbn [chain osteps] in H.
  - injection H as <- <-. exists [], n, [], h. rewrite app_nil_r, Nat.add_0_r. split; [constructor|]. split; auto. split; [reflexivity|]. split; [constructor|]. auto.
  - destruct (ostep rng m (Attr a name)) as [r1 m1] eqn:E1. destruct (ostep rng m1 (ModelOps.Call (List.length (m_wraps m)) args)) as [r2 m2] eqn:E2.
    destruct (ostep rng m2 (Item (List.length (m_wraps m)) tg)) as [r3 m3] eqn:E3.
    destruct (osteps rng m3 (chain (S a) (S (List.length (m_wraps m))) l)) as [r4 m4] eqn:E4. injection H as <- <-.
    inversion OK as [|? ? [v1 O1] OK1]; subst. inversion OK1 as [|? ? [v2 O2] OK2]; subst. inversion OK2 as [|? ? [v3 O3] OK3]; subst.
    assert (X1 : m_objs m1 = m_objs m /\ is_wrapper m1 (List.length (m_wraps m)) a name [] /\ is_ops m1 a n gs /\ List.length (m_wraps m1) = S (List.length (m_wraps m))).
    { assert (EX : extends m m1) by (replace m1 with (snd (ostep rng m (Attr a name))) by (rewrite E1; auto); apply step_extends).
      cbn [ostep] in E1. rewrite (with_is _ _ _ _ _ I) in E1. destruct (lookup ops_gate_set name) eqn:Lk; [|discriminate]. injection E1 as <- <-. cbn [m_objs m_wraps].
      split; auto. split; [eexists; cbn [m_wraps]; split; [apply nth_new|auto]|]. split; [eapply extends_is; eauto|]. rewrite app_length. cbn. lia. }
    destruct X1 as [J1 [W1 [I1 L1]]]. destruct (call_step _ _ _ _ _ args W1) as [m2' [E2' W2]]. rewrite E2' in E2. injection E2 as <- <-.
    assert (X2 : m_objs m2' = m_objs m1 /\ m_tuples m2' = m_tuples m1 /\ List.length (m_wraps m2') = List.length (m_wraps m1)).
    { cbn [ostep] in E2'. destruct (get (m_wraps m1) (List.length (m_wraps m))); [|discriminate]. injection E2' as <-. cbn [m_objs m_tuples m_wraps]. repeat split; auto.
      apply put_length. }
    destruct X2 as [J2 [T2 L2]]. assert (I2 : is_ops m2' a n gs) by (destruct I1 as [x [P1 [P2 P3]]]; exists x; rewrite J2, T2; auto).
    destruct (item_inv _ _ _ _ _ _ _ _ _ _ W2 I2 E3) as [g [i [M [Mk [-> [I3 [L3 O3]]]]]]].
    destruct (circuit_gate h c gs n g C i) as [h1 [S1 C1]]; [destruct Mk as [_ [_ ->]]; auto|].
    assert (EA : List.length (m_objs m2') = S a) by (rewrite J2, J1; auto). rewrite EA in *.
    destruct (IH m3 (S a) (Z.max n (i + 1)) (gs ++ [g]) r4 m4 h1 c) as [gs' [n' [cs [h' [F [I4 [S4 [OK4 C4]]]]]]]]; auto.
    { rewrite L3, L2, L1. auto. }
    exists (g :: gs'), n', (Ok (OutCirc c) :: cs), h'. rewrite <- app_assoc in *. cbn [List.app] in *. split; [constructor; auto|]. split; [replace (a + List.length ((name, args, tg) :: l)) with (S a + List.length l) by (cbn; lia); auto|].
    split; [cbn [map steps]; rewrite S1, S4; auto|]. split; [constructor; eauto|auto].
Qed.
(** the same for a new object and a new circuit *)
Lemma chain_new : forall l m n rs m' h, osteps rng m (Create (Z.of_nat n) :: chain (List.length (m_objs m)) (List.length (m_wraps m)) l) = (rs, m') -> all_ok rs ->
  exists gs n' cs h', Forall2 (fun x g => builds (fst (fst x)) (snd (fst x)) (snd x) g) l gs /\ is_ops m' (List.length (m_objs m) + List.length l) n' gs /\
    steps rng h (ONew n :: map (OGate (List.length (h_circs h))) gs) = (cs, h') /\ all_ok cs /\ circuit_is h' (List.length (h_circs h)) (VCirc gs n' None).
Proof.
  intros l m n rs m' h H OK. cbn [osteps] in H. destruct (ostep rng m (Create (Z.of_nat n))) as [r1 m1] eqn:E1.
  destruct (osteps rng m1 _) as [r2 m2] eqn:E2. injection H as <- <-. inversion OK as [|? ? _ OK1]; subst.
  assert (X : is_ops m1 (List.length (m_objs m)) (Z.of_nat n) [] /\ List.length (m_objs m1) = S (List.length (m_objs m)) /\ m_wraps m1 = m_wraps m).
  { destruct (create_step m (Z.of_nat n)) as [m1' [P1 P2]]. rewrite P1 in E1. injection E1 as <- <-. split; auto. cbn [ostep new_ops] in P1. injection P1 as <-.
    cbn. rewrite app_length. cbn. split; [lia|auto]. }
  destruct X as [I [A W]]. set (h0 := snd (step rng h (ONew n))).
  assert (C : circuit_is h0 (List.length (h_circs h)) (VCirc [] (Z.of_nat n) None)).
  { subst h0. cbn. eexists. cbn [h_circs h_lists]. split; [apply nth_new|]. split; [apply nth_new|]. auto. }
  rewrite <- W in E2. destruct (chain_same l m1 _ _ _ r2 m2 h0 _ I (eq_sym A) C E2 OK1) as [gs' [n' [cs [h' [F [I4 [S4 [OK4 C4]]]]]]]].
  exists gs', n', (Ok (OutCirc (List.length (h_circs h))) :: cs), h'. split; auto. split; auto. split; [|split; [constructor; eauto|auto]].
  cbn [steps]. replace (step rng h (ONew n)) with (Ok (OutCirc (List.length (h_circs h))), h0) by reflexivity. rewrite S4. reflexivity.
Qed.
End Random.

Lemma chain_case : exists rs m', osteps (fun _ => 0%R) (empty_memory 0) (Create (Z.of_nat 1) ::
    chain 0 0 [("rx", [1%R], TInt 2%Z); ("cx", [], TTuple [TInt 0%Z; TSlice None None None]); ("u3", [1; 2; 3]%R, TSlice (Some 0%Z) (Some 5%Z) None)]%string) = (rs, m') /\ all_ok rs.
Proof.
  match goal with |- exists rs m', ?t = _ /\ _ => let v := eval cbv -[IZR] in t in match v with (?a, ?b) => exists a, b; split; [vm_cast_no_check (eq_refl v)|] end end.
  repeat (apply Forall_cons; [eexists; reflexivity|]). constructor.
Qed.
(** a program with objects, wrappers, a sum, a dagger and a circuit that is changed *)
Definition ops_program : list call :=
  Create 1%Z :: chain 0 0 [("rx", [1%R], TInt 2%Z); ("m", [], TInt 0%Z)]%string ++
  [Plus 1 2; Dagger 1; Dagger 2; ToCircuit 1; OnCircuits (OGate 0 (GOne KX (TInt 7%Z))); Attr 1 "rx"; Item 2 (TInt 0%Z); Item 2 (TTuple [TTuple []])]%string.
Lemma program_case : exists rs m', osteps (fun _ => 0%R) (empty_memory 0) ops_program = (rs, m') /\
  is_ops m' 1 3 [GOne (KRX 1) (TInt 2)] /\ is_ops m' 2 3 [GOne (KRX 1) (TInt 2); GMeasure (TInt 0)] /\ is_wrapper m' 2 1 "rx" [] /\
  circuit_is (m_heap m') 0 (VCirc [GOne (KRX 1) (TInt 2); GOne KX (TInt 7)] 8 None) /\
  skipn 7 rs = [Ok (VOps 3); Ok (VOps 4); Err ValueError; Ok (VCircuit 0); Ok (VOut (OutCirc 0)); Ok (VWrapper 2); Err TypeError; Err AttributeError].
Proof.
  match goal with |- exists rs m', ?t = _ /\ _ => let v := eval cbv -[IZR] in t in match v with (?a, ?b) => exists a, b; split; [vm_cast_no_check (eq_refl v)|] end end.
  split; [eexists; repeat split; reflexivity|]. split; [eexists; repeat split; reflexivity|]. split; [eexists; repeat split; reflexivity|].
  split; [eexists; repeat split; reflexivity|]. reflexivity.
Qed.
