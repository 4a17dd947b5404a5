(** Programs on circuits: the heap with shared objects and caches behaves like the values of SpecAPI.v. *)
From Coq Require Import List Arith NArith ZArith Bool String Reals Lia.
Import ListNotations.
From Verif Require Import Base Cplx Bits ModelTargets ModelGate ModelNumpy ModelNumba ModelCircuit SpecTargets SpecQuantum SpecCircuit
  SpecMeasure SpecRun SpecAPI ProofTargets ProofArray ProofRun ProofCache ProofMeasure ProofKernel ProofNumba ProofNumbaRun.

(** ** Lengths of the arrays of numba *)
Section Lengths.
Variable rng : nat -> R.

Lemma for_list_inv : forall A S (P : S -> Prop) (f : A -> S -> res S) l, (forall a s s', P s -> f a s = Ok s' -> P s') ->
  forall s s', P s -> for_list l f s = Ok s' -> P s'.
Proof.
  induction l as [|a l IH]; intros H s s' Hs E; simpl in E; [injection E; intros <-; auto|].
  destruct (f a s) as [s1|] eqn:F; simpl in E; [|discriminate]. apply (IH H s1 s'); [eapply H; eauto|exact E].
Qed.

Lemma store_len : forall a i v a', store a i v = Ok a' -> List.length a' = List.length a.
Proof.
  intros a i v a' H. unfold store in H. destruct (list_set a (N.to_nat i) v) as [x|] eqn:E; [|discriminate]. injection H as <-.
  revert x E. generalize (N.to_nat i). induction a as [|y a IH]; intros k x E; simpl in E; [discriminate|].
  destruct k; [injection E as <-; reflexivity|]. destruct (list_set a k v) eqn:E'; simpl in E; [|discriminate]. injection E as <-.
  simpl. erewrite IH; eauto.
Qed.

Lemma run_kernel_len : forall k a a', run_kernel k a = Ok a' -> List.length a' = List.length a.
Proof.
  intros k a a' H. unfold run_kernel in H.
  refine (for_list_inv _ _ (fun x => List.length x = List.length a) _ _ _ _ _ eq_refl H).
  intros i s s' Hs E. unfold exec_body in E. destruct (for_list (k_body k i) exec_instr (s, no_regs)) as [[b r]|] eqn:F; simpl in E; [|discriminate]. injection E as <-.
  change (List.length (fst (b, r)) = List.length a).
  refine (for_list_inv _ _ (fun x => List.length (fst x) = List.length a) _ _ _ _ _ _ F); auto.
  intros x [s1 r1] [s2 r2] Hs1 E1. destruct x; simpl in E1.
  - destruct (load s1 i0); simpl in E1; [|discriminate]. injection E1 as <- _. exact Hs1.
  - destruct (store s1 i0 (f r1)) eqn:St; simpl in E1; [|discriminate]. injection E1 as <- _. simpl. rewrite (store_len _ _ _ _ St). exact Hs1.
Qed.

Lemma nb_unitary_len : forall g n f, nb_unitary g n = Some f -> forall a a', f a = Ok a' -> List.length a' = List.length a.
Proof.
  assert (L1 : forall n tg k a a', nb_loop1 n tg k a = Ok a' -> List.length a' = List.length a).
  { intros n tg k a a' H. unfold nb_loop1, for_gen in H. destruct (for_list _ _ _) as [b|] eqn:F; simpl in H; [|discriminate].
    destruct (raised _); [discriminate|]. injection H as <-.
    refine (for_list_inv _ _ (fun x => List.length x = List.length a) _ _ _ _ _ eq_refl F).
    intros t s s' Hs E. destruct (in_reg n t); [|discriminate]. rewrite (run_kernel_len _ _ _ E). exact Hs. }
  assert (L2 : forall n tg k a a', nb_loop2 n tg k a = Ok a' -> List.length a' = List.length a).
  { intros n tg k a a' H. unfold nb_loop2 in H. destruct (qubit_pairs tg _) as [ps|]; simpl in H; [|discriminate].
    refine (for_list_inv _ _ (fun x => List.length x = List.length a) _ _ _ _ _ eq_refl H).
    intros t s s' Hs E. destruct (in_reg n (fst t) && in_reg n (snd t)); [|discriminate].
    destruct (k _ _) as [kk|]; simpl in E; [|discriminate]. rewrite (run_kernel_len _ _ _ E). exact Hs. }
  assert (L3 : forall n tg k a a', nb_raw n tg k a = Ok a' -> List.length a' = List.length a).
  { intros n tg k a a' H. unfold nb_raw in H. destruct (raw_targets n tg) as [ct|]; simpl in H; [|discriminate].
    destruct (k _ ct) as [kk|]; simpl in H; [|discriminate]. eapply run_kernel_len; eauto. }
  intros g n f H a a' E. destruct g as [k tg|k tg|k tg|tg|tg]; try discriminate;
    destruct k; simpl in H; try discriminate; injection H as <-; eauto.
Qed.

Definition clen (n : nat) (ctx : npctx) : Prop := x_n ctx = n /\ List.length (x_qubits ctx) = (2 ^ n)%nat.
Definition blen (n : nat) (b : backend) : Prop := forall c, b_cache b = Some c -> List.length c = (2 ^ n)%nat.
Definition rlen (n : nat) (r : nres) : Prop := match r with NOk c b => clen n c /\ blen n b | NErr _ _ b => blen n b end.

Lemma loop_state_inv : forall (P : carr * list nat * nat -> Prop) step l s, (forall t s, P s -> P (fst (step t s))) -> P s ->
  P (fst (loop_state l step s)).
Proof.
  intros P step l. induction l as [|t l IH]; intros s H Hs; simpl; auto.
  pose proof (H t s Hs) as H1. destruct (step t s) as [s' [e|]]; simpl in *; auto.
Qed.

Lemma nb_collapse_len : forall n (step : nat -> Z -> carr * list nat * nat -> (carr * list nat * nat) * option exn) tg ctx b,
  (forall t a c p, List.length a = (2 ^ n)%nat -> List.length (fst (fst (fst (step n t (a, c, p))))) = (2 ^ n)%nat) ->
  clen n ctx -> blen n b -> rlen n (nb_collapse step tg ctx b).
Proof.
  intros n step tg ctx b Hst [En El] Hb. unfold nb_collapse. rewrite En.
  assert (Hb1 : blen n (if x_save ctx then Backend (Some (x_qubits ctx)) (b_idx b) else b)).
  { destruct (x_save ctx); auto. intros c Hc. simpl in Hc. injection Hc as <-. exact El. }
  pose proof (loop_state_inv (fun s => List.length (fst (fst s)) = (2 ^ n)%nat) (step n) (yields (slicing tg (Z.of_nat n)))
    (x_qubits ctx, x_cregs ctx, x_pos ctx)) as L.
  destruct (loop_state _ _ _) as [[[q c] p] e]. simpl in L.
  assert (Lq : List.length q = (2 ^ n)%nat) by (apply L; [intros t [[a1 c1] p1] H1; apply Hst; exact H1|exact El]).
  destruct e; [exact Hb1|]. destruct (raised _); [exact Hb1|]. split; [split; auto|exact Hb1].
Qed.

Lemma nb_measure_len : forall n t a c p, List.length a = (2 ^ n)%nat ->
  List.length (fst (fst (fst (nb_step_measure rng n t (a, c, p))))) = (2 ^ n)%nat.
Proof.
  intros n t a c p H. unfold nb_step_measure. destruct (in_reg n t); [|exact H].
  destruct (p0calc _ _ _) as [p0|]; cbn [bind]; [|exact H].
  destruct (Rltb _ _); (destruct (sqrt_inv _); cbn [bind]; [|exact H]);
    (destruct (run_kernel _ _) as [a'|] eqn:E; cbn [bind]; [|exact H]); (destruct (list_set _ _ _); cbn [bind fst]; [|exact H]);
    rewrite (run_kernel_len _ _ _ E); exact H.
Qed.
Lemma nb_reset_len : forall n t a c p, List.length a = (2 ^ n)%nat ->
  List.length (fst (fst (fst (nb_step_reset rng n t (a, c, p))))) = (2 ^ n)%nat.
Proof.
  intros n t a c p H. unfold nb_step_reset. destruct (in_reg n t); [|exact H].
  destruct (p0calc _ _ _) as [p0|]; cbn [bind]; [|exact H].
  destruct (Rltb _ _); (destruct (sqrt_inv _); cbn [bind]; [|exact H]);
    (destruct (run_kernel _ _) as [a'|] eqn:E; cbn [fst]; [|exact H]); rewrite (run_kernel_len _ _ _ E); exact H.
Qed.

Lemma nb_action_len : forall n g act ctx b, nb_action rng g n = Some act -> clen n ctx -> blen n b -> rlen n (act ctx b).
Proof.
  intros n g act ctx b H Hc Hb.
  assert (U : forall f, nb_unitary g n = Some f ->
    rlen n (match f (x_qubits ctx) with Ok a => NOk (set_bufs ctx (a, x_buf ctx)) b | Err e => NErr e (x_pos ctx) b end)).
  { intros f Hf. destruct (f (x_qubits ctx)) as [a|] eqn:E; [|exact Hb]. destruct Hc as [En El].
    split; [split; [exact En|]|exact Hb]. simpl. rewrite (nb_unitary_len g n f Hf _ _ E). exact El. }
  destruct g as [k tg|k tg|k tg|tg|tg]; cbn [nb_action] in H.
  - destruct (nb_unitary (GOne k tg) n) eqn:E; [|discriminate]. injection H as <-. auto.
  - destruct (nb_unitary (GTwo k tg) n) eqn:E; [|discriminate]. injection H as <-. auto.
  - destruct (nb_unitary (GThree k tg) n) eqn:E; [|discriminate]. injection H as <-. auto.
  - injection H as <-. apply nb_collapse_len; auto using nb_measure_len.
  - injection H as <-. apply nb_collapse_len; auto using nb_reset_len.
Qed.

Lemma nb_run_list_len : forall n f, (forall g ctx b, clen n ctx -> blen n b -> rlen n (f g ctx b)) ->
  forall l ctx b, clen n ctx -> blen n b -> rlen n (nb_run_list f l ctx b).
Proof.
  induction l as [|g l IH]; intros ctx b Hc Hb; [split; auto|]. simpl. pose proof (H g ctx b Hc Hb) as R.
  destruct (f g ctx b); [|exact R]. destruct R. auto.
Qed.

Lemma nb_run_single_len : forall n fuel g ctx b, clen n ctx -> blen n b -> rlen n (nb_run_single rng fuel g ctx b).
Proof.
  intros n fuel. induction fuel as [|fuel IH]; intros g ctx b Hc Hb; cbn [nb_run_single]; rewrite (proj1 Hc);
    (destruct (nb_action rng g n) eqn:E; [eapply nb_action_len; eauto|]); [exact Hb|].
  destruct (fallback g _); [|exact Hb]. apply nb_run_list_len; auto.
Qed.

Lemma nb_run_gates_len : forall n gs ctx b idx, clen n ctx -> blen n b -> rlen n (fst (nb_run_gates rng gs ctx b idx)).
Proof.
  induction gs as [|g gs IH]; intros ctx b idx Hc Hb; [split; auto|]. cbn [nb_run_gates].
  pose proof (nb_run_single_len n recursion_limit g ctx b Hc Hb) as R. destruct (nb_run_single _ _ _ _ _); [|exact R]. destruct R. auto.
Qed.

Lemma nb_shots_len : forall n gs k ctx b, clen n ctx -> blen n b -> rlen n (nb_shots rng k gs ctx b).
Proof.
  intros n gs. induction k as [|k IH]; intros ctx b Hc Hb; [split; auto|]. cbn [nb_shots].
  assert (Hc1 : clen n (prepare ctx (b_cache b))).
  { destruct Hc as [En El]. split; [exact En|]. unfold prepare. simpl. rewrite En. destruct (b_cache b) eqn:E; [auto|apply basis0_length]. }
  pose proof (nb_run_gates_len n (skipn (Z.to_nat (b_idx b + 1)) gs) _ b (b_idx b) Hc1 Hb) as R.
  destruct (nb_run_gates _ _ _ _ _) as [[c1 b1|e p b1] idx]; [|exact R]. destruct R as [Hc2 Hb2].
  apply IH.
  - destruct (x_cregs c1); [exact Hc2|]. exact Hc2.
  - destruct (_ =? _)%Z; auto. intros c E. simpl in E. destruct (x_save c1); [injection E as <-; apply Hc2|auto].
Qed.

Lemma nb_run_len : forall b gs n a pos r b' p, nb_run rng b gs n a pos = (r, b', p) -> b' = b \/ blen n b'.
Proof.
  intros b gs n a pos r b' p H. unfold nb_run in H. destruct (parse_run_args (na_args a)) as [[[N ret] ig]|]; [|injection H; auto].
  right. set (b0 := if na_enable_cache a then clear_cache_if_invalid b n else new_backend) in *.
  assert (Hb : blen n b0).
  { unfold b0. destruct (na_enable_cache a); [|intros c Hc; discriminate]. intros c. unfold clear_cache_if_invalid.
    destruct (b_cache b) as [x|] eqn:E; [|discriminate]. destruct (Nat.eqb_spec (List.length x) (2 ^ n)); [|discriminate]. rewrite E. congruence. }
  pose proof (nb_shots_len n gs (Z.to_nat N) (nb_new_ctx n (na_enable_cache a) pos) b0) as R.
  assert (Hc : clen n (nb_new_ctx n (na_enable_cache a) pos)) by (split; [reflexivity|apply zeros_length]).
  specialize (R Hc Hb). destruct (nb_shots _ _ _ _ _); simpl in R; injection H; intros; subst; [destruct R|]; auto.
Qed.
End Lengths.

(** ** Lists as memory *)
Lemma nth_put_eq : forall A (l : list A) i v x, nth_error l i = Some x -> nth_error (put l i v) i = Some v.
Proof. induction l; intros [|i] v x H; simpl in *; try discriminate; eauto. Qed.
Lemma nth_put_neq : forall A (l : list A) i j v, i <> j -> nth_error (put l i v) j = nth_error l j.
Proof. induction l; intros [|i] [|j] v H; simpl; auto; congruence. Qed.
Lemma put_length : forall A (l : list A) i v, List.length (put l i v) = List.length l.
Proof. induction l; intros [|i] v; simpl; auto. Qed.
Lemma nth_put : forall A (l : list A) i j v x, nth_error (put l i v) j = Some x ->
  (i = j /\ x = v /\ exists y, nth_error l i = Some y) \/ (i <> j /\ nth_error l j = Some x).
Proof.
  intros A l i j v x H. destruct (Nat.eq_dec i j) as [->|N].
  - left. destruct (nth_error l j) as [y|] eqn:E.
    + rewrite (nth_put_eq _ _ _ _ _ E) in H. injection H as <-. eauto.
    + exfalso. assert (nth_error (put l j v) j = None). { apply nth_error_None. rewrite put_length. apply nth_error_None. exact E. } congruence.
  - right. rewrite nth_put_neq in H; auto.
Qed.
Lemma nth_snoc : forall A (l : list A) x i y, nth_error (l ++ [x]) i = Some y ->
  (i < List.length l /\ nth_error l i = Some y) \/ (i = List.length l /\ y = x).
Proof.
  intros A l x i y H. destruct (Nat.lt_ge_cases i (List.length l)) as [L|L].
  - left. rewrite nth_error_app1 in H; auto.
  - right. rewrite nth_error_app2 in H by auto. destruct (i - List.length l) as [|k] eqn:E; simpl in H; [|destruct k; discriminate].
    injection H as <-. split; [lia|reflexivity].
Qed.
Lemma nth_lt : forall A (l : list A) i x, nth_error l i = Some x -> i < List.length l.
Proof. intros. apply nth_error_Some. congruence. Qed.
Lemma nth_app_l : forall A (l l' : list A) i x, nth_error l i = Some x -> nth_error (l ++ l') i = Some x.
Proof. intros. rewrite nth_error_app1; auto. eapply nth_lt; eauto. Qed.
Lemma nth_new : forall A (l : list A) x, nth_error (l ++ [x]) (List.length l) = Some x.
Proof. intros. rewrite nth_error_app2, Nat.sub_diag; auto. Qed.

(** ** Equality of outcomes *)
Lemma ctx_same_sym : forall a b, ctx_same a b -> ctx_same b a.
Proof. intros a b [H1 [H2 [H3 [H4 [H5 H6]]]]]. repeat split; auto. Qed.
Lemma ctx_same_trans : forall a b c, ctx_same a b -> ctx_same b c -> ctx_same a c.
Proof. intros a b c [H1 [H2 [H3 [H4 [H5 H6]]]]] [K1 [K2 [K3 [K4 [K5 K6]]]]]. repeat split; congruence. Qed.
Lemma result_same_sym : forall a b, result_same a b -> result_same b a.
Proof. intros [] []; simpl; intros; auto; try contradiction. apply ctx_same_sym; auto. Qed.
Lemma result_same_trans : forall a b c, result_same a b -> result_same b c -> result_same a c.
Proof. intros [] [] []; simpl; intros; try contradiction; try congruence. eapply ctx_same_trans; eauto. Qed.
Lemma outcome_same_sym : forall a b, outcome_same a b -> outcome_same b a.
Proof. intros [] []; simpl; intros; auto. apply result_same_sym; auto. Qed.
Lemma outcome_same_trans : forall a b c, outcome_same a b -> outcome_same b c -> outcome_same a c.
Proof. intros [] [] []; simpl; intros; try contradiction; try congruence. eapply result_same_trans; eauto. Qed.

(** ** Backend objects *)
Section Sim.
Variable rng : nat -> R.

Definition good (gs : list gate) (o : bobj) : Prop :=
  match o_kind o with
  | BNumpy => forall n, cache_ok n gs (clear_cache_if_invalid (o_state o) n)
  | BNumba => draws_ok rng -> forall n, n <= 64 -> valid n gs -> ncache_ok n gs (clear_cache_if_invalid (o_state o) n)
  | BOther _ => True
  end.

Lemma good_new : forall gs k, good gs (BObj k new_backend).
Proof. intros gs []; unfold good; simpl; intros; auto. left; reflexivity. apply ncache_new. Qed.

Lemma good_extend : forall gs more o, good gs o -> good (gs ++ more) o.
Proof.
  intros gs more [k b] H. unfold good in *. simpl in *. destruct k; auto.
  - intros n. apply cache_ok_extend. auto.
  - intros Hr n Hn Hv. apply ncache_extend. apply H; auto. apply Forall_app in Hv. apply Hv.
Qed.

Lemma clear_other : forall n n' b, (forall c, b_cache b = Some c -> List.length c = 2 ^ n) -> n <> n' ->
  clear_cache_if_invalid b n' = new_backend.
Proof.
  intros n n' b H N. unfold clear_cache_if_invalid. destruct (b_cache b) as [c|]; auto. rewrite (H c eq_refl).
  destruct (Nat.eqb_spec (2 ^ n) (2 ^ n')) as [E|]; auto. exfalso. apply N. eapply Nat.pow_inj_r; [|exact E]. lia.
Qed.

Lemma good_np_run : forall gs b n a pos r b' p, good gs (BObj BNumpy b) -> np_run rng b gs n a pos = (r, b', p) ->
  good gs (BObj BNumpy b') /\ exists r0 b0, np_run rng new_backend gs n a pos = (r0, b0, p) /\ outcome_same r r0.
Proof.
  intros gs b n a pos r b' p H E. unfold good in *. simpl in *.
  pose proof (run_ideal rng n gs b a pos (H n)) as [I1 [I2 I3]]. rewrite E in I1, I2, I3. simpl in *.
  pose proof (run_ideal rng n gs new_backend a pos (or_introl eq_refl)) as [J1 [J2 _]].
  destruct (np_run rng new_backend gs n a pos) as [[r0 b0] p0]. simpl in *. split.
  - intros n'. destruct I3 as [I3|<-]; [|apply H].
    assert (L : forall c, b_cache b' = Some c -> List.length c = 2 ^ n).
    { destruct I3 as [->|[k [c [Hk [-> [Hl _]]]]]]; simpl; intros c' E'; [discriminate|congruence]. }
    destruct (Nat.eq_dec n n') as [<-|N]; [apply cache_ok_clear; auto|]. rewrite (clear_other n n' b' L N). left; reflexivity.
  - exists r0, b0. split; [congruence|]. eapply outcome_same_trans; [exact I1|]. apply outcome_same_sym. exact J1.
Qed.

Lemma good_nb_run : forall gs b n a pos r b' p, good gs (BObj BNumba b) -> nb_run rng b gs n a pos = (r, b', p) ->
  good gs (BObj BNumba b') /\
  exists r0 b0 p0, nb_run rng new_backend gs n a pos = (r0, b0, p0) /\
    (draws_ok rng -> n <= 64 -> valid n gs -> a_returns (na_args a) <> Some "_inner_ctx"%string -> r = r0 /\ p = p0).
Proof.
  intros gs b n a pos r b' p H E. unfold good in *. simpl in *. split.
  - intros Hr n' Hn' Hv. destruct (nb_run_len rng _ _ _ _ _ _ _ _ E) as [->|L]; [apply H; auto|].
    destruct (Nat.eq_dec n n') as [<-|N]; [|rewrite (clear_other n n' b' L N); apply ncache_new].
    unfold nb_run in E. destruct (parse_run_args (na_args a)) as [[[N ret] ig]|] eqn:Hp.
    + apply ncache_clear.
      set (b0 := if na_enable_cache a then clear_cache_if_invalid b n else new_backend) in *.
      assert (Hb : ncache_ok n gs b0) by (unfold b0; destruct (na_enable_cache a); [apply H; auto|apply ncache_new]).
      destruct (shots_exist rng n gs Hv (Z.to_nat N) pos) as [ws [HL Hsh]]. rewrite <- HL in E.
      destruct (nb_shots_ok rng Hr n gs ws pos Hn' Hsh (nb_new_ctx n (na_enable_cache a) pos) b0 eq_refl eq_refl Hb)
        as [c1 [b1 [E1 [_ [O1 _]]]]]. rewrite E1 in E. cbv beta iota zeta in E. injection E as _ <- _. exact O1.
    + injection E as _ <- _. apply H; auto.
  - destruct (nb_run rng new_backend gs n a pos) as [[r0 b0] p0] eqn:E0. exists r0, b0, p0. split; auto. intros Hr Hn Hv Hret.
    assert (E1 := nb_np_agree rng n gs (na_args a) (na_enable_cache a) pos Hn Hr Hv Hret). destruct a as [a c]; simpl in *.
    destruct (E1 b new_backend) as [r1 [p1 [b1 [b2 [A1 [A2 _]]]]]]; [unfold ncache_before; simpl; destruct c; [apply H; auto|apply ncache_new]|left; reflexivity|].
    destruct (E1 new_backend new_backend) as [r2 [p2 [b3 [b4 [A3 [A4 _]]]]]]; [unfold ncache_before; simpl; destruct c; [apply ncache_clear|]; apply ncache_new|left; reflexivity|].
    split; congruence.
Qed.

(** ** Tables *)
Lemma lookup_app_None : forall A (l : list (string * A)) k v k', lookup (l ++ [(k, v)]) k' =
  match lookup l k' with Some x => Some x | None => if String.eqb k' k then Some v else None end.
Proof. induction l as [|[a b] l IH]; intros; simpl; auto. destruct (String.eqb k' a); auto. Qed.
Lemma lookup_In : forall A (l : list (string * A)) k v, lookup l k = Some v -> In (k, v) l.
Proof.
  induction l as [|[a b] l IH]; intros k v H; simpl in *; [discriminate|]. destruct (String.eqb_spec k a) as [->|]; auto.
  injection H as <-. auto.
Qed.
Lemma lookup_None : forall A (l : list (string * A)) k v, lookup l k = None -> ~ In (k, v) l.
Proof.
  induction l as [|[a b] l IH]; intros k v H; simpl in *; [tauto|]. intros [E|E].
  - injection E as -> ->. rewrite String.eqb_refl in H. discriminate.
  - destruct (String.eqb k a); [discriminate|]. eapply IH; eauto.
Qed.
Lemma kind_table : forall name k, kind_of name k <-> In (name, k) backends_table.
Proof.
  intros name k. unfold kind_of, backends_table. simpl. split.
  - intros H. repeat match goal with H : _ \/ _ |- _ => destruct H | H : _ /\ _ |- _ => destruct H end; subst; tauto.
  - intros H. repeat match goal with H : _ \/ _ |- _ => destruct H | H : (_, _) = (_, _) |- _ => injection H as <- <- end; tauto.
Qed.
Lemma kind_lookup : forall name k, lookup backends_table name = Some k -> kind_of name k.
Proof. intros. apply kind_table. apply lookup_In. auto. Qed.
Lemma unknown_lookup : forall name, lookup backends_table name = None -> ~ known name.
Proof. intros name H [k K]. apply kind_table in K. eapply lookup_None; eauto. Qed.
Lemma registered_known : forall name, registered name = true -> known name.
Proof. intros name H. unfold registered in H. destruct (lookup _ _) eqn:E; [|discriminate]. exists b. apply kind_lookup; auto. Qed.
Lemma registered_unknown : forall name, registered name = false -> ~ known name.
Proof. intros name H. unfold registered in H. destruct (lookup _ _) eqn:E; [discriminate|]. apply unknown_lookup; auto. Qed.

(** ** The relation *)
Record sim_circ (h : heap) (x : circ) (v : vcirc) : Prop := {
  sc_gates : nth_error (h_lists h) (c_ops x) = Some (v_gates v);
  sc_n : c_n x = v_n v;
  sc_default : c_default x = v_default v;
  sc_pos : (0 <= c_n x)%Z;
  sc_objs : forall k o, In (k, o) (c_backends x) ->
    exists b, nth_error (h_objs h) o = Some b /\ lookup backends_table k = Some (o_kind b) /\ good (v_gates v) b }.

Record sim (h : heap) (s : vheap) : Prop := {
  sm_len : List.length (h_circs h) = List.length (vh_circs s);
  sm_circ : forall i x v, nth_error (h_circs h) i = Some x -> nth_error (vh_circs s) i = Some v -> sim_circ h x v;
  sm_sep_ops : forall i j x y, nth_error (h_circs h) i = Some x -> nth_error (h_circs h) j = Some y -> c_ops x = c_ops y -> i = j;
  sm_sep_objs : forall i j x y k k' o, nth_error (h_circs h) i = Some x -> nth_error (h_circs h) j = Some y ->
    In (k, o) (c_backends x) -> In (k', o) (c_backends y) -> i = j /\ k = k';
  sm_user : forall i x k o, nth_error (h_circs h) i = Some x -> In (k, o) (c_backends x) -> ~ In o (vh_user s);
  sm_user_lt : forall o, In o (vh_user s) -> o < List.length (h_objs h);
  sm_default : h_default h = vh_default s;
  sm_pos : h_pos h = vh_pos s }.

Lemma sim_start : forall pos, sim (empty_heap pos) (vstart pos).
Proof.
  intros pos. split; simpl; auto; try tauto; intros;
    match goal with H : nth_error [] ?i = Some _ |- _ => destruct i; discriminate H end.
Qed.

Lemma sim_get : forall h s c x, sim h s -> nth_error (h_circs h) c = Some x ->
  exists v, nth_error (vh_circs s) c = Some v /\ sim_circ h x v.
Proof.
  intros h s c x S H. destruct (nth_error (vh_circs s) c) as [v|] eqn:E.
  - exists v. split; auto. eapply sm_circ; eauto.
  - apply nth_error_None in E. pose proof (nth_lt _ _ _ _ H). rewrite (sm_len _ _ S) in H0. lia.
Qed.
Lemma sim_none : forall h s c, sim h s -> nth_error (h_circs h) c = None -> nth_error (vh_circs s) c = None.
Proof. intros h s c S H. apply nth_error_None in H. apply nth_error_None. rewrite <- (sm_len _ _ S). auto. Qed.

(** the heap may grow *)
Lemma sim_circ_grow : forall h x v ls os cs d p, sim_circ h x v ->
  sim_circ (Heap (h_lists h ++ ls) (h_objs h ++ os) cs d p) x v.
Proof.
  intros h x v ls os cs d p [G N D P O]. split; simpl; auto.
  - apply nth_app_l; auto.
  - intros k o Hin. destruct (O k o Hin) as [b [B1 B2]]. exists b. split; auto. apply nth_app_l; auto.
Qed.

(** a new circuit with a new list and new backend objects *)
Lemma sim_add : forall h s gs os n bs d, sim h s -> (0 <= n)%Z ->
  (forall k o, In (k, o) bs -> List.length (h_objs h) <= o /\ exists b, nth_error (h_objs h ++ os) o = Some b /\
     lookup backends_table k = Some (o_kind b) /\ good gs b) ->
  (forall k k' o, In (k, o) bs -> In (k', o) bs -> k = k') ->
  sim (Heap (h_lists h ++ [gs]) (h_objs h ++ os) (h_circs h ++ [Circ (List.length (h_lists h)) n bs d]) (h_default h) (h_pos h))
      (add_circ s (VCirc gs n d)).
Proof.
  intros h s gs os n bs d S Hn Hbs Hk. split; simpl.
  - rewrite !app_length. simpl. rewrite (sm_len _ _ S). auto.
  - intros i x v Hx Hv. apply nth_snoc in Hx. apply nth_snoc in Hv. rewrite <- (sm_len _ _ S) in Hv.
    destruct Hx as [[L Hx]|[-> ->]]; destruct Hv as [[L' Hv]|[E ->]]; try lia.
    + apply sim_circ_grow. eapply sm_circ; eauto.
    + split; simpl; auto. * apply nth_new. * intros k o Hin. apply Hbs. auto.
  - intros i j x y Hx Hy E. apply nth_snoc in Hx. apply nth_snoc in Hy.
    destruct Hx as [[L Hx]|[-> ->]]; destruct Hy as [[L' Hy]|[-> ->]]; simpl in *; auto.
    + eapply sm_sep_ops; eauto.
    + exfalso. destruct (sim_get _ _ _ _ S Hx) as [v [_ V]]. pose proof (nth_lt _ _ _ _ (sc_gates _ _ _ V)). lia.
    + exfalso. destruct (sim_get _ _ _ _ S Hy) as [v [_ V]]. pose proof (nth_lt _ _ _ _ (sc_gates _ _ _ V)). lia.
  - intros i j x y k k' o Hx Hy I1 I2. apply nth_snoc in Hx. apply nth_snoc in Hy.
    destruct Hx as [[L Hx]|[-> ->]]; destruct Hy as [[L' Hy]|[-> ->]]; simpl in *.
    + eapply sm_sep_objs; eauto.
    + exfalso. destruct (sim_get _ _ _ _ S Hx) as [v [_ V]]. destruct (sc_objs _ _ _ V _ _ I1) as [b [B _]].
      pose proof (nth_lt _ _ _ _ B). destruct (Hbs _ _ I2). lia.
    + exfalso. destruct (sim_get _ _ _ _ S Hy) as [v [_ V]]. destruct (sc_objs _ _ _ V _ _ I2) as [b [B _]].
      pose proof (nth_lt _ _ _ _ B). destruct (Hbs _ _ I1). lia.
    + split; eauto.
  - intros i x k o Hx Hin Hu. apply nth_snoc in Hx. destruct Hx as [[L Hx]|[-> ->]].
    + eapply (sm_user _ _ S); eauto.
    + simpl in Hin. destruct (Hbs _ _ Hin). apply (sm_user_lt _ _ S) in Hu. lia.
  - intros o Hu. rewrite app_length. apply (sm_user_lt _ _ S) in Hu. lia.
  - apply S.
  - apply S.
Qed.

(** a backend object of the program *)
Lemma sim_obj : forall h s b, sim h s -> sim (Heap (h_lists h) (h_objs h ++ [b]) (h_circs h) (h_default h) (h_pos h))
  (VHeap (vh_circs s) (List.length (h_objs h) :: vh_user s) (vh_default s) (vh_pos s)).
Proof.
  intros h s b S. split; simpl; try apply S.
  - intros i x v Hx Hv. rewrite <- (app_nil_r (h_lists h)). apply sim_circ_grow. eapply sm_circ; eauto.
  - intros i x k o Hx Hin [<-|Hu]; [|eapply (sm_user _ _ S); eauto].
    destruct (sim_get _ _ _ _ S Hx) as [v [_ V]]. destruct (sc_objs _ _ _ V _ _ Hin) as [b' [B _]].
    pose proof (nth_lt _ _ _ _ B). lia.
  - intros o [<-|Hu]; rewrite app_length; simpl; [lia|]. apply (sm_user_lt _ _ S) in Hu. lia.
Qed.

(** the attributes of a circuit change, the gates may be extended *)
Lemma sim_update : forall h s c x v more n d, sim h s -> nth_error (h_circs h) c = Some x -> nth_error (vh_circs s) c = Some v ->
  (0 <= n)%Z ->
  sim (put_circ (put_list h (c_ops x) (v_gates v ++ more)) c (Circ (c_ops x) n (c_backends x) d))
      (set_circ s c (VCirc (v_gates v ++ more) n d)).
Proof.
  intros h s c x v more n d S Hx Hv Hn. pose proof (sm_circ _ _ S _ _ _ Hx Hv) as V.
  assert (Back : forall i y, nth_error (put (h_circs h) c (Circ (c_ops x) n (c_backends x) d)) i = Some y ->
    exists y', nth_error (h_circs h) i = Some y' /\ c_ops y = c_ops y' /\ c_backends y = c_backends y').
  { intros i y H. apply nth_put in H. destruct H as [[<- [-> _]]|[_ H]]; eauto. }
  split; simpl; try apply S.
  - rewrite !put_length. apply S.
  - intros i y w Hy Hw. apply nth_put in Hy. apply nth_put in Hw.
    destruct Hy as [[<- [-> _]]|[N Hy]]; destruct Hw as [[E [-> _]]|[N' Hw]]; try congruence.
    + split; simpl; auto.
      * eapply nth_put_eq. apply V.
      * intros k o Hin. destruct (sc_objs _ _ _ V _ _ Hin) as [b [B1 [B2 B3]]]. exists b. repeat split; auto. apply good_extend; auto.
    + destruct (sm_circ _ _ S _ _ _ Hy Hw) as [G1 G2 G3 G4 G5]. split; simpl; auto. rewrite nth_put_neq; auto.
      intros E. apply N. eapply (sm_sep_ops _ _ S); eauto.
  - intros i j y z Hy Hz E. destruct (Back _ _ Hy) as [y' [Y1 [Y2 Y3]]]. destruct (Back _ _ Hz) as [z' [Z1 [Z2 Z3]]].
    eapply (sm_sep_ops _ _ S); eauto. congruence.
  - intros i j y z k k' o Hy Hz I1 I2. destruct (Back _ _ Hy) as [y' [Y1 [Y2 Y3]]]. destruct (Back _ _ Hz) as [z' [Z1 [Z2 Z3]]].
    rewrite Y3 in I1. rewrite Z3 in I2. eapply (sm_sep_objs _ _ S); eauto.
  - intros i y k o Hy Hin. destruct (Back _ _ Hy) as [y' [Y1 [Y2 Y3]]]. rewrite Y3 in Hin. eapply (sm_user _ _ S); eauto.
Qed.

Lemma put_same : forall A (l : list A) i x, nth_error l i = Some x -> put l i x = l.
Proof. induction l; intros [|i] x H; simpl in *; try discriminate; auto. congruence. f_equal; auto. Qed.
Lemma put_circ_same : forall h i x, nth_error (h_circs h) i = Some x -> put_circ h i x = h.
Proof. intros [] i x H. unfold put_circ. simpl in *. rewrite put_same; auto. Qed.
Lemma put_list_same : forall h i x, nth_error (h_lists h) i = Some x -> put_list h i x = h.
Proof. intros [] i x H. unfold put_list. simpl in *. rewrite put_same; auto. Qed.

(** the position in the random stream *)
Lemma sim_pos : forall h s p, sim h s -> sim (set_pos h p) (at_pos s p).
Proof.
  intros h s p S. split; simpl; try apply S; auto. intros i x v Hx Hv. destruct (sm_circ _ _ S _ _ _ Hx Hv) as [G1 G2 G3 G4 G5].
  split; auto.
Qed.
Lemma sim_global : forall h s d, sim h s -> sim (set_global h d) (VHeap (vh_circs s) (vh_user s) d (vh_pos s)).
Proof.
  intros h s d S. split; simpl; try apply S; auto. intros i x v Hx Hv. destruct (sm_circ _ _ S _ _ _ Hx Hv) as [G1 G2 G3 G4 G5].
  split; auto.
Qed.

(** a backend object changes *)
Lemma sim_put_user : forall h s o b, sim h s -> In o (vh_user s) -> sim (put_obj h o b) s.
Proof.
  intros h s o b S Hu. split; simpl; try apply S.
  - intros i x v Hx Hv. destruct (sm_circ _ _ S _ _ _ Hx Hv) as [G1 G2 G3 G4 G5]. split; auto. simpl. intros k o' Hin.
    destruct (G5 _ _ Hin) as [b' B]. exists b'. rewrite nth_put_neq; auto. intros ->. eapply (sm_user _ _ S); eauto.
  - intros o' Ho. rewrite put_length. apply S; auto.
Qed.
Lemma sim_put_own : forall h s c x v k o b b', sim h s -> nth_error (h_circs h) c = Some x -> nth_error (vh_circs s) c = Some v ->
  In (k, o) (c_backends x) -> nth_error (h_objs h) o = Some b -> o_kind b' = o_kind b -> good (v_gates v) b' ->
  sim (put_obj h o b') s.
Proof.
  intros h s c x v k o b b' S Hx Hv Hin Hb Hk Hg. split; simpl; try apply S.
  - intros i y w Hy Hw. destruct (sm_circ _ _ S _ _ _ Hy Hw) as [G1 G2 G3 G4 G5]. split; auto. simpl. intros k' o' Hin'.
    destruct (G5 _ _ Hin') as [b0 [B1 [B2 B3]]]. destruct (Nat.eq_dec o o') as [<-|N].
    + destruct (sm_sep_objs _ _ S _ _ _ _ _ _ _ Hx Hy Hin Hin') as [<- <-]. rewrite Hv in Hw. injection Hw as <-.
      exists b'. rewrite (nth_put_eq _ _ _ _ _ Hb). rewrite Hb in B1. injection B1 as <-. rewrite Hk. auto.
    + exists b0. rewrite nth_put_neq; auto.
  - intros o' Ho. rewrite put_length. apply S; auto.
Qed.

(** [__get_backend] *)
Lemma sim_get_backend : forall h s c x v name, sim h s -> nth_error (h_circs h) c = Some x -> nth_error (vh_circs s) c = Some v ->
  (exists o h' x' b, get_backend c x name h = (Ok o, h') /\ sim h' s /\ nth_error (h_circs h') c = Some x' /\
     In (name, o) (c_backends x') /\ nth_error (h_objs h') o = Some b /\ lookup backends_table name = Some (o_kind b) /\
     good (v_gates v) b /\ h_pos h' = h_pos h) \/
  (lookup backends_table name = None /\ get_backend c x name h = (Err ValueError, h)).
Proof.
  intros h s c x v name S Hx Hv. pose proof (sm_circ _ _ S _ _ _ Hx Hv) as V. unfold get_backend.
  destruct (lookup (c_backends x) name) as [o|] eqn:E.
  - left. apply lookup_In in E. destruct (sc_objs _ _ _ V _ _ E) as [b [B1 [B2 B3]]]. exists o, h, x, b. auto 10.
  - destruct (lookup backends_table name) as [k|] eqn:Ek; [|right; auto]. left. unfold alloc_obj. simpl.
    set (x' := Circ (c_ops x) (c_n x) (c_backends x ++ [(name, List.length (h_objs h))]) (c_default x)).
    exists (List.length (h_objs h)). eexists. exists x', (BObj k new_backend). split; [reflexivity|].
    assert (Hnew : forall i y k0, nth_error (h_circs h) i = Some y -> ~ In (k0, List.length (h_objs h)) (c_backends y)).
    { intros i y k0 Hy Hin. destruct (sim_get _ _ _ _ S Hy) as [w [_ W]]. destruct (sc_objs _ _ _ W _ _ Hin) as [b [B _]].
      pose proof (nth_lt _ _ _ _ B). lia. }
    assert (Back : forall i y, nth_error (put (h_circs h) c x') i = Some y -> exists y', nth_error (h_circs h) i = Some y' /\ c_ops y = c_ops y' /\
      (forall k0 o0, In (k0, o0) (c_backends y) -> In (k0, o0) (c_backends y') \/ (c = i /\ k0 = name /\ o0 = List.length (h_objs h)))).
    { intros i y H. apply nth_put in H. destruct H as [[<- [-> _]]|[_ H]].
      - exists x. repeat split; auto. intros k0 o0 Hin. unfold x' in Hin. simpl in Hin. apply in_app_or in Hin.
        destruct Hin as [Hin|[Hin|[]]]; auto. injection Hin as <- <-. auto.
      - exists y. auto. }
    refine (conj _ (conj _ (conj _ (conj _ (conj eq_refl (conj (good_new _ _) eq_refl)))))); simpl.
    2: eapply nth_put_eq; eauto.
    2: apply in_or_app; right; simpl; auto.
    2: apply nth_new.
    split; simpl; try apply S.
    + rewrite put_length. apply S.
    + intros i y w Hy Hw. apply nth_put in Hy. destruct Hy as [[<- [-> _]]|[N Hy]].
      * rewrite Hv in Hw. injection Hw as <-. destruct V as [G1 G2 G3 G4 G5]. split; simpl; auto. intros k0 o0 Hin. apply in_app_or in Hin.
        destruct Hin as [Hin|[Hin|[]]].
        -- destruct (G5 _ _ Hin) as [b [B1 B2]]. exists b. split; auto. apply nth_app_l; auto.
        -- injection Hin as <- <-. exists (BObj k new_backend). rewrite nth_new. repeat split; auto. apply good_new.
      * destruct (sm_circ _ _ S _ _ _ Hy Hw) as [G1 G2 G3 G4 G5]. split; auto. simpl. intros k0 o0 Hin.
        destruct (G5 _ _ Hin) as [b [B1 B2]]. exists b. split; auto. apply nth_app_l; auto.
    + intros i j y z Hy Hz Eo. destruct (Back _ _ Hy) as [y' [Y1 [Y2 Y3]]]. destruct (Back _ _ Hz) as [z' [Z1 [Z2 Z3]]].
      eapply (sm_sep_ops _ _ S); eauto. congruence.
    + intros i j y z k0 k1 o0 Hy Hz H1 H2. destruct (Back _ _ Hy) as [y' [Y1 [Y2 Y3]]]. destruct (Back _ _ Hz) as [z' [Z1 [Z2 Z3]]].
      destruct (Y3 _ _ H1) as [I1|[E1 [-> E1']]]; destruct (Z3 _ _ H2) as [I2|[E2 [-> E2']]].
      * eapply (sm_sep_objs _ _ S); eauto.
      * exfalso. apply (Hnew _ _ k0 Y1). rewrite <- E2'. exact I1.
      * exfalso. apply (Hnew _ _ k1 Z1). rewrite <- E1'. exact I2.
      * split; congruence.
    + intros i y k0 o0 Hy Hin Hu. destruct (Back _ _ Hy) as [y' [Y1 [Y2 Y3]]]. destruct (Y3 _ _ Hin) as [I|[_ [_ ->]]].
      * eapply (sm_user _ _ S); eauto.
      * apply (sm_user_lt _ _ S) in Hu. lia.
    + intros o Hu. rewrite app_length. apply (sm_user_lt _ _ S) in Hu. lia.
Qed.

(** ** Register growth *)
Lemma max_fold : forall l a w, (fold_left Z.max l a < w <-> a < w /\ Forall (fun z => z < w) l)%Z.
Proof.
  induction l; intros b w; simpl; [split; [auto|tauto]|]. rewrite IHl. rewrite Z.max_lub_lt_iff.
  split; [intros [[H1 H2] H3]; auto|intros [H1 H2]; inversion H2; auto].
Qed.
Lemma max_default_lt : forall l w, (0 <= w)%Z -> (max_default l < w <-> Forall (fun z => z < w) l)%Z.
Proof.
  intros [|a l] w Hw; simpl; [split; [auto|lia]|]. rewrite max_fold. split; [intros [H1 H2]; auto|intros H; inversion H; auto].
Qed.
Lemma max_single : forall t m, maximum_idx_single t = Ok m -> flat1 t /\ forall w, (0 <= w)%Z -> (holds1 w t <-> m < w)%Z.
Proof.
  intros [i|a b st|l|] m H; simpl in H; try discriminate; injection H as <-; split; simpl; auto; intros w Hw; [tauto|].
  destruct a as [a|]; destruct b as [b|]; split; intros H.
  all: try (match type of H with _ /\ _ => destruct H as [H1 H2] end; try pose proof (H1 _ eq_refl); try pose proof (H2 _ eq_refl); lia).
  all: split; intros z E; try discriminate; injection E as <-; lia.
Qed.
Lemma max_single_err : forall t e, maximum_idx_single t = Err e -> e = AttributeError /\ ~ flat1 t.
Proof. intros [i|a b st|l|] e H; simpl in H; try discriminate; injection H as <-; simpl; tauto. Qed.
Lemma map_max : forall l ms, map_res maximum_idx_single l = Ok ms -> Forall flat1 l /\
  forall w, (0 <= w)%Z -> (Forall (holds1 w) l <-> Forall (fun z => z < w)%Z ms).
Proof.
  induction l as [|t l IH]; intros ms H; simpl in H; [injection H as <-; split; [constructor|intros; split; constructor]|].
  destruct (maximum_idx_single t) as [m|] eqn:E; simpl in H; [|discriminate].
  destruct (map_res maximum_idx_single l) as [ms'|] eqn:E'; simpl in H; [|discriminate]. injection H as <-.
  destruct (IH _ eq_refl) as [F1 F2]. destruct (max_single _ _ E) as [G1 G2]. split; [constructor; auto|].
  intros w Hw. specialize (F2 w Hw). specialize (G2 w Hw).
  split; intros H; inversion H; subst; constructor; tauto.
Qed.
Lemma map_max_err : forall l e, map_res maximum_idx_single l = Err e -> e = AttributeError /\ ~ Forall flat1 l.
Proof.
  induction l as [|t l IH]; intros e H; simpl in H; [discriminate|].
  destruct (maximum_idx_single t) as [m|e'] eqn:E; simpl in H.
  - destruct (map_res maximum_idx_single l) as [ms'|] eqn:E'; simpl in H; [discriminate|]. injection H as <-.
    destruct (IH _ eq_refl) as [F1 F2]. split; auto. intros F. inversion F; auto.
  - injection H as <-. destruct (max_single_err _ _ E). split; auto. intros F. inversion F; auto.
Qed.
Lemma max_index : forall t m, get_maximum_index t = Ok m -> flat t /\ forall w, (0 <= w)%Z -> (holds w t <-> m < w)%Z.
Proof.
  intros [i|a b st|l|] m H; unfold get_maximum_index in H; try (apply max_single in H; exact H).
  destruct (map_res maximum_idx_single l) as [ms|] eqn:E; simpl in H; [|discriminate]. injection H as <-.
  destruct (map_max _ _ E) as [F1 F2]. split; auto. intros w Hw. simpl. rewrite max_default_lt; auto.
Qed.
Lemma max_index_err : forall t e, get_maximum_index t = Err e -> e = AttributeError /\ ~ flat t.
Proof.
  intros [i|a b st|l|] e H; unfold get_maximum_index in H; try (apply max_single_err in H; exact H).
  destruct (map_res maximum_idx_single l) as [ms|] eqn:E; simpl in H; [discriminate|]. injection H as <-.
  apply map_max_err. exact E.
Qed.
Lemma max_grown : forall t m n, (0 <= n)%Z -> get_maximum_index t = Ok m -> grown n t (Z.max (m + 1) n).
Proof.
  intros t m n Hn H. destruct (max_index _ _ H) as [_ F]. unfold grown. split; [lia|split].
  - apply F; lia.
  - intros w' Hw Hh. apply F in Hh; lia.
Qed.

(** ** Daggers *)
Lemma dagger_err : forall g e, gate_dagger g = Err e -> e = ValueError /\ irreversible g.
Proof. intros [] e H; simpl in H; try discriminate; injection H as <-; simpl; auto. Qed.
Lemma dagger_ok : forall g g', gate_dagger g = Ok g' -> ~ irreversible g.
Proof. intros [] g' H; simpl in *; auto; discriminate. Qed.
Lemma dagger_app : forall l im g, dagger_ops (l ++ [g]) im =
  match dagger_ops l im with
  | Ok r => match gate_dagger g with
            | Ok g' => Ok (r ++ [g'])
            | Err ValueError => if im then Ok r else Err ValueError
            | Err e => Err e
            end
  | Err e => Err e
  end.
Proof.
  induction l as [|a l IH]; intros im g; simpl.
  - destruct (gate_dagger g) as [g'|e] eqn:E; simpl; auto.
  - rewrite IH. destruct (gate_dagger a) as [a'|e] eqn:E; simpl.
    + destruct (dagger_ops l im); simpl; auto. destruct (gate_dagger g) as [g'|e]; simpl; auto. destruct e; auto. destruct im; auto.
    + destruct e; auto. destruct im; auto.
Qed.
Lemma dagger_ops_spec : forall gs im,
  (exists r, dagger_ops (rev gs) im = Ok r /\ reversed gs r /\ (im = false -> Forall (fun g => ~ irreversible g) gs)) \/
  (dagger_ops (rev gs) im = Err ValueError /\ im = false /\ Exists irreversible gs).
Proof.
  induction gs as [|g gs IH]; intros im; simpl.
  - left. exists []. repeat split; auto. constructor.
  - rewrite dagger_app. destruct (IH im) as [[r [E [Hr Hi]]]|[E [-> Hx]]]; rewrite E.
    + destruct (gate_dagger g) as [g'|e] eqn:Eg.
      * left. exists (r ++ [g']). repeat split; auto. { constructor; auto. } intros Him. constructor; auto. eapply dagger_ok; eauto.
      * destruct (dagger_err _ _ Eg) as [-> Hg]. destruct im.
        -- left. exists r. repeat split; auto. apply rv_drop; auto. discriminate.
        -- right. auto.
    + right. auto.
Qed.

(** ** Copies of backends *)
Lemma copy_backends_spec : forall gs bs h, 
  (forall k o, In (k, o) bs -> exists b, nth_error (h_objs h) o = Some b /\ lookup backends_table k = Some (o_kind b) /\ good gs b) ->
  exists bs' os, copy_backends_of bs h = (Ok bs', Heap (h_lists h) (h_objs h ++ os) (h_circs h) (h_default h) (h_pos h)) /\
    (forall k o, In (k, o) bs' -> List.length (h_objs h) <= o /\ exists b, nth_error (h_objs h ++ os) o = Some b /\
      lookup backends_table k = Some (o_kind b) /\ good gs b) /\
    (forall k k' o, In (k, o) bs' -> In (k', o) bs' -> k = k').
Proof.
  induction bs as [|[k o] bs IH]; intros h H.
  - exists [], []. simpl. rewrite app_nil_r. split; [destruct h; reflexivity|]. split; [intros k o []|intros k k' o []].
  - destruct (H k o (or_introl eq_refl)) as [b [B1 [B2 B3]]]. simpl. unfold get. rewrite B1. unfold alloc_obj.
    set (h1 := Heap (h_lists h) (h_objs h ++ [b]) (h_circs h) (h_default h) (h_pos h)).
    destruct (IH h1) as [bs' [os [E [P1 P2]]]].
    { intros k' o' Hin. destruct (H k' o' (or_intror Hin)) as [b' [B1' B2']]. exists b'. split; auto. apply nth_app_l; auto. }
    rewrite E. simpl. exists ((k, List.length (h_objs h)) :: bs'), (b :: os). rewrite <- app_assoc. split; [reflexivity|]. split.
    + intros k' o' [Hin|Hin].
      * injection Hin as <- <-. split; auto. exists b. split; auto. rewrite nth_error_app2, Nat.sub_diag; auto.
      * destruct (P1 _ _ Hin) as [L [b' Q]]. simpl in L, Q. rewrite app_length in L. simpl in L. split; [lia|]. exists b'.
        rewrite <- app_assoc in Q. exact Q.
    + intros k' k'' o' [H1|H1] [H2|H2].
      * congruence.
      * injection H1 as <- <-. destruct (P1 _ _ H2) as [L _]. simpl in L. rewrite app_length in L. simpl in L. lia.
      * injection H2 as <- <-. destruct (P1 _ _ H1) as [L _]. simpl in L. rewrite app_length in L. simpl in L. lia.
      * eapply P2; eauto.
Qed.

Lemma copy_sim : forall h s c x v cb cd, sim h s -> nth_error (h_circs h) c = Some x -> nth_error (vh_circs s) c = Some v ->
  exists h', do_copy h c cb cd = (Ok (OutCirc (next s)), h') /\ sim h' (add_circ s (VCirc (v_gates v) (v_n v) (if cd then v_default v else None))) /\
    exists bs, nth_error (h_circs h') (next s) = Some (Circ (List.length (h_lists h)) (v_n v) bs (if cd then v_default v else None)) /\
      nth_error (h_circs h') c = Some x.
Proof.
  intros h s c x v cb cd S Hx Hv. pose proof (sm_circ _ _ S _ _ _ Hx Hv) as V. unfold do_copy, get_circ, get. rewrite Hx, (sc_gates _ _ _ V).
  unfold alloc_list. set (h1 := Heap (h_lists h ++ [v_gates v]) (h_objs h) (h_circs h) (h_default h) (h_pos h)).
  assert (K : exists bs os, (if cb then copy_backends_of (c_backends x) h1 else ok [] h1)
     = (Ok bs, Heap (h_lists h ++ [v_gates v]) (h_objs h ++ os) (h_circs h) (h_default h) (h_pos h)) /\
    (forall k o, In (k, o) bs -> List.length (h_objs h) <= o /\ exists b, nth_error (h_objs h ++ os) o = Some b /\
      lookup backends_table k = Some (o_kind b) /\ good (v_gates v) b) /\
    (forall k k' o, In (k, o) bs -> In (k', o) bs -> k = k')).
  { destruct cb.
    - apply (copy_backends_spec (v_gates v) (c_backends x) h1). intros k o Hin. apply (sc_objs _ _ _ V _ _ Hin).
    - exists [], []. rewrite app_nil_r. split; [reflexivity|]. split; [intros k o []|intros k k' o []]. }
  destruct K as [bs [os [-> [P1 P2]]]]. simpl. unfold next. rewrite <- (sm_len _ _ S), (sc_n _ _ _ V), (sc_default _ _ _ V).
  eexists. split; [reflexivity|]. split.
  - apply sim_add; auto. rewrite <- (sc_n _ _ _ V). apply (sc_pos _ _ _ V).
  - exists bs. simpl. split; [apply nth_new|]. apply nth_app_l. exact Hx.
Qed.

Lemma iadd_sim : forall h s a b va vb, sim h s -> nth_error (vh_circs s) a = Some va -> nth_error (vh_circs s) b = Some vb ->
  exists h', do_iadd h a b = (Ok (OutCirc a), h') /\
    sim h' (set_circ s a (VCirc (v_gates va ++ v_gates vb) (Z.max (v_n va) (v_n vb)) (v_default va))).
Proof.
  intros h s a b va vb S Ha Hb.
  assert (G : forall c v, nth_error (vh_circs s) c = Some v -> exists x, nth_error (h_circs h) c = Some x /\ sim_circ h x v).
  { intros c v H. destruct (nth_error (h_circs h) c) as [x|] eqn:E; [exists x; split; auto; eapply sm_circ; eauto|].
    rewrite (sim_none _ _ _ S E) in H. discriminate. }
  destruct (G _ _ Ha) as [x [Hx X]]. destruct (G _ _ Hb) as [y [Hy Y]]. unfold do_iadd, get_circ, get.
  rewrite Hx, (sc_gates _ _ _ X), Hy, (sc_gates _ _ _ Y). eexists. split; [reflexivity|].
  rewrite (sc_n _ _ _ X), (sc_n _ _ _ Y), (sc_default _ _ _ X). apply sim_update; auto.
  pose proof (sc_pos _ _ _ X). rewrite (sc_n _ _ _ X) in H. lia.
Qed.

Lemma set_added : forall s v w, set_circ (add_circ s v) (next s) w = add_circ s w.
Proof.
  intros s v w. unfold set_circ, add_circ, next. simpl. f_equal. induction (vh_circs s); simpl; auto. f_equal; auto.
Qed.

(** ** Runs *)
Lemma call_run_sim : forall h s c x v k o b a, sim h s -> nth_error (h_circs h) c = Some x -> nth_error (vh_circs s) c = Some v ->
  In (k, o) (c_backends x) -> nth_error (h_objs h) o = Some b -> good (v_gates v) b ->
  exists r h', call_run rng h o (v_gates v) (v_n v) a = (r, h') /\
    match o_kind b with
    | BOther name => r = Ok (OutOther name (v_gates v) (v_n v)) /\ h' = h
    | kd => exists p, fresh rng v a (vh_pos s) same_out kd r p /\ sim h' (at_pos s p)
    end.
Proof.
  intros h s c x v k o [kd b] a S Hx Hv Hin Hb Hg. unfold call_run, get. rewrite Hb. simpl o_kind.
  pose proof (sm_pos _ _ S) as Hp. pose proof (sm_circ _ _ S _ _ _ Hx Hv) as V.
  destruct kd as [| |name].
  - destruct (np_run rng b (v_gates v) (Z.to_nat (v_n v)) (na_args a) (h_pos h)) as [[r b'] p] eqn:E.
    destruct (good_np_run _ _ _ _ _ _ _ _ Hg E) as [G [r0 [b0 [E0 Hs]]]]. eexists; eexists. split; [reflexivity|].
    exists p. split.
    + rewrite Hp in E0. eapply fr_numpy; [exact E0|]. destruct r, r0; simpl in *; auto.
    + apply sim_pos. eapply sim_put_own; eauto.
  - destruct (nb_run rng b (v_gates v) (Z.to_nat (v_n v)) a (h_pos h)) as [[r b'] p] eqn:E.
    destruct (good_nb_run _ _ _ _ _ _ _ _ Hg E) as [G [r0 [b0 [p0 [E0 Hs]]]]]. eexists; eexists. split; [reflexivity|].
    exists p. split.
    + rewrite Hp in E0. eapply (fr_numba rng v a (vh_pos s) same_out _ r); [exact E0| |intros [N1 [N2 [N3 N4]]]; apply Hs; auto; lia].
      destruct r as [[]|]; simpl; auto. repeat split; auto.
    + apply sim_pos. eapply sim_put_own; eauto.
  - exists (Ok (OutOther name (v_gates v) (v_n v))), h. auto.
Qed.

Lemma cache_call_sim : forall h s c x v k o b, sim h s -> nth_error (h_circs h) c = Some x -> nth_error (vh_circs s) c = Some v ->
  In (k, o) (c_backends x) -> nth_error (h_objs h) o = Some b -> good (v_gates v) b ->
  exists r h', call_make_cache rng h o (v_gates v) (v_n v) = (r, h') /\
    match o_kind b with
    | BOther name => r = Ok OutNone /\ h' = h
    | kd => exists p, fresh rng v (NbArgs no_args true) (vh_pos s) finished_like kd r p /\ sim h' (at_pos s p)
    end.
Proof.
  intros h s c x v k o b S Hx Hv Hin Hb Hg.
  destruct (call_run_sim h s c x v k o b (NbArgs no_args true) S Hx Hv Hin Hb Hg) as [r [h' [E F]]].
  assert (K : forall r0, same_out r r0 -> finished_like (match r with Ok _ => Ok OutNone | Err e => Err e end) r0).
  { intros r0. destruct r as [[]|], r0; simpl; auto. }
  unfold call_make_cache, get. rewrite Hb. destruct b as [kd b]. simpl o_kind in F |- *. destruct kd; simpl.
  - rewrite E. destruct F as [p [F Sm]]. exists (match r with Ok _ => Ok OutNone | Err e => Err e end), h'. split; [destruct r; reflexivity|].
    exists p. split; auto. inversion F; subst. eapply fr_numpy; eauto.
  - rewrite E. destruct F as [p [F Sm]]. exists (match r with Ok _ => Ok OutNone | Err e => Err e end), h'. split; [destruct r; reflexivity|].
    exists p. split; auto. inversion F; subst. eapply fr_numba; eauto.
  - exists (Ok OutNone), h. auto.
Qed.

Lemma run_sim : forall h s c o a r h', sim h s ->
  do_run rng h c (match o with Some x => SelName x | None => SelDefault end) a = (r, h') ->
  exists s', vstep rng s (ORun c (match o with Some x => SelName x | None => SelDefault end) a) r s' /\ sim h' s'.
Proof.
  intros h s c o a r h' S E. unfold do_run, get_circ, get in E. destruct (nth_error (h_circs h) c) as [x|] eqn:Hx.
  2:{ injection E as <- <-. exists s. split; auto. eapply vs_undefined; [simpl; auto|]. eapply sim_none; eauto. }
  destruct (sim_get _ _ _ _ S Hx) as [v [Hv V]]. rewrite (sc_gates _ _ _ V) in E. cbv beta iota in E.
  assert (E' : bind_h (get_backend c x (sel_name s v o) h) (fun o h => call_run rng h o (v_gates v) (c_n x) a) = (r, h')).
  { rewrite <- E. unfold sel_name, default_name. rewrite (sc_default _ _ _ V), (sm_default _ _ S). destruct o; auto.
}
  clear E. destruct (sim_get_backend h s c x v (sel_name s v o) S Hx Hv)
    as [[o1 [h1 [x1 [b [E1 [S1 [Hx1 [Hin [Hb [Hk [Hg Hp]]]]]]]]]]]|[Hk E1]]; rewrite E1 in E'; simpl in E'.
  - rewrite (sc_n _ _ _ V) in E'. destruct (call_run_sim h1 s c x1 v _ o1 b a S1 Hx1 Hv Hin Hb Hg) as [r1 [h2 [E2 F]]].
    rewrite E2 in E'. injection E' as <- <-. pose proof (kind_lookup _ _ Hk) as Kd. destruct (o_kind b).
    + destruct F as [p [F S2]]. exists (at_pos s p). split; auto. eapply vs_run; eauto.
    + destruct F as [p [F S2]]. exists (at_pos s p). split; auto. eapply vs_run; eauto.
    + destruct F as [-> ->]. exists s. split; auto. eapply vs_run_other; eauto.
  - injection E' as <- <-. exists s. split; auto. eapply vs_run_unknown; eauto. apply unknown_lookup; auto.
Qed.

Lemma step_sim : forall h s o r h', sim h s -> proper_op (vh_user s) o -> step rng h o = (r, h') ->
  exists s', vstep rng s o r s' /\ sim h' s'.
Proof.
  intros h s o r h' S Hp E.
  assert (Un : forall c, nth_error (h_circs h) c = None -> nth_error (vh_circs s) c = None) by (intros; eapply sim_none; eauto).
  destruct o as [n|n c|c g|a b|a b|c cb cd|c im cb cd|c sl a|c name a|c name|c name|c|name| |k]; simpl in E, Hp.
  - (* Circuit(n) *)
    injection E as <- <-. unfold vh_circs. eexists. split.
    { rewrite (sm_len _ _ S). apply vs_new. }
    rewrite <- (app_nil_r (h_objs h)) at 1. apply sim_add; auto; [lia|intros k o []|intros k k' o []].
  - contradiction.
  - (* a gate *)
    unfold get_circ, get in E. destruct (nth_error (h_circs h) c) as [x|] eqn:Hx.
    2:{ injection E as <- <-. exists s. split; auto. eapply vs_undefined; [simpl; auto|]; auto. }
    destruct (sim_get _ _ _ _ S Hx) as [v [Hv V]]. rewrite (sc_gates _ _ _ V) in E. cbv beta iota zeta in E.
    pose proof (sc_n _ _ _ V) as Vn. pose proof (sc_pos _ _ _ V) as Vp.
    destruct (get_maximum_index (targets g)) as [m|e] eqn:Em; injection E as <- <-.
    + exists (set_circ s c (VCirc (v_gates v ++ [g]) (Z.max (m + 1) (v_n v)) (v_default v))). split.
      * eapply vs_gate; eauto. apply (max_index _ _ Em). apply max_grown; auto. lia.
      * rewrite Vn, (sc_default _ _ _ V). apply sim_update; auto. lia.
    + destruct (max_index_err _ _ Em) as [-> Hf].
      exists (set_circ s c (VCirc (v_gates v ++ [g]) (v_n v) (v_default v))). split.
      * apply vs_gate_refused; auto.
      * pose proof (sim_update h s c x v [g] (v_n v) (v_default v) S Hx Hv ltac:(lia)) as U.
        rewrite <- Vn, <- (sc_default _ _ _ V) in U at 1. replace (Circ (c_ops x) (c_n x) (c_backends x) (c_default x)) with x in U by (destruct x; reflexivity).
        rewrite put_circ_same in U by exact Hx. exact U.
  - (* += *)
    destruct (nth_error (vh_circs s) a) as [va|] eqn:Ha.
    + destruct (nth_error (vh_circs s) b) as [vb|] eqn:Hb.
      * destruct (iadd_sim h s a b va vb S Ha Hb) as [h1 [E1 S1]]. rewrite E1 in E. injection E as <- <-. eexists. split; [|exact S1].
        apply vs_iadd; auto.
      * unfold do_iadd, get_circ, get in E. destruct (nth_error (h_circs h) a) as [x|] eqn:Hx.
        -- destruct (sim_get _ _ _ _ S Hx) as [v [Hv V]]. rewrite (sc_gates _ _ _ V) in E.
           destruct (nth_error (h_circs h) b) as [y|] eqn:Hy; [destruct (sim_get _ _ _ _ S Hy) as [w [Hw _]]; congruence|].
           injection E as <- <-. exists s. split; auto. eapply (vs_undefined rng s (OIAdd a b) b); simpl; auto.
        -- rewrite (Un _ Hx) in Ha. discriminate.
    + unfold do_iadd, get_circ, get in E. destruct (nth_error (h_circs h) a) as [x|] eqn:Hx.
      * destruct (sim_get _ _ _ _ S Hx) as [v [Hv V]]. congruence.
      * injection E as <- <-. exists s. split; auto. eapply (vs_undefined rng s (OIAdd a b) a); simpl; auto.
  - (* + *)
    unfold get_circ at 1, get in E. destruct (nth_error (h_circs h) b) as [y|] eqn:Hy.
    2:{ injection E as <- <-. exists s. split; auto. eapply (vs_undefined rng s (OAdd a b) b); simpl; auto. }
    destruct (sim_get _ _ _ _ S Hy) as [vb [Hb Vb]]. rewrite (sc_gates _ _ _ Vb) in E.
    destruct (nth_error (h_circs h) a) as [x|] eqn:Hx.
    2:{ unfold do_copy, get_circ, get in E. rewrite Hx in E. injection E as <- <-. exists s. split; auto.
        eapply (vs_undefined rng s (OAdd a b) a); simpl; auto. }
    destruct (sim_get _ _ _ _ S Hx) as [va [Ha Va]].
    destruct (copy_sim h s a x va true true S Hx Ha) as [h1 [E1 [S1 _]]]. rewrite E1 in E. simpl in E.
    destruct (iadd_sim h1 _ (next s) b _ vb S1 (nth_new _ _ _) (nth_app_l _ _ _ _ _ Hb)) as [h2 [E2 S2]].
    rewrite E2 in E. injection E as <- <-. rewrite set_added in S2. eexists. split; [|exact S2]. apply (vs_add rng s a b va vb); auto.
  - (* copy *)
    destruct (nth_error (h_circs h) c) as [x|] eqn:Hx.
    2:{ unfold do_copy, get_circ, get in E. rewrite Hx in E. injection E as <- <-. exists s. split; auto.
        eapply (vs_undefined rng s (OCopy c cb cd) c); simpl; auto. }
    destruct (sim_get _ _ _ _ S Hx) as [v [Hv V]]. destruct (copy_sim h s c x v cb cd S Hx Hv) as [h1 [E1 [S1 _]]].
    rewrite E1 in E. injection E as <- <-. eexists. split; [|exact S1]. apply vs_copy; auto.
  - (* dagger *)
    subst cb. unfold do_dagger, get_circ, get in E. destruct (nth_error (h_circs h) c) as [x|] eqn:Hx.
    2:{ injection E as <- <-. exists s. split; auto. eapply (vs_undefined rng s (ODagger c im false cd) c); simpl; auto. }
    destruct (sim_get _ _ _ _ S Hx) as [v [Hv V]]. rewrite (sc_gates _ _ _ V) in E.
    destruct (dagger_ops_spec (v_gates v) im) as [[gs [Ed [Hr Hi]]]|[Ed [-> Hi]]]; rewrite Ed in E.
    + simpl in E. injection E as <- <-. exists (add_circ s (VCirc gs (v_n v) (if cd then v_default v else None))). split.
      * rewrite (sm_len _ _ S). apply vs_dagger; auto.
      * rewrite (sc_n _ _ _ V), (sc_default _ _ _ V), <- (app_nil_r (h_objs h)) at 1. apply sim_add; auto.
        -- rewrite <- (sc_n _ _ _ V). apply V.
        -- intros k o [].
        -- intros k k' o [].
    + injection E as <- <-. exists s. split; auto. eapply vs_dagger_refused; eauto.
  - (* run *)
    destruct sl as [|name|o].
    + apply (run_sim h s c None a r h' S E).
    + apply (run_sim h s c (Some name) a r h' S E).
    + unfold do_run, get_circ, get in E. destruct (nth_error (h_circs h) c) as [x|] eqn:Hx.
      2:{ injection E as <- <-. exists s. split; auto. eapply (vs_undefined rng s (ORun c (SelObj o) a) c); simpl; auto. }
      destruct (sim_get _ _ _ _ S Hx) as [v [Hv V]]. rewrite (sc_gates _ _ _ V) in E. cbv beta iota in E.
      exists (at_pos s (h_pos h')). split.
      { eapply vs_run_obj; eauto. unfold call_run, get in E. destruct (nth_error (h_objs h) o) as [[[| |nm] b]|].
        - destruct (np_run _ _ _ _ _ _) as [[[r1|] b1] p1]; injection E as <- _; exact I.
        - destruct (nb_run _ _ _ _ _ _) as [[[r1|] b1] p1]; injection E as <- _; exact I.
        - injection E as <- _; exact I.
        - injection E as <- _; exact I. }
      unfold call_run, get in E.
      assert (Same : sim h (at_pos s (h_pos h))). { rewrite (sm_pos _ _ S). destruct s; exact S. }
      destruct (nth_error (h_objs h) o) as [[[| |nm] b]|] eqn:Ho.
      * destruct (np_run _ _ _ _ _ _) as [[r1 b1] p1]. injection E as <- <-. simpl. apply sim_pos. apply sim_put_user; auto.
      * destruct (nb_run _ _ _ _ _ _) as [[r1 b1] p1]. injection E as <- <-. simpl. apply sim_pos. apply sim_put_user; auto.
      * injection E as <- <-. exact Same.
      * injection E as <- <-. exact Same.
  - (* run_with_ *)
    destruct (registered name) eqn:Er.
    + destruct (run_sim h s c (Some name) a r h' S E) as [s' [V1 S1]]. exists s'. split; auto. apply vs_run_with; auto. apply registered_known; auto.
    + injection E as <- <-. exists s. split; auto. apply vs_run_with_unknown. apply registered_unknown; auto.
  - (* make_cache *)
    unfold get_circ, get in E. destruct (nth_error (h_circs h) c) as [x|] eqn:Hx.
    2:{ injection E as <- <-. exists s. split; auto. eapply (vs_undefined rng s (OMakeCache c name) c); simpl; auto. }
    destruct (sim_get _ _ _ _ S Hx) as [v [Hv V]]. rewrite (sc_gates _ _ _ V) in E. cbv beta iota in E.
    replace (match name with Some s0 => s0 | None => default_name h x end) with (sel_name s v name) in E.
    2:{ unfold sel_name, default_name. rewrite (sc_default _ _ _ V), (sm_default _ _ S). destruct name; auto. }
    destruct (sim_get_backend h s c x v (sel_name s v name) S Hx Hv)
      as [[o1 [h1 [x1 [b [E1 [S1 [Hx1 [Hin [Hb [Hk [Hg Hpp]]]]]]]]]]]|[Hk E1]]; rewrite E1 in E; simpl in E.
    + rewrite (sc_n _ _ _ V) in E. destruct (cache_call_sim h1 s c x1 v _ o1 b S1 Hx1 Hv Hin Hb Hg) as [r1 [h2 [E2 F]]].
      rewrite E2 in E. injection E as <- <-. pose proof (kind_lookup _ _ Hk) as Kd. destruct (o_kind b).
      * destruct F as [p [F S2]]. exists (at_pos s p). split; auto. eapply vs_cache; eauto.
      * destruct F as [p [F S2]]. exists (at_pos s p). split; auto. eapply vs_cache; eauto.
      * destruct F as [-> ->]. exists s. split; auto. eapply vs_cache_other; eauto.
    + injection E as <- <-. exists s. split; auto. eapply vs_cache_unknown; eauto. apply unknown_lookup; auto.
  - (* set_default_backend *)
    unfold get_circ, get in E. destruct (nth_error (h_circs h) c) as [x|] eqn:Hx.
    2:{ injection E as <- <-. exists s. split; auto. eapply (vs_undefined rng s (OSetDefault c name) c); simpl; auto. }
    destruct (sim_get _ _ _ _ S Hx) as [v [Hv V]]. rewrite (sc_gates _ _ _ V) in E. cbv beta iota in E.
    destruct name as [nm|]; [|injection E as <- <-; exists s; split; auto; eapply vs_default_none; eauto].
    destruct (registered nm) eqn:Er; injection E as <- <-.
    + eexists. split; [apply (vs_default rng s c nm v Hv); apply registered_known; auto|].
      pose proof (sim_update h s c x v [] (v_n v) (Some nm) S Hx Hv) as U. rewrite app_nil_r in U.
      rewrite put_list_same in U by apply V. rewrite (sc_n _ _ _ V). apply U. rewrite <- (sc_n _ _ _ V). apply V.
    + exists s. split; auto. eapply vs_default_unknown; eauto. apply registered_unknown; auto.
  - (* get_default_backend_name *)
    unfold get_circ, get in E. destruct (nth_error (h_circs h) c) as [x|] eqn:Hx.
    2:{ injection E as <- <-. exists s. split; auto. eapply (vs_undefined rng s (OGetDefault c) c); simpl; auto. }
    destruct (sim_get _ _ _ _ S Hx) as [v [Hv V]]. rewrite (sc_gates _ _ _ V) in E. injection E as <- <-. exists s. split; auto.
    replace (default_name h x) with (sel_name s v None); [apply vs_get_default; auto|].
    unfold sel_name, default_name. rewrite (sc_default _ _ _ V), (sm_default _ _ S). destruct (v_default v); auto.
  - (* global default *)
    destruct (registered name) eqn:Er; injection E as <- <-.
    + eexists. split; [apply vs_global; apply registered_known; auto|]. apply sim_global; auto.
    + exists s. split; auto. apply vs_global_unknown. apply registered_unknown; auto.
  - injection E as <- <-. exists s. split; auto. rewrite (sm_default _ _ S). apply vs_global_name.
  - injection E as <- <-. eexists. split; [apply vs_backend|]. apply sim_obj; auto.
Qed.

(** the objects made by the program are those of the specification *)
Lemma vstep_user : forall s o r s', vstep rng s o r s' ->
  vh_user s' = match r with Ok (OutObj x) => x :: vh_user s | _ => vh_user s end.
Proof.
  intros s o r s' H. induction H; simpl; auto.
  - destruct H1 as [r r0 b p E K|r r1 r0 b p0 p E K _]; destruct r as [[]|]; simpl in K; try contradiction; auto; destruct r1; contradiction || auto.
  - destruct r as [[]|]; contradiction || auto.
  - destruct H1 as [r r0 b p E K|r r1 r0 b p0 p E K _]; destruct r as [[]|]; simpl in K; try contradiction; auto; destruct r1; contradiction || auto.
Qed.

Lemma steps_sim : forall os h s rs h', sim h s -> steps rng h os = (rs, h') -> proper (vh_user s) os rs ->
  exists s', vsteps rng s os rs s' /\ sim h' s'.
Proof.
  induction os as [|o os IH]; intros h s rs h' S E P; simpl in E.
  - injection E as <- <-. exists s. split; [constructor|auto].
  - destruct (step rng h o) as [r h1] eqn:E1. destruct (steps rng h1 os) as [rs1 h2] eqn:E2. injection E as <- <-.
    destruct P as [P1 P2]. destruct (step_sim _ _ _ _ _ S P1 E1) as [s1 [V1 S1]].
    rewrite <- (vstep_user _ _ _ _ V1) in P2. destruct (IH _ _ _ _ S1 E2 P2) as [s2 [V2 S2]]. exists s2. split; auto. econstructor; eauto.
Qed.
End Sim.
