(** Properties of programs on circuits. *)
From Coq Require Import List Arith NArith ZArith Bool String Reals Lia Lra FunctionalExtensionality.
Import ListNotations.
From Verif Require Import Base Cplx Bits ModelTargets ModelGate ModelNumpy ModelNumba ModelCircuit SpecTargets SpecQuantum SpecCircuit
  SpecMeasure SpecRun SpecAPI ProofTargets ProofArray ProofNumpy ProofRun ProofUnitary ProofCache ProofMeasure ProofDagger ProofWhole
  ProofExamples ProofKernel ProofNumba ProofNumbaRun ProofAPI.

(** ** Width *)
Definition same_width (h h' : heap) : Prop := forall c x, nth_error (h_circs h) c = Some x ->
  exists x', nth_error (h_circs h') c = Some x' /\ c_n x' = c_n x /\ c_default x' = c_default x.
Lemma sw_refl : forall h, same_width h h. Proof. intros h c x H. eauto. Qed.
Lemma sw_trans : forall a b c, same_width a b -> same_width b c -> same_width a c.
Proof. intros a b c H1 H2 i x Hx. destruct (H1 _ _ Hx) as [y [Hy [N D]]]. destruct (H2 _ _ Hy) as [z [Hz [N' D']]]. exists z. split; auto. split; congruence. Qed.
Lemma sw_circs : forall h h', h_circs h' = h_circs h -> same_width h h'.
Proof. intros h h' E c x H. rewrite E. eauto. Qed.
Lemma sw_snoc : forall h h' x, h_circs h' = h_circs h ++ [x] -> same_width h h'.
Proof. intros h h' x E c y H. rewrite E. exists y. split; auto. apply nth_app_l; auto. Qed.
Lemma sw_put : forall h h' c x, h_circs h' = put (h_circs h) c x ->
  (forall y, nth_error (h_circs h) c = Some y -> c_n x = c_n y /\ c_default x = c_default y) -> same_width h h'.
Proof.
  intros h h' c x E H i y Hy. rewrite E. destruct (Nat.eq_dec c i) as [<-|N].
  - exists x. split; [eapply nth_put_eq; eauto|]. apply H; auto.
  - exists y. rewrite nth_put_neq; auto.
Qed.

Lemma put_snoc : forall A (l : list A) x y, put (l ++ [x]) (List.length l) y = l ++ [y].
Proof. induction l; intros; simpl; auto. f_equal; auto. Qed.

Section Width.
Variable rng : nat -> R.

Lemma call_run_circs : forall h o gs n a r h', call_run rng h o gs n a = (r, h') -> h_circs h' = h_circs h.
Proof.
  intros h o gs n a r h' E. unfold call_run, get in E. destruct (nth_error (h_objs h) o) as [[[| |nm] b]|].
  - destruct (np_run _ _ _ _ _ _) as [[r1 b1] p1]. injection E as <- <-. reflexivity.
  - destruct (nb_run _ _ _ _ _ _) as [[r1 b1] p1]. injection E as <- <-. reflexivity.
  - injection E as <- <-. reflexivity.
  - injection E as <- <-. reflexivity.
Qed.
Lemma call_cache_circs : forall h o gs n r h', call_make_cache rng h o gs n = (r, h') -> h_circs h' = h_circs h.
Proof.
  intros h o gs n r h' E. unfold call_make_cache in E. destruct (get (h_objs h) o) as [[[| |nm] b]|].
  - destruct (call_run rng h o gs n (NbArgs no_args true)) as [[r1|] h1] eqn:E1; injection E as <- <-; eapply call_run_circs; eauto.
  - destruct (call_run rng h o gs n (NbArgs no_args true)) as [[r1|] h1] eqn:E1; injection E as <- <-; eapply call_run_circs; eauto.
  - injection E as <- <-. reflexivity.
  - injection E as <- <-. reflexivity.
Qed.
Lemma get_backend_sw : forall h c x name r h', nth_error (h_circs h) c = Some x -> get_backend c x name h = (r, h') -> same_width h h'.
Proof.
  intros h c x name r h' Hx E. unfold get_backend in E. destruct (lookup (c_backends x) name).
  - injection E as <- <-. apply sw_refl.
  - destruct (lookup backends_table name); [|injection E as <- <-; apply sw_refl]. unfold alloc_obj in E. injection E as <- <-.
    eapply sw_put; [reflexivity|]. simpl. intros y Hy. rewrite Hx in Hy. injection Hy as <-. auto.
Qed.
Lemma copy_backends_circs : forall bs h r h', copy_backends_of bs h = (r, h') -> h_circs h' = h_circs h /\ h_lists h' = h_lists h.
Proof.
  induction bs as [|[k o] bs IH]; intros h r h' E; simpl in E; [injection E as <- <-; auto|].
  destruct (get (h_objs h) o) as [b|]; [|injection E as <- <-; auto]. unfold alloc_obj in E.
  match type of E with bind_h (copy_backends_of bs ?h1) _ = _ => destruct (copy_backends_of bs h1) as [[r1|] h2] eqn:E1 end;
    simpl in E; injection E as <- <-; apply IH in E1; exact E1.
Qed.
Lemma run_sw : forall h c s a r h', do_run rng h c s a = (r, h') -> same_width h h'.
Proof.
  intros h c s a r h' E. unfold do_run, get_circ, get in E. destruct (nth_error (h_circs h) c) as [x|] eqn:Hx; [|injection E as <- <-; apply sw_refl].
  destruct (nth_error (h_lists h) (c_ops x)) as [gs|]; [|injection E as <- <-; apply sw_refl].
  assert (K : forall name, bind_h (get_backend c x name h) (fun o h => call_run rng h o gs (c_n x) a) = (r, h') -> same_width h h').
  { intros name E'. destruct (get_backend c x name h) as [[o|] h1] eqn:E1; simpl in E'.
    - eapply sw_trans; [eapply get_backend_sw; eauto|]. apply sw_circs. eapply call_run_circs; eauto.
    - injection E' as <- <-. eapply get_backend_sw; eauto. }
  destruct s; eauto. apply sw_circs. eapply call_run_circs; eauto.
Qed.

(** a copy or a dagger: one more circuit *)
Definition added (h h' : heap) (c : nat) (cd : bool) (r : res out) : Prop :=
  (exists x bs l, nth_error (h_circs h) c = Some x /\ r = Ok (OutCirc (List.length (h_circs h))) /\
     h_circs h' = h_circs h ++ [Circ l (c_n x) bs (if cd then c_default x else None)] /\
     l = List.length (h_lists h) /\ exists g, h_lists h' = h_lists h ++ [g]) \/
  (exists e, r = Err e /\ h_circs h' = h_circs h).
Lemma copy_added : forall h c cb cd r h', do_copy h c cb cd = (r, h') -> added h h' c cd r.
Proof.
  intros h c cb cd r h' E. unfold do_copy, get_circ, get in E. destruct (nth_error (h_circs h) c) as [x|] eqn:Hx; [|injection E as <- <-; right; eauto].
  destruct (nth_error (h_lists h) (c_ops x)) as [gs|]; [|injection E as <- <-; right; eauto]. unfold alloc_list in E.
  match type of E with bind_h ?m _ = _ => destruct m as [[bs|] h1] eqn:E1 end; simpl in E; injection E as <- <-.
  - match type of E1 with (if _ then _ else ok _ ?h0) = _ => assert (h_circs h1 = h_circs h /\ h_lists h1 = h_lists h0) as [Eh El] end.
    { destruct cb; [apply copy_backends_circs in E1; apply E1|injection E1 as _ <-; auto]. }
    left. exists x, bs, (List.length (h_lists h)). simpl in *. rewrite Eh, El. eauto 10.
  - right. eexists; split; [reflexivity|]. destruct cb; [apply copy_backends_circs in E1; apply E1|discriminate].
Qed.
Lemma dagger_added : forall h c im cb cd r h', do_dagger h c im cb cd = (r, h') -> added h h' c cd r.
Proof.
  intros h c im cb cd r h' E. unfold do_dagger, get_circ, get in E. destruct (nth_error (h_circs h) c) as [x|] eqn:Hx; [|injection E as <- <-; right; eauto].
  destruct (nth_error (h_lists h) (c_ops x)) as [gs|]; [|injection E as <- <-; right; eauto].
  destruct (dagger_ops (rev gs) im); [|injection E as <- <-; right; eauto]. unfold alloc_list in E.
  match type of E with bind_h ?m _ = _ => destruct m as [[bs|] h1] eqn:E1 end; simpl in E; injection E as <- <-.
  - match type of E1 with (if _ then _ else ok _ ?h0) = _ => assert (h_circs h1 = h_circs h /\ h_lists h1 = h_lists h0) as [Eh El] end.
    { destruct cb; [apply copy_backends_circs in E1; apply E1|injection E1 as _ <-; auto]. }
    left. exists x, bs, (List.length (h_lists h)). simpl in *. rewrite Eh, El. eauto 10.
  - right. eexists; split; [reflexivity|]. destruct cb; [apply copy_backends_circs in E1; apply E1|discriminate].
Qed.
Lemma iadd_circs : forall h a b r h', do_iadd h a b = (r, h') ->
  (exists x y, nth_error (h_circs h) a = Some x /\ nth_error (h_circs h) b = Some y /\ r = Ok (OutCirc a) /\
     h_circs h' = put (h_circs h) a (Circ (c_ops x) (Z.max (c_n x) (c_n y)) (c_backends x) (c_default x))) \/
  (exists e, r = Err e /\ h_circs h' = h_circs h).
Proof.
  intros h a b r h' E. unfold do_iadd, get_circ, get in E. destruct (nth_error (h_circs h) a) as [x|] eqn:Hx; [|injection E as <- <-; right; eauto].
  destruct (nth_error (h_lists h) (c_ops x)) as [gs|]; [|injection E as <- <-; right; eauto].
  destruct (nth_error (h_circs h) b) as [y|] eqn:Hy; [|injection E as <- <-; right; eauto].
  destruct (nth_error (h_lists h) (c_ops y)) as [gs'|]; [|injection E as <- <-; right; eauto].
  injection E as <- <-. left. exists x, y. auto.
Qed.

(** what an operation does to the widths and defaults *)
Inductive effect (h h' : heap) : op -> res out -> Prop :=
| ef_new : forall n l, h_circs h' = h_circs h ++ [Circ l (Z.of_nat n) [] None] -> effect h h' (ONew n) (Ok (OutCirc (List.length (h_circs h))))
| ef_new_ops : forall n c l, h_circs h' = h_circs h ++ [Circ l (Z.of_nat n) [] None] ->
    effect h h' (ONewOps n c) (Ok (OutCirc (List.length (h_circs h))))
| ef_gate : forall c g x m, nth_error (h_circs h) c = Some x -> get_maximum_index (targets g) = Ok m ->
    h_circs h' = put (h_circs h) c (Circ (c_ops x) (Z.max (m + 1) (c_n x)) (c_backends x) (c_default x)) ->
    effect h h' (OGate c g) (Ok (OutCirc c))
| ef_iadd : forall a b x y, nth_error (h_circs h) a = Some x -> nth_error (h_circs h) b = Some y ->
    h_circs h' = put (h_circs h) a (Circ (c_ops x) (Z.max (c_n x) (c_n y)) (c_backends x) (c_default x)) ->
    effect h h' (OIAdd a b) (Ok (OutCirc a))
| ef_add : forall a b x y z, nth_error (h_circs h) a = Some x -> nth_error (h_circs h) b = Some y ->
    h_circs h' = h_circs h ++ [z] -> c_n z = Z.max (c_n x) (c_n y) -> c_default z = c_default x ->
    effect h h' (OAdd a b) (Ok (OutCirc (List.length (h_circs h))))
| ef_copy : forall c (cb cd : bool) x z, nth_error (h_circs h) c = Some x -> h_circs h' = h_circs h ++ [z] ->
    c_n z = c_n x -> c_default z = (if cd then c_default x else None) ->
    effect h h' (OCopy c cb cd) (Ok (OutCirc (List.length (h_circs h))))
| ef_dagger : forall c (im cb cd : bool) x z, nth_error (h_circs h) c = Some x -> h_circs h' = h_circs h ++ [z] ->
    c_n z = c_n x -> c_default z = (if cd then c_default x else None) ->
    effect h h' (ODagger c im cb cd) (Ok (OutCirc (List.length (h_circs h))))
| ef_set : forall c s x, nth_error (h_circs h) c = Some x ->
    h_circs h' = put (h_circs h) c (Circ (c_ops x) (c_n x) (c_backends x) (Some s)) ->
    effect h h' (OSetDefault c (Some s)) (Ok OutNone)
| ef_other : forall o r, same_width h h' -> List.length (h_circs h') = List.length (h_circs h) ->
    match o, r with
    | (ONew _ | ONewOps _ _ | OGate _ _ | OIAdd _ _ | OCopy _ _ _ | ODagger _ _ _ _ | OSetDefault _ _), Ok _ => False
    | OAdd _ _, Ok _ => False
    | _, _ => True end -> effect h h' o r.

Lemma sw_len_get : forall h c x name r h', nth_error (h_circs h) c = Some x -> get_backend c x name h = (r, h') ->
  List.length (h_circs h') = List.length (h_circs h).
Proof.
  intros h c x name r h' Hx E. unfold get_backend in E. destruct (lookup (c_backends x) name); [injection E as <- <-; auto|].
  destruct (lookup backends_table name); [|injection E as <- <-; auto]. unfold alloc_obj in E. injection E as <- <-. simpl. apply put_length.
Qed.
Lemma run_len : forall h c s a r h', do_run rng h c s a = (r, h') -> List.length (h_circs h') = List.length (h_circs h).
Proof.
  intros h c s a r h' E. unfold do_run, get_circ, get in E. destruct (nth_error (h_circs h) c) as [x|] eqn:Hx; [|injection E as <- <-; auto].
  destruct (nth_error (h_lists h) (c_ops x)) as [gs|]; [|injection E as <- <-; auto].
  assert (K : forall name, bind_h (get_backend c x name h) (fun o h => call_run rng h o gs (c_n x) a) = (r, h') -> List.length (h_circs h') = List.length (h_circs h)).
  { intros name E'. destruct (get_backend c x name h) as [[o|] h1] eqn:E1; simpl in E'.
    - rewrite <- (sw_len_get _ _ _ _ _ _ Hx E1). f_equal. eapply call_run_circs; eauto.
    - injection E' as <- <-. eapply sw_len_get; eauto. }
  destruct s; eauto. f_equal. eapply call_run_circs; eauto.
Qed.

Lemma step_effect : forall h o r h', step rng h o = (r, h') -> effect h h' o r.
Proof.
  intros h o r h' E.
  assert (Keep : forall e h1, (Err e, h1) = (r, h') -> h_circs h1 = h_circs h -> match o with OAdd _ _ => True | _ => True end -> effect h h' o r).
  { intros e h1 E1 Eh _. injection E1 as <- <-. apply ef_other; [apply sw_circs; auto|congruence|destruct o; auto]. }
  destruct o as [n|n c|c g|a b|a b|c cb cd|c im cb cd|c sl a|c name a|c name|c name|c|name| |k]; simpl in E.
  - injection E as <- <-. apply (ef_new h _ n (List.length (h_lists h))). reflexivity.
  - unfold get_circ, get in E. destruct (nth_error (h_circs h) c) as [x|] eqn:Hx; [|eapply Keep; eauto].
    destruct (nth_error (h_lists h) (c_ops x)) as [gs|]; [|eapply Keep; eauto].
    destruct gs; simpl in E; injection E as <- <-; eapply ef_new_ops; reflexivity.
  - unfold get_circ, get in E. destruct (nth_error (h_circs h) c) as [x|] eqn:Hx; [|eapply Keep; eauto].
    destruct (nth_error (h_lists h) (c_ops x)) as [gs|]; [|eapply Keep; eauto]. cbv beta zeta in E.
    destruct (get_maximum_index (targets g)) as [m|] eqn:Em; [|eapply Keep; eauto].
    injection E as <- <-. eapply ef_gate; eauto.
  - apply iadd_circs in E. destruct E as [[x [y [Hx [Hy [-> E]]]]]|[e [-> E]]]; [eapply ef_iadd; eauto|].
    apply ef_other; [apply sw_circs; auto|congruence|auto].
  - unfold get_circ, get in E. destruct (nth_error (h_circs h) b) as [y|] eqn:Hy; [|eapply Keep; eauto].
    destruct (nth_error (h_lists h) (c_ops y)) as [gs|] eqn:Hg; [|eapply Keep; eauto].
    destruct (do_copy h a true true) as [r1 h1] eqn:E1. apply copy_added in E1.
    destruct E1 as [[x [bs [l [Hx [-> [E1 [Hl [gs1 El]]]]]]]]|[e [-> E1]]]; simpl in E; [|eapply Keep; eauto].
    assert (Ok' : exists h2, do_iadd h1 (List.length (h_circs h)) b = (Ok (OutCirc (List.length (h_circs h))), h2)).
    { unfold do_iadd, get_circ, get. rewrite E1, nth_new. simpl. rewrite El, Hl, nth_new, (nth_app_l _ _ _ _ _ Hy), (nth_app_l _ _ _ _ _ Hg). eexists. reflexivity. }
    destruct Ok' as [h2 E2]. rewrite E2 in E. injection E as <- <-.
    apply iadd_circs in E2. destruct E2 as [[x1 [y1 [Hx1 [Hy1 [_ E]]]]]|[e [E _]]]; [|discriminate].
    + rewrite E1 in Hx1, Hy1, E. rewrite nth_new in Hx1. injection Hx1 as <-. rewrite (nth_app_l _ _ _ _ _ Hy) in Hy1. injection Hy1 as <-.
      eapply (ef_add h h2 a b x y _ Hx Hy).
      * rewrite E. apply put_snoc.
      * reflexivity.
      * reflexivity.
  - apply copy_added in E. destruct E as [[x [bs [l [Hx [-> [E _]]]]]]|[e [-> E]]]; [eapply ef_copy; eauto; reflexivity|].
    apply ef_other; [apply sw_circs; auto|congruence|auto].
  - apply dagger_added in E. destruct E as [[x [bs [l [Hx [-> [E _]]]]]]|[e [-> E]]]; [eapply ef_dagger; eauto; reflexivity|].
    apply ef_other; [apply sw_circs; auto|congruence|auto].
  - apply ef_other; [eapply run_sw; eauto|eapply run_len; eauto|auto].
  - destruct (registered name); [|eapply Keep; eauto]. apply ef_other; [eapply run_sw; eauto|eapply run_len; eauto|auto].
  - unfold get_circ, get in E. destruct (nth_error (h_circs h) c) as [x|] eqn:Hx; [|eapply Keep; eauto].
    destruct (nth_error (h_lists h) (c_ops x)) as [gs|]; [|eapply Keep; eauto].
    match type of E with bind_h (get_backend c x ?nm h) _ = _ => destruct (get_backend c x nm h) as [[o1|] h1] eqn:E1 end; simpl in E.
    + apply ef_other; auto.
      * eapply sw_trans; [eapply get_backend_sw; eauto|]. apply sw_circs. eapply call_cache_circs; eauto.
      * rewrite <- (sw_len_get _ _ _ _ _ _ Hx E1). f_equal. eapply call_cache_circs; eauto.
    + injection E as <- <-. apply ef_other; auto; [eapply get_backend_sw; eauto|eapply sw_len_get; eauto].
  - unfold get_circ, get in E. destruct (nth_error (h_circs h) c) as [x|] eqn:Hx; [|eapply Keep; eauto].
    destruct (nth_error (h_lists h) (c_ops x)) as [gs|]; [|eapply Keep; eauto].
    destruct name as [nm|]; [|eapply Keep; eauto]. destruct (registered nm); [|eapply Keep; eauto].
    injection E as <- <-. eapply ef_set; eauto.
  - unfold get_circ, get in E. destruct (nth_error (h_circs h) c) as [x|] eqn:Hx; [|eapply Keep; eauto].
    destruct (nth_error (h_lists h) (c_ops x)) as [gs|]; [|eapply Keep; eauto]. injection E as <- <-. apply ef_other; auto using sw_refl.
  - destruct (registered name); [|eapply Keep; eauto]. injection E as <- <-. apply ef_other; auto. apply sw_circs; auto.
  - injection E as <- <-. apply ef_other; auto using sw_refl.
  - injection E as <- <-. apply ef_other; auto. apply sw_circs; auto.
Qed.

(** the width never shrinks, and only [set_default_backend] on the circuit changes its default *)
Lemma step_keeps : forall h o r h' c x, step rng h o = (r, h') -> nth_error (h_circs h) c = Some x ->
  exists x', nth_error (h_circs h') c = Some x' /\ (c_n x <= c_n x')%Z /\
    ((forall s, o <> OSetDefault c s) -> c_default x' = c_default x).
Proof.
  intros h o r h' c x E Hx. apply step_effect in E.
  assert (Snoc : forall z, h_circs h' = h_circs h ++ [z] -> exists x', nth_error (h_circs h') c = Some x' /\ (c_n x <= c_n x')%Z /\
    ((forall s, o <> OSetDefault c s) -> c_default x' = c_default x)).
  { intros z Ez. exists x. rewrite Ez, (nth_app_l _ _ _ _ _ Hx). split; auto. split; [lia|auto]. }
  assert (Put : forall c' y z, nth_error (h_circs h) c' = Some y -> h_circs h' = put (h_circs h) c' z -> (c_n y <= c_n z)%Z ->
    (c_default z = c_default y \/ exists s, o = OSetDefault c' s) -> exists x', nth_error (h_circs h') c = Some x' /\ (c_n x <= c_n x')%Z /\
    ((forall s, o <> OSetDefault c s) -> c_default x' = c_default x)).
  { intros c' y z Hy Ez Hn Hd. destruct (Nat.eq_dec c' c) as [->|N].
    - rewrite Hx in Hy. injection Hy as <-. exists z. rewrite Ez, (nth_put_eq _ _ _ _ _ Hx). split; auto. split; auto.
      intros Hs. destruct Hd as [Hd|[s ->]]; auto. exfalso. apply (Hs s). reflexivity.
    - exists x. rewrite Ez, nth_put_neq; auto. split; auto. split; [lia|auto]. }
  destruct E; eauto.
  - apply (Put _ _ _ H H1); [simpl; lia|auto].
  - apply (Put _ _ _ H H1); [simpl; lia|auto].
  - apply (Put _ _ _ H H0); [simpl; lia|eauto].
  - destruct (H _ _ Hx) as [x' [Hx' [N D]]]. exists x'. split; auto. split; [lia|auto].
Qed.

Lemma least_fun : forall d w w', least d w -> least d w' -> w = w'.
Proof. intros d w w' [A1 [A2 A3]] [B1 [B2 B3]]. apply Z.le_antisymm; auto. Qed.

Lemma holds1_mono : forall w w' t, (w <= w')%Z -> holds1 w t -> holds1 w' t.
Proof. intros w w' [i|a b s|l|] L H; simpl in *; auto; [lia|]. destruct H as [H1 H2]. split; intros z E; [specialize (H1 z E)|specialize (H2 z E)]; lia. Qed.
Lemma holds_mono : forall w w' t, (w <= w')%Z -> holds w t -> holds w' t.
Proof.
  intros w w' [i|a b s|l|] L H; try (eapply holds1_mono; eauto; fail). simpl in *. eapply Forall_impl; [|exact H].
  intros t Ht. eapply holds1_mono; eauto.
Qed.

Lemma least_add : forall m ts m' ts' w w', least (m, ts) w -> least (m', ts') w' -> least (Z.max m m', ts ++ ts') (Z.max w w').
Proof.
  intros m ts m' ts' w w' [A1 [A2 A3]] [B1 [B2 B3]]. simpl in *. split; [simpl; lia|split].
  - simpl. apply Forall_app. split; [eapply Forall_impl; [|exact A2]|eapply Forall_impl; [|exact B2]]; intros t; apply holds_mono; lia.
  - simpl. intros v Hv HF. apply Forall_app in HF. destruct HF. apply Z.max_lub; [apply A3|apply B3]; auto; lia.
Qed.
Lemma least_gate : forall m ts w t k, (0 <= m)%Z -> get_maximum_index t = Ok k -> least (m, ts) w -> least (m, ts ++ [t]) (Z.max (k + 1) w).
Proof.
  intros m ts w t k Hm Hk [A1 [A2 A3]]. simpl in *. destruct (max_index _ _ Hk) as [_ F]. split; [simpl; lia|split]; simpl.
  - apply Forall_app. split; [eapply Forall_impl; [|exact A2]; intros; eapply holds_mono; [|eauto]; lia|]. constructor; auto. apply F; lia.
  - intros v Hv HF. apply Forall_app in HF. destruct HF as [F1 F2]. inversion F2; subst. apply F in H1; [|lia].
    specialize (A3 v Hv F1). lia.
Qed.

Definition meets (h : heap) (ds : list demand) : Prop := List.length ds = List.length (h_circs h) /\
  (forall i x d, nth_error (h_circs h) i = Some x -> nth_error ds i = Some d -> (0 <= fst d)%Z /\ least d (c_n x)).

Lemma meets_get : forall h ds i x, meets h ds -> nth_error (h_circs h) i = Some x ->
  exists m ts, nth_error ds i = Some (m, ts) /\ (0 <= m)%Z /\ least (m, ts) (c_n x).
Proof.
  intros h ds i x [L H] Hx. destruct (nth_error ds i) as [[m ts]|] eqn:E.
  - exists m, ts. split; auto. apply (H _ _ _ Hx E).
  - apply nth_error_None in E. apply nth_lt in Hx. lia.
Qed.
Lemma meets_snoc : forall h ds h' z m ts, meets h ds -> h_circs h' = h_circs h ++ [z] -> (0 <= m)%Z -> least (m, ts) (c_n z) ->
  meets h' (ds ++ [(m, ts)]).
Proof.
  intros h ds h' z m ts [L H] E Hm Hl. split; [rewrite E, !app_length; simpl; lia|]. rewrite E. intros i x d Hx Hd.
  apply nth_snoc in Hx. apply nth_snoc in Hd. destruct Hx as [[L1 Hx]|[-> ->]]; destruct Hd as [[L2 Hd]|[E2 ->]]; try lia; eauto.
Qed.
Lemma meets_put : forall h ds h' c z m ts, meets h ds -> h_circs h' = put (h_circs h) c z -> (0 <= m)%Z -> least (m, ts) (c_n z) ->
  meets h' (put ds c (m, ts)).
Proof.
  intros h ds h' c z m ts [L H] E Hm Hl. split; [rewrite E, !put_length; auto|]. rewrite E. intros i x d Hx Hd.
  apply nth_put in Hx. apply nth_put in Hd. destruct Hx as [[E1 [-> _]]|[N1 Hx]]; destruct Hd as [[E2 [-> _]]|[N2 Hd]]; try congruence; auto. eauto.
Qed.

Lemma step_meets : forall h o r h' ds, step rng h o = (r, h') -> meets h ds -> meets h' (demands_step ds o r).
Proof.
  intros h o r h' ds E M. apply step_effect in E.
  assert (New : forall n, least (Z.of_nat n, []) (Z.of_nat n)). { intros n. split; [simpl; lia|split; [constructor|simpl; auto]]. }
  destruct E; cbn [demands_step].
  - apply (meets_snoc h ds h' _ _ _ M H); [lia|]. apply New.
  - apply (meets_snoc h ds h' _ _ _ M H); [lia|]. apply New.
  - destruct (meets_get _ _ _ _ M H) as [k [ts [-> [K1 K2]]]]. apply (meets_put h ds h' _ _ _ _ M H1); auto. apply least_gate; auto.
  - destruct (meets_get _ _ _ _ M H) as [k [ts [-> [K1 K2]]]]. destruct (meets_get _ _ _ _ M H0) as [k' [ts' [-> [K1' K2']]]].
    apply (meets_put h ds h' _ _ _ _ M H1); [lia|]. apply least_add; auto.
  - destruct (meets_get _ _ _ _ M H) as [k [ts [-> [K1 K2]]]]. destruct (meets_get _ _ _ _ M H0) as [k' [ts' [-> [K1' K2']]]].
    apply (meets_snoc h ds h' _ _ _ M H1); [lia|]. rewrite H2. apply least_add; auto.
  - destruct (meets_get _ _ _ _ M H) as [k [ts [-> [K1 K2]]]]. apply (meets_snoc h ds h' _ _ _ M H0); auto. rewrite H1. auto.
  - destruct (meets_get _ _ _ _ M H) as [k [ts [-> [K1 K2]]]]. apply (meets_snoc h ds h' _ _ _ M H0); auto. rewrite H1. auto.
  - destruct M as [L M]. split; [rewrite H0, put_length; auto|]. rewrite H0. intros i y d Hy Hd. apply nth_put in Hy.
    destruct Hy as [[<- [-> _]]|[N Hy]]; eauto. simpl. eauto.
  - replace (demands_step ds o r) with ds by (destruct o, r; simpl in *; try contradiction; auto).
    destruct M as [L M]. split; [congruence|]. intros i y d Hy Hd. assert (Li : i < List.length (h_circs h)) by (rewrite <- H0; eapply nth_lt; eauto).
    destruct (nth_error (h_circs h) i) as [x|] eqn:Hx; [|apply nth_error_None in Hx; lia].
    destruct (H _ _ Hx) as [y' [Hy' [N _]]]. rewrite Hy in Hy'. injection Hy' as <-. rewrite N. eauto.
Qed.

Lemma steps_meets : forall os h ds rs h', steps rng h os = (rs, h') -> meets h ds -> meets h' (demands ds os rs).
Proof.
  induction os as [|o os IH]; intros h ds rs h' E M; simpl in E.
  - injection E as <- <-. exact M.
  - destruct (step rng h o) as [r h1] eqn:E1. destruct (steps rng h1 os) as [rs1 h2] eqn:E2. injection E as <- <-. simpl.
    eapply IH; [exact E2|]. eapply step_meets; eauto.
Qed.
Lemma program_least : forall pos os rs h, steps rng (empty_heap pos) os = (rs, h) ->
  List.length (demands [] os rs) = List.length (h_circs h) /\
  forall i x d, nth_error (h_circs h) i = Some x -> nth_error (demands [] os rs) i = Some d -> least d (c_n x).
Proof.
  intros pos os rs h E. destruct (steps_meets os _ [] rs h E) as [L M].
  - split; auto. intros i x d H. destruct i; discriminate.
  - split; auto. intros. eapply M; eauto.
Qed.
End Width.

(** targets inside the register *)
Lemma forward1_inside : forall w t l, (0 <= w)%Z -> holds1 w t -> forward1 t -> denotes1 w t l -> Forall (fun z => 0 <= z < w)%Z l.
Proof.
  intros w t l Hw Hh Hf D. destruct D as [z|a b c l [H1 [H2 H3]]]; simpl in *.
  - constructor; auto. unfold rel. destruct (Z.ltb_spec z 0); lia.
  - apply Forall_forall. intros z Hz. apply H2 in Hz. apply Hz.
Qed.
Lemma forward_inside : forall w t l, (0 <= w)%Z -> holds w t -> forward t -> denotes w t l -> Forall (fun z => 0 <= z < w)%Z l.
Proof.
  intros w t l Hw Hh Hf D. destruct D as [t l D|ts ls D].
  - eapply forward1_inside; eauto; inversion D; subst; auto.
  - simpl in *. induction D as [|t l' ts ls D1 D IH]; simpl; auto. inversion Hh; inversion Hf; subst. apply Forall_app. split; auto.
    eapply forward1_inside; eauto.
Qed.
Lemma pairs_inside : forall w t ps, (0 <= w)%Z -> holds w t -> forward t -> flat t -> denotes_pairs w t ps ->
  Forall (fun p => 0 <= fst p < w /\ 0 <= snd p < w)%Z ps.
Proof.
  intros w t ps Hw Hh Hf Hl [a [b [la [lb [-> [Da [Db [Ea [Eb _]]]]]]]]]. simpl in *.
  inversion Hh as [|? ? Ha Hh']; subst. inversion Hh' as [|? ? Hb _]; subst. inversion Hf as [|? ? Fa Hf']; subst. inversion Hf' as [|? ? Fb _]; subst.
  inversion Hl as [|? ? La Hl']; subst. inversion Hl' as [|? ? Lb _]; subst.
  assert (Ia : Forall (fun z => 0 <= z < w)%Z (map fst ps)).
  { inversion Da as [t0 l0 D1|ts ls D1]; subst; [|destruct La]. eapply (forward1_inside w a); eauto. }
  assert (Ib : Forall (fun z => 0 <= z < w)%Z (map snd ps)).
  { inversion Db as [t0 l0 D1|ts ls D1]; subst; [|destruct Lb]. eapply (forward1_inside w b); eauto. }
  rewrite Forall_map in Ia, Ib. rewrite Forall_forall in *. intros p Hp. split; auto.
Qed.
