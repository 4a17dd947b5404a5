(** Heaps that programs reach. *)
From Coq Require Import List Arith NArith ZArith Bool String Reals Lia Lra FunctionalExtensionality.
Import ListNotations.
From Verif Require Import Base Cplx Bits ModelTargets ModelGate ModelNumpy ModelNumba ModelCircuit SpecTargets SpecQuantum SpecCircuit
  SpecMeasure SpecRun SpecAPI ProofTargets ProofArray ProofNumpy ProofRun ProofUnitary ProofCache ProofMeasure ProofDagger ProofWhole
  ProofExamples ProofKernel ProofNumba ProofNumbaRun ProofAPI ProofProgram.

(** ** Reachable heaps *)
Section Reach.
Variable rng : nat -> R.

Lemma step_sim2 : forall h s o r h', sim rng h s -> step rng h o = (r, h') -> proper_op (vh_user s) o ->
  exists s', vstep rng s o r s' /\ sim rng h' s'.
Proof. intros. eapply step_sim; eauto. Qed.

Lemma reach_sim : forall seen h, reachable rng seen h -> exists s, sim rng h s /\ vh_user s = seen.
Proof.
  induction 1 as [pos|seen h o r h' H [s [S U]] P E].
  - exists (vstart pos). split; [apply sim_start|reflexivity].
  - rewrite <- U in P. destruct (step_sim rng _ _ _ _ _ S P E) as [s' [V S']]. exists s'. split; auto.
    rewrite (vstep_user _ _ _ _ _ V), U. reflexivity.
Qed.

Lemma steps_reachable : forall os h seen rs h', reachable rng seen h -> steps rng h os = (rs, h') -> proper seen os rs ->
  exists seen', reachable rng seen' h'.
Proof.
  induction os as [|o os IH]; intros h seen rs h' H E P; simpl in E.
  - injection E as <- <-. eauto.
  - destruct (step rng h o) as [r h1] eqn:E1. destruct (steps rng h1 os) as [rs1 h2] eqn:E2. injection E as <- <-.
    destruct P as [P1 P2]. eapply IH; [eapply reach_step; eauto|exact E2|exact P2].
Qed.

Lemma shows_sim : forall h s c v, sim rng h s -> (circuit_is h c v <-> nth_error (vh_circs s) c = Some v).
Proof.
  intros h s c v S. split.
  - intros [x [Hx [Hg [Hn Hd]]]]. destruct (sim_get rng _ _ _ _ S Hx) as [w [Hw W]]. rewrite Hw. f_equal.
    destruct W as [G N D _ _]. destruct v as [vg vn vd], w as [wg wn wd]. simpl in *. congruence.
  - intros Hv. destruct (nth_error (h_circs h) c) as [x|] eqn:Hx.
    + pose proof (sm_circ rng _ _ S _ _ _ Hx Hv) as [G N D _ _]. exists x. auto.
    + rewrite (sim_none rng _ _ _ S Hx) in Hv. discriminate.
Qed.

Lemma kind_numpy : forall k, kind_of "numpy" k -> k = BNumpy.
Proof. intros k H. unfold kind_of in H. repeat match goal with H : _ \/ _ |- _ => destruct H | H : _ /\ _ |- _ => destruct H end; congruence || discriminate. Qed.
Lemma kind_numba : forall k, kind_of "numba" k -> k = BNumba.
Proof. intros k H. unfold kind_of in H. repeat match goal with H : _ \/ _ |- _ => destruct H | H : _ /\ _ |- _ => destruct H end; congruence || discriminate. Qed.

Lemma run_vstep : forall s c v name a r s', nth_error (vh_circs s) c = Some v -> known name ->
  vstep rng s (ORun c (SelName name) a) r s' ->
  (exists k p, kind_of name k /\ fresh rng v a (vh_pos s) same_out k r p /\ s' = at_pos s p) \/
  (exists nm, kind_of name (BOther nm) /\ r = Ok (OutOther nm (v_gates v) (v_n v)) /\ s' = s).
Proof.
  intros s c v name a r s' Hv Hk H. inversion H; subst;
    try match goal with E : match ?o with Some _ => _ | None => _ end = SelName name |- _ =>
      destruct o as [x|]; [injection E as ->|discriminate E] end;
    try match goal with K : nth_error _ c = Some _, K' : nth_error _ c = Some _ |- _ => rewrite K in K'; injection K' as -> end; simpl in *.
  - left. do 2 eexists. split; [eassumption|split; [eassumption|reflexivity]].
  - right. eexists. split; [eassumption|auto].
  - contradiction.
  - match goal with K : In _ _ \/ _ |- _ => idtac | K : _ = _ \/ False |- _ => destruct K as [<-|[]]; congruence end.
Qed.

Lemma numpy_known : known "numpy". Proof. exists BNumpy. left; split; reflexivity. Qed.
Lemma numba_known : known "numba". Proof. exists BNumba. right; left; split; reflexivity. Qed.

Lemma run_numpy_fresh : forall seen h c v a r h', reachable rng seen h -> circuit_is h c v ->
  step rng h (ORun c (SelName "numpy") a) = (r, h') ->
  exists r0 b, np_run rng new_backend (v_gates v) (Z.to_nat (v_n v)) (na_args a) (h_pos h) = (r0, b, h_pos h') /\ same_out r r0.
Proof.
  intros seen h c v a r h' H Hv E. destruct (reach_sim _ _ H) as [s [S U]]. apply (shows_sim _ _ _ _ S) in Hv.
  destruct (step_sim2 _ _ _ _ _ S E I) as [s' [V S']].
  destruct (run_vstep _ _ _ _ _ _ _ Hv numpy_known V) as [[k [p [Hk [F ->]]]]|[nm [Hk _]]]; apply kind_numpy in Hk; [subst k|discriminate].
  pose proof (sm_pos rng _ _ S) as P0. pose proof (sm_pos rng _ _ S') as P1. simpl in P1. rewrite P0, P1. clear P0 P1. inversion F; subst. eauto.
Qed.

Lemma run_numba_fresh : forall seen h c v a r h', reachable rng seen h -> circuit_is h c v -> numba_ok rng v a ->
  step rng h (ORun c (SelName "numba") a) = (r, h') ->
  exists r0 b, nb_run rng new_backend (v_gates v) (Z.to_nat (v_n v)) a (h_pos h) = (r0, b, h_pos h') /\ same_out r r0.
Proof.
  intros seen h c v a r h' H Hv N E. destruct (reach_sim _ _ H) as [s [S U]]. apply (shows_sim _ _ _ _ S) in Hv.
  destruct (step_sim2 _ _ _ _ _ S E I) as [s' [V S']].
  destruct (run_vstep _ _ _ _ _ _ _ Hv numba_known V) as [[k [p [Hk [F ->]]]]|[nm [Hk _]]]; apply kind_numba in Hk; [subst k|discriminate].
  pose proof (sm_pos rng _ _ S) as P0. pose proof (sm_pos rng _ _ S') as P1. simpl in P1. rewrite P0, P1. clear P0 P1. inversion F; subst.
  match goal with K : numba_ok rng v a -> _ |- _ => destruct (K N) as [-> ->] end. eauto.
Qed.

Lemma program_values : forall pos os rs h, steps rng (empty_heap pos) os = (rs, h) -> proper [] os rs ->
  exists s, vsteps rng (vstart pos) os rs s /\ h_pos h = vh_pos s /\ h_default h = vh_default s /\
    (forall c v, circuit_is h c v <-> nth_error (vh_circs s) c = Some v).
Proof.
  intros pos os rs h E P. destruct (steps_sim rng os _ _ _ _ (sim_start rng pos) E P) as [s [V S]]. exists s. split; auto.
  split; [apply S|split; [apply S|]]. intros. apply shows_sim; auto.
Qed.

(** ** Frames *)
Lemma vstep_frame : forall s o r s' c v, vstep rng s o r s' -> nth_error (vh_circs s) c = Some v -> ~ modifies o c ->
  nth_error (vh_circs s') c = Some v.
Proof.
  intros s o r s' c v H Hv Hm. induction H; simpl in *; auto; try (apply nth_app_l; auto; fail);
    try (rewrite nth_put_neq; auto; fail).
Qed.
Lemma frame : forall seen h o r h' c v, reachable rng seen h -> proper_op seen o -> step rng h o = (r, h') -> ~ modifies o c ->
  circuit_is h c v -> circuit_is h' c v.
Proof.
  intros seen h o r h' c v H P E Hm Hv. destruct (reach_sim _ _ H) as [s [S U]]. apply (shows_sim _ _ _ _ S) in Hv. rewrite <- U in P.
  destruct (step_sim rng _ _ _ _ _ S P E) as [s' [V S']]. apply (shows_sim _ _ _ _ S'). eapply vstep_frame; eauto.
Qed.

(** ** Copies, sums, daggers *)
Lemma add_ok : forall seen h a b va vb, reachable rng seen h -> circuit_is h a va -> circuit_is h b vb ->
  exists h', step rng h (OAdd a b) = (Ok (OutCirc (List.length (h_circs h))), h') /\ reachable rng seen h' /\
    circuit_is h' (List.length (h_circs h)) (VCirc (v_gates va ++ v_gates vb) (Z.max (v_n va) (v_n vb)) (v_default va)) /\
    (forall c v, circuit_is h c v -> circuit_is h' c v) /\ List.length (h_circs h') = S (List.length (h_circs h)).
Proof.
  intros seen h a b va vb H Ha Hb. destruct (reach_sim _ _ H) as [s [S U]].
  apply (shows_sim _ _ _ _ S) in Ha, Hb. destruct (step rng h (OAdd a b)) as [r h'] eqn:E.
  destruct (step_sim2 _ _ _ _ _ S E I) as [s' [V S']].
  assert (K : r = Ok (OutCirc (next s)) /\ s' = add_circ s (VCirc (v_gates va ++ v_gates vb) (Z.max (v_n va) (v_n vb)) (v_default va))).
  { inversion V as [| | | |? ? va' vb' Ha' Hb'| | | | | | | | | | | | | | | | | | | | |? c Hin Hn]; subst.
    - rewrite Ha in Ha'. rewrite Hb in Hb'. injection Ha' as <-. injection Hb' as <-. auto.
    - destruct Hin as [<-|[<-|[]]]; congruence. }
  destruct K as [-> ->]. unfold next in *. rewrite <- (sm_len rng _ _ S) in *. exists h'. split; auto. split; [|split; [|split]].
  - pose proof (reach_step rng seen h (OAdd a b) _ h' H I E) as R1. exact R1.
  - apply (shows_sim _ _ _ _ S'). simpl. rewrite (sm_len rng _ _ S). apply nth_new.
  - intros c v Hc. apply (shows_sim _ _ _ _ S) in Hc. apply (shows_sim _ _ _ _ S'). simpl. apply nth_app_l; auto.
  - rewrite (sm_len rng _ _ S'). simpl. rewrite app_length. simpl. rewrite (sm_len rng _ _ S). lia.
Qed.

Lemma iadd_ok : forall seen h a b va vb, reachable rng seen h -> circuit_is h a va -> circuit_is h b vb ->
  exists h', step rng h (OIAdd a b) = (Ok (OutCirc a), h') /\ reachable rng seen h' /\
    circuit_is h' a (VCirc (v_gates va ++ v_gates vb) (Z.max (v_n va) (v_n vb)) (v_default va)).
Proof.
  intros seen h a b va vb H Ha Hb. destruct (reach_sim _ _ H) as [s [S U]].
  apply (shows_sim _ _ _ _ S) in Ha, Hb. destruct (iadd_sim rng h s a b va vb S Ha Hb) as [h' [E S']]. exists h'. split; auto. split.
  - exact (reach_step rng seen h (OIAdd a b) _ h' H I E).
  - apply (shows_sim _ _ _ _ S'). simpl. eapply nth_put_eq; eauto.
Qed.

Lemma add_assoc : forall seen h a b c va vb vc, reachable rng seen h -> circuit_is h a va -> circuit_is h b vb -> circuit_is h c vc ->
  exists ab h1 l h2 bc h3 r h4 v,
    step rng h (OAdd a b) = (Ok (OutCirc ab), h1) /\ step rng h1 (OAdd ab c) = (Ok (OutCirc l), h2) /\
    step rng h2 (OAdd b c) = (Ok (OutCirc bc), h3) /\ step rng h3 (OAdd a bc) = (Ok (OutCirc r), h4) /\
    circuit_is h4 l v /\ circuit_is h4 r v.
Proof.
  intros seen h a b c va vb vc H Ha Hb Hc.
  destruct (add_ok _ _ _ _ _ _ H Ha Hb) as [h1 [E1 [R1 [S1 [K1 _]]]]].
  destruct (add_ok _ _ _ _ _ _ R1 S1 (K1 _ _ Hc)) as [h2 [E2 [R2 [S2 [K2 _]]]]].
  destruct (add_ok _ _ _ _ _ _ R2 (K2 _ _ (K1 _ _ Hb)) (K2 _ _ (K1 _ _ Hc))) as [h3 [E3 [R3 [S3 [K3 _]]]]].
  destruct (add_ok _ _ _ _ _ _ R3 (K3 _ _ (K2 _ _ (K1 _ _ Ha))) S3) as [h4 [E4 [R4 [S4 [K4 _]]]]].
  do 8 eexists. exists (VCirc (v_gates va ++ v_gates vb ++ v_gates vc) (Z.max (v_n va) (Z.max (v_n vb) (v_n vc))) (v_default va)).
  split; [exact E1|]. split; [exact E2|]. split; [exact E3|]. split; [exact E4|]. split; [|exact S4].
  pose proof (K4 _ _ (K3 _ _ S2)) as X. simpl in X. rewrite <- app_assoc, <- Z.max_assoc in X. exact X.
Qed.

Lemma width_nonneg : forall seen h c v, reachable rng seen h -> circuit_is h c v -> (0 <= v_n v)%Z.
Proof.
  intros seen h c v H Hv. destruct (reach_sim _ _ H) as [s [S U]]. destruct Hv as [x [Hx [_ [Hn _]]]].
  destruct (sim_get rng _ _ _ _ S Hx) as [w [_ W]]. rewrite <- Hn. apply W.
Qed.

Lemma copy_ok : forall seen h c v cb cd, reachable rng seen h -> circuit_is h c v ->
  exists h', step rng h (OCopy c cb cd) = (Ok (OutCirc (List.length (h_circs h))), h') /\ reachable rng seen h' /\
    circuit_is h' (List.length (h_circs h)) (VCirc (v_gates v) (v_n v) (if cd then v_default v else None)) /\ h_pos h' = h_pos h.
Proof.
  intros seen h c v cb cd H Hv. destruct (reach_sim _ _ H) as [s [S U]]. apply (shows_sim _ _ _ _ S) in Hv.
  destruct (nth_error (h_circs h) c) as [x|] eqn:Hx; [|rewrite (sim_none rng _ _ _ S Hx) in Hv; discriminate].
  destruct (copy_sim rng h s c x v cb cd S Hx Hv) as [h' [E [S' _]]]. unfold next in E. rewrite <- (sm_len rng _ _ S) in E.
  exists h'. split; auto. split; [exact (reach_step rng seen h (OCopy c cb cd) _ h' H I E)|]. split.
  - apply (shows_sim _ _ _ _ S'). simpl. rewrite (sm_len rng _ _ S). apply nth_new.
  - rewrite (sm_pos rng _ _ S'), (sm_pos rng _ _ S). reflexivity.
Qed.

Lemma same_out_res : forall r r' r0, same_out r r0 -> same_out r' r0 -> same_res r r'.
Proof.
  intros r r' r0 H H'. destruct r as [[]|], r' as [[]|], r0 as [r0|]; simpl in *; try contradiction; try congruence.
  eapply result_same_trans; [exact H|]. apply result_same_sym. exact H'.
Qed.

Lemma copies_run_numpy : forall seen h c v cd d1 h1 d2 h2 a r1 h1' r2 h2', reachable rng seen h -> circuit_is h c v ->
  step rng h (OCopy c true cd) = (Ok (OutCirc d1), h1) -> step rng h (OCopy c false cd) = (Ok (OutCirc d2), h2) ->
  step rng h1 (ORun d1 (SelName "numpy") a) = (r1, h1') -> step rng h2 (ORun d2 (SelName "numpy") a) = (r2, h2') ->
  same_res r1 r2 /\ h_pos h1' = h_pos h2'.
Proof.
  intros seen h c v cd d1 h1 d2 h2 a r1 h1' r2 h2' H Hv E1 E2 F1 F2.
  destruct (copy_ok _ _ _ _ true cd H Hv) as [k1 [G1 [R1 [S1 P1]]]]. rewrite E1 in G1. injection G1 as -> ->.
  destruct (copy_ok _ _ _ _ false cd H Hv) as [k2 [G2 [R2 [S2 P2]]]]. rewrite E2 in G2. injection G2 as -> ->.
  destruct (run_numpy_fresh _ _ _ _ _ _ _ R1 S1 F1) as [x1 [b1 [X1 Y1]]]. destruct (run_numpy_fresh _ _ _ _ _ _ _ R2 S2 F2) as [x2 [b2 [X2 Y2]]].
  simpl in X1, X2. rewrite P1 in X1. rewrite P2 in X2. rewrite X1 in X2. injection X2 as <- _ <-. split; auto. eapply same_out_res; eauto.
Qed.
Lemma copies_run_numba : forall seen h c v cd d1 h1 d2 h2 a r1 h1' r2 h2', reachable rng seen h -> circuit_is h c v -> numba_ok rng v a ->
  step rng h (OCopy c true cd) = (Ok (OutCirc d1), h1) -> step rng h (OCopy c false cd) = (Ok (OutCirc d2), h2) ->
  step rng h1 (ORun d1 (SelName "numba") a) = (r1, h1') -> step rng h2 (ORun d2 (SelName "numba") a) = (r2, h2') ->
  same_res r1 r2 /\ h_pos h1' = h_pos h2'.
Proof.
  intros seen h c v cd d1 h1 d2 h2 a r1 h1' r2 h2' H Hv N E1 E2 F1 F2.
  destruct (copy_ok _ _ _ _ true cd H Hv) as [k1 [G1 [R1 [S1 P1]]]]. rewrite E1 in G1. injection G1 as -> ->.
  destruct (copy_ok _ _ _ _ false cd H Hv) as [k2 [G2 [R2 [S2 P2]]]]. rewrite E2 in G2. injection G2 as -> ->.
  destruct (run_numba_fresh _ _ _ _ _ _ _ R1 S1 N F1) as [x1 [b1 [X1 Y1]]]. destruct (run_numba_fresh _ _ _ _ _ _ _ R2 S2 N F2) as [x2 [b2 [X2 Y2]]].
  simpl in X1, X2. rewrite P1 in X1. rewrite P2 in X2. rewrite X1 in X2. injection X2 as <- _ <-. split; auto. eapply same_out_res; eauto.
Qed.

(** [dagger()], with or without copied backends *)
Lemma dagger_step : forall seen h c v im cb cd, reachable rng seen h -> circuit_is h c v ->
  (im = false /\ Exists irreversible (v_gates v) /\ step rng h (ODagger c im cb cd) = (Err ValueError, h)) \/
  ((im = false -> Forall (fun g => ~ irreversible g) (v_gates v)) /\
   exists gs h', step rng h (ODagger c im cb cd) = (Ok (OutCirc (List.length (h_circs h))), h') /\ reversed (v_gates v) gs /\
     circuit_is h' (List.length (h_circs h)) (VCirc gs (v_n v) (if cd then v_default v else None)) /\
     (forall c' v', circuit_is h c' v' -> circuit_is h' c' v')).
Proof.
  intros seen h c v im cb cd H [x [Hx [Hg [Hn Hd]]]]. destruct (reach_sim _ _ H) as [s [S U]]. simpl. unfold do_dagger, get_circ, get.
  rewrite Hx, Hg. destruct (dagger_ops_spec (v_gates v) im) as [[gs [-> [Hr Hi]]]|[-> [-> Hi]]]; [right|left; auto]. split; auto.
  destruct (sim_get rng _ _ _ _ S Hx) as [w [_ W]]. unfold alloc_list. set (h1 := Heap _ _ _ _ _).
  assert (K : exists bs h2, (if cb then copy_backends_of (c_backends x) h1 else ok [] h1) = (Ok bs, h2) /\ h_circs h2 = h_circs h /\ h_lists h2 = h_lists h ++ [gs]).
  { destruct cb; [|exists [], h1; auto].
    destruct (copy_backends_spec rng (v_gates w) (c_backends x) h1) as [bs [os [E _]]]; [intros k o Hin; apply (sc_objs rng _ _ _ W _ _ Hin)|].
    exists bs. eexists. split; [exact E|]. auto. }
  destruct K as [bs [h2 [-> [K1 K2]]]]. simpl. rewrite K1, Hn, Hd. exists gs. eexists. split; [reflexivity|]. split; auto. split.
  - eexists. simpl. split; [apply nth_new|]. simpl. split; [|split; reflexivity]. rewrite K2. apply nth_new.
  - intros c' v' [y [Hy [Yg [Yn Yd]]]]. exists y. simpl. rewrite K2. split; [apply nth_app_l; exact Hy|]. split; auto. apply nth_app_l. exact Yg.
Qed.
Lemma dagger_no_backends : forall h c im cd x, nth_error (h_circs h) c = Some x -> c_backends x = [] ->
  step rng h (ODagger c im true cd) = step rng h (ODagger c im false cd).
Proof. intros h c im cd x Hx Hb. simpl. unfold do_dagger, get_circ, get. rewrite Hx. destruct (nth_error (h_lists h) (c_ops x)) as [gs|]; auto.
  destruct (dagger_ops _ _); auto. unfold alloc_list. rewrite Hb. reflexivity. Qed.

(** ** Default backends *)
Lemma default_run : forall h c v a, circuit_is h c v ->
  step rng h (ORun c SelDefault a) =
  step rng h (ORun c (SelName (match v_default v with Some d => d | None => h_default h end)) a).
Proof.
  intros h c v a [x [Hx [Hg [Hn Hd]]]]. simpl. unfold do_run, get_circ, get. rewrite Hx, Hg. unfold default_name. rewrite Hd.
  destruct (v_default v); reflexivity.
Qed.
Lemma default_set : forall h c v name, circuit_is h c v ->
  (known name -> exists h', step rng h (OSetDefault c (Some name)) = (Ok OutNone, h') /\ circuit_is h' c (VCirc (v_gates v) (v_n v) (Some name))) /\
  (~ known name -> step rng h (OSetDefault c (Some name)) = (Err ValueError, h)).
Proof.
  intros h c v name [x [Hx [Hg [Hn Hd]]]]. simpl. unfold get_circ, get. rewrite Hx, Hg. destruct (registered name) eqn:Er; split; intros K.
  - eexists. split; [reflexivity|]. eexists. simpl. split; [eapply nth_put_eq; eauto|]. auto.
  - exfalso. apply K. apply registered_known; auto.
  - exfalso. apply (registered_unknown _ Er). exact K.
  - reflexivity.
Qed.
Lemma global_set : forall h name,
  (known name -> step rng h (OGlobalDefault name) = (Ok OutNone, set_global h name)) /\
  (~ known name -> step rng h (OGlobalDefault name) = (Err ValueError, h)).
Proof.
  intros h name. simpl. destruct (registered name) eqn:Er; split; intros K; auto.
  - exfalso. apply K. apply registered_known; auto.
  - exfalso. apply (registered_unknown _ Er). exact K.
Qed.
Lemma global_keep : forall h o r h', step rng h o = (r, h') -> (forall name, o <> OGlobalDefault name) -> h_default h' = h_default h.
Proof.
  intros h o r h' E Hn.
  assert (CR : forall h o gs n a r h', call_run rng h o gs n a = (r, h') -> h_default h' = h_default h).
  { clear. intros h o gs n a r h' E. unfold call_run, get in E. destruct (nth_error (h_objs h) o) as [[[| |nm] b]|].
    - destruct (np_run _ _ _ _ _ _) as [[r1 b1] p1]. injection E as <- <-. reflexivity.
    - destruct (nb_run _ _ _ _ _ _) as [[r1 b1] p1]. injection E as <- <-. reflexivity.
    - injection E as <- <-. reflexivity.
    - injection E as <- <-. reflexivity. }
  assert (GB : forall c x name h r h', get_backend c x name h = (r, h') -> h_default h' = h_default h).
  { clear. intros c x name h r h' E. unfold get_backend in E. destruct (lookup (c_backends x) name); [injection E as <- <-; auto|].
    destruct (lookup backends_table name); injection E as <- <-; auto. }
  assert (DR : forall h c s a r h', do_run rng h c s a = (r, h') -> h_default h' = h_default h).
  { clear - CR GB. intros h c s a r h' E. unfold do_run, get_circ in E. destruct (get (h_circs h) c) as [x|]; [|injection E as <- <-; auto].
    destruct (get (h_lists h) (c_ops x)) as [gs|]; [|injection E as <- <-; auto].
    assert (K : forall name, bind_h (get_backend c x name h) (fun o h => call_run rng h o gs (c_n x) a) = (r, h') -> h_default h' = h_default h).
    { intros name E'. destruct (get_backend c x name h) as [[o|] h1] eqn:E1; simpl in E'.
      - rewrite <- (GB _ _ _ _ _ _ E1). eapply CR; eauto.
      - injection E' as <- <-. eapply GB; eauto. }
    destruct s; eauto. }
  assert (CB : forall bs h r h', copy_backends_of bs h = (r, h') -> h_default h' = h_default h).
  { clear. induction bs as [|[k o] bs IH]; intros h r h' E; simpl in E; [injection E as <- <-; auto|].
    destruct (get (h_objs h) o) as [b|]; [|injection E as <- <-; auto]. unfold alloc_obj in E.
    match type of E with bind_h (copy_backends_of bs ?h1) _ = _ => destruct (copy_backends_of bs h1) as [[r1|] h2] eqn:E1 end;
      simpl in E; injection E as <- <-; apply IH in E1; exact E1. }
  assert (CP : forall h c cb cd r h', do_copy h c cb cd = (r, h') -> h_default h' = h_default h).
  { clear - CB. intros h c cb cd r h' E. unfold do_copy, get_circ in E. destruct (get (h_circs h) c) as [x|]; [|injection E as <- <-; auto].
    destruct (get (h_lists h) (c_ops x)) as [gs|]; [|injection E as <- <-; auto]. unfold alloc_list in E.
    match type of E with bind_h ?m _ = _ => destruct m as [[bs|] h1] eqn:E1 end; simpl in E; injection E as <- <-;
      (destruct cb; [apply CB in E1; exact E1|injection E1 as _ <-; reflexivity || (try discriminate); auto]). }
  assert (IA : forall h a b r h', do_iadd h a b = (r, h') -> h_default h' = h_default h).
  { clear. intros h a b r h' E. unfold do_iadd, get_circ in E. destruct (get (h_circs h) a) as [x|]; [|injection E as <- <-; auto].
    destruct (get (h_lists h) (c_ops x)) as [gs|]; [|injection E as <- <-; auto].
    destruct (get (h_circs h) b) as [y|]; [|injection E as <- <-; auto].
    destruct (get (h_lists h) (c_ops y)) as [gs'|]; injection E as <- <-; auto. }
  destruct o as [n|n c|c g|a b|a b|c cb cd|c im cb cd|c sl a|c name a|c name|c name|c|name| |k]; simpl in E; eauto.
  - injection E as <- <-. reflexivity.
  - unfold get_circ in E. destruct (get (h_circs h) c) as [x|]; [|injection E as <- <-; auto].
    destruct (get (h_lists h) (c_ops x)) as [[|g gs]|]; injection E as <- <-; auto.
  - unfold get_circ in E. destruct (get (h_circs h) c) as [x|]; [|injection E as <- <-; auto].
    destruct (get (h_lists h) (c_ops x)) as [gs|]; [|injection E as <- <-; auto]. cbv zeta in E.
    destruct (get_maximum_index (targets g)); injection E as <- <-; auto.
  - unfold get_circ in E. destruct (get (h_circs h) b) as [y|]; [|injection E as <- <-; auto].
    destruct (get (h_lists h) (c_ops y)) as [gs|]; [|injection E as <- <-; auto].
    destruct (do_copy h a true true) as [[o|] h1] eqn:E1; simpl in E; apply CP in E1; rewrite <- E1; [|injection E as <- <-; auto].
    destruct o; try (injection E as <- <-; reflexivity). eapply IA; eauto.
  - unfold do_dagger, get_circ in E. destruct (get (h_circs h) c) as [x|]; [|injection E as <- <-; auto].
    destruct (get (h_lists h) (c_ops x)) as [gs|]; [|injection E as <- <-; auto].
    destruct (dagger_ops (rev gs) im); [|injection E as <- <-; auto]. unfold alloc_list in E.
    match type of E with bind_h ?m _ = _ => destruct m as [[bs|] h1] eqn:E1 end; simpl in E; injection E as <- <-;
      (destruct cb; [apply CB in E1; exact E1|injection E1 as _ <-; reflexivity || (try discriminate); auto]).
  - destruct (registered name); [eauto|injection E as <- <-; auto].
  - unfold get_circ in E. destruct (get (h_circs h) c) as [x|]; [|injection E as <- <-; auto].
    destruct (get (h_lists h) (c_ops x)) as [gs|]; [|injection E as <- <-; auto].
    match type of E with bind_h (get_backend c x ?nm h) _ = _ => destruct (get_backend c x nm h) as [[o1|] h1] eqn:E1 end; simpl in E; apply GB in E1; rewrite <- E1;
      [|injection E as <- <-; auto].
    unfold call_make_cache in E. destruct (get (h_objs h1) o1) as [[[| |nm] b]|]; try (injection E as <- <-; reflexivity);
      (destruct (call_run rng h1 o1 gs (c_n x) (NbArgs no_args true)) as [[r1|] h2] eqn:E2; injection E as <- <-; eapply CR; eauto).
  - unfold get_circ in E. destruct (get (h_circs h) c) as [x|]; [|injection E as <- <-; auto].
    destruct (get (h_lists h) (c_ops x)) as [gs|]; [|injection E as <- <-; auto].
    destruct name as [nm|]; [|injection E as <- <-; auto]. destruct (registered nm); injection E as <- <-; auto.
  - unfold get_circ in E. destruct (get (h_circs h) c) as [x|]; [|injection E as <- <-; auto].
    destruct (get (h_lists h) (c_ops x)) as [gs|]; injection E as <- <-; auto.
  - exfalso. apply (Hn name). reflexivity.
  - injection E as <- <-. reflexivity.
  - injection E as <- <-. reflexivity.
Qed.

(** ** One backend object, a growing list of gates *)
Lemma grows_good : forall gs b, grows_to rng gs b -> good rng gs (BObj BNumpy b).
Proof.
  induction 1 as [|gs more b H IH|gs b n a pos r b' p H IH E].
  - apply good_new.
  - apply good_extend; auto.
  - eapply good_np_run; eauto.
Qed.
Lemma grows_fresh : forall gs b n a pos r b' p, grows_to rng gs b -> np_run rng b gs n a pos = (r, b', p) ->
  exists r0 b0, np_run rng new_backend gs n a pos = (r0, b0, p) /\ outcome_same r r0.
Proof. intros. eapply good_np_run; eauto. apply grows_good; auto. Qed.
End Reach.
