(** Gates with targets and lists of gates on the numpy backend. *)
From Coq Require Import List Arith ZArith Bool Reals Lia Lra FunctionalExtensionality.
Import ListNotations.
From Verif Require Import Base Cplx Bits ModelTargets ModelGate ModelNumpy SpecTargets SpecQuantum SpecCircuit
  ProofTargets ProofArray ProofNumpy ProofFallback ProofFallback3.
Local Open Scope R_scope.

Arguments apply_all : simpl never.

Lemma apply_all_app : forall a b psi, apply_all (a ++ b) psi = apply_all b (apply_all a psi).
Proof. intros. unfold apply_all. apply fold_left_app. Qed.
Lemma apply_all_cons : forall U b psi, apply_all (U :: b) psi = apply_all b (U psi).
Proof. reflexivity. Qed.

Lemma circuit_ops_app : forall n a b oa ob, circuit_ops n a oa -> circuit_ops n b ob -> circuit_ops n (a ++ b) (oa ++ ob).
Proof. induction 1; intros; simpl; auto. rewrite <- app_assoc. constructor; auto. Qed.
Lemma circuit_ops_app_inv : forall n a b o, circuit_ops n (a ++ b) o ->
  exists oa ob, circuit_ops n a oa /\ circuit_ops n b ob /\ o = oa ++ ob.
Proof.
  induction a as [|g a IH]; intros b o H; simpl in H.
  - exists [], o. repeat split; auto. constructor.
  - inversion H as [|? ? o1 os H1 H2]; subst. apply IH in H2. destruct H2 as [oa [ob [A [B ->]]]].
    exists (o1 ++ oa), ob. repeat split; auto. constructor; auto. rewrite app_assoc. reflexivity.
Qed.

Lemma acts_ext : forall n f U V, acts n f U -> (forall psi x, (x < 2 ^ n)%nat -> U psi x = V psi x) -> acts n f V.
Proof.
  intros n f U V H E psi beta. destruct (H psi beta) as [b' Hb]. exists b'. rewrite Hb.
  rewrite (arr_ext n (U psi) (V psi)) by (intros; apply E; auto). reflexivity.
Qed.

Lemma acts_for : forall A n (f : A -> bufs -> res bufs) U l,
  (forall a, In a l -> acts n (f a) (U a)) -> acts n (for_list l f) (apply_all (map U l)).
Proof.
  induction l as [|a l IH]; intros H psi beta.
  - exists beta. reflexivity.
  - simpl. destruct (H a (or_introl eq_refl) psi beta) as [b1 H1]. rewrite H1. simpl.
    destruct (IH (fun a' I => H a' (or_intror I)) (U a psi) b1) as [b2 H2]. exists b2. exact H2.
Qed.

Lemma loop1_acts : forall n tg l f U, denotes (Z.of_nat n) tg l -> Forall (inside n) l ->
  (forall t, inside n t -> acts n (f n t) (U (Z.to_nat t))) ->
  acts n (loop1 n tg f) (apply_all (map (fun t => U (Z.to_nat t)) l)).
Proof.
  intros n tg l f U D F H psi beta. unfold loop1, for_gen.
  apply slicing_iff in D; [|lia]. rewrite D. simpl.
  rewrite Forall_forall in F.
  destruct (acts_for Z n (f n) (fun t => U (Z.to_nat t)) l (fun t I => H t (F t I)) psi beta) as [b' Hb].
  exists b'. rewrite Hb. reflexivity.
Qed.

Lemma loop2_acts : forall n tg ps f U, denotes_pairs (Z.of_nat n) tg ps ->
  Forall (fun p => inside n (fst p) /\ inside n (snd p)) ps ->
  (forall c t, inside n c -> inside n t -> c <> t -> acts n (f n (c, t)) (U (Z.to_nat c) (Z.to_nat t))) ->
  acts n (loop2 n tg f) (apply_all (map (fun p => U (Z.to_nat (fst p)) (Z.to_nat (snd p))) ps)).
Proof.
  intros n tg ps f U D F H psi beta. unfold loop2.
  pose proof (proj2 (pairs_iff (Z.of_nat n) tg ps ltac:(lia)) D) as E. rewrite E. simpl bind.
  destruct D as [a [b [la [lb [_ [_ [_ [_ [_ Hd]]]]]]]]].
  rewrite Forall_forall in F, Hd.
  assert (G : forall p, In p ps -> acts n (f n p) (U (Z.to_nat (fst p)) (Z.to_nat (snd p)))).
  { intros [c t] I. destruct (F _ I). apply H; auto; apply (Hd _ I). }
  apply (acts_for _ n (f n) (fun p => U (Z.to_nat (fst p)) (Z.to_nat (snd p))) ps G psi beta).
Qed.

Lemma ap1_eq_mat : forall M N t, (forall a b, M a b = N a b) -> forall psi x, ap1 M t psi x = ap1 N t psi x.
Proof. intros. rewrite (ap1_ext M N); auto. Qed.
Lemma ctl_eq_mat : forall M N c t, (forall a b, M a b = N a b) -> forall psi x,
  ctl c (ap1 M t) psi x = ctl c (ap1 N t) psi x.
Proof. intros. unfold ctl. rewrite (ap1_ext M N); auto. Qed.

Lemma apply_all_ext : forall A (U V : A -> oper) l, (forall a psi, U a psi = V a psi) ->
  forall psi, apply_all (map U l) psi = apply_all (map V l) psi.
Proof. induction l; intros; simpl; auto. unfold apply_all in *. simpl. rewrite H. apply IHl; auto. Qed.

Definition is_unitary (g : gate) : bool :=
  match g with GMeasure _ | GReset _ => false | _ => true end.

Lemma half_angle : forall th, th * (1/2) = th / 2. Proof. intros; field. Qed.

Lemma ccz_acts : forall n a b c, inside n a -> inside n b -> inside n c ->
  acts n (np_ccz n (TTuple [TInt a; TInt b; TInt c])) (sem3 KCCZ (Z.to_nat a) (Z.to_nat b) (Z.to_nat c)).
Proof.
  intros n a b c Ha Hb Hc psi beta. eexists. unfold np_ccz. cbn [unpack3 bind raw_index].
  rewrite !mask_ne0_ok by (unfold inside in *; lia). cbn [bind].
  rewrite !mask_and_map, imul_arr. cbn [bind].
  match goal with |- Ok (?a, ?b) = Ok (?c, ?d) => replace c with a; [reflexivity|] end.
  apply arr_ext. intros x Hx. unfold sem3, ctl. rewrite ap1_flip. unfold b1.
  destruct (bit x (Z.to_nat a)), (bit x (Z.to_nat b)), (bit x (Z.to_nat c)); simpl; try reflexivity; try ring.
Qed.

Lemma h_acts : forall n tg l, denotes (Z.of_nat n) tg l -> Forall (inside n) l ->
  acts n (np_h n tg) (apply_all (map (fun t => sem1 KH (Z.to_nat t)) l)).
Proof. intros. apply (loop1_acts n tg l step_h (sem1 KH)); auto. intros. apply step_h_acts; auto. Qed.

Lemma denotes_int : forall n t, inside n t -> denotes (Z.of_nat n) (TInt t) [t].
Proof.
  intros n t H. constructor. replace t with (rel (Z.of_nat n) t) at 2; [constructor|].
  unfold rel, inside in *. destruct (Z.ltb_spec t 0); auto; lia.
Qed.

Lemma acts_bind : forall n f g U V, acts n f U -> acts n g V -> acts n (fun s => bind (f s) g) (fun psi => V (U psi)).
Proof.
  intros n f g U V HU HV psi beta. destruct (HU psi beta) as [b1 E1].
  destruct (HV (U psi) b1) as [b2 E2]. exists b2. rewrite E1. exact E2.
Qed.

Lemma ccx_acts : forall n a b c, inside n a -> inside n b -> inside n c -> a <> b -> a <> c -> b <> c ->
  acts n (np_ccx n (TTuple [TInt a; TInt b; TInt c])) (sem3 KCCX (Z.to_nat a) (Z.to_nat b) (Z.to_nat c)).
Proof.
  intros n a b c Ha Hb Hc Hab Hac Hbc.
  apply acts_ext with (U := apply_all [sem1 KH (Z.to_nat c); sem3 KCCZ (Z.to_nat a) (Z.to_nat b) (Z.to_nat c);
                                       sem1 KH (Z.to_nat c)]).
  - assert (H : acts n (np_h n (TInt c)) (sem1 KH (Z.to_nat c))).
    { apply (h_acts n (TInt c) [c]); [apply denotes_int; auto|constructor; auto]. }
    apply (acts_bind n (np_h n (TInt c)) _ (sem1 KH (Z.to_nat c))
             (fun psi => sem1 KH (Z.to_nat c) (sem3 KCCZ (Z.to_nat a) (Z.to_nat b) (Z.to_nat c) psi))); auto.
    apply acts_bind; auto. apply ccz_acts; auto.
  - intros psi x _. rewrite h_ccz_h by (unfold inside in *; lia). reflexivity.
Qed.

(** The methods of the backend *)
Lemma native_acts : forall n g ops f, gate_ops n g ops -> np_unitary g n = Some f -> acts n f (apply_all ops).
Proof.
  intros n g ops f H Hf. destruct H as [k tg l D F|k tg ps D F|k a b c Ha Hb Hc Hab Hac Hbc].
  - destruct k; simpl in Hf; try discriminate; injection Hf; intros <-; clear Hf.
    all: match goal with
      | |- acts _ (np_h _ _) _ => apply h_acts; auto
      | |- acts ?m (loop1 ?m ?tg0 ?s) (apply_all (map (fun t => sem1 ?k (Z.to_nat t)) ?l0)) =>
          apply (loop1_acts m tg0 l0 s (sem1 k)); auto; intros t Ht; unfold sem1
      end.
    all: try (apply step_x_acts; assumption); try (apply step_y_acts; assumption).
    + eapply acts_ext; [apply step_diag1_acts; auto|]. intros. apply ap1_eq_mat. intros [] []; reflexivity.
    + eapply acts_ext; [apply step_diag1_acts; auto|]. intros. apply ap1_eq_mat. intros [] []; simpl; try reflexivity.
      unfold mPhase, cis; simpl. rewrite cos_PI4, sin_PI4. reflexivity.
    + eapply acts_ext; [apply step_diag1_acts; auto|]. intros. apply ap1_eq_mat. intros [] []; simpl; try reflexivity.
      unfold mPhase; simpl. rewrite cis_PI2. reflexivity.
    + eapply acts_ext; [apply step_mat_acts; auto|]. intros. apply ap1_eq_mat. intros [] []; simpl; rewrite ?half_angle; reflexivity.
    + eapply acts_ext; [apply step_mat_acts; auto|]. intros. apply ap1_eq_mat. intros [] []; simpl; rewrite ?half_angle; try reflexivity; unfold mRY; simpl; ceq.
    + eapply acts_ext; [apply step_diag01_acts; auto|]. intros. apply ap1_eq_mat. intros [] []; simpl; rewrite ?half_angle; try reflexivity; unfold mRZ, cis; simpl; rewrite ?cos_neg, ?sin_neg; reflexivity.
    + eapply acts_ext; [apply step_diag1_acts; auto|]. intros. apply ap1_eq_mat. intros [] []; reflexivity.
    + eapply acts_ext; [apply step_diag01_acts; auto|]. intros. apply ap1_eq_mat. intros [] []; simpl; rewrite ?half_angle; try reflexivity; unfold mRZ, cis; simpl; rewrite ?cos_neg, ?sin_neg; reflexivity.
    + eapply acts_ext; [apply step_u3_acts; auto|]. intros. apply ap1_eq_mat.
      assert (E0 : forall a, (cos a, sin a) = cis a) by reflexivity. rewrite !E0.
      set (p := phi / 2). set (q := lambd / 2).
      replace ((- phi - lambd) * (1/2)) with (- p + - q) by (unfold p, q; field).
      replace (phi + lambd) with (p + p + (q + q)) by (unfold p, q; field).
      replace (cis lambd) with (cis (q + q)) by (f_equal; unfold q; field).
      replace (cis phi) with (cis (p + p)) by (f_equal; unfold p; field).
      rewrite <- !cis_add. rewrite !half_angle.
      pose proof (cis_opp_l p) as Ep. pose proof (cis_opp_l q) as Eq.
      intros [] []; simpl; unfold mU3, mmul, mRZ, mRY, mk2; fold p; fold q; rewrite ?RtoC_opp; ring [Ep Eq].
  - destruct k; simpl in Hf; try discriminate; injection Hf; intros <-; clear Hf.
    all: match goal with
      | |- acts ?m (loop2 ?m ?tg0 ?s) (apply_all (map (fun p => sem2 ?k (Z.to_nat (fst p)) (Z.to_nat (snd p))) ?ps0)) =>
          apply (loop2_acts m tg0 ps0 s (sem2 k)); auto; intros u t Hu Ht Hut; unfold sem2
      end.
    + apply step_cx_acts; auto.
    + eapply acts_ext; [apply step_cdiag1_acts; auto|]. intros. apply ctl_eq_mat. intros [] []; reflexivity.
    + eapply acts_ext; [apply step_cmat_acts; auto|]. intros. apply ctl_eq_mat. intros [] []; simpl; rewrite ?half_angle; reflexivity.
    + eapply acts_ext; [apply step_cmat_acts; auto|]. intros. apply ctl_eq_mat. intros [] []; simpl; rewrite ?half_angle; try reflexivity; unfold mRY; simpl; ceq.
    + eapply acts_ext; [apply step_cdiag01_acts; auto|]. intros. apply ctl_eq_mat. intros [] []; simpl; rewrite ?half_angle; try reflexivity; unfold mRZ, cis; simpl; rewrite ?cos_neg, ?sin_neg; reflexivity.
    + eapply acts_ext; [apply step_cdiag1_acts; auto|]. intros. apply ctl_eq_mat. intros [] []; reflexivity.
  - destruct k; simpl in Hf; try discriminate; injection Hf; intros <-; clear Hf.
    + apply ccx_acts; auto.
    + apply ccz_acts; auto.
Qed.

(** ** Fallbacks of gates with targets *)
Lemma go_int1 : forall n k t, inside n t -> gate_ops n (GOne k (TInt t)) [sem1 k (Z.to_nat t)].
Proof. intros. apply (go_one n k (TInt t) [t]); [apply denotes_int; auto|constructor; auto]. Qed.
Lemma go_pair : forall n k c t, inside n c -> inside n t -> c <> t ->
  gate_ops n (GTwo k (TTuple [TInt c; TInt t])) [sem2 k (Z.to_nat c) (Z.to_nat t)].
Proof.
  intros. apply (go_two n k (pair_tg c t) [(c, t)]).
  - exists (TInt c), (TInt t), [c], [t]. repeat split; auto using denotes_int.
  - constructor; auto.
Qed.
Lemma co_cons1 : forall n g gs U os, gate_ops n g [U] -> circuit_ops n gs os -> circuit_ops n (g :: gs) (U :: os).
Proof. intros. apply (co_cons n g gs [U] os); auto. Qed.

Ltac ops := repeat (apply co_cons1; [first [apply go_int1; assumption | apply go_pair; auto; fail
                                           | apply go_three; auto; fail]|]); apply co_nil.

Lemma fallback1_sound : forall n k f t, fallback1 k = Some f -> (forall th, k <> KPhase th) -> inside n t ->
  exists os, circuit_ops n (f t) os /\ forall psi, apply_all os psi = sem1 k (Z.to_nat t) psi.
Proof.
  intros n k f t Hf Hk Ht. destruct k; simpl in Hf; try discriminate; injection Hf; intros <-; clear Hf.
  - exists []. split; [constructor|]. intros. symmetry. apply ap1_I.
  - eexists; split; [ops|]. intros. reflexivity.
  - eexists; split; [ops|]. intros. apply fb_tdg.
  - eexists; split; [ops|]. intros. reflexivity.
  - eexists; split; [ops|]. intros. apply fb_sdg.
  - exfalso. eapply Hk; reflexivity.
  - eexists; split; [ops|]. intros. apply fb_u1.
  - eexists; split; [ops|]. intros. reflexivity.
Qed.

Lemma fallback2_sound : forall n k f c t, fallback2 k = Some f -> inside n c -> inside n t -> c <> t ->
  exists os, circuit_ops n (f c t) os /\ forall psi, apply_all os psi = sem2 k (Z.to_nat c) (Z.to_nat t) psi.
Proof.
  intros n k f c t Hf Hc Ht Hct.
  assert (N : Z.to_nat c <> Z.to_nat t) by (unfold inside in *; lia).
  destruct k; simpl in Hf; try discriminate; injection Hf; intros <-; clear Hf; unfold pair_tg.
  - eexists; split; [ops|]. intros. apply fb_cy; auto.
  - eexists; split; [ops|]. intros. apply fb_ch; auto.
  - eexists; split; [ops|]. intros. apply fb_crx; auto.
  - eexists; split; [ops|]. intros. apply fb_cry; auto.
  - eexists; split; [ops|]. intros. apply fb_crz; auto.
  - eexists; split; [ops|]. intros. apply fb_cphase; auto.
  - eexists; split; [ops|]. intros. apply fb_rxx; auto.
  - eexists; split; [ops|]. intros. apply fb_ryy; auto.
  - eexists; split; [ops|]. intros. apply fb_rzz; auto.
  - eexists; split; [ops|]. intros. apply fb_swap; auto.
  - eexists; split; [ops|]. intros. apply fb_cu1; auto.
  - eexists; split; [ops|]. intros. reflexivity.
  - eexists; split; [ops|]. intros. apply fb_cu3; auto.
Qed.

Lemma flat_map_sound : forall A n (f : A -> list gate) (U : A -> oper) l,
  (forall a, In a l -> exists os, circuit_ops n (f a) os /\ forall psi, apply_all os psi = U a psi) ->
  exists os, circuit_ops n (flat_map f l) os /\ forall psi, apply_all os psi = apply_all (map U l) psi.
Proof.
  induction l as [|a l IH]; intros H; simpl.
  - exists []. split; [constructor|]. reflexivity.
  - destruct (H a (or_introl eq_refl)) as [o1 [C1 E1]].
    destruct IH as [o2 [C2 E2]]; [intros; apply H; right; auto|].
    exists (o1 ++ o2). split; [apply circuit_ops_app; auto|].
    intros. rewrite apply_all_app, apply_all_cons, E2, E1. reflexivity.
Qed.

Definition is_phase (g : gate) : bool := match g with GOne (KPhase _) _ => true | _ => false end.

Lemma fallback_sound : forall n g gs ops, fallback g (Z.of_nat n) = Ok gs -> gate_ops n g ops -> is_phase g = false ->
  exists ops', circuit_ops n gs ops' /\ forall psi, apply_all ops' psi = apply_all ops psi.
Proof.
  intros n g gs ops Hf H Hp. destruct H as [k tg l D F|k tg ps D F|k a b c Ha Hb Hc Hab Hac Hbc].
  - destruct (fallback1 k) as [f|] eqn:Ef.
    + assert (Hg : gs = flat_map f l \/ k = KI /\ gs = []).
      { apply slicing_iff in D; [|lia].
        destruct k; simpl in Ef; try discriminate; injection Ef; intros <-; simpl in Hf;
        try rewrite D in Hf; simpl in Hf; injection Hf; intros <-; auto. }
      destruct Hg as [->|[-> ->]].
      * apply (flat_map_sound Z n f (fun t => sem1 k (Z.to_nat t))).
        intros t I. rewrite Forall_forall in F. apply fallback1_sound; auto.
        intros th ->. discriminate Hp.
      * exists []. split; [constructor|]. intros psi. clear. induction l; simpl; auto.
        rewrite apply_all_cons. unfold sem1 at 2. simpl mat1. rewrite ap1_I. auto.
    + destruct k; simpl in *; discriminate.
  - destruct (fallback2 k) as [f|] eqn:Ef; simpl in Hf; rewrite Ef in Hf; [|discriminate].
    pose proof (proj2 (pairs_iff (Z.of_nat n) tg ps ltac:(lia)) D) as E. rewrite E in Hf. simpl in Hf.
    injection Hf; intros <-; clear Hf.
    destruct D as [a [b [la [lb [_ [_ [_ [_ [_ Hd]]]]]]]]].
    rewrite Forall_forall in F, Hd.
    apply (flat_map_sound _ n (fun p => f (fst p) (snd p)) (fun p => sem2 k (Z.to_nat (fst p)) (Z.to_nat (snd p)))).
    intros [u t] I. destruct (F _ I). apply fallback2_sound; auto; apply (Hd _ I).
  - assert (Na : Z.to_nat a <> Z.to_nat b) by (unfold inside in *; lia).
    assert (Nb : Z.to_nat a <> Z.to_nat c) by (unfold inside in *; lia).
    assert (Nc : Z.to_nat b <> Z.to_nat c) by (unfold inside in *; lia).
    destruct k; simpl in Hf; try discriminate; injection Hf; intros <-; clear Hf.
    + eexists; split; [ops|]. intros. rewrite fb_ccx; auto.
    + eexists; split; [ops|]. intros. rewrite fb_cswap; auto.
Qed.

(** the phase gate, up to the global phase e^(-i theta/2) for each target *)
Lemma scl_scl : forall a b psi, scl a (scl b psi) = scl (a * b)%C psi.
Proof. intros. apply functional_extensionality; intro x. unfold scl. ring. Qed.
Lemma scl_1 : forall psi, scl C1 psi = psi.
Proof. intros. apply functional_extensionality; intro x. unfold scl. ring. Qed.
Lemma ap1_scl : forall M t k psi, ap1 M t (scl k psi) = scl k (ap1 M t psi).
Proof. intros. apply functional_extensionality; intro x. unfold scl, ap1. ring. Qed.
Lemma sem1_scl : forall g t k psi, sem1 g t (scl k psi) = scl k (sem1 g t psi).
Proof. intros. apply ap1_scl. Qed.
Lemma ap1s_scl : forall k l c psi, apply_all (map (fun t => sem1 k (Z.to_nat t)) l) (scl c psi) =
  scl c (apply_all (map (fun t => sem1 k (Z.to_nat t)) l) psi).
Proof.
  induction l; intros; simpl; auto. rewrite !apply_all_cons, sem1_scl. apply IHl.
Qed.

Lemma fallback_phase_sound : forall n th tg l gs, fallback (GOne (KPhase th) tg) (Z.of_nat n) = Ok gs ->
  denotes (Z.of_nat n) tg l -> Forall (inside n) l ->
  exists ops', circuit_ops n gs ops' /\ forall psi,
    apply_all ops' psi = scl (cis (- (th / 2) * INR (List.length l)))
                             (apply_all (map (fun t => sem1 (KPhase th) (Z.to_nat t)) l) psi).
Proof.
  intros n th tg l gs Hf D F. simpl in Hf. apply slicing_iff in D; [|lia]. rewrite D in Hf. simpl in Hf.
  injection Hf; intros <-; clear Hf D.
  exists (map (fun t => sem1 (KRZ th) (Z.to_nat t)) l). split.
  - induction F; simpl; [constructor|]. apply co_cons1; auto. apply go_int1; auto.
  - induction l as [|t l IH]; intros psi.
    + simpl. rewrite Rmult_0_r, cis_0, scl_1. reflexivity.
    + cbn [map]. rewrite !apply_all_cons. rewrite IH by (inversion F; auto).
      rewrite fb_phase, ap1s_scl, scl_scl, cis_add.
      cbn [List.length]. rewrite S_INR. do 2 f_equal. ring.
Qed.

(** ** The numpy backend executes every gate *)
Section Rng.
Variable rng : nat -> R.

(** [run] maps a context whose buffers hold [psi] to one which holds [U psi], and changes nothing else *)
Definition ctx_acts (n : nat) (run : npctx -> sres) (U : oper) : Prop :=
  forall ctx psi beta, x_n ctx = n -> x_qubits ctx = arr n psi -> x_buf ctx = arr n beta ->
  exists beta', run ctx = SOk (set_bufs ctx (arr n (U psi), arr n beta')).

Lemma set_bufs_twice : forall ctx a b, set_bufs (set_bufs ctx a) b = set_bufs ctx b.
Proof. reflexivity. Qed.

Lemma ctx_acts_native : forall n g ops f fuel, gate_ops n g ops -> np_unitary g n = Some f ->
  ctx_acts n (np_run_single rng fuel g) (apply_all ops).
Proof.
  intros n g ops f fuel H Hf ctx psi beta Hn Hq Hb.
  destruct (native_acts n g ops f H Hf psi beta) as [beta' E].
  exists beta'.
  assert (Ha : np_action rng g (x_n ctx) = Some (fun ctx => match f (x_qubits ctx, x_buf ctx) with
                                      | Ok s => SOk (set_bufs ctx s) | Err e => SErr e (x_pos ctx) end)).
  { unfold np_action. rewrite Hn. inversion H; subst; rewrite Hf; reflexivity. }
  destruct fuel; simpl; rewrite Ha, Hq, Hb, E; reflexivity.
Qed.

Lemma ctx_acts_list : forall n (run : gate -> npctx -> sres) gs ops,
  circuit_ops n gs ops -> (forall g o, In g gs -> gate_ops n g o -> ctx_acts n (run g) (apply_all o)) ->
  ctx_acts n (run_list run gs) (apply_all ops).
Proof.
  induction 1 as [|g gs o os Hg Hgs IH]; intros Hrun ctx psi beta Hn Hq Hb.
  - exists beta. simpl. destruct ctx; simpl in *; subst. reflexivity.
  - destruct (Hrun g o (or_introl eq_refl) Hg ctx psi beta Hn Hq Hb) as [b1 E1].
    simpl. rewrite E1.
    destruct (IH (fun g' o' I => Hrun g' o' (or_intror I)) (set_bufs ctx (arr n (apply_all o psi), arr n b1))
                 (apply_all o psi) b1 Hn eq_refl eq_refl) as [b2 E2].
    exists b2. rewrite E2, apply_all_app, set_bufs_twice. reflexivity.
Qed.

Definition native (g : gate) : bool := match np_unitary g 0 with Some _ => true | None => false end.

Lemma native_some : forall g n, native g = true -> exists f, np_unitary g n = Some f.
Proof.
  intros g n H. unfold native in H. destruct g as [k tg|k tg|k tg|tg|tg]; try destruct k; simpl in *; try discriminate; eexists; reflexivity.
Qed.
Lemma native_none : forall g n, native g = false -> np_unitary g n = None.
Proof.
  intros g n H. unfold native in H. destruct g as [k tg|k tg|k tg|tg|tg]; try destruct k; simpl in *; try discriminate; reflexivity.
Qed.

(** nesting depth of fallbacks on this backend *)
Definition rank (g : gate) : nat :=
  if native g then 0 else
  match g with GTwo KCY _ | GTwo (KRXX _) _ | GTwo (KRYY _) _ | GTwo (KCU2 _ _) _ => 2 | _ => 1 end.

Lemma rank_decreases : forall g gs n, native g = false -> fallback g n = Ok gs ->
  Forall (fun g' => rank g' < rank g)%nat gs.
Proof.
  intros g gs n Hn Hf.
  assert (FM : forall A (f : A -> list gate) l, (forall a, Forall (fun g' => rank g' < rank g)%nat (f a)) ->
    Forall (fun g' => rank g' < rank g)%nat (flat_map f l)).
  { induction l; intros; simpl; auto. apply Forall_app; auto. }
  destruct g as [k tg|k tg|k tg|tg|tg]; try discriminate.
  - destruct k; try discriminate Hn; simpl in Hf; try (injection Hf; intros <-; constructor; fail);
    destruct (gen_list (slicing tg n)); simpl in Hf; try discriminate; injection Hf; intros <-;
    apply FM; intros; repeat (apply Forall_cons || apply Forall_nil); unfold rank, native; simpl; lia.
  - destruct k; try discriminate Hn; simpl in Hf;
    destruct (qubit_pairs tg n); simpl in Hf; try discriminate; injection Hf; intros <-;
    apply FM; intros; repeat (apply Forall_cons || apply Forall_nil); unfold rank, native; simpl; lia.
  - destruct k; try discriminate Hn; simpl in Hf; destruct (unpack3 tg) as [[[a b] c]|]; simpl in Hf; try discriminate;
    injection Hf; intros <-; repeat constructor.
Qed.

Lemma fallback_exists : forall n g ops, gate_ops n g ops -> native g = false ->
  exists gs, fallback g (Z.of_nat n) = Ok gs.
Proof.
  intros n g ops H Hn. destruct H as [k tg l D F|k tg ps D F|k a b c Ha Hb Hc Hab Hac Hbc].
  - apply slicing_iff in D; [|lia].
    destruct k; try discriminate Hn; simpl; rewrite ?D; simpl; eexists; reflexivity.
  - apply pairs_iff in D; [|lia].
    destruct k; try discriminate Hn; simpl; rewrite ?D; simpl; eexists; reflexivity.
  - destruct k; try discriminate Hn; simpl; eexists; reflexivity.
Qed.

Lemma run_single_ok : forall fuel n g ops, gate_ops n g ops -> (rank g <= fuel)%nat ->
  ctx_acts n (np_run_single rng fuel g) (apply_all ops).
Proof.
  induction fuel as [|fuel IH]; intros n g ops H Hr.
  - assert (N : native g = true).
    { unfold rank in Hr. destruct (native g); auto. destruct g as [k tg|k tg|k tg|tg|tg]; try destruct k; simpl in Hr; lia. }
    destruct (native_some g n N) as [f Hf]. eapply ctx_acts_native; eauto.
  - destruct (native g) eqn:N.
    + destruct (native_some g n N) as [f Hf]. eapply ctx_acts_native; eauto.
    + destruct (fallback_exists n g ops H N) as [gs Hgs].
      destruct (fallback_sound n g gs ops Hgs H) as [ops' [C E]].
      { destruct g as [[]| | | |]; auto; discriminate N. }
      intros ctx psi beta Hn Hq Hb.
      destruct (ctx_acts_list n (np_run_single rng fuel) gs ops' C) with (ctx := ctx) (psi := psi) (beta := beta)
        as [b' E']; auto.
      { intros g' o' I Hg'. apply IH; auto.
        pose proof (rank_decreases g gs (Z.of_nat n) N Hgs) as R. rewrite Forall_forall in R.
        specialize (R g' I). lia. }
      exists b'. cbn [np_run_single].
      assert (Ha : np_action rng g (x_n ctx) = None).
      { unfold np_action. rewrite (native_none g _ N). inversion H; subst; reflexivity. }
      rewrite Ha, Hn, Hgs, E', E. reflexivity.
Qed.

Lemma rank_le_2 : forall g, (rank g <= 2)%nat.
Proof. intros. unfold rank. destruct (native g); [lia|]. destruct g as [k tg|k tg|k tg|tg|tg]; try destruct k; lia. Qed.

Lemma gate_runs : forall n g ops, gate_ops n g ops ->
  ctx_acts n (np_run_single rng recursion_limit g) (apply_all ops).
Proof. intros. apply run_single_ok; auto. pose proof (rank_le_2 g). unfold recursion_limit. lia. Qed.
End Rng.
