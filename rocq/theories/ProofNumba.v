(** The gates of the numba backend. *)
From Coq Require Import List Arith NArith Nnat ZArith Bool Reals Lia Lra Permutation FunctionalExtensionality.
Import ListNotations.
From Verif Require Import Base Cplx Bits ModelTargets ModelGate ModelNumpy ModelNumba SpecTargets SpecQuantum SpecCircuit SpecMeasure
  SpecNumba ProofTargets ProofArray ProofNumpy ProofFallback ProofRun ProofUnitary ProofMeasure ProofIndex ProofKernel ProofPair.
Local Arguments N.pow : simpl never.
Local Arguments N.ones : simpl never.
Local Arguments shl1 : simpl never.
Local Open Scope R_scope.

(** the kernel is free of races and has the effect [U] *)
Definition kacts (n : nat) (k : kernel) (U : oper) : Prop :=
  safe k (2 ^ n) /\ forall psi, run_kernel k (arr n psi) = Ok (arr n (U psi)).

Lemma kacts_race_free : forall n k U a, kacts n k U -> List.length a = (2 ^ n)%nat -> race_free k a.
Proof. intros n k U a [S _] L. apply kernel_race_free. rewrite L. exact S. Qed.

Lemma kacts_ext : forall n k U V, kacts n k U -> (forall psi x, (x < 2 ^ n)%nat -> U psi x = V psi x) -> kacts n k V.
Proof. intros n k U V [S H] E. split; auto. intros psi. rewrite H. f_equal. apply arr_ext. auto. Qed.

(** ** Loops over one target *)
Section One.
Variables (n : nat) (t : N).
Hypothesis Hn : (n <= 64)%nat.
Hypothesis Ht : (t < N.of_nat n)%N.

Lemma one_kernel : forall body f0 f1,
  (forall a b, (N.to_nat a < 2 ^ n)%nat -> (N.to_nat b < 2 ^ n)%nat -> a <> b ->
     forall i, idx0 t i = a -> idx1 t i = b -> pair_body n (body i) a b f0 f1) ->
  kacts n (Kernel (half (N.of_nat n)) body) (pairop [] t f0 f1).
Proof.
  intros body f0 f1 Hb.
  pose proof (shifted_visits (N.of_nat n) t ltac:(lia) Ht) as V.
  assert (Hqs : forall q, In q [t] <-> In q [] \/ q = t) by (simpl; intuition).
  assert (Hcm : forall b, N.testbit 0 b = mem b []) by (intros; apply N.bits_0).
  assert (Hcs : forall c, In c [] -> (c < N.of_nat n)%N) by (intros c []).
  assert (B : forall i, (i < half (N.of_nat n))%N ->
    pair_body n (k_body (Kernel (half (N.of_nat n)) body) i) (p0 (idx0 t) 0 i) (p1 t (idx0 t) 0 i) f0 f1).
  { intros i Hi. destruct (idx1_lor (N.of_nat n) t i ltac:(lia) Ht Hi) as [E L].
    assert (E0 : p0 (idx0 t) 0 i = idx0 t i) by (unfold p0; apply N.lor_0_r).
    assert (E1 : p1 t (idx0 t) 0 i = idx1 t i) by (unfold p1; rewrite E0; auto).
    apply Hb; auto.
    - apply to_nat_lt. apply (p0_lt n [] t [t] (half (N.of_nat n)) (idx0 t) 0); auto.
    - apply to_nat_lt. apply (p1_lt n [] t [t] (half (N.of_nat n)) (idx0 t) 0); auto.
    - apply (p_ne n [] t [t] (half (N.of_nat n)) (idx0 t) 0); auto. }
  split.
  - apply (pair_safe n [] t [t] (half (N.of_nat n)) (idx0 t) 0) with (f0 := f0) (f1 := f1); auto.
  - intros psi. apply (pair_run n [] t [t] (half (N.of_nat n)) (idx0 t) 0); auto.
Qed.

Lemma one_mat : forall body f0 f1 M,
  (forall a b, (N.to_nat a < 2 ^ n)%nat -> (N.to_nat b < 2 ^ n)%nat -> a <> b ->
     forall i, idx0 t i = a -> idx1 t i = b -> pair_body n (body i) a b f0 f1) ->
  (forall a b, f0 a b = (M false false * a + M false true * b)%C) ->
  (forall a b, f1 a b = (M true false * a + M true true * b)%C) ->
  kacts n (Kernel (half (N.of_nat n)) body) (ap1 M (N.to_nat t)).
Proof.
  intros body f0 f1 M Hb H0 H1. eapply kacts_ext; [apply one_kernel; exact Hb|].
  intros psi x _. unfold pairop, ap1. cbn [forallb].
  destruct (bit x (N.to_nat t)) eqn:E.
  - rewrite H1, (setb_same x _ true) by auto. reflexivity.
  - rewrite H0, (setb_same x _ false) by auto. reflexivity.
Qed.


Lemma k_x_ok : kacts n (k_x (N.of_nat n) t) (ap1 mX (N.to_nat t)).
Proof.
  eapply one_mat; [intros a b Ha Hb Hab i <- <-; apply (body_swap n _ _ Ha Hb Hab); auto| |]; intros; cbn; ring.
Qed.
Lemma k_y_ok : kacts n (k_y (N.of_nat n) t) (ap1 mY (N.to_nat t)).
Proof.
  eapply one_mat; [intros a b Ha Hb Hab i <- <-; apply (body_swap n _ _ Ha Hb Hab)| |].
  - intros r r' E0 E1. rewrite E0, E1. auto.
  - intros; cbn; ring.
  - intros; cbn; ring.
Qed.
Lemma k_mat_ok : forall a b c d, kacts n (k_mat a b c d (N.of_nat n) t) (ap1 (mk2 a b c d) (N.to_nat t)).
Proof.
  intros. eapply one_mat; [intros x y Ha Hb Hab i <- <-; apply (body_swap n _ _ Ha Hb Hab)| |].
  - intros r r' E0 E1. rewrite E0, E1. auto.
  - intros; cbn; ring.
  - intros; cbn; ring.
Qed.
Lemma k_h_ok : kacts n (k_h (N.of_nat n) t) (ap1 mH (N.to_nat t)).
Proof.
  eapply one_mat; [intros x y Ha Hb Hab i <- <-; apply (body_swap n _ _ Ha Hb Hab)| |].
  - intros r r' E0 E1. rewrite E0, E1. auto.
  - intros; cbn [Nat.eqb mH mscale mk2]; unfold mH, mscale, mk2; ring.
  - intros; cbn [Nat.eqb mH mscale mk2]; unfold mH, mscale, mk2; ring.
Qed.
Lemma k_diag_ok : forall f, kacts n (k_diag f (N.of_nat n) t) (ap1 (mk2 C1 C0 C0 f) (N.to_nat t)).
Proof.
  intros. eapply one_mat; [intros x y Ha Hb Hab i <- <-; apply body_scale1; auto| |]; intros; cbn; ring.
Qed.
Lemma k_z_ok : kacts n (k_z (N.of_nat n) t) (ap1 mZ (N.to_nat t)).
Proof. apply k_diag_ok. Qed.

Lemma cis_conj : forall a, Cconj (cis a) = cis (- a).
Proof. intros. unfold Cconj, cis. simpl. rewrite cos_neg, sin_neg. reflexivity. Qed.

Lemma k_rz_ok : forall ang, kacts n (k_rz ang (N.of_nat n) t) (ap1 (mRZ ang) (N.to_nat t)).
Proof.
  intros. unfold k_rz. eapply one_mat; [intros x y Ha Hb Hab i <- <-; apply body_rz; auto| |];
    intros; cbn beta; rewrite ?cis_conj, half_angle; unfold mRZ, mk2; ring.
Qed.
Lemma k_ry_ok : forall ang, kacts n (k_ry ang (N.of_nat n) t) (ap1 (mRY ang) (N.to_nat t)).
Proof.
  intros. eapply kacts_ext; [apply k_mat_ok|]. intros. apply ap1_eq_mat. rewrite half_angle. intros [] []; simpl; unfold mRY; simpl; ceq.
Qed.
Lemma k_rx_ok : forall ang, kacts n (k_rx ang (N.of_nat n) t) (ap1 (mRX ang) (N.to_nat t)).
Proof.
  intros. eapply kacts_ext; [apply k_mat_ok|]. intros. apply ap1_eq_mat. rewrite half_angle. intros [] []; simpl; unfold mRX; simpl; ceq.
Qed.
Lemma k_u3_ok : forall theta phi lambd, kacts n (k_u3 theta phi lambd (N.of_nat n) t) (ap1 (mU3 theta phi lambd) (N.to_nat t)).
Proof.
  intros. eapply kacts_ext; [apply k_mat_ok|]. intros. apply ap1_eq_mat. rewrite !half_angle, !cis_conj.
  set (p := phi / 2). set (q := lambd / 2).
  replace ((phi + lambd) / 2) with (p + q) by (unfold p, q; field).
  replace ((phi - lambd) / 2) with (p + - q) by (unfold p, q; field).
  replace (- (p + q)) with (- p + - q) by ring. replace (- (p + - q)) with (- p + q) by ring. rewrite <- !cis_add.
  intros [] []; simpl; unfold mU3, mmul, mRZ, mRY, mk2; fold p; fold q; rewrite ?RtoC_opp; ring.
Qed.

(** measurement *)
Lemma k_reduce0_ok : forall s, kacts n (k_reduce0 s (N.of_nat n) t) (fun psi => scl (RtoC s) (project (N.to_nat t) false psi)).
Proof.
  intros. eapply kacts_ext; [apply one_kernel; intros x y Ha Hb Hab i <- <-; apply body_reduce0; auto|].
  intros psi x _. unfold pairop, scl, project. cbn [forallb]. destruct (bit x (N.to_nat t)); simpl; ring.
Qed.
Lemma k_reduce1_ok : forall s, kacts n (k_reduce1 s (N.of_nat n) t) (fun psi => scl (RtoC s) (project (N.to_nat t) true psi)).
Proof.
  intros. eapply kacts_ext; [apply one_kernel; intros x y Ha Hb Hab i <- <-; apply body_reduce1; auto|].
  intros psi x _. unfold pairop, scl, project. cbn [forallb]. destruct (bit x (N.to_nat t)); simpl; ring.
Qed.
Lemma k_reset1_ok : forall s, kacts n (k_reset1 s (N.of_nat n) t) (fun psi => ap1 mX (N.to_nat t) (scl (RtoC s) (project (N.to_nat t) true psi))).
Proof.
  intros. eapply kacts_ext; [apply one_kernel; intros x y Ha Hb Hab i <- <-; apply body_reset1; auto|].
  intros psi x _. unfold pairop, ap1, scl, project. cbn [forallb]. rewrite !testbit_setb_eq.
  destruct (bit x (N.to_nat t)); simpl; ring.
Qed.

Lemma p0calc_seq : forall (f : N -> R) a its p, (forall i, In i its -> exists v, load a (idx0 t i) = Ok v /\ f i = Cnorm2 v) ->
  for_list its (fun i p0 => let* v := load a (idx0 t i) in Ok (p0 + Cnorm2 v)) p = Ok (p + Rsum f its).
Proof.
  intros f a its. induction its as [|i its IH]; intros p H; simpl; [f_equal; ring|].
  destruct (H i (or_introl eq_refl)) as [v [-> E]]. simpl. rewrite IH by (intros; apply H; right; auto). rewrite E. f_equal. simpl. ring.
Qed.

Lemma p0calc_ok : forall psi, p0calc (arr n psi) t (N.of_nat n) = Ok (prob n (N.to_nat t) false psi).
Proof.
  intros psi. pose proof (shifted_visits (N.of_nat n) t ltac:(lia) Ht) as V. unfold p0calc.
  rewrite (p0calc_seq (fun i => Cnorm2 (psi (N.to_nat (idx0 t i))))).
  - f_equal. rewrite Rplus_0_l. set (its := map N.of_nat (seq 0 (N.to_nat (half (N.of_nat n))))).
    transitivity (Rsum (fun x => Cnorm2 (psi x)) (map N.to_nat (map (idx0 t) its))).
    { rewrite map_map, Rsum_map. reflexivity. }
    destruct V as [ND H]. fold its in ND, H.
    transitivity (Rsum (fun x => Cnorm2 (psi x)) (filter (b0 (N.to_nat t)) (seq 0 (2 ^ n)))).
    + apply Rsum_perm. apply NoDup_Permutation.
      * apply FinFun.Injective_map_NoDup; auto. intros x y. apply N2Nat.inj.
      * apply NoDup_filter, seq_NoDup.
      * intros x. rewrite filter_In, in_seq, in_map_iff. split.
        -- intros [y [<- Hy]]. apply H in Hy. destruct Hy as [L Z]. apply to_nat_lt in L. split; [lia|].
           unfold b0. rewrite <- bit_of_N, Z; simpl; auto.
        -- intros [L Z]. exists (N.of_nat x). split; [apply Nat2N.id|]. apply H. split; [apply to_nat_lt; rewrite Nat2N.id; lia|].
           intros q [<-|[]]. rewrite bit_of_N, Nat2N.id. unfold b0 in Z. destruct (bit x (N.to_nat t)); auto; discriminate.
    + rewrite Rsum_filter. apply Rsum_ext. intros x _. unfold project, b0. destruct (bit x (N.to_nat t)); simpl; auto. symmetry; apply Cnorm2_C0.
  - intros i Hi. eexists. split; [apply load_arr|reflexivity]. apply to_nat_lt.
    destruct (visits_elim _ _ _ _ V) as [H _]. apply H. apply in_range; auto.
Qed.
End One.

(** ** Loops over controls and a target *)
Lemma or_bits_spec : forall l m b, (forall x, In x l -> (x < 64)%N) ->
  N.testbit (fold_left (fun m x => N.lor m (shl1 x)) l m) b = N.testbit m b || mem b l.
Proof.
  induction l as [|x l IH]; intros m b H; simpl; [rewrite orb_false_r; reflexivity|].
  rewrite IH by (intros; apply H; right; auto). rewrite N.lor_spec, shl1_bits by (apply H; left; auto). unfold mem. rewrite <- orb_assoc. reflexivity.
Qed.

Section Ctl.
Variables (n : nat) (cs : list N) (t : N).
Hypothesis Hn : (n <= 64)%nat.
Hypothesis Hd : NoDup (cs ++ [t]).
Hypothesis Hin : Forall (fun q => q < N.of_nat n)%N (cs ++ [t]).

Lemma Ht' : (t < N.of_nat n)%N.
Proof. rewrite Forall_forall in Hin. apply Hin. apply in_or_app. right; left; auto. Qed.
Lemma Hcs' : forall c, In c cs -> (c < N.of_nat n)%N.
Proof. intros. rewrite Forall_forall in Hin. apply Hin. apply in_or_app. auto. Qed.
Lemma Htc' : ~ In t cs.
Proof. intros I. apply NoDup_remove_2 in Hd. rewrite app_nil_r in Hd. auto. Qed.
Lemma Hqs' : forall q, In q (cs ++ [t]) <-> In q cs \/ q = t.
Proof. intros. rewrite in_app_iff. simpl. intuition. Qed.
Lemma Hcm' : forall b, N.testbit (or_bits cs) b = mem b cs.
Proof. intros. unfold or_bits. rewrite or_bits_spec; [rewrite N.bits_0; reflexivity|]. intros x Hx. pose proof (Hcs' x Hx). lia. Qed.

Lemma nloop : (N.of_nat (List.length (cs ++ [t])) <= N.of_nat n)%N ->
  shl1 (N.of_nat n - N.of_nat (List.length (cs ++ [t]))) = (2 ^ (N.of_nat n - N.of_nat (List.length (cs ++ [t]))))%N.
Proof. intros H. apply shl1_pow. rewrite app_length in *. simpl in *. lia. Qed.

(** the matrix [M] on the target, under the controls *)
Definition controlled (M : mat2) : oper := fold_right (fun c U => ctl (N.to_nat c) U) (ap1 M (N.to_nat t)) cs.

Lemma controlled_pairop : forall M f0 f1,
  (forall a b, f0 a b = (M false false * a + M false true * b)%C) ->
  (forall a b, f1 a b = (M true false * a + M true true * b)%C) ->
  forall psi x, pairop cs t f0 f1 psi x = controlled M psi x.
Proof.
  intros M f0 f1 H0 H1 psi x. unfold pairop, controlled. generalize cs as l. induction l as [|c l IH]; simpl.
  - unfold ap1. destruct (bit x (N.to_nat t)) eqn:E.
    + rewrite H1, (setb_same x _ true) by auto. reflexivity.
    + rewrite H0, (setb_same x _ false) by auto. reflexivity.
  - unfold ctl at 1. destruct (bit x (N.to_nat c)); simpl; auto.
Qed.

Lemma ctl_kernel_ok : forall body f0 f1 M,
  (forall a b, (N.to_nat a < 2 ^ n)%nat -> (N.to_nat b < 2 ^ n)%nat -> a <> b ->
     b = N.lor a (shl1 t) -> pair_body n (body a (shl1 t)) a b f0 f1) ->
  (forall a b, f0 a b = (M false false * a + M false true * b)%C) ->
  (forall a b, f1 a b = (M true false * a + M true true * b)%C) ->
  exists k, ctl_kernel (N.of_nat n) (cs ++ [t]) body = Ok k /\ kacts n k (controlled M).
Proof.
  intros body f0 f1 M Hb H0 H1.
  pose proof Ht' as T1. pose proof Hcs' as T2. pose proof Htc' as T3. pose proof Hqs' as T4. pose proof Hcm' as T5.
  destruct (mult_visits (N.of_nat n) (cs ++ [t]) ltac:(lia) Hd Hin) as [masks [Em [Hle V]]].
  unfold ctl_kernel. rewrite rev_app_distr. cbn [rev app]. rewrite rev_involutive, Em. cbn [bind].
  destruct (N.ltb_spec (N.of_nat n) (N.of_nat (List.length (cs ++ [t])))); [lia|].
  eexists. split; [reflexivity|]. rewrite nloop by auto.
  match goal with |- kacts _ ?k _ => set (K := k) end.
  set (cnt := (2 ^ (N.of_nat n - N.of_nat (List.length (cs ++ [t]))))%N) in *.
  assert (E : shl1 t = (2 ^ t)%N) by (apply shl1_pow; pose proof Ht'; lia).
  assert (B : forall i, (i < cnt)%N -> pair_body n (k_body K i) (p0 (mult_shifted masks) (or_bits cs) i) (p1 t (mult_shifted masks) (or_bits cs) i) f0 f1).
  { intros i Hi. unfold K. cbn [k_body]. apply Hb.
    - apply to_nat_lt. apply (p0_lt n cs t (cs ++ [t]) cnt (mult_shifted masks) (or_bits cs)); auto.
    - apply to_nat_lt. apply (p1_lt n cs t (cs ++ [t]) cnt (mult_shifted masks) (or_bits cs)); auto.
    - apply (p_ne n cs t (cs ++ [t]) cnt (mult_shifted masks) (or_bits cs)); auto.
    - rewrite E. reflexivity. }
  split.
  - apply (pair_safe n cs t (cs ++ [t]) cnt (mult_shifted masks) (or_bits cs)) with (f0 := f0) (f1 := f1); auto.
  - intros psi. rewrite (pair_run n cs t (cs ++ [t]) cnt (mult_shifted masks) (or_bits cs)) with (k := K) (f0 := f0) (f1 := f1); auto.
    f_equal. apply arr_ext. intros. apply controlled_pairop; auto.
Qed.

Lemma k_cz_ok : exists k, k_cz (N.of_nat n) (cs ++ [t]) = Ok k /\ kacts n k (controlled mZ).
Proof.
  pose proof Ht' as T1. pose proof Hcs' as T2. pose proof Htc' as T3. pose proof Hqs' as T4. pose proof Hcm' as T5.
  destruct (mult_visits (N.of_nat n) (cs ++ [t]) ltac:(lia) Hd Hin) as [masks [Em [Hle V]]].
  unfold k_cz. rewrite Em. cbn [bind].
  destruct (N.ltb_spec (N.of_nat n) (N.of_nat (List.length (cs ++ [t])))); [lia|].
  eexists. split; [reflexivity|]. rewrite nloop by auto.
  match goal with |- kacts _ ?k _ => set (K := k) end.
  set (cnt := (2 ^ (N.of_nat n - N.of_nat (List.length (cs ++ [t]))))%N) in *.
  assert (E : or_bits (cs ++ [t]) = N.lor (or_bits cs) (2 ^ t)).
  { unfold or_bits. rewrite fold_left_app. simpl. rewrite shl1_pow; auto. pose proof Ht'. lia. }
  assert (B : forall i, (i < cnt)%N -> pair_body n (k_body K i) (p0 (mult_shifted masks) (or_bits cs) i) (p1 t (mult_shifted masks) (or_bits cs) i)
    (fun x _ => x) (fun _ y => y * - C1)%C).
  { intros i Hi. unfold K. cbn [k_body]. rewrite E, N.lor_assoc.
    apply body_scale1.
    - apply to_nat_lt. apply (p1_lt n cs t (cs ++ [t]) cnt (mult_shifted masks) (or_bits cs)); auto.
    - apply (p_ne n cs t (cs ++ [t]) cnt (mult_shifted masks) (or_bits cs)); auto. }
  split.
  - apply (pair_safe n cs t (cs ++ [t]) cnt (mult_shifted masks) (or_bits cs)) with (f0 := (fun x _ => x)) (f1 := (fun _ y => y * - C1)%C); auto.
  - intros psi. rewrite (pair_run n cs t (cs ++ [t]) cnt (mult_shifted masks) (or_bits cs)) with (k := K) (f0 := (fun x _ => x)) (f1 := (fun _ y => y * - C1)%C); auto.
    f_equal. apply arr_ext. intros. apply controlled_pairop; intros; unfold mZ, mk2; ring.
Qed.

Lemma k_cx_ok : exists k, k_cx (N.of_nat n) (cs ++ [t]) = Ok k /\ kacts n k (controlled mX).
Proof.
  eapply ctl_kernel_ok; [intros a b Ha Hb Hab ->; apply (body_swap n _ _ Ha Hb Hab); auto| |]; intros; cbn; ring.
Qed.
Lemma k_cmat_ok : forall a b c d, exists k, k_cmat a b c d (N.of_nat n) (cs ++ [t]) = Ok k /\ kacts n k (controlled (mk2 a b c d)).
Proof.
  intros. eapply ctl_kernel_ok; [intros x y Ha Hb Hab ->; apply (body_swap n _ _ Ha Hb Hab)| |].
  - intros r r' E0 E1. rewrite E0, E1. auto.
  - intros; cbn; ring.
  - intros; cbn; ring.
Qed.
Lemma controlled_ext : forall M M', (forall a b, M a b = M' a b) -> controlled M = controlled M'.
Proof. intros M M' H. unfold controlled.
  replace (ap1 M (N.to_nat t)) with (ap1 M' (N.to_nat t)); auto. apply functional_extensionality; intro psi. symmetry. apply ap1_ext; auto.
Qed.

Lemma k_crx_ok : forall ang, exists k, k_crx ang (N.of_nat n) (cs ++ [t]) = Ok k /\ kacts n k (controlled (mRX ang)).
Proof.
  intros. unfold k_crx. rewrite half_angle. destruct (k_cmat_ok (RtoC (cos (ang / 2))) (RtoC (sin (ang / 2)) * - Ci)%C (RtoC (sin (ang / 2)) * - Ci)%C (RtoC (cos (ang / 2)))) as [k [E H]].
  exists k. split; [exact E|]. rewrite (controlled_ext _ (mRX ang)) in H; [exact H|]. intros [] []; unfold mRX; simpl; ceq.
Qed.
Lemma k_cry_ok : forall ang, exists k, k_cry ang (N.of_nat n) (cs ++ [t]) = Ok k /\ kacts n k (controlled (mRY ang)).
Proof.
  intros. unfold k_cry. rewrite half_angle. destruct (k_cmat_ok (RtoC (cos (ang / 2))) (- RtoC (sin (ang / 2)))%C (RtoC (sin (ang / 2))) (RtoC (cos (ang / 2)))) as [k [E H]].
  exists k. split; [exact E|]. rewrite (controlled_ext _ (mRY ang)) in H; [exact H|]. intros [] []; unfold mRY; simpl; ceq.
Qed.
Lemma k_crz_ok : forall ang, exists k, k_crz ang (N.of_nat n) (cs ++ [t]) = Ok k /\ kacts n k (controlled (mRZ ang)).
Proof.
  intros. unfold k_crz. eapply ctl_kernel_ok; [intros a b Ha Hb Hab ->; apply body_scale01; auto| |];
    intros; cbn beta; rewrite ?cis_conj, half_angle; unfold mRZ, mk2; ring.
Qed.
Lemma k_cphase_ok : forall ang, exists k, k_cphase ang (N.of_nat n) (cs ++ [t]) = Ok k /\ kacts n k (controlled (mPhase ang)).
Proof.
  intros. unfold k_cphase. eapply ctl_kernel_ok; [intros a b Ha Hb Hab ->; apply body_scale1; auto| |];
    intros; unfold mPhase, mk2; ring.
Qed.
End Ctl.
