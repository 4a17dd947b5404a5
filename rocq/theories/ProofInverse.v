(** The gates of [dagger()] undo the gates of the circuit. *)
From Coq Require Import List Arith NArith ZArith Bool String Reals Lia Lra FunctionalExtensionality.
Import ListNotations.
From Verif Require Import Base Cplx Bits ModelTargets ModelGate ModelNumpy ModelNumba ModelCircuit SpecTargets SpecQuantum SpecCircuit
  SpecMeasure SpecRun SpecAPI ProofTargets ProofArray ProofNumpy ProofFallback ProofRun ProofUnitary ProofCache ProofMeasure ProofDagger ProofWhole
  ProofExamples ProofKernel ProofNumba ProofNumbaRun ProofAPI ProofProgram ProofReach.

(** ** Operators that commute *)
Definition diagonal (U : oper) : Prop := exists d : nat -> C, forall psi x, U psi x = (d x * psi x)%C.
Lemma diagonal_commutes : forall U V, diagonal U -> diagonal V -> commutes U V.
Proof. intros U V [d D] [e E] psi. apply functional_extensionality; intro x. rewrite !D, !E, !D. ring. Qed.
Lemma ctl_diagonal : forall c t a b, diagonal (ctl c (ap1 (mk2 a C0 C0 b) t)).
Proof.
  intros. exists (fun x => if bit x c then (if bit x t then b else a) else C1). intros psi x. unfold ctl, ap1.
  destruct (bit x c); [|ring]. pose proof (setb_id x t) as E. destruct (bit x t); simpl; rewrite E; ring.
Qed.
Lemma scl_diagonal : forall k U, diagonal U -> diagonal (fun psi => scl k (U psi)).
Proof. intros k U [d D]. exists (fun x => (k * d x)%C). intros. unfold scl. rewrite D. ring. Qed.

Lemma ctl_commutes : forall M c t d u, c <> t -> d <> u -> c <> u -> t <> d -> commutes (ctl c (ap1 M t)) (ctl d (ap1 M u)).
Proof.
  intros M c t d u Hct Hdu Hcu Htd. destruct (Nat.eq_dec t u) as [->|N].
  - intros psi. apply functional_extensionality; intro x. unfold ctl, ap1.
    rewrite !(setb_pred d u), !(setb_pred c u) by auto. destruct (bit x c), (bit x d); reflexivity.
  - apply (where_commutes M M t u (fun x => bit x c) (fun x => bit x d)); auto; intros; apply setb_pred; auto.
Qed.

Lemma ap1_commutes : forall P t u psi, ap1 P t (ap1 P u psi) = ap1 P u (ap1 P t psi).
Proof. intros. destruct (Nat.eq_dec t u) as [->|N]; auto. apply ap1_comm; auto. Qed.
Lemma rot2_commutes : forall P th a b c d, commutes (rot2 P th a b) (rot2 P th c d).
Proof.
  intros P th a b c d psi. apply functional_extensionality; intro x.
  set (Q := fun f => ap1 P a (ap1 P b f)). set (S := fun f => ap1 P c (ap1 P d f)).
  assert (LQ : forall k l f g y, Q (fun x => (k * f x - l * g x)%C) y = (k * Q f y - l * Q g y)%C) by (intros; unfold Q, ap1; ring).
  assert (LS : forall k l f g y, S (fun x => (k * f x - l * g x)%C) y = (k * S f y - l * S g y)%C) by (intros; unfold S, ap1; ring).
  assert (QS : forall f, Q (S f) = S (Q f)).
  { intros. unfold Q, S. rewrite (ap1_commutes P b c), (ap1_commutes P b d), (ap1_commutes P a c), (ap1_commutes P a d). reflexivity. }
  set (k := RtoC (cos (th / 2))). set (l := (Ci * RtoC (sin (th / 2)))%C).
  assert (EQ : forall f, rot2 P th a b f = (fun x => (k * f x - l * Q f x)%C)) by reflexivity.
  assert (ES : forall f, rot2 P th c d f = (fun x => (k * f x - l * S f x)%C)) by reflexivity.
  rewrite EQ, ES, LQ, EQ, ES, LS, QS. ring.
Qed.

Lemma separate_commutes : forall n k ps, Forall (fun p => inside n (fst p) /\ inside n (snd p)) ps ->
  Forall (fun p => fst p <> snd p) ps -> (forall p q, In p ps -> In q ps -> separate k p q) ->
  call_commutes (map (fun p => sem2 k (Z.to_nat (fst p)) (Z.to_nat (snd p))) ps).
Proof.
  intros n k ps F Hne HS U V HU HV. apply in_map_iff in HU, HV. destruct HU as [p [<- Hp]], HV as [q [<- Hq]].
  rewrite Forall_forall in *. pose proof (F p Hp) as [I1 I2]. pose proof (F q Hq) as [I3 I4].
  pose proof (Hne p Hp) as N1. pose proof (Hne q Hq) as N2. pose proof (HS p q Hp Hq) as Hs. cbv beta in *. unfold inside in *. clear F Hne HS.
  destruct k; simpl in Hs; cbn [sem2];
    try (apply ctl_commutes; lia); try apply rot2_commutes.
  - apply diagonal_commutes; apply ctl_diagonal.
  - apply diagonal_commutes; apply ctl_diagonal.
  - apply diagonal_commutes; apply ctl_diagonal.
  - destruct Hs as [->|Hs]; [intro; reflexivity|]. apply (sem2_commutes KSwap); lia.
  - apply diagonal_commutes; apply scl_diagonal; apply ctl_diagonal.
Qed.

Lemma gate_separate : forall n g ops, gate_ops n g ops -> separate_call n g -> call_commutes ops.
Proof.
  intros n g ops H S. destruct H as [k tg l D F|k tg ps D F|k a b c Ha Hb Hc Hab Hac Hbc].
  - eapply one_commutes. econstructor; eauto.
  - apply (separate_commutes n); auto.
    + destruct D as [A [B [la [lb [_ [_ [_ [_ [_ Hne]]]]]]]]]. exact Hne.
    + intros p q Hp Hq. exact (S ps D p q Hp Hq).
  - apply three_commutes.
Qed.
Lemma circuit_separate : forall n gs ops, circuit_ops n gs ops -> Forall (separate_call n) gs -> circuit_commutes n gs.
Proof.
  induction 1 as [|g gs o os Hg Hgs IH]; intros F; [constructor|]. inversion F; subst.
  econstructor; [exact Hg| |auto]. eapply gate_separate; eauto.
Qed.

(** ** Daggers of daggers *)
Lemma dagger1_twice : forall k t, sem1 (dagger1 (dagger1 k)) t = sem1 k t.
Proof.
  intros k t. unfold sem1. destruct k; simpl; rewrite ?Ropp_involutive; auto.
  replace (- (- PI / 2))%R with (PI / 2)%R by field. reflexivity.
Qed.
Lemma dagger2_twice : forall k c t, sem2 (dagger2 (dagger2 k)) c t = sem2 k c t.
Proof.
  intros k c t. destruct k; simpl; rewrite ?Ropp_involutive; auto.
  replace (- (- PI / 2))%R with (PI / 2)%R by field. reflexivity.
Qed.
Lemma gate_twice : forall n g g1 g2 ops, gate_dagger g = Ok g1 -> gate_dagger g1 = Ok g2 -> gate_ops n g ops -> gate_ops n g2 ops.
Proof.
  intros n g g1 g2 ops E1 E2 H. destruct H as [k tg l D F|k tg ps D F|k a b c Ha Hb Hc Hab Hac Hbc]; simpl in E1; injection E1 as <-;
    simpl in E2; injection E2 as <-.
  - replace (map (fun t => sem1 k (Z.to_nat t)) l) with (map (fun t => sem1 (dagger1 (dagger1 k)) (Z.to_nat t)) l); [constructor; auto|].
    apply map_ext. intros. apply dagger1_twice.
  - replace (map (fun p => sem2 k (Z.to_nat (fst p)) (Z.to_nat (snd p))) ps) with
      (map (fun p => sem2 (dagger2 (dagger2 k)) (Z.to_nat (fst p)) (Z.to_nat (snd p))) ps); [constructor; auto|].
    apply map_ext. intros. apply dagger2_twice.
  - constructor; auto.
Qed.
Lemma separate_dagger : forall n g g', gate_dagger g = Ok g' -> separate_call n g -> separate_call n g'.
Proof.
  intros n g g' E H. destruct g as [k tg|k tg|k tg|tg|tg]; simpl in E; try discriminate; injection E as <-; simpl; auto.
  intros ps D p q Hp Hq. specialize (H ps D p q Hp Hq). destruct k; exact H.
Qed.

(** ** [reversed] *)
Lemma unitary_reversible : forall n gs ops, circuit_ops n gs ops -> Forall (fun g => ~ irreversible g) gs.
Proof. induction 1 as [|g gs o os Hg Hgs IH]; constructor; auto. destruct Hg; simpl; auto. Qed.
Lemma reversed_map : forall gs r, reversed gs r -> Forall (fun g => ~ irreversible g) gs ->
  exists l, map_res gate_dagger gs = Ok l /\ r = rev l.
Proof.
  induction 1 as [|g g' gs r E H IH|g gs r Hi H IH]; intros F.
  - exists []. auto.
  - inversion F; subst. destruct (IH H3) as [l [El ->]]. exists (g' :: l). simpl. rewrite E, El. auto.
  - inversion F; subst. contradiction.
Qed.
Lemma reversed_app : forall a b ra rb, reversed a ra -> reversed b rb -> reversed (a ++ b) (rb ++ ra).
Proof.
  induction 1 as [|g g' gs r E H IH|g gs r Hi H IH]; intros Hb; simpl.
  - rewrite app_nil_r. auto.
  - rewrite app_assoc. constructor; auto.
  - apply rv_drop; auto.
Qed.
Lemma reversed_fun : forall gs r r', reversed gs r -> reversed gs r' -> r = r'.
Proof.
  intros gs r r' H. revert r'. induction H as [|g g' gs r E H IH|g gs r Hi H IH]; intros r' H'; inversion H'; subst.
  - reflexivity.
  - rewrite (IH _ H4). congruence.
  - destruct g; simpl in *; try contradiction; discriminate.
  - destruct g; simpl in *; try contradiction; discriminate.
  - auto.
Qed.
Lemma reversed_exists : forall gs, exists r, reversed gs r.
Proof.
  induction gs as [|g gs [r H]]; [exists []; constructor|]. destruct (gate_dagger g) as [g'|e] eqn:E.
  - exists (r ++ [g']). constructor; auto.
  - exists r. apply rv_drop; auto. eapply dagger_err; eauto.
Qed.
Lemma dagger_reversible : forall g g', gate_dagger g = Ok g' -> ~ irreversible g' /\ exists g2, gate_dagger g' = Ok g2.
Proof. intros g g' E. destruct g; simpl in E; try discriminate; injection E as <-; simpl; eauto. Qed.
Lemma reversed_reversible : forall gs r, reversed gs r -> Forall (fun g => ~ irreversible g) r.
Proof.
  induction 1 as [|g g' gs r E H IH|g gs r Hi H IH]; auto. apply Forall_app. split; auto. constructor; auto. eapply dagger_reversible; eauto.
Qed.

(** the gates of the dagger of the dagger have the operators of the gates *)
Lemma reversed_twice : forall n gs ops r r2, circuit_ops n gs ops -> reversed gs r -> reversed r r2 -> circuit_ops n r2 ops.
Proof.
  intros n gs ops r r2 H. revert r r2. induction H as [|g gs o os Hg Hgs IH]; intros r r2 Hr Hr2.
  - inversion Hr; subst. inversion Hr2; subst. constructor.
  - inversion Hr as [|? g1 ? r1 E H1|? ? ? Hi H1]; subst; [|destruct Hg; destruct Hi].
    destruct (dagger_reversible _ _ E) as [_ [g2 E2]]. destruct (reversed_exists r1) as [r3 H3].
    assert (K : reversed [g1] [g2]) by (change [g2] with ([] ++ [g2]); constructor; [auto|constructor]).
    rewrite (reversed_fun _ _ _ Hr2 (reversed_app _ _ _ _ H3 K)). simpl. constructor; [exact (gate_twice n g g1 g2 o E E2 Hg)|exact (IH r1 r3 H1 H3)].
Qed.
Lemma reversed_separate : forall n gs r, reversed gs r -> Forall (separate_call n) gs -> Forall (separate_call n) r.
Proof.
  induction 1 as [|g g' gs r E H IH|g gs r Hi H IH]; intros F; auto; inversion F; subst; auto.
  apply Forall_app. split; auto. constructor; auto. eapply separate_dagger; eauto.
Qed.

Lemma inverse_ops : forall n gs ops r, circuit_ops n gs ops -> Forall (separate_call n) gs -> reversed gs r ->
  exists ops', circuit_ops n r ops' /\ undoes (apply_all ops') (apply_all ops) /\ undoes (apply_all ops) (apply_all ops').
Proof.
  intros n gs ops r H S Hr.
  destruct (reversed_map _ _ Hr (unitary_reversible _ _ _ H)) as [l [El ->]].
  destruct (circuit_undo n gs l (circuit_separate _ _ _ H S) El) as [o1 [ops' [H1 [H2 H3]]]].
  rewrite (circuit_ops_fun _ _ _ H1 _ H) in H3. exists ops'. split; auto. split; auto.
  destruct (reversed_exists (rev l)) as [r2 Hr2].
  pose proof (reversed_twice _ _ _ _ _ H Hr Hr2) as T.
  destruct (reversed_map _ _ Hr2 (unitary_reversible _ _ _ H2)) as [l2 [El2 ->]].
  destruct (circuit_undo n (rev l) l2 (circuit_separate _ _ _ H2 (reversed_separate _ _ _ Hr S)) El2) as [o2 [o3 [K1 [K2 K3]]]].
  rewrite (circuit_ops_fun _ _ _ K1 _ H2), (circuit_ops_fun _ _ _ K2 _ T) in K3. exact K3.
Qed.
