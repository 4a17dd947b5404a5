(** Simplified terms are linearly independent. *)
From Coq Require Import List Arith ZArith Bool Ascii String Reals Lia Lra Sorted FunctionalExtensionality Permutation.
Import ListNotations.
From Verif Require Import Base Cplx Bits SpecQuantum SpecCircuit ModelGate ModelPauli SpecPauli ProofNumpy ProofFallback ProofUnitary ProofDagger ProofPauli.
Local Open Scope nat_scope.

Definition tr (n : nat) (U : oper) : C := Csum (fun x => U (ket x) x) (seq 0 (2 ^ n)).
Lemma tr_ext : forall n U V, same_op U V -> tr n U = tr n V.
Proof. intros. apply Csum_ext. intros. apply H. Qed.
Lemma tr_add : forall n U V, tr n (op_add U V) = (tr n U + tr n V)%C.
Proof. intros. unfold tr, op_add. apply Csum_add. Qed.
Lemma tr_scl : forall n k U, tr n (op_scl k U) = (k * tr n U)%C.
Proof. intros. unfold tr, op_scl. apply Csum_mul_l. Qed.

Lemma ap1_flip : forall M r q psi, r <> q -> ap1 M r (fun y => psi (flip y q)) = (fun y => ap1 M r psi (flip y q)).
Proof.
  intros M r q psi H. apply functional_extensionality. intro y. unfold ap1.
  assert (E : forall b, flip (setb y r b) q = setb (flip y q) r b).
  { intros b. apply Nat.bits_inj. intro u. repeat (rewrite testbit_flip || rewrite testbit_setb). fold (bit y u).
    destruct (Nat.eqb_spec q u), (Nat.eqb_spec r u); subst; congruence. }
  rewrite !E. rewrite testbit_flip. destruct (Nat.eqb_spec q r); congruence.
Qed.
Lemma word_flip : forall w q psi, ~ In q (map snd w) -> word_op w (fun y => psi (flip y q)) = (fun y => word_op w psi (flip y q)).
Proof.
  induction w as [|[l r] w IH]; intros q psi H; simpl; auto. simpl in H. unfold op_mul. rewrite IH by tauto. apply ap1_flip. tauto.
Qed.
Lemma ket_flip : forall x q, ket (flip x q) = (fun y => ket x (flip y q)).
Proof.
  intros. apply functional_extensionality. intro y. unfold ket.
  destruct (Nat.eqb_spec y (flip x q)), (Nat.eqb_spec (flip y q) x); auto; exfalso.
  - subst y. rewrite flip_flip in *. auto.
  - subst x. rewrite flip_flip in *. auto.
Qed.
Lemma word_vanish : forall w q b psi, ~ In q (map snd w) -> (forall y, bit y q = b -> psi y = C0) -> forall y, bit y q = b -> word_op w psi y = C0.
Proof.
  induction w as [|[l r] w IH]; intros q b psi H V y Hy; simpl; [apply V; auto|]. simpl in H. unfold op_mul, ap1.
  rewrite !(IH q b psi) by (try tauto; try rewrite testbit_setb_neq by tauto; auto). ring.
Qed.
Lemma ap1_offdiag : forall M q psi x, M false false = C0 -> M true true = C0 ->
  ap1 M q psi x = (M (bit x q) (negb (bit x q)) * psi (flip x q))%C.
Proof. intros M q psi x H0 H1. unfold ap1. rewrite flip_setb. destruct (bit x q); simpl; rewrite ?H0, ?H1; ring. Qed.

Lemma tr_word0 : forall n l q w, q < n -> ~ In q (map snd w) -> tr n (word_op ((l, q) :: w)) = C0.
Proof.
  intros n l q w Hq N. unfold tr. simpl. unfold op_mul.
  assert (D : lmat l false false = C0 /\ lmat l true true = C0 \/ l = LZ) by (destruct l; simpl; auto).
  destruct D as [[D0 D1]| ->].
  - apply Csum_0. intros x _. rewrite ap1_offdiag by auto. rewrite (word_vanish w q (negb (bit x q))); auto; [ring| |].
    + intros y Hy. unfold ket. destruct (Nat.eqb_spec y x); auto. subst. destruct (bit x q); discriminate.
    + rewrite testbit_flip, Nat.eqb_refl. auto.
  - set (f := fun x => ap1 (lmat LZ) q (word_op w (ket x)) x).
    assert (F : forall x, f (flip x q) = (- f x)%C).
    { intros x. unfold f. rewrite ket_flip, word_flip by auto. unfold ap1 at 1 2. rewrite !flip_setb, !testbit_setb_eq. rewrite !setb_setb.
      cbn [lmat]. unfold mZ, mk2. destruct (bit x q) eqn:E; simpl; rewrite ?setb_same by auto; ring. }
    pose proof (Csum_flip n q f Hq) as S. rewrite (Csum_ext _ _ (fun x => - f x)%C) in S by auto. rewrite Csum_opp in S.
    apply Cdouble_inj. rewrite <- S at 1. ring.
Qed.
Lemma tr_one : forall n, tr n op_one <> C0.
Proof.
  intros n E. unfold tr, op_one in E. rewrite (Csum_ext _ _ (fun _ => RtoC 1)) in E by (intros; unfold ket; rewrite Nat.eqb_refl; auto).
  rewrite Csum_RtoC in E. apply RtoC_inj in E.
  assert (K : forall a m, Rsum (fun _ : nat => 1%R) (seq a m) = INR m).
  { intros a m. revert a. induction m; intros a; [reflexivity|]. change (seq a (S m)) with (a :: seq (S a) m). rewrite S_INR. cbn [Rsum fold_right].
    unfold Rsum in IHm. simpl. rewrite IHm. ring. }
  rewrite K in E. pose proof (pow2_pos n) as P. apply lt_INR in P. simpl in P. rewrite E in P. lra.
Qed.

Lemma word_rev : forall v psi, word_op (rev v) (word_op v psi) = psi.
Proof.
  induction v as [|[l q] v IH]; intros psi; auto. simpl rev. rewrite word_app. simpl. unfold op_mul, op_one. rewrite pauli_sq. apply IH.
Qed.
Lemma letters_rev : forall v q, letters (rev v) q = rev (letters v q).
Proof.
  induction v as [|[l r] v IH]; intros q; auto. unfold letters in *. simpl. rewrite filter_app, map_app, IH. simpl.
  destruct (r =? q); simpl; auto. rewrite app_nil_r. auto.
Qed.
Lemma letters_app : forall v w q, letters (v ++ w) q = letters v q ++ letters w q.
Proof. intros. unfold letters. rewrite filter_app, map_app. auto. Qed.

Lemma canonical_dec : forall w q, canonical w -> letters w q = [] /\ (forall l, ~ In (l, q) w) \/ exists l, letters w q = [l] /\ In (l, q) w.
Proof.
  intros w q H. destruct (in_dec Nat.eq_dec q (map snd w)) as [J|J].
  - right. apply in_map_iff in J. destruct J as [[a r] [E J]]. simpl in E. subst r. exists a. split; auto. apply canonical_letters; auto.
  - left. split; [apply letters_none; auto|]. intros l I. apply J. apply (in_map snd) in I. auto.
Qed.
Lemma quotient_nil : forall v w, canonical v -> canonical w -> simple_ops (rev v ++ w) = [] -> v = w.
Proof.
  intros v w Hv Hw H. assert (A : forall q, letter_at (rev v ++ w) q = None).
  { intros q. destruct (letter_at (rev v ++ w) q) as [l|] eqn:E; auto. apply simple_ops_In in E. rewrite H in E. destruct E. }
  apply canonical_ext; auto. intros [l q]. specialize (A q). unfold letter_at in A. rewrite letters_app, letters_rev in A.
  destruct (canonical_dec v q Hv) as [[Lv Nv]|[a [Lv Iv]]], (canonical_dec w q Hw) as [[Lw Nw]|[b [Lw Iw]]]; rewrite Lv, Lw in A; simpl in A.
  - split; intros I; [destruct (Nv _ I)|destruct (Nw _ I)].
  - discriminate.
  - discriminate.
  - assert (a = b) by (destruct a, b; cbn in A; try reflexivity; idtac; discriminate A). subst b.
    pose proof (canonical_letters v l q Hv) as Kv. pose proof (canonical_letters w l q Hw) as Kw. rewrite Lv in Kv. rewrite Lw in Kw.
    split; intros I; [injection (Kv I) as <-|injection (Kw I) as <-]; assumption.
Qed.
Lemma simple_fits : forall n w, fits n w -> fits n (simple_ops w).
Proof.
  intros n w H [l q] I. apply simple_ops_In in I. simpl. destruct (in_dec Nat.eq_dec q (map snd w)) as [J|J].
  - apply in_map_iff in J. destruct J as [o [<- J]]. auto.
  - unfold letter_at in I. rewrite letters_none in I by auto. discriminate.
Qed.
Lemma tr_orth : forall n v w, canonical v -> canonical w -> fits n v -> fits n w ->
  tr n (op_mul (word_op (rev v)) (word_op w)) = if ops_eqb w v then tr n op_one else C0.
Proof.
  intros n v w Hv Hw Fv Fw. destruct (ops_eqb w v) eqn:E.
  - apply ops_eqb_eq in E. subst w. apply tr_ext. intros psi x. unfold op_mul. rewrite word_rev. auto.
  - rewrite (tr_ext n _ (op_scl (simple_phase (rev v ++ w) C1) (word_op (simple_ops (rev v ++ w))))).
    + rewrite tr_scl. destruct (simple_ops (rev v ++ w)) as [|[l q] r] eqn:S.
      * apply quotient_nil in S; auto. subst. rewrite (proj2 (ops_eqb_eq w w) eq_refl) in E. discriminate.
      * pose proof (simple_canonical (rev v ++ w)) as K. rewrite S in K. apply canonical_cons in K. rewrite tr_word0; [ring| |tauto].
        assert (G : fits n (simple_ops (rev v ++ w))).
        { apply simple_fits. intros o Ho. apply in_app_iff in Ho. destruct Ho as [Ho|Ho]; [apply in_rev in Ho|]; auto. }
        apply (G (l, q)). rewrite S. left. auto.
    + intros psi x. unfold op_mul, op_scl. rewrite <- word_app. apply simple_op.
Qed.

(** ** Coefficients *)
Definition wcoef (e : expr) (w : list pop) : C := Csum (fun t => if ops_eqb (t_ops t) w then t_coeff t else C0) e.
Lemma tr_expr : forall n v e, canonical v -> fits n v -> Forall (fun t => canonical (t_ops t) /\ fits n (t_ops t)) e ->
  tr n (op_mul (word_op (rev v)) (expr_op e)) = (wcoef e v * tr n op_one)%C.
Proof.
  intros n v e Hv Fv H. induction H as [|t e [Ht Ft] H IH].
  - unfold wcoef. simpl. rewrite (tr_ext n _ (op_scl C0 op_one)).
    + rewrite tr_scl. ring.
    + intros psi x. unfold op_mul, op_scl. change (expr_op [] psi) with (fun _ : nat => C0). rewrite (lin_zero _ (linear_word (rev v))). ring.
  - rewrite (tr_ext n _ (op_add (op_scl (t_coeff t) (op_mul (word_op (rev v)) (word_op (t_ops t)))) (op_mul (word_op (rev v)) (expr_op e)))).
    + rewrite tr_add, tr_scl, IH, tr_orth by auto. unfold wcoef. simpl. destruct (ops_eqb (t_ops t) v); ring.
    + intros psi x. unfold op_mul, op_add, op_scl. simpl. unfold op_add at 1.
      rewrite (lin_add _ (linear_word (rev v))). unfold term_op, op_scl. rewrite (lin_scl _ (linear_word (rev v))). auto.
Qed.
Lemma fits_exists : forall w, exists n, fits n w.
Proof.
  induction w as [|[l q] w [n H]]; [exists 0; intros o []|]. exists (Nat.max n (S q)). intros o [<-|I]; simpl; [lia|]. specialize (H o I). lia.
Qed.
Lemma fits_more : forall n m w, n <= m -> fits n w -> fits m w.
Proof. intros n m w H F o I. specialize (F o I). lia. Qed.
Lemma fits_expr : forall e, exists n, Forall (fun t => fits n (t_ops t)) e.
Proof.
  induction e as [|t e [n H]]; [exists 0; constructor|]. destruct (fits_exists (t_ops t)) as [m M]. exists (Nat.max n m). constructor.
  - apply (fits_more m); auto. lia.
  - eapply Forall_impl; [|exact H]. intros s. apply fits_more. lia.
Qed.
Lemma coef_unique : forall a b, Forall (fun t => canonical (t_ops t)) a -> Forall (fun t => canonical (t_ops t)) b ->
  same_op (expr_op a) (expr_op b) -> forall v, canonical v -> wcoef a v = wcoef b v.
Proof.
  intros a b Ha Hb S v Hv. destruct (fits_expr a) as [n1 F1], (fits_expr b) as [n2 F2], (fits_exists v) as [n3 F3].
  set (n := Nat.max n1 (Nat.max n2 n3)).
  assert (A : Forall (fun t => canonical (t_ops t) /\ fits n (t_ops t)) a).
  { apply Forall_forall. intros t I. rewrite Forall_forall in Ha, F1. split; auto. apply (fits_more n1); auto. lia. }
  assert (B : Forall (fun t => canonical (t_ops t) /\ fits n (t_ops t)) b).
  { apply Forall_forall. intros t I. rewrite Forall_forall in Hb, F2. split; auto. apply (fits_more n2); auto. lia. }
  assert (F : fits n v) by (apply (fits_more n3); auto; lia).
  assert (E : tr n (op_mul (word_op (rev v)) (expr_op a)) = tr n (op_mul (word_op (rev v)) (expr_op b))).
  { apply tr_ext. intros psi x. unfold op_mul. rewrite (op_ext _ _ psi S). auto. }
  rewrite !tr_expr in E by auto. pose proof (tr_one n) as N. 
  replace (wcoef a v) with (wcoef a v * tr n op_one / tr n op_one)%C by (field; auto). rewrite E. field. auto.
Qed.

(** The operator of an expression is determined by the coefficients of its words. *)
Lemma expr_by_words : forall ws e psi x, NoDup ws -> (forall t, In t e -> In (t_ops t) ws) ->
  expr_op e psi x = Csum (fun w => (wcoef e w * word_op w psi x)%C) ws.
Proof.
  intros ws e psi x ND. induction e as [|t e IH]; intros H.
  - simpl. symmetry. apply Csum_0. intros w _. unfold wcoef. simpl. ring.
  - simpl. unfold op_add. rewrite IH by (intros; apply H; right; auto).
    transitivity (Csum (fun w => ((if ops_eqb (t_ops t) w then t_coeff t else C0) * word_op w psi x + wcoef e w * word_op w psi x)%C) ws).
    + rewrite Csum_add. f_equal. unfold term_op, op_scl. specialize (H t (or_introl eq_refl)). clear IH.
      induction ws as [|w ws IH]; [destruct H|]. inversion ND; subst. simpl. destruct H as [->|H].
      * rewrite (proj2 (ops_eqb_eq (t_ops t) (t_ops t)) eq_refl). rewrite Csum_0; [ring|]. intros w Hw.
        destruct (ops_eqb (t_ops t) w) eqn:E; [|ring]. apply ops_eqb_eq in E. subst w. contradiction.
      * rewrite <- IH by auto. destruct (ops_eqb (t_ops t) w) eqn:E; [|ring]. apply ops_eqb_eq in E. subst w. contradiction.
    + apply Csum_ext. intros w _. unfold wcoef. simpl. ring.
Qed.
Definition ops_dec : forall a b : list pop, {a = b} + {a <> b}.
Proof. intros a b. destruct (ops_eqb a b) eqn:E; [left; apply ops_eqb_eq; auto|right; intros H; apply ops_eqb_eq in H; congruence]. Defined.
Lemma same_coef : forall a b, (forall w, wcoef a w = wcoef b w) -> same_op (expr_op a) (expr_op b).
Proof.
  intros a b H psi x. set (ws := nodup ops_dec (map t_ops (a ++ b))).
  assert (ND : NoDup ws) by apply NoDup_nodup.
  rewrite (expr_by_words ws a psi x), (expr_by_words ws b psi x); auto.
  - apply Csum_ext. intros w _. rewrite H. auto.
  - intros t I. apply nodup_In, in_map, in_app_iff. auto.
  - intros t I. apply nodup_In, in_map, in_app_iff. auto.
Qed.
