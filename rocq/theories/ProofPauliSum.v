(** Sums of Pauli expressions whose left operand repeats operators. *)
From Coq Require Import List Arith ZArith Bool String Ascii Reals Lia Lra.
Import ListNotations.
From Verif Require Import Base Cplx Bits ModelTargets ModelGate SpecQuantum SpecCircuit ModelPauli SpecPauli ProofPauli ProofPauliTrace ProofPauliExpr ProofPauliArith
  SpecPauliSum ProofPauliEx.
Local Open Scope nat_scope.

Lemma survivors_total : forall e, exists k, survivors e k.
Proof.
  induction e as [|t e [k K]]; [exists []; constructor|]. destruct (truthy (t_coeff t)) eqn:T.
  2: { apply truthy_false in T. exists k. apply survivors_zero; auto. }
  apply truthy_true in T. destruct (existsb (fun s => ops_eqb (t_ops s) (t_ops t) && truthy (t_coeff s)) e) eqn:X.
  - apply existsb_exists in X. destruct X as [s [I E]]. apply andb_true_iff in E. destruct E as [E N]. apply ops_eqb_eq in E. apply truthy_true in N.
    exists k. apply survivors_replaced with s; auto.
  - exists (t :: k). apply survivors_kept; auto. intros s I E. apply truthy_false. destruct (truthy (t_coeff s)) eqn:F; auto.
    rewrite <- X. symmetry. apply existsb_exists. exists s. split; auto. rewrite F, andb_true_r. apply ops_eqb_eq. auto.
Qed.
Lemma survivors_sub : forall e k, survivors e k -> forall t, In t k -> In t e /\ t_coeff t <> C0.
Proof.
  induction 1; intros u I; [destruct I|..].
  - apply IHsurvivors in I. split; [right|]; apply I.
  - apply IHsurvivors in I. split; [right|]; apply I.
  - destruct I as [I|I]; [subst; split; [left|]; auto|]. apply IHsurvivors in I. split; [right|]; apply I.
Qed.
Lemma survivors_words : forall e k, survivors e k -> forall s, In s e -> t_coeff s <> C0 -> In (t_ops s) (map t_ops k).
Proof.
  induction 1; intros u I N; [destruct I|..].
  - destruct I as [I|I]; [subst; contradiction|]. auto.
  - destruct I as [I|I]; [subst; rewrite <- H0|]; auto.
  - destruct I as [I|I]; [subst; left; auto|right; auto].
Qed.
Lemma survivors_once : forall e k, survivors e k -> NoDup (map t_ops k).
Proof.
  induction 1; auto; [constructor|]. simpl. constructor; auto. intros I. apply in_map_iff in I. destruct I as [s [E I]].
  destruct (survivors_sub _ _ H1 s I) as [J N]. apply N, H0; auto.
Qed.
Lemma survivors_unique : forall e k, survivors e k -> forall l, survivors e l -> k = l.
Proof.
  induction 1; intros l S1; inversion S1; subst; auto.
  - contradiction.
  - exfalso. apply H1. auto.
  - contradiction.
  - exfalso. match goal with [ A : t_coeff ?s <> C0, B : In ?s r |- _ ] => apply A; apply H0; auto end.
  - f_equal. auto.
Qed.
Lemma survivors_exist : forall e, exists k, survivors e k /\ (forall l, survivors e l -> l = k).
Proof. intros e. destruct (survivors_total e) as [k K]. exists k. split; auto. intros l L. apply (survivors_unique e); auto. Qed.
Lemma to_dict_survivors : forall e k, survivors e k -> forall d w,
  dval (fold_left (fun d t => dset ops_eqb d (t_ops t) (t_coeff t)) (filter (fun t => truthy (t_coeff t)) e) d) w =
  if existsb (fun t => ops_eqb w (t_ops t)) k then wcoef k w else dval d w.
Proof.
  induction 1; intros d w; auto.
  - cbn [filter]. rewrite (proj2 (truthy_false _) H). auto.
  - cbn [filter]. destruct (truthy (t_coeff t)); auto. cbn [fold_left]. rewrite IHsurvivors. destruct (existsb _ k) eqn:X; auto.
    rewrite dval_dset. destruct (ops_eqb w (t_ops t)) eqn:F; auto. exfalso. apply ops_eqb_eq in F.
    assert (Y : existsb (fun t0 => ops_eqb w (t_ops t0)) k = true); [|rewrite X in Y; discriminate].
    pose proof (survivors_words _ _ H2 s H H1) as J. apply in_map_iff in J. destruct J as [q [E J]]. apply existsb_exists. exists q. split; auto.
    apply ops_eqb_eq. rewrite E, H0. auto.
  - cbn [filter]. rewrite (proj2 (truthy_true _) H). cbn [fold_left existsb]. rewrite IHsurvivors, dval_dset, wcoef_cons. unfold at_word.
    rewrite (ops_eqb_sym (t_ops t) w). destruct (ops_eqb w (t_ops t)) eqn:F; cbn [orb].
    + apply ops_eqb_eq in F. subst w. destruct (existsb _ k) eqn:X.
      * exfalso. apply existsb_exists in X. destruct X as [q [J E]]. apply ops_eqb_eq in E.
        pose proof (survivors_once _ _ (survivors_kept _ _ _ H H0 H1)) as N. inversion N; subst. apply H4. rewrite E. apply in_map. auto.
      * rewrite wcoef_absent; [ring|]. intros J. apply in_map_iff in J. destruct J as [q [E J]].
        assert (Y : existsb (fun t0 => ops_eqb (t_ops t) (t_ops t0)) k = true); [|rewrite X in Y; discriminate].
        apply existsb_exists. exists q. split; auto. apply ops_eqb_eq. auto.
    + destruct (existsb _ k) eqn:X; [ring|auto].
Qed.
Lemma to_dict_kept : forall e k w, survivors e k -> dval (terms_to_dict e) w = wcoef k w.
Proof.
  intros e k w H. unfold terms_to_dict. rewrite (to_dict_survivors e k H). destruct (existsb _ k) eqn:X; auto.
  rewrite wcoef_absent; [unfold dval; auto|]. intros J. apply in_map_iff in J. destruct J as [q [E J]].
  assert (Y : existsb (fun t0 => ops_eqb w (t_ops t0)) k = true); [|rewrite X in Y; discriminate].
  apply existsb_exists. exists q. split; auto. apply ops_eqb_eq. auto.
Qed.
Lemma expr_add_kept : forall a k b, survivors a k -> same_op (expr_op (expr_add a b)) (op_add (expr_op k) (expr_op b)).
Proof.
  intros a k b H psi x. rewrite (same_coef _ (k ++ b)); [apply expr_app_op|]. intros w. unfold expr_add.
  destruct (fold_add_into b (terms_to_dict a) w (to_dict_NoDup a)) as [E N]. rewrite wcoef_from_dict, E, wcoef_app by auto.
  rewrite (to_dict_kept a k w H). auto.
Qed.
Lemma expr_sub_kept : forall a k b, survivors a k -> same_op (expr_op (expr_sub a b)) (op_sub (expr_op k) (expr_op b)).
Proof.
  intros a k b H psi x. rewrite expr_sub_add, (expr_add_kept a k) by auto. unfold op_add. rewrite expr_neg_op. unfold op_neg, op_sub. ring.
Qed.
Lemma distinct_kept : forall e k, survivors e k -> distinct e -> same_op (expr_op k) (expr_op e).
Proof. intros e k H D psi x. apply same_coef. intros w. rewrite <- (to_dict_kept e k w H). apply to_dict_val. auto. Qed.
Lemma number_kept : forall x k, survivors (v_expr (VNum x)) k -> same_op (expr_op k) (val_op (VNum x)).
Proof.
  intros x k H psi y. rewrite (distinct_kept _ k H); [apply v_expr_op|]. cbn [v_expr]. unfold from_number, from_term, distinct.
  destruct (truthy (nval x)) eqn:T; cbn [filter map t_coeff t_ops]; [|constructor]. rewrite ?T. cbn [filter map t_coeff t_ops]. rewrite ?T. cbn [map t_ops].
  apply NoDup_cons; [intros []|constructor].
Qed.
Lemma sums_exact : forall u v k, survivors (v_expr u) k ->
  same_op (val_op (v_add u v)) (op_add (expr_op k) (val_op v)) /\ same_op (val_op (v_sub u v)) (op_sub (expr_op k) (val_op v)).
Proof.
  intros u v k H. split; intros psi x.
  - assert (X : expr_op (expr_add (v_expr u) (v_expr v)) psi x = op_add (expr_op k) (val_op v) psi x).
    { rewrite (expr_add_kept _ k) by auto. unfold op_add. rewrite v_expr_op. auto. }
    destruct u as [a| | |], v as [b| | |]; try exact X. unfold op_add at 1. rewrite (number_kept a k H). cbn [v_add val_op]. unfold op_scl at 1.
    rewrite nval_add. unfold op_scl, op_one. ring.
  - assert (X : expr_op (expr_sub (v_expr u) (v_expr v)) psi x = op_sub (expr_op k) (val_op v) psi x).
    { rewrite (expr_sub_kept _ k) by auto. unfold op_sub. rewrite v_expr_op. auto. }
    destruct u as [a| | |], v as [b| | |]; try exact X. unfold op_sub at 1. rewrite (number_kept a k H). cbn [v_sub val_op]. unfold op_scl at 1.
    rewrite nval_sub. unfold op_scl, op_one. ring.
Qed.
Lemma sums_right : forall u v k, survivors (v_expr u) k ->
  (same_op (val_op (v_add u v)) (op_add (val_op u) (val_op v)) <-> same_op (expr_op k) (val_op u)) /\
  (same_op (val_op (v_sub u v)) (op_sub (val_op u) (val_op v)) <-> same_op (expr_op k) (val_op u)).
Proof.
  intros u v k H. destruct (sums_exact u v k H) as [A B]. split; split; intros E psi x.
  - specialize (E psi x). rewrite A in E. unfold op_add in E. replace (expr_op k psi x) with (expr_op k psi x + val_op v psi x - val_op v psi x)%C by ring.
    rewrite E. ring.
  - rewrite A. unfold op_add. rewrite E. auto.
  - specialize (E psi x). rewrite B in E. unfold op_sub in E. replace (expr_op k psi x) with (expr_op k psi x - val_op v psi x + val_op v psi x)%C by ring.
    rewrite E. ring.
  - rewrite B. unfold op_sub. rewrite E. auto.
Qed.
(** 2*X[0] + X[0] + 0*Z[1] + Z[1], an expression that products can leave: the first term is lost *)
Lemma ex_kept : survivors [Term [X0] (RtoC 2); Term [X0] C1; Term [Z1] C0; Term [Z1] C1] [Term [X0] C1; Term [Z1] C1].
Proof.
  apply survivors_replaced with (Term [X0] C1); [left; auto|auto|exact C1_neq0|]. apply survivors_kept; [exact C1_neq0| |].
  { intros s [E|[E|[]]]; subst; cbn; auto. discriminate. }
  apply survivors_zero; auto. apply survivors_kept; [exact C1_neq0|intros s []|constructor].
Qed.
