(** Programs of Pauli arithmetic: words without equal neighbours, and the meaning of whole expressions. *)
From Coq Require Import List Arith ZArith Bool Ascii String Reals Lia Lra Sorted FunctionalExtensionality Permutation.
Import ListNotations.
From Verif Require Import Base Cplx Bits SpecQuantum SpecCircuit ModelGate ModelPauli SpecPauli ProofNumpy ProofFallback ProofUnitary ProofDagger ProofPauli ProofPauliTrace ProofPauliExpr.
Local Open Scope nat_scope.

(** ** Words without equal neighbours *)
Definition reduced (w : list pop) : Prop := forall l a r, w <> l ++ a :: a :: r.
Lemma reduced_nil : reduced []. Proof. intros [|? ?] a r H; discriminate. Qed.
Lemma reduced_one : forall o, reduced [o]. Proof. intros o [|? [|? ?]] a r H; discriminate. Qed.
Lemma reduced_cons : forall a w, reduced (a :: w) <-> reduced w /\ hd_error w <> Some a.
Proof.
  intros a w. split.
  - intros H. split. + intros l b r E. apply (H (a :: l) b r). subst. auto. + intros E. destruct w as [|b w]; [discriminate|]. injection E as ->. apply (H [] a w). auto.
  - intros [H N] [|c l] b r E; simpl in E; injection E as -> E; subst. + apply N. auto. + apply (H l b r). auto.
Qed.
Lemma reduced_rev : forall w, reduced w -> reduced (rev w).
Proof.
  intros w H l a r E. apply (H (rev r) a (rev l)). rewrite <- (rev_involutive w), E. rewrite rev_app_distr. simpl. rewrite <- !app_assoc. auto.
Qed.
(** one more operator at the end; words are kept reversed *)
Definition push (s : list pop) (o : pop) : list pop := match s with a :: r => if pop_eqb a o then r else o :: s | [] => [o] end.
Lemma push_reduced : forall s o, reduced s -> reduced (push s o).
Proof.
  intros [|a s] o H; simpl; [apply reduced_one|]. destruct (pop_eqb a o) eqn:E.
  - apply reduced_cons in H. tauto.
  - apply reduced_cons. split; auto. simpl. intros X. injection X as ->. rewrite pop_eqb_refl in E. discriminate.
Qed.
Lemma push_push : forall s o, reduced s -> push (push s o) o = s.
Proof.
  intros [|a s] o H; simpl; [rewrite pop_eqb_refl; auto|]. destruct (pop_eqb a o) eqn:E; simpl; [|rewrite pop_eqb_refl; auto].
  apply pop_eqb_eq in E. subst. apply reduced_cons in H. destruct H as [_ H]. destruct s as [|b s]; auto. simpl in *.
  destruct (pop_eqb b o) eqn:E; auto. apply pop_eqb_eq in E. subst. congruence.
Qed.
Lemma push_all_new : forall b s, reduced b -> (forall o, hd_error b = Some o -> hd_error s <> Some o) -> fold_left push b s = rev b ++ s.
Proof.
  induction b as [|o b IH]; intros s H N; auto. apply reduced_cons in H. destruct H as [H N']. simpl. rewrite <- app_assoc. simpl.
  assert (E : push s o = o :: s).
  { destruct s as [|a s]; auto. simpl. destruct (pop_eqb a o) eqn:E; auto. apply pop_eqb_eq in E. subst. exfalso. apply (N o); auto. }
  rewrite E. apply IH; auto. intros p Hp X. simpl in X. injection X as <-. auto.
Qed.
Lemma join_push : forall b r1, reduced b -> rev (join_loop r1 b) = fold_left push b r1.
Proof.
  intros b. induction b as [|o b IH]; intros r1 H.
  - destruct r1 as [|p r1]; [reflexivity|]. unfold join_loop. rewrite app_nil_r. apply rev_involutive.
  - destruct r1 as [|a r1]; simpl join_loop.
    + rewrite push_all_new; auto; [simpl; rewrite app_nil_r; auto|]. simpl. intros. discriminate.
    + destruct (pop_eqb a o) eqn:E.
      * simpl. rewrite E. apply IH. apply reduced_cons in H. tauto.
      * rewrite push_all_new; auto.
        -- change (rev r1 ++ [a]) with (rev (a :: r1)). rewrite rev_app_distr, rev_involutive. auto.
        -- intros p Hp X. simpl in Hp, X. injection Hp as ->. injection X as ->. rewrite pop_eqb_refl in E. discriminate.
Qed.
Lemma push_all_reduced : forall b s, reduced s -> reduced (fold_left push b s).
Proof. induction b; simpl; auto. intros. apply IHb, push_reduced. auto. Qed.
Lemma push_all_inj : forall b s t, reduced s -> reduced t -> fold_left push b s = fold_left push b t -> s = t.
Proof.
  induction b as [|o b IH]; intros s t Hs Ht E; auto. simpl in E. apply IH in E; try apply push_reduced; auto.
  rewrite <- (push_push s o), <- (push_push t o), E; auto.
Qed.
Lemma join_reduced : forall a b, reduced a -> reduced b -> reduced (join_ops a b).
Proof.
  intros a b Ha Hb. unfold join_ops. rewrite <- rev_involutive. apply reduced_rev. rewrite join_push by auto. apply push_all_reduced, reduced_rev, Ha.
Qed.
Lemma join_inj_r : forall a b c, reduced a -> reduced b -> reduced c -> join_ops a c = join_ops b c -> a = b.
Proof.
  intros a b c Ha Hb Hc E. apply (f_equal (@rev pop)) in E. unfold join_ops in E. rewrite !join_push in E by auto.
  apply push_all_inj in E; try (apply reduced_rev; auto). rewrite <- (rev_involutive a), <- (rev_involutive b), E. auto.
Qed.
Lemma join_rev : forall r1 b, rev (join_loop r1 b) = join_loop b r1.
Proof.
  assert (B : forall a b : pop, pop_eqb a b = pop_eqb b a).
  { intros a b. destruct (pop_eqb a b) eqn:E; destruct (pop_eqb b a) eqn:F; auto; [apply pop_eqb_eq in E|apply pop_eqb_eq in F]; subst; rewrite pop_eqb_refl in *; discriminate. }
  induction r1 as [|a r1 IH]; intros b.
  - destruct b; simpl; auto. rewrite app_nil_r. auto.
  - destruct b as [|o b]; [simpl; rewrite app_nil_r, rev_app_distr, rev_involutive; auto|]. simpl. rewrite (B o a). destruct (pop_eqb a o); auto.
    rewrite rev_app_distr, rev_app_distr, rev_involutive. simpl. auto.
Qed.
Lemma join_inj_l : forall a b c, reduced a -> reduced b -> reduced c -> join_ops c a = join_ops c b -> a = b.
Proof.
  intros a b c Ha Hb Hc E. apply (f_equal (@rev pop)) in E. unfold join_ops in E. rewrite !join_rev in E.
  assert (X : rev a = rev b).
  { apply (join_inj_r (rev a) (rev b) (rev c)); try (apply reduced_rev; auto). unfold join_ops. rewrite !rev_involutive. auto. }
  rewrite <- (rev_involutive a), <- (rev_involutive b), X. auto.
Qed.
Lemma last_hd_rev : forall (r : list pop) o, hd_error (rev (o :: r)) = Some (last r o).
Proof.
  induction r as [|a r IH] using rev_ind; intros o; auto. rewrite last_last. simpl. rewrite rev_app_distr. auto.
Qed.
Lemma reduced_app : forall a b, reduced a -> reduced b -> (forall o, hd_error b = Some o -> hd_error (rev a) <> Some o) -> reduced (a ++ b).
Proof.
  induction a as [|o a IH]; intros b Ha Hb N; auto. simpl. apply reduced_cons in Ha. destruct Ha as [Ha Na]. apply reduced_cons. split.
  - apply IH; auto. intros p Hp X. apply (N p Hp). simpl. destruct (rev a); [discriminate|]. auto.
  - destruct a as [|c a]; auto. simpl. intros X. apply (N o X). auto.
Qed.
Lemma repeat_reduced : forall w n, reduced w -> (match w with [] => True | o :: r => last r o <> o end) -> reduced (repeat_ops w n).
Proof.
  intros w n Hw N. induction n; simpl; [apply reduced_nil|]. apply reduced_app; auto. intros p Hp X. destruct w as [|o r]; [discriminate|].
  rewrite last_hd_rev in X. injection X as X. destruct n; [discriminate|]. simpl in Hp. injection Hp as Hp. congruence.
Qed.

(** ** Expressions with distinct reduced words *)
Definition neat_expr (e : expr) : Prop := NoDup (map t_ops e) /\ Forall reduced (map t_ops e).
Definition neat (v : pval) : Prop := match v with VNum _ | VPauli _ => True | VTerm t => reduced (t_ops t) | VExpr e => neat_expr e end.
Lemma from_pauli_reduced : forall p c, reduced (t_ops (from_pauli p c)).
Proof. intros [|o] c; simpl; [apply reduced_nil|]. destruct (Ceqb c C0); simpl; [apply reduced_nil|apply reduced_one]. Qed.
Lemma neat_from_term : forall t, reduced (t_ops t) -> neat_expr (from_term t).
Proof.
  intros t H. unfold from_term. destruct (truthy _); split; simpl; try constructor; auto; constructor.
Qed.
Lemma neat_expr_of : forall v, neat v -> neat_expr (v_expr v).
Proof.
  intros [x|p|t|e] H; simpl in *; auto.
  - unfold from_number. destruct (truthy _); [apply neat_from_term, reduced_nil|]. split; constructor.
  - apply neat_from_term, from_pauli_reduced.
  - apply neat_from_term. auto.
Qed.
Lemma neat_add : forall a b, neat_expr a -> neat_expr b -> neat_expr (expr_add a b).
Proof.
  intros a b [_ Ha] [_ Hb]. split; [apply expr_add_NoDup|]. rewrite Forall_forall in *. intros w I. apply expr_add_words in I. destruct I; auto.
Qed.
Lemma neg_words : forall e, map t_ops (expr_neg e) = map t_ops e. Proof. intros. unfold expr_neg. rewrite map_map. auto. Qed.
Lemma neat_neg : forall a, neat_expr a -> neat_expr (expr_neg a).
Proof. intros a H. unfold neat_expr. rewrite neg_words. auto. Qed.
Lemma neat_words : forall a b, neat_expr a -> (forall w, In w (map t_ops b) -> In w (map t_ops a)) -> NoDup (map t_ops b) -> neat_expr b.
Proof. intros a b [_ Ha] I N. split; auto. rewrite Forall_forall in *. auto. Qed.
Lemma filter_words : forall f e, NoDup (map t_ops e) -> NoDup (map t_ops (filter f e)).
Proof.
  intros f e H. induction e as [|t e IH]; simpl; auto. inversion H; subst. destruct (f t); auto. simpl. constructor; auto.
  intros I. apply H2. apply in_map_iff in I. destruct I as [s [<- I]]. apply filter_In in I. apply in_map. tauto.
Qed.
Lemma neat_scale : forall e c, neat_expr e -> neat_expr (expr_scale e c).
Proof.
  intros e c H. unfold expr_scale. destruct (Ceqb c C0).
  - unfold from_number. rewrite (proj2 (truthy_false C0) eq_refl). split; constructor.
  - assert (E : map t_ops (map (fun t => Term (t_ops t) (t_coeff t * c)%C) e) = map t_ops e) by (rewrite map_map; auto).
    apply (neat_words e); auto.
    + intros w I. rewrite <- E. apply in_map_iff in I. destruct I as [s [<- I]]. apply filter_In in I. apply in_map. tauto.
    + apply filter_words. rewrite E. apply H.
Qed.
Lemma neat_map : forall (f : term -> term) e, neat_expr e -> (forall s, In s e -> reduced (t_ops (f s))) ->
  (forall s t, In s e -> In t e -> t_ops (f s) = t_ops (f t) -> t_ops s = t_ops t) -> neat_expr (map f e).
Proof.
  intros f e [N _] R I. split.
  - induction e as [|t e IH]; [constructor|]. simpl in *. inversion N; subst. constructor.
    + intros X. apply H1. apply in_map_iff in X. destruct X as [u [E X]]. apply in_map_iff in X. destruct X as [s [<- X]].
      rewrite (I t s); auto. apply in_map. auto.
    + apply IH; auto.
  - rewrite map_map. apply Forall_forall. intros w X. apply in_map_iff in X. destruct X as [s [<- X]]. auto.
Qed.
Lemma neat_In : forall e s, neat_expr e -> In s e -> reduced (t_ops s).
Proof. intros e s [_ H] I. rewrite Forall_forall in H. apply H. apply in_map. auto. Qed.
Lemma neat_mul_term : forall e t, neat_expr e -> reduced (t_ops t) -> neat_expr (expr_mul_term e t).
Proof.
  intros e t H R. apply neat_map; auto; simpl.
  - intros s I. apply join_reduced; auto. eapply neat_In; eauto.
  - intros s u I J E. eapply join_inj_r; eauto using neat_In.
Qed.
Lemma neat_term_mul : forall e t, neat_expr e -> reduced (t_ops t) -> neat_expr (term_mul_expr t e).
Proof.
  intros e t H R. apply neat_map; auto; simpl.
  - intros s I. apply join_reduced; auto. eapply neat_In; eauto.
  - intros s u I J E. eapply join_inj_l; eauto using neat_In.
Qed.
Lemma neat_mul : forall a b, neat_expr a -> neat_expr b -> neat_expr (expr_mul a b).
Proof.
  intros a b Ha Hb. split; [apply expr_mul_NoDup|]. apply Forall_forall. intros w I. apply expr_mul_words in I.
  destruct I as [s [t [I [J ->]]]]. apply join_reduced; eauto using neat_In.
Qed.
Lemma neat_v_mul : forall u v, neat u -> neat v -> neat (v_mul u v).
Proof.
  intros [x|p|s|d] [y|q|t|e] Hu Hv; simpl in *; auto using from_pauli_reduced, neat_scale, join_reduced, neat_mul_term, neat_term_mul, neat_mul.
  all: try (apply neat_mul_term; auto; apply from_pauli_reduced). all: try (apply neat_term_mul; auto; apply from_pauli_reduced).
  - destruct p as [|o], q as [|o']; try apply from_pauli_reduced. simpl. destruct (pop_eqb o o'); [apply reduced_nil|]. simpl.
    apply join_reduced; apply reduced_one.
  - destruct p as [|o]; simpl; auto. apply join_reduced; auto. apply reduced_one.
  - destruct q as [|o]; simpl; auto. apply join_reduced; auto. apply reduced_one.
Qed.
Lemma neat_v_add : forall u v, neat u -> neat v -> neat (v_add u v).
Proof.
  intros u v Hu Hv. assert (X : neat_expr (expr_add (v_expr u) (v_expr v))) by (apply neat_add; apply neat_expr_of; auto).
  destruct u, v; try exact X; exact I.
Qed.
Lemma neat_v_sub : forall u v, neat u -> neat v -> neat (v_sub u v).
Proof.
  intros u v Hu Hv. assert (X : neat_expr (expr_sub (v_expr u) (v_expr v))) by (rewrite expr_sub_add; apply neat_add; [|apply neat_neg]; apply neat_expr_of; auto).
  destruct u, v; try exact X; exact I.
Qed.
Lemma neat_v_neg : forall u, neat u -> neat (v_neg u).
Proof. intros [[r|z]|p|t|e] H; simpl in *; auto. - apply from_pauli_reduced. - apply neat_neg. auto. Qed.
Lemma div_words : forall e x d, map_res (fun t => term_div t x) e = Ok d -> map t_ops d = map t_ops e.
Proof.
  induction e as [|t e IH]; intros x d H; simpl in H; [injection H as <-; auto|]. destruct (term_div t x) as [u|] eqn:E; [|discriminate]. simpl in H.
  destruct (map_res _ e) as [r|] eqn:F; [|discriminate]. injection H as <-. simpl. rewrite (IH _ _ F). f_equal.
  unfold term_div in E. destruct x; [destruct (Reqb r0 0)|]; try discriminate. injection E as <-. auto.
Qed.
Lemma neat_v_div : forall u x v, neat u -> v_div u (VNum x) = Ok v -> neat v.
Proof.
  intros [y|p|t|e] x v H E; simpl in E.
  - destruct (truthy (nval x)); [injection E as <-; exact I|discriminate].
  - destruct (truthy (nval x)); [injection E as <-; apply from_pauli_reduced|discriminate].
  - unfold term_div in E. destruct x; [destruct (Reqb r 0)|]; try discriminate. injection E as <-. auto.
  - destruct (truthy (nval x)); [|discriminate]. destruct (map_res _ e) as [d|] eqn:F; [|discriminate]. injection E as <-.
    simpl. unfold neat_expr. rewrite (div_words _ _ _ F). auto.
Qed.
Lemma neat_v_pow : forall u n v, neat u -> (forall t, u = VTerm t -> cyclic (t_ops t) n) -> v_pow u n = Ok v -> neat v.
Proof.
  intros [y|p|t|e] n v H K E; simpl in E.
  - destruct (n <? 0)%Z; [destruct (truthy (nval y))|]; try discriminate; injection E as <-; exact I.
  - discriminate.
  - unfold term_pow in E. destruct (n <? 0)%Z eqn:L; [discriminate|]. destruct (Z.eqb_spec n 0); simpl in E; injection E as <-; simpl; [apply reduced_nil|].
    apply Z.ltb_ge in L. destruct (K t eq_refl) as [J|J]; [|apply repeat_reduced; auto]. replace (Z.to_nat n) with 1 by lia. simpl. rewrite app_nil_r. auto.
  - unfold expr_pow in E. destruct (n <? 0)%Z eqn:L; [discriminate|]. destruct (Z.eqb_spec n 0); simpl in E; injection E as <-; simpl.
    + exact (neat_expr_of (VNum (NumC C1)) I).
    + generalize (Z.to_nat n - 1). intros m. simpl in H. induction m; simpl; auto. apply neat_mul; auto.
Qed.

(** ** Each operation *)
Lemma op_eq : forall U V, same_op U V -> U = V.
Proof. intros U V H. apply functional_extensionality. intros psi. apply op_ext. auto. Qed.
Lemma num_scl : forall c U, linear U -> same_op (op_mul (op_scl c op_one) U) (op_scl c U). Proof. intros c U L psi x. reflexivity. Qed.
Lemma scl_num : forall c U, linear U -> same_op (op_mul U (op_scl c op_one)) (op_scl c U).
Proof. intros c U L psi x. unfold op_mul, op_scl, op_one. rewrite (lin_scl _ L). auto. Qed.
Lemma linear_val : forall v, linear (val_op v).
Proof.
  intros [x|[|[l q]]|t|e]; simpl; [apply linear_scl, linear_one|apply linear_one|apply linear_ap1|apply linear_term|apply linear_expr].
Qed.
Lemma nval_mul : forall x y, nval (match x, y with NumR r, NumR s => NumR (r * s) | _, _ => NumC (nval x * nval y)%C end) = (nval x * nval y)%C.
Proof. intros [r|z] [s|w]; simpl; auto. apply RtoC_mul. Qed.
Lemma nval_add : forall x y, nval (match x, y with NumR r, NumR s => NumR (r + s) | _, _ => NumC (nval x + nval y)%C end) = (nval x + nval y)%C.
Proof. intros [r|z] [s|w]; simpl; auto. apply RtoC_add. Qed.
Lemma nval_sub : forall x y, nval (match x, y with NumR r, NumR s => NumR (r - s) | _, _ => NumC (nval x - nval y)%C end) = (nval x - nval y)%C.
Proof. intros [r|z] [s|w]; simpl; auto. apply RtoC_sub. Qed.
Lemma RtoC_neq0 : forall r, r <> 0%R -> RtoC r <> C0. Proof. intros r H E. apply H. apply RtoC_inj. auto. Qed.
Lemma RtoC_div : forall r s, s <> 0%R -> RtoC (r / s) = (RtoC r / RtoC s)%C.
Proof.
  intros r s H. assert (X : (RtoC (r / s) * RtoC s)%C = RtoC r) by (rewrite <- RtoC_mul; f_equal; field; auto).
  rewrite <- X. field. apply RtoC_neq0. auto.
Qed.
Lemma nval_div : forall x y, nval y <> C0 -> nval (match x, y with NumR r, NumR s => NumR (r / s) | _, _ => NumC (nval x / nval y)%C end) = (nval x / nval y)%C.
Proof. intros [r|z] [s|w] H; simpl; auto. apply RtoC_div. intros ->. apply H. auto. Qed.

Lemma v_mul_op : forall u v, same_op (val_op (v_mul u v)) (op_mul (val_op u) (val_op v)).
Proof.
  intros u v psi x. destruct u as [a|p|s|d], v as [b|q|t|e]; cbn [v_mul].
  - change (val_op (VNum ?n) psi x) with (nval n * psi x)%C. cbn [val_op]. unfold op_scl at 1. rewrite nval_mul. unfold op_mul, op_scl, op_one. ring.
  - change (val_op (VTerm (from_pauli q (nval a)))) with (term_op (from_pauli q (nval a))). rewrite from_pauli_op. reflexivity.
  - change (val_op (VTerm (term_scale t (nval a)))) with (term_op (term_scale t (nval a))). rewrite term_scale_op. reflexivity.
  - change (val_op (VExpr (expr_scale e (nval a)))) with (expr_op (expr_scale e (nval a))). rewrite expr_scale_op. reflexivity.
  - change (val_op (VTerm (from_pauli p (nval b)))) with (term_op (from_pauli p (nval b))). rewrite from_pauli_op.
    symmetry. apply (scl_num (nval b) _ (linear_val (VPauli p))).
  - apply pauli_mul_op.
  - apply pauli_mul_term_op.
  - change (val_op (VExpr (term_mul_expr (pauli_term p) e))) with (expr_op (term_mul_expr (pauli_term p) e)). rewrite term_mul_expr_op.
    unfold op_mul. rewrite pauli_term_op. reflexivity.
  - change (val_op (VTerm (term_scale s (nval b)))) with (term_op (term_scale s (nval b))). rewrite term_scale_op.
    symmetry. apply (scl_num (nval b) _ (linear_term s)).
  - apply term_mul_pauli_op.
  - apply term_mul_op.
  - apply term_mul_expr_op.
  - change (val_op (VExpr (expr_scale d (nval b)))) with (expr_op (expr_scale d (nval b))). rewrite expr_scale_op.
    symmetry. apply (scl_num (nval b) _ (linear_expr d)).
  - change (val_op (VExpr (expr_mul_term d (pauli_term q)))) with (expr_op (expr_mul_term d (pauli_term q))). rewrite expr_mul_term_op.
    unfold op_mul. rewrite (op_ext _ _ psi (pauli_term_op q)). reflexivity.
  - apply expr_mul_term_op.
  - apply expr_mul_op.
Qed.
Lemma v_expr_op : forall v, same_op (expr_op (v_expr v)) (val_op v).
Proof.
  intros [x|p|t|e] psi y; simpl v_expr.
  - apply from_number_op.
  - unfold pauli_expr. rewrite from_term_op. apply pauli_term_op.
  - apply from_term_op.
  - reflexivity.
Qed.
Lemma v_add_op : forall u v, distinct (v_expr u) -> same_op (val_op (v_add u v)) (op_add (val_op u) (val_op v)).
Proof.
  intros u v H psi x. assert (X : expr_op (expr_add (v_expr u) (v_expr v)) psi x = op_add (val_op u) (val_op v) psi x).
  { rewrite expr_add_op by auto. unfold op_add. rewrite !v_expr_op. auto. }
  destruct u as [a| | |], v as [b| | |]; try exact X. cbn [v_add val_op]. unfold op_scl at 1. rewrite nval_add. unfold op_add, op_scl, op_one. ring.
Qed.
Lemma v_sub_op : forall u v, distinct (v_expr u) -> same_op (val_op (v_sub u v)) (op_sub (val_op u) (val_op v)).
Proof.
  intros u v H psi x. assert (X : expr_op (expr_sub (v_expr u) (v_expr v)) psi x = op_sub (val_op u) (val_op v) psi x).
  { rewrite expr_sub_op by auto. unfold op_sub. rewrite !v_expr_op. auto. }
  destruct u as [a| | |], v as [b| | |]; try exact X. cbn [v_sub val_op]. unfold op_scl at 1. rewrite nval_sub. unfold op_sub, op_scl, op_one. ring.
Qed.
Lemma v_neg_op : forall u, same_op (val_op (v_neg u)) (op_neg (val_op u)).
Proof.
  intros [[r|z]|p|t|e] psi x; cbn [v_neg].
  - simpl. unfold op_neg, op_scl, op_one. rewrite RtoC_opp. ring.
  - simpl. unfold op_neg, op_scl, op_one. ring.
  - change (val_op (VTerm (from_pauli p (- C1)%C))) with (term_op (from_pauli p (- C1)%C)). rewrite from_pauli_op. unfold op_neg, op_scl. ring.
  - simpl. unfold op_neg, term_op, op_scl. simpl. ring.
  - apply expr_neg_op.
Qed.
Lemma term_div_op : forall t x u, term_div t x = Ok u -> same_op (term_op u) (op_scl (C1 / nval x)%C (term_op t)).
Proof.
  intros t [r|z] u H psi y; simpl in H; [|discriminate]. destruct (Reqb r 0) eqn:E; [discriminate|]. injection H as <-.
  assert (r <> 0%R) by (intros ->; rewrite (proj2 (Reqb_true 0 0) eq_refl) in E; discriminate).
  unfold term_op, op_scl. simpl. field. apply RtoC_neq0. auto.
Qed.
Lemma map_div_op : forall e x d, map_res (fun t => term_div t x) e = Ok d -> same_op (expr_op d) (op_scl (C1 / nval x)%C (expr_op e)).
Proof.
  induction e as [|t e IH]; intros x d H psi y; simpl in H; [injection H as <-; unfold op_scl; simpl; ring|].
  destruct (term_div t x) as [u|] eqn:E; [|discriminate]. simpl in H. destruct (map_res _ e) as [r|] eqn:F; [|discriminate]. injection H as <-.
  simpl. unfold op_add. rewrite (term_div_op _ _ _ E), (IH _ _ F). unfold op_scl, op_add. ring.
Qed.
Lemma v_div_op : forall u x v, v_div u (VNum x) = Ok v -> same_op (val_op v) (op_scl (C1 / nval x)%C (val_op u)).
Proof.
  intros [a|p|t|e] x v H psi y; simpl in H.
  - destruct (truthy (nval x)) eqn:E; [|discriminate]. apply truthy_true in E. injection H as <-. cbn [val_op]. unfold op_scl. rewrite nval_div by auto.
    unfold op_one. field. auto.
  - destruct (truthy (nval x)) eqn:E; [|discriminate]. injection H as <-. apply from_pauli_op.
  - destruct (term_div t x) as [u|] eqn:E; [|discriminate]. injection H as <-. apply (term_div_op _ _ _ E).
  - destruct (truthy (nval x)) eqn:E; [|discriminate]. destruct (map_res _ e) as [d|] eqn:F; [|discriminate]. injection H as <-. apply (map_div_op _ _ _ F).
Qed.
Lemma RtoC_pow : forall r n, RtoC (r ^ n) = cpow (RtoC r) n.
Proof. induction n; simpl; auto. rewrite RtoC_mul, IHn. auto. Qed.
Lemma one_pow : forall n psi, op_pow op_one n psi = psi.
Proof. induction n; intros; simpl; auto. unfold op_mul, op_one at 1. auto. Qed.
Lemma v_pow_op : forall u n v, (0 <= n)%Z -> v_pow u n = Ok v -> same_op (val_op v) (op_pow (val_op u) (Z.to_nat n)).
Proof.
  intros [a|p|t|e] n v Hn H psi y; simpl in H.
  - destruct (Z.ltb_spec n 0); [lia|]. injection H as <-. cbn [val_op]. rewrite op_pow_scl by apply linear_one. rewrite one_pow. unfold op_scl, op_one.
    destruct a; simpl; rewrite ?RtoC_pow; auto.
  - discriminate.
  - destruct (term_pow t n) as [u|] eqn:E; [|discriminate]. injection H as <-. apply (term_pow_op _ _ _ E).
  - destruct (expr_pow e n) as [u|] eqn:E; [|discriminate]. injection H as <-. apply (expr_pow_op _ _ _ E).
Qed.

(** ** Whole expressions *)
Lemma eval_sound : forall e v, eval e = Ok v -> tame e -> neat v /\ same_op (val_op v) (meaning e).
Proof.
  assert (D : forall u, neat u -> distinct (v_expr u)) by (intros u N; apply NoDup_distinct; apply neat_expr_of in N; apply N).
  induction e as [x|p|a IHa b IHb|a IHa b IHb|a IHa b IHb|a IHa|a IHa x|a IHa n]; intros v E T; simpl in E, T.
  - injection E as <-. split; [exact I|]. intros psi y. reflexivity.
  - injection E as <-. split; [exact I|]. intros psi y. destruct p as [|[l q]]; reflexivity.
  - destruct (eval a) as [u|]; [|discriminate]. destruct (eval b) as [w|]; [|discriminate]. injection E as <-. destruct T as [Ta Tb].
    destruct (IHa _ eq_refl Ta) as [Na Sa]. destruct (IHb _ eq_refl Tb) as [Nb Sb]. split; [apply neat_v_add; auto|].
    intros psi y. rewrite v_add_op by auto. simpl. rewrite <- (op_eq _ _ Sa), <- (op_eq _ _ Sb). auto.
  - destruct (eval a) as [u|]; [|discriminate]. destruct (eval b) as [w|]; [|discriminate]. injection E as <-. destruct T as [Ta Tb].
    destruct (IHa _ eq_refl Ta) as [Na Sa]. destruct (IHb _ eq_refl Tb) as [Nb Sb]. split; [apply neat_v_sub; auto|].
    intros psi y. rewrite v_sub_op by auto. simpl. rewrite <- (op_eq _ _ Sa), <- (op_eq _ _ Sb). auto.
  - destruct (eval a) as [u|]; [|discriminate]. destruct (eval b) as [w|]; [|discriminate]. injection E as <-. destruct T as [Ta Tb].
    destruct (IHa _ eq_refl Ta) as [Na Sa]. destruct (IHb _ eq_refl Tb) as [Nb Sb]. split; [apply neat_v_mul; auto|].
    intros psi y. rewrite v_mul_op by auto. simpl. rewrite <- (op_eq _ _ Sa), <- (op_eq _ _ Sb). auto.
  - destruct (eval a) as [u|]; [|discriminate]. injection E as <-. destruct (IHa _ eq_refl T) as [Na Sa]. split; [apply neat_v_neg; auto|].
    intros psi y. rewrite v_neg_op. simpl. rewrite <- (op_eq _ _ Sa). auto.
  - destruct (eval a) as [u|]; [|discriminate]. destruct (IHa _ eq_refl T) as [Na Sa]. split; [eapply neat_v_div; eauto|].
    intros psi y. rewrite (v_div_op _ _ _ E). simpl. rewrite <- (op_eq _ _ Sa). auto.
  - destruct (eval a) as [u|] eqn:Ea; [|discriminate]. destruct T as [Ta [Hn K]]. destruct (IHa _ eq_refl Ta) as [Na Sa]. split.
    + eapply neat_v_pow; eauto. intros t ->. apply K. auto.
    + intros psi y. rewrite (v_pow_op _ _ _ Hn E). simpl. rewrite <- (op_eq _ _ Sa). auto.
Qed.
