(** Expressions: sums, products, simplification, equality. *)
From Coq Require Import List Arith ZArith Bool Ascii String DecimalString DecimalNat Reals Lia Lra Sorted FunctionalExtensionality Permutation.
Import ListNotations.
From Verif Require Import Base Cplx Bits SpecQuantum SpecCircuit ModelGate ModelPauli SpecPauli ProofNumpy ProofFallback ProofUnitary ProofDagger ProofPauli ProofPauliTrace.
Local Open Scope nat_scope.

(** ** Coefficients of dictionaries *)
Definition dval (d : tdict) (w : list pop) : C := match dget ops_eqb d w with Some v => v | None => C0 end.
Definition at_word (k w : list pop) (c : C) : C := if ops_eqb k w then c else C0.
Lemma ops_eqb_refl : forall w, ops_eqb w w = true. Proof. intros. apply ops_eqb_eq. auto. Qed.
Lemma ops_eqb_sym : forall v w, ops_eqb v w = ops_eqb w v.
Proof. intros. destruct (ops_eqb v w) eqn:E; destruct (ops_eqb w v) eqn:F; auto; [apply ops_eqb_eq in E|apply ops_eqb_eq in F]; subst; rewrite ops_eqb_refl in *; discriminate. Qed.
Lemma wcoef_nil : forall w, wcoef [] w = C0. Proof. reflexivity. Qed.
Lemma wcoef_cons : forall t e w, wcoef (t :: e) w = (at_word (t_ops t) w (t_coeff t) + wcoef e w)%C. Proof. reflexivity. Qed.
Lemma wcoef_app : forall a b w, wcoef (a ++ b) w = (wcoef a w + wcoef b w)%C. Proof. intros. apply Csum_app. Qed.

Lemma dval_dset : forall d k v w, dval (dset ops_eqb d k v) w = if ops_eqb w k then v else dval d w.
Proof. intros. unfold dval. rewrite dget_dset by apply ops_eqb_eq. destruct (ops_eqb w k); auto. Qed.
Lemma dval_accumulate : forall d k c w, dval (accumulate d k c) w = (dval d w + at_word k w c)%C.
Proof.
  intros. unfold accumulate. rewrite dval_dset. unfold at_word. rewrite (ops_eqb_sym k w). destruct (ops_eqb w k) eqn:E; [|ring].
  apply ops_eqb_eq in E. subst. reflexivity.
Qed.
Lemma accumulate_NoDup : forall d k c, NoDup (map fst d) -> NoDup (map fst (accumulate d k c)).
Proof. intros. apply dset_NoDup; auto. apply ops_eqb_eq. Qed.
Lemma accumulate_keys : forall d k c w, In w (map fst (accumulate d k c)) <-> w = k \/ In w (map fst d).
Proof. intros. unfold accumulate. apply dset_In_keys. apply ops_eqb_eq. Qed.
Lemma fold_accumulate : forall (f : term -> term) e d w,
  dval (fold_left (fun d t => accumulate d (t_ops (f t)) (t_coeff (f t))) e d) w = (dval d w + wcoef (map f e) w)%C.
Proof. induction e as [|t e IH]; intros d w; simpl. - rewrite wcoef_nil. ring. - rewrite IH, dval_accumulate, wcoef_cons. ring. Qed.
Lemma fold_accumulate_NoDup : forall (f : term -> term) e d, NoDup (map fst d) ->
  NoDup (map fst (fold_left (fun d t => accumulate d (t_ops (f t)) (t_coeff (f t))) e d)).
Proof. induction e as [|t e IH]; intros d H; simpl; auto. apply IH, accumulate_NoDup. auto. Qed.
Lemma fold_accumulate_keys : forall (f : term -> term) e d w,
  In w (map fst (fold_left (fun d t => accumulate d (t_ops (f t)) (t_coeff (f t))) e d)) <-> In w (map fst d) \/ In w (map (fun t => t_ops (f t)) e).
Proof.
  induction e as [|t e IH]; intros d w; simpl; [tauto|]. rewrite IH, accumulate_keys. intuition.
Qed.

Lemma dget_ddel : forall (d : tdict) k w, NoDup (map fst d) -> dget ops_eqb (ddel ops_eqb d k) w = if ops_eqb w k then None else dget ops_eqb d w.
Proof.
  induction d as [|[a b] d IH]; intros k w H; simpl; [destruct (ops_eqb w k); auto|]. inversion H; subst.
  destruct (ops_eqb k a) eqn:E.
  - apply ops_eqb_eq in E. subst a. destruct (ops_eqb w k) eqn:F; auto. apply ops_eqb_eq in F. subst. apply dget_None; auto. apply ops_eqb_eq.
  - simpl. rewrite IH by auto. destruct (ops_eqb w a) eqn:F; auto. apply ops_eqb_eq in F. subst a.
    rewrite ops_eqb_sym in E. rewrite E. auto.
Qed.
Lemma dval_add_into : forall d k c w, NoDup (map fst d) -> dval (add_into d k c) w = (dval d w + at_word k w c)%C /\ NoDup (map fst (add_into d k c)).
Proof.
  intros d k c w H. unfold add_into, at_word. rewrite (ops_eqb_sym k w). destruct (dget ops_eqb d k) as [v|] eqn:E.
  - destruct (Ceqb (v + c)%C C0) eqn:Z.
    + split; [|apply ddel_NoDup; auto]. apply Ceqb_true in Z. unfold dval. rewrite dget_ddel by auto. destruct (ops_eqb w k) eqn:F; [|ring].
      apply ops_eqb_eq in F. subst. rewrite E. auto.
    + split; [|apply dset_NoDup; auto; apply ops_eqb_eq]. rewrite dval_dset. destruct (ops_eqb w k) eqn:F; [|ring].
      apply ops_eqb_eq in F. subst. unfold dval. rewrite E. auto.
  - split; [|apply dset_NoDup; auto; apply ops_eqb_eq]. rewrite dval_dset. destruct (ops_eqb w k) eqn:F; [|ring].
    apply ops_eqb_eq in F. subst. unfold dval. rewrite E. ring.
Qed.
Lemma sub_into_add : forall d k c, sub_into d k c = add_into d k (- c)%C.
Proof.
  intros. unfold sub_into, add_into. destruct (dget ops_eqb d k) as [v|]; auto.
  all: replace (v - c)%C with (v + - c)%C by ring; auto.
Qed.
Lemma fold_add_into : forall e d w, NoDup (map fst d) ->
  dval (fold_left (fun d t => add_into d (t_ops t) (t_coeff t)) e d) w = (dval d w + wcoef e w)%C /\
  NoDup (map fst (fold_left (fun d t => add_into d (t_ops t) (t_coeff t)) e d)).
Proof.
  induction e as [|t e IH]; intros d w H; simpl; [rewrite wcoef_nil; split; auto; ring|].
  destruct (dval_add_into d (t_ops t) (t_coeff t) w H) as [E N]. destruct (IH _ w N) as [E' N']. split; auto. rewrite E', E, wcoef_cons. ring.
Qed.
Lemma add_into_keys : forall d k c w, In w (map fst (add_into d k c)) -> w = k \/ In w (map fst d).
Proof.
  intros d k c w H. unfold add_into in H. destruct (dget ops_eqb d k); [destruct (Ceqb _ _)|]; [right; apply ddel_incl in H; auto| |]; apply dset_In_keys in H; auto; apply ops_eqb_eq.
Qed.
Lemma fold_add_keys : forall e d w, In w (map fst (fold_left (fun d t => add_into d (t_ops t) (t_coeff t)) e d)) ->
  In w (map fst d) \/ In w (map t_ops e).
Proof.
  induction e as [|t e IH]; intros d w H; simpl in *; auto. apply IH in H. destruct H as [H|H]; auto. apply add_into_keys in H. intuition.
Qed.

Definition dexpr (d : tdict) : expr := map (fun kv => Term (fst kv) (snd kv)) d.
Lemma wcoef_absent : forall e w, ~ In w (map t_ops e) -> wcoef e w = C0.
Proof.
  intros e w H. apply Csum_0. intros t I. destruct (ops_eqb (t_ops t) w) eqn:E; auto. apply ops_eqb_eq in E. exfalso. apply H. subst. apply in_map. auto.
Qed.
Lemma dexpr_ops : forall d, map t_ops (dexpr d) = map fst d.
Proof. intros. unfold dexpr. rewrite map_map. auto. Qed.
Lemma wcoef_dexpr : forall d w, NoDup (map fst d) -> wcoef (dexpr d) w = dval d w.
Proof.
  induction d as [|[k c] d IH]; intros w H; auto. inversion H; subst. simpl. rewrite wcoef_cons. simpl. unfold dval, at_word. simpl.
  rewrite (ops_eqb_sym k w). destruct (ops_eqb w k) eqn:E.
  - apply ops_eqb_eq in E. subst. rewrite wcoef_absent by (rewrite dexpr_ops; auto). ring.
  - rewrite IH by auto. unfold dval. ring.
Qed.
Lemma wcoef_filter : forall e w, wcoef (filter (fun t => truthy (t_coeff t)) e) w = wcoef e w.
Proof.
  induction e as [|t e IH]; intros w; auto. simpl. rewrite wcoef_cons. destruct (truthy (t_coeff t)) eqn:E.
  - rewrite wcoef_cons, IH. auto.
  - apply truthy_false in E. rewrite IH, E. unfold at_word. destruct (ops_eqb _ _); ring.
Qed.
Lemma from_dict_filter : forall d, from_terms_dict d = filter (fun t => truthy (t_coeff t)) (dexpr d).
Proof.
  induction d as [|[k c] d IH]; auto. unfold from_terms_dict, dexpr in *. simpl. destruct (truthy c); simpl; rewrite IH; auto.
Qed.
Lemma wcoef_from_dict : forall d w, NoDup (map fst d) -> wcoef (from_terms_dict d) w = dval d w.
Proof. intros. rewrite from_dict_filter, wcoef_filter. apply wcoef_dexpr. auto. Qed.

(** ** Sums *)
(** no word occurs twice among the terms that are not zero *)
Lemma fold_dset : forall e d w, NoDup (map t_ops e) -> (forall t, In t e -> ~ In (t_ops t) (map fst d)) ->
  dval (fold_left (fun d t => dset ops_eqb d (t_ops t) (t_coeff t)) e d) w = (dval d w + wcoef e w)%C.
Proof.
  induction e as [|t e IH]; intros d w H D; simpl; [rewrite wcoef_nil; ring|]. inversion H; subst. rewrite IH; auto.
  - rewrite dval_dset, wcoef_cons. unfold at_word. rewrite (ops_eqb_sym (t_ops t) w). destruct (ops_eqb w (t_ops t)) eqn:E; [|ring].
    apply ops_eqb_eq in E. subst. assert (X : dval d (t_ops t) = C0); [|rewrite X; ring]. unfold dval. 
    rewrite (proj2 (dget_None ops_eqb ops_eqb_eq d (t_ops t))); auto. apply D. left. auto.
  - intros s I J. apply dset_In_keys in J; [|apply ops_eqb_eq]. destruct J as [J|J]; [|apply (D s); [right|]; auto]. apply H2. rewrite <- J. apply in_map. auto.
Qed.
Lemma fold_dset_NoDup : forall e d, NoDup (map fst d) -> NoDup (map fst (fold_left (fun d t => dset ops_eqb d (t_ops t) (t_coeff t)) e d)).
Proof. induction e; intros; simpl; auto. apply IHe, dset_NoDup; auto. apply ops_eqb_eq. Qed.
Lemma fold_dset_keys : forall e d w, In w (map fst (fold_left (fun d t => dset ops_eqb d (t_ops t) (t_coeff t)) e d)) <-> In w (map fst d) \/ In w (map t_ops e).
Proof. induction e as [|t e IH]; intros d w; simpl; [tauto|]. rewrite IH, dset_In_keys by apply ops_eqb_eq. intuition. Qed.
Lemma to_dict_NoDup : forall e, NoDup (map fst (terms_to_dict e)).
Proof. intros. apply fold_dset_NoDup. constructor. Qed.
Lemma to_dict_val : forall e w, distinct e -> dval (terms_to_dict e) w = wcoef e w.
Proof.
  intros e w H. unfold terms_to_dict. rewrite fold_dset by (auto; intros t I []). rewrite wcoef_filter. unfold dval. simpl. ring.
Qed.
Lemma expr_add_coef : forall a b w, distinct a -> wcoef (expr_add a b) w = (wcoef a w + wcoef b w)%C.
Proof.
  intros a b w H. unfold expr_add. destruct (fold_add_into b (terms_to_dict a) w (to_dict_NoDup a)) as [E N].
  rewrite wcoef_from_dict, E, to_dict_val by auto. auto.
Qed.
Definition opp_term (t : term) : term := Term (t_ops t) (- t_coeff t)%C.
Lemma expr_sub_add : forall a b, expr_sub a b = expr_add a (expr_neg b).
Proof.
  intros a b. unfold expr_sub, expr_add. f_equal. generalize (terms_to_dict a). induction b as [|t b IH]; intros d; [reflexivity|].
  cbn [fold_left map expr_neg]. rewrite sub_into_add. apply IH.
Qed.
Lemma wcoef_neg : forall e w, wcoef (expr_neg e) w = (- wcoef e w)%C.
Proof.
  induction e as [|t e IH]; intros w; [unfold wcoef; simpl; ring|]. simpl. rewrite !wcoef_cons, IH. unfold at_word. simpl. destruct (ops_eqb _ _); ring.
Qed.
Lemma expr_sub_coef : forall a b w, distinct a -> wcoef (expr_sub a b) w = (wcoef a w - wcoef b w)%C.
Proof. intros. rewrite expr_sub_add, expr_add_coef, wcoef_neg by auto. ring. Qed.

Lemma expr_app_op : forall a b, same_op (expr_op (a ++ b)) (op_add (expr_op a) (expr_op b)).
Proof. induction a as [|t a IH]; intros b psi x; simpl; unfold op_add in *; [ring|]. rewrite IH. ring. Qed.
Lemma expr_add_op : forall a b, distinct a -> same_op (expr_op (expr_add a b)) (op_add (expr_op a) (expr_op b)).
Proof.
  intros a b H psi x. rewrite (same_coef _ (a ++ b)); [apply expr_app_op|]. intros w. rewrite expr_add_coef, wcoef_app; auto.
Qed.
Lemma expr_neg_op : forall e, same_op (expr_op (expr_neg e)) (op_neg (expr_op e)).
Proof.
  induction e as [|t e IH]; intros psi x; unfold op_neg; simpl; [ring|]. unfold op_add. fold (expr_neg e). rewrite IH. unfold op_neg, term_op, op_scl. simpl. ring.
Qed.
Lemma expr_sub_op : forall a b, distinct a -> same_op (expr_op (expr_sub a b)) (op_sub (expr_op a) (expr_op b)).
Proof.
  intros a b H psi x. rewrite expr_sub_add, expr_add_op by auto. unfold op_add. rewrite expr_neg_op. unfold op_neg, op_sub. ring.
Qed.

(** what sums look like *)
Lemma from_dict_NoDup : forall d, NoDup (map fst d) -> NoDup (map t_ops (from_terms_dict d)).
Proof.
  intros d H. rewrite from_dict_filter. rewrite <- dexpr_ops in H. generalize (dexpr d), H. clear. induction e as [|t e IH]; intros H; simpl; auto.
  inversion H; subst. destruct (truthy (t_coeff t)); simpl; auto. constructor; auto. intros I. apply H2. apply in_map_iff in I.
  destruct I as [s [<- I]]. apply filter_In in I. apply in_map. tauto.
Qed.
Lemma NoDup_distinct : forall e, NoDup (map t_ops e) -> distinct e.
Proof.
  intros e H. unfold distinct. induction e as [|t e IH]; simpl; auto. inversion H; subst. destruct (truthy _); auto. simpl. constructor; auto.
  intros I. apply H2. apply in_map_iff in I. destruct I as [s [<- I]]. apply filter_In in I. apply in_map. tauto.
Qed.
Lemma from_dict_In : forall d w, In w (map t_ops (from_terms_dict d)) -> In w (map fst d).
Proof.
  intros d w I. rewrite from_dict_filter in I. apply in_map_iff in I. destruct I as [s [<- I]]. apply filter_In in I.
  rewrite <- dexpr_ops. apply in_map. tauto.
Qed.
Lemma expr_add_NoDup : forall a b, NoDup (map t_ops (expr_add a b)).
Proof. intros. apply from_dict_NoDup. apply (fold_add_into b (terms_to_dict a) []). apply to_dict_NoDup. Qed.
Lemma to_dict_keys : forall a w, In w (map fst (terms_to_dict a)) -> In w (map t_ops a).
Proof.
  intros a w H. unfold terms_to_dict in H. apply fold_dset_keys in H. destruct H as [[]|H]. apply in_map_iff in H. destruct H as [t [<- H]].
  apply filter_In in H. apply in_map. tauto.
Qed.
Lemma expr_add_words : forall a b w, In w (map t_ops (expr_add a b)) -> In w (map t_ops a) \/ In w (map t_ops b).
Proof.
  intros a b w H. apply from_dict_In in H. apply fold_add_keys in H. destruct H as [H|H]; auto. left. apply to_dict_keys. auto.
Qed.

(** ** Products *)
Lemma expr_mul_coef : forall a b w, wcoef (expr_mul a b) w = wcoef (flat_map (fun t1 => map (term_mul t1) b) a) w.
Proof.
  intros. unfold expr_mul. rewrite wcoef_from_dict.
  - rewrite (fold_accumulate (fun t => t)), map_id. unfold dval. simpl. ring.
  - apply (fold_accumulate_NoDup (fun t => t)). constructor.
Qed.
Lemma term_mul_expr_op : forall t e, same_op (expr_op (term_mul_expr t e)) (op_mul (term_op t) (expr_op e)).
Proof.
  intros t e psi x. induction e as [|s e IH]; simpl; unfold op_mul.
  - rewrite (lin_zero _ (linear_term t)). auto.
  - unfold op_add. rewrite (lin_add _ (linear_term t)). fold (term_mul_expr t e). rewrite IH. rewrite term_mul_op. reflexivity.
Qed.
Lemma expr_mul_term_op : forall e t, same_op (expr_op (expr_mul_term e t)) (op_mul (expr_op e) (term_op t)).
Proof.
  intros e t psi x. induction e as [|s e IH]; simpl; unfold op_mul; auto. unfold op_add. fold (expr_mul_term e t). rewrite IH. rewrite term_mul_op. reflexivity.
Qed.
Lemma product_op : forall a b, same_op (expr_op (flat_map (fun t1 => map (term_mul t1) b) a)) (op_mul (expr_op a) (expr_op b)).
Proof.
  intros a b psi x. induction a as [|t a IH]; simpl; auto. rewrite expr_app_op. unfold op_add, op_mul in *. rewrite IH.
  change (map (term_mul t) b) with (term_mul_expr t b). rewrite term_mul_expr_op. reflexivity.
Qed.
Lemma expr_mul_op : forall a b, same_op (expr_op (expr_mul a b)) (op_mul (expr_op a) (expr_op b)).
Proof. intros a b psi x. rewrite (same_coef _ _ (expr_mul_coef a b)). apply product_op. Qed.
Lemma expr_mul_NoDup : forall a b, NoDup (map t_ops (expr_mul a b)).
Proof. intros. apply from_dict_NoDup. apply (fold_accumulate_NoDup (fun t => t)). constructor. Qed.
Lemma expr_mul_words : forall a b w, In w (map t_ops (expr_mul a b)) -> exists s t, In s a /\ In t b /\ w = join_ops (t_ops s) (t_ops t).
Proof.
  intros a b w H. apply from_dict_In in H. apply (fold_accumulate_keys (fun t => t)) in H. destruct H as [[]|H]. apply in_map_iff in H.
  destruct H as [u [<- H]]. apply in_flat_map in H. destruct H as [s [Hs H]]. apply in_map_iff in H. destruct H as [t [<- Ht]]. exists s, t. auto.
Qed.
Lemma expr_scale_op : forall e c, same_op (expr_op (expr_scale e c)) (op_scl c (expr_op e)).
Proof.
  intros e c psi x. unfold expr_scale. destruct (Ceqb c C0) eqn:E.
  - apply Ceqb_true in E. subst. unfold from_number. rewrite (proj2 (truthy_false C0) eq_refl). unfold op_scl. simpl. ring.
  - unfold from_terms_iter. rewrite (same_coef _ _ (wcoef_filter _)). induction e as [|t e IH]; simpl; unfold op_scl; [ring|]. unfold op_add.
    rewrite IH. unfold term_op, op_scl. simpl. ring.
Qed.
Lemma from_term_op : forall t, same_op (expr_op (from_term t)) (term_op t).
Proof.
  intros t psi x. unfold from_term. destruct (truthy (t_coeff t)) eqn:E; simpl; unfold op_add; [ring|]. apply truthy_false in E.
  unfold term_op, op_scl. rewrite E. ring.
Qed.
Lemma from_number_op : forall c, same_op (expr_op (from_number c)) (op_scl c op_one).
Proof.
  intros c psi x. unfold from_number. destruct (truthy c) eqn:E; [apply (from_term_op (Term [] c))|]. apply truthy_false in E. subst. unfold op_scl. simpl. ring.
Qed.
Lemma iter_mul_op : forall e n, same_op (expr_op (Nat.iter n (fun v => expr_mul v e) e)) (op_pow (expr_op e) (S n)).
Proof.
  induction n; intros psi x; [reflexivity|]. simpl Nat.iter. rewrite expr_mul_op. unfold op_mul. rewrite IHn.
  assert (K : forall m phi, op_pow (expr_op e) m (expr_op e phi) = expr_op e (op_pow (expr_op e) m phi)).
  { induction m; intros phi; simpl; auto. unfold op_mul. rewrite IHm. auto. }
  rewrite K. reflexivity.
Qed.
Lemma expr_pow_op : forall e n u, expr_pow e n = Ok u -> same_op (expr_op u) (op_pow (expr_op e) (Z.to_nat n)).
Proof.
  intros e n u H psi x. unfold expr_pow in H. destruct (Z.ltb_spec n 0); [discriminate|]. destruct (Z.eqb_spec n 0).
  - injection H as <-. subst. rewrite from_number_op. unfold op_scl, op_one. simpl. ring.
  - injection H as <-. rewrite iter_mul_op. replace (S (Z.to_nat n - 1)) with (Z.to_nat n) by lia. auto.
Qed.

(** ** Strings *)
Local Open Scope string_scope.
Lemma append_assoc : forall a b c : string, (a ++ b) ++ c = a ++ (b ++ c).
Proof. induction a; intros; simpl; congruence. Qed.
Fixpoint free_of (ch : ascii) (s : string) : Prop := match s with EmptyString => True | String a r => a <> ch /\ free_of ch r end.
Lemma split_at : forall ch a b r s, free_of ch a -> free_of ch b -> a ++ String ch r = b ++ String ch s -> a = b /\ r = s.
Proof.
  induction a as [|x a IH]; intros [|y b] r s Fa Fb E; simpl in *.
  - injection E as ->. auto.
  - injection E as <- E. destruct Fb. congruence.
  - injection E as -> E. destruct Fa. congruence.
  - injection E as -> E. destruct (IH b r s) as [-> ->]; tauto || auto.
Qed.
Lemma digits_free : forall d, free_of "]" (NilEmpty.string_of_uint d).
Proof. induction d; simpl; auto; split; auto; discriminate. Qed.
Lemma nat_str_inj : forall n m, nat_str n = nat_str m -> n = m.
Proof.
  intros n m H. unfold nat_str in H. apply Unsigned.to_uint_inj. assert (E : Some (Nat.to_uint n) = Some (Nat.to_uint m)).
  { rewrite <- !NilEmpty.usu, H. auto. } injection E. auto.
Qed.
Lemma pop_repr_split : forall a b r s, pop_repr a ++ r = pop_repr b ++ s -> a = b /\ r = s.
Proof.
  intros [l q] [m p] r s H. unfold pop_repr in H. simpl fst in H. simpl snd in H. rewrite !append_assoc in H.
  assert (E : l = m /\ (nat_str q ++ "]") ++ r = (nat_str p ++ "]") ++ s) by (rewrite !append_assoc; destruct l, m; simpl in H; try discriminate H; injection H as H; auto).
  destruct E as [<- E]. rewrite !append_assoc in E. simpl in E. apply split_at in E; try apply digits_free. destruct E as [E ->].
  apply nat_str_inj in E. subst. auto.
Qed.
Lemma repr_two : forall a b l, String.concat ", " (map pop_repr (a :: b :: l)) = pop_repr a ++ (", " ++ String.concat ", " (map pop_repr (b :: l))).
Proof. reflexivity. Qed.
Lemma repr_one : forall a, String.concat ", " (map pop_repr [a]) = pop_repr a. Proof. reflexivity. Qed.
Lemma concat_repr_inj : forall l m, l <> [] -> m <> [] ->
  String.concat ", " (map pop_repr l) ++ ")" = String.concat ", " (map pop_repr m) ++ ")" -> l = m.
Proof.
  induction l as [|a l IH]; intros [|b m] Hl Hm E; try congruence. destruct l as [|a' l], m as [|b' m].
  - rewrite !repr_one in E. apply pop_repr_split in E. destruct E as [-> _]. auto.
  - rewrite repr_one, repr_two, !append_assoc in E. apply pop_repr_split in E. destruct E as [_ E]. discriminate.
  - rewrite repr_one, repr_two, !append_assoc in E. apply pop_repr_split in E. destruct E as [_ E]. discriminate.
  - rewrite !repr_two, !append_assoc in E. apply pop_repr_split in E. destruct E as [-> E].
    cbn [append] in E. injection E as E. f_equal. apply IH; auto; discriminate.
Qed.
Lemma pop_repr_head : forall o r c s, pop_repr o ++ r = String c s -> c <> ")"%char.
Proof. intros [[] q] r c s H; simpl in H; injection H as <- _; discriminate. Qed.
Lemma ops_repr_many : forall a b l, ops_repr (a :: b :: l) = String "(" (String.concat ", " (map pop_repr (a :: b :: l)) ++ ")").
Proof. reflexivity. Qed.
Lemma ops_repr_one : forall a, ops_repr [a] = String "(" (pop_repr a ++ ",)"). Proof. reflexivity. Qed.
Lemma ops_repr_none : ops_repr [] = String "(" ")". Proof. reflexivity. Qed.
Lemma string_tail : forall c a b, String c a = String c b -> a = b. Proof. intros. injection H. auto. Qed.
Lemma ops_repr_inj : forall l m, ops_repr l = ops_repr m -> l = m.
Proof.
  intros l m H. destruct l as [|a [|a' l]], m as [|b [|b' m]]; auto; rewrite ?ops_repr_none, ?ops_repr_one, ?ops_repr_many in H.
  - exfalso. apply string_tail in H. symmetry in H. exact (pop_repr_head _ _ _ _ H eq_refl).
  - exfalso. apply string_tail in H. rewrite repr_two, append_assoc in H. symmetry in H. exact (pop_repr_head _ _ _ _ H eq_refl).
  - exfalso. apply string_tail in H. exact (pop_repr_head _ _ _ _ H eq_refl).
  - apply string_tail in H. apply pop_repr_split in H. destruct H as [-> _]. auto.
  - apply string_tail in H. rewrite repr_two, !append_assoc in H. apply pop_repr_split in H. destruct H as [_ H]. discriminate.
  - exfalso. apply string_tail in H. rewrite repr_two, append_assoc in H. exact (pop_repr_head _ _ _ _ H eq_refl).
  - apply string_tail in H. rewrite repr_two, !append_assoc in H. apply pop_repr_split in H. destruct H as [_ H]. discriminate.
  - apply string_tail in H. apply concat_repr_inj; auto; discriminate.
Qed.

Lemma ascii_compare_trans : forall a b c, Ascii.compare a b = Lt -> Ascii.compare b c = Lt -> Ascii.compare a c = Lt.
Proof. unfold Ascii.compare. intros a b c. rewrite !N.compare_lt_iff. lia. Qed.
Lemma ascii_compare_refl : forall a, Ascii.compare a a = Eq. Proof. intros. unfold Ascii.compare. apply N.compare_refl. Qed.
Lemma string_compare_refl : forall s, String.compare s s = Eq.
Proof. induction s; simpl; auto. rewrite ascii_compare_refl. auto. Qed.
Lemma string_lt_trans : forall a b c, String.compare a b = Lt -> String.compare b c = Lt -> String.compare a c = Lt.
Proof.
  induction a as [|x a IH]; intros [|y b] [|z c]; simpl; intros H1 H2; try discriminate; auto.
  destruct (Ascii.compare x y) eqn:E1; try discriminate; destruct (Ascii.compare y z) eqn:E2; try discriminate.
  - apply Ascii.compare_eq_iff in E1, E2. subst. rewrite ascii_compare_refl. eauto.
  - apply Ascii.compare_eq_iff in E1. subst. rewrite E2. auto.
  - apply Ascii.compare_eq_iff in E2. subst. rewrite E1. auto.
  - rewrite (ascii_compare_trans _ _ _ E1 E2). auto.
Qed.
Lemma leb_total : forall a b, String.leb a b = true \/ String.leb b a = true.
Proof. intros. unfold String.leb. rewrite (String.compare_antisym b a). destruct (String.compare a b); simpl; auto. Qed.
Lemma leb_trans : forall a b c, String.leb a b = true -> String.leb b c = true -> String.leb a c = true.
Proof.
  unfold String.leb. intros a b c H1 H2. destruct (String.compare a b) eqn:E1; try discriminate; destruct (String.compare b c) eqn:E2; try discriminate.
  - apply String.compare_eq_iff in E1, E2. subst. rewrite string_compare_refl. auto.
  - apply String.compare_eq_iff in E1. subst. rewrite E2. auto.
  - apply String.compare_eq_iff in E2. subst. rewrite E1. auto.
  - rewrite (string_lt_trans _ _ _ E1 E2). auto.
Qed.
Lemma leb_antisym : forall a b, String.leb a b = true -> String.leb b a = true -> a = b.
Proof.
  unfold String.leb. intros a b H1 H2. rewrite (String.compare_antisym b a) in H2. destruct (String.compare a b) eqn:E; simpl in *; try discriminate.
  apply String.compare_eq_iff; auto.
Qed.
Local Close Scope string_scope.

Lemma sorted_unique : forall A (le : A -> A -> bool) l m, (forall a b, le a b = true -> le b a = true -> a = b) ->
  StronglySorted (fun a b => le a b = true) l -> StronglySorted (fun a b => le a b = true) m -> NoDup l -> NoDup m ->
  (forall a, In a l <-> In a m) -> l = m.
Proof.
  intros A le l m Anti Sl. revert m. induction Sl as [|a l Sl IH Fl]; intros m Sm Nl Nm H.
  - destruct m as [|b m]; auto. destruct (proj2 (H b)). left; auto.
  - destruct m as [|b m]; [destruct (proj1 (H a)); left; auto|]. inversion Sm as [|? ? Sm' Fm]; subst. rewrite Forall_forall in Fl, Fm.
    inversion Nl; inversion Nm; subst.
    assert (E : a = b).
    { destruct (proj1 (H a) (or_introl eq_refl)) as [E|I]; auto. destruct (proj2 (H b) (or_introl eq_refl)) as [E|J]; auto. }
    subst b. f_equal. apply IH; auto. intros c. split; intros I.
    + destruct (proj1 (H c) (or_intror I)) as [<-|J]; auto. contradiction.
    + destruct (proj2 (H c) (or_intror I)) as [<-|J]; auto. contradiction.
Qed.

(** ** simplify *)
Definition sdict (e : expr) : tdict := fold_left (fun d t => let t' := simplify t in accumulate d (t_ops t') (t_coeff t')) e [].
Lemma sdict_val : forall e w, dval (sdict e) w = wcoef (map simplify e) w.
Proof. intros. unfold sdict. rewrite (fold_accumulate simplify). unfold dval. simpl. ring. Qed.
Lemma sdict_NoDup : forall e, NoDup (map fst (sdict e)).
Proof. intros. apply (fold_accumulate_NoDup simplify). constructor. Qed.
Lemma sdict_canonical : forall e w, In w (map fst (sdict e)) -> canonical w.
Proof.
  intros e w H. apply (fold_accumulate_keys simplify) in H. destruct H as [[]|H]. apply in_map_iff in H. destruct H as [t [<- _]]. apply simplify_canonical.
Qed.
Definition repr_leb (a b : list pop) : bool := String.leb (ops_repr a) (ops_repr b).
Definition skeys (e : expr) : list (list pop) := filter (fun k => truthy (dval (sdict e) k)) (sort_by repr_leb (map fst (sdict e))).
Lemma filter_map_all : forall (f : list pop -> C) l, filter (fun t => truthy (t_coeff t)) (map (fun k => Term k (f k)) (filter (fun k => truthy (f k)) l)) =
  map (fun k => Term k (f k)) (filter (fun k => truthy (f k)) l).
Proof. induction l as [|k l IH]; simpl; auto. destruct (truthy (f k)) eqn:E; simpl; auto. rewrite E, IH. auto. Qed.
Lemma simplify_expr_eq : forall e, expr_simplify e = map (fun k => Term k (dval (sdict e) k)) (skeys e).
Proof. intros e. exact (filter_map_all (dval (sdict e)) _). Qed.
Lemma skeys_In : forall e w, In w (skeys e) <-> dval (sdict e) w <> C0.
Proof.
  intros e w. unfold skeys. rewrite filter_In, truthy_true. split; [tauto|]. intros H. split; auto.
  apply (Permutation_in _ (Permutation_sym (sort_perm _ _))). destruct (in_dec ops_dec w (map fst (sdict e))) as [I|I]; auto.
  exfalso. apply H. unfold dval. rewrite (proj2 (dget_None ops_eqb ops_eqb_eq _ _)); auto.
Qed.
Lemma skeys_NoDup : forall e, NoDup (skeys e).
Proof. intros. apply NoDup_filter. apply (Permutation_NoDup (Permutation_sym (sort_perm _ _))). apply sdict_NoDup. Qed.
Lemma skeys_canonical : forall e w, In w (skeys e) -> canonical w.
Proof.
  intros e w H. apply filter_In in H. destruct H as [H _]. apply (Permutation_in _ (sort_perm _ _)) in H. eapply sdict_canonical; eauto.
Qed.
Lemma filter_sorted : forall A (R : A -> A -> Prop) f l, StronglySorted R l -> StronglySorted R (filter f l).
Proof.
  induction 1; simpl; [constructor|]. destruct (f a); auto. constructor; auto. apply Forall_forall. intros b I. apply filter_In in I.
  rewrite Forall_forall in H0. apply H0. tauto.
Qed.
Lemma skeys_sorted : forall e, StronglySorted (fun a b => repr_leb a b = true) (skeys e).
Proof.
  intros. apply filter_sorted. apply sort_sorted.
  - intros a b. apply leb_total.
  - intros a b c. apply leb_trans.
Qed.
Lemma simplify_words : forall e, map t_ops (expr_simplify e) = skeys e.
Proof. intros. rewrite simplify_expr_eq, map_map. apply map_id. Qed.
Lemma simplify_coef : forall e w, wcoef (expr_simplify e) w = wcoef (map simplify e) w.
Proof.
  intros e w. rewrite <- sdict_val. rewrite simplify_expr_eq. pose proof (skeys_NoDup e) as ND. pose proof (skeys_In e w) as K.
  destruct (in_dec ops_dec w (skeys e)) as [I|I].
  - clear K. induction (skeys e) as [|k l IH]; [destruct I|]. inversion ND; subst. simpl. rewrite wcoef_cons. simpl. destruct I as [->|I].
    + unfold at_word. rewrite ops_eqb_refl. rewrite wcoef_absent; [ring|]. rewrite map_map. simpl. rewrite map_id. auto.
    + rewrite IH by auto. unfold at_word. destruct (ops_eqb k w) eqn:E; [|ring]. apply ops_eqb_eq in E. subst. contradiction.
  - rewrite wcoef_absent by (rewrite map_map; simpl; rewrite map_id; auto). destruct (Ceq_dec (dval (sdict e) w) C0) as [E|E]; auto. exfalso. tauto.
Qed.
Lemma map_simplify_op : forall e, same_op (expr_op (map simplify e)) (expr_op e).
Proof. induction e as [|t e IH]; intros psi x; simpl; auto. unfold op_add. rewrite IH, simplify_op. auto. Qed.
Lemma expr_simplify_op : forall e, same_op (expr_op (expr_simplify e)) (expr_op e).
Proof. intros e psi x. rewrite (same_coef _ _ (simplify_coef e)). apply map_simplify_op. Qed.
Lemma expr_simplify_canonical : forall e, Forall (fun t => canonical (t_ops t)) (expr_simplify e).
Proof.
  intros e. apply Forall_forall. intros t I. apply (in_map t_ops) in I. rewrite simplify_words in I. eapply skeys_canonical; eauto.
Qed.
Lemma simplify_NoDup : forall e, NoDup (map t_ops (expr_simplify e)).
Proof. intros. rewrite simplify_words. apply skeys_NoDup. Qed.
Lemma simplify_nonzero : forall e t, In t (expr_simplify e) -> t_coeff t <> C0.
Proof.
  intros e t I. rewrite simplify_expr_eq in I. apply in_map_iff in I. destruct I as [k [<- I]]. simpl. apply skeys_In. auto.
Qed.

(** the same operator gives the same list of terms *)
Lemma simplify_unique : forall a b, same_op (expr_op a) (expr_op b) -> expr_simplify a = expr_simplify b.
Proof.
  intros a b S. assert (E : forall w, dval (sdict a) w = dval (sdict b) w).
  { intros w. destruct (in_dec ops_dec w (map fst (sdict a) ++ map fst (sdict b))) as [I|I].
    - assert (K : canonical w) by (apply in_app_iff in I; destruct I; eapply sdict_canonical; eauto).
      rewrite !sdict_val. apply coef_unique; auto; try (apply Forall_forall; intros t J; apply in_map_iff in J; destruct J as [s [<- _]]; apply simplify_canonical).
      intros psi x. rewrite !map_simplify_op. apply S.
    - rewrite in_app_iff in I. unfold dval. rewrite !(proj2 (dget_None ops_eqb ops_eqb_eq _ _)) by tauto. auto. }
  assert (K : skeys a = skeys b).
  { apply (sorted_unique _ repr_leb); auto using skeys_sorted, skeys_NoDup.
    - intros v w H1 H2. apply ops_repr_inj. apply leb_antisym; auto.
    - intros w. rewrite !skeys_In, E. tauto. }
  rewrite !simplify_expr_eq, K. apply map_ext. intros. rewrite E. auto.
Qed.
Lemma simplify_simplify : forall e, expr_simplify (expr_simplify e) = expr_simplify e.
Proof. intros. apply simplify_unique. apply expr_simplify_op. Qed.

(** ** Equality *)
Lemma tuple_eqb_eq : forall a b, term_tuple_eqb a b = true <-> a = b.
Proof.
  intros [v c] [w d]. unfold term_tuple_eqb. simpl. rewrite andb_true_iff, ops_eqb_eq, Ceqb_true. split; [intros [-> ->]; auto|]. intros H. injection H. auto.
Qed.
Lemma term_eqb_true : forall a b, term_eqb a b = true <-> simplify a = simplify b.
Proof.
  intros a b. unfold term_eqb. rewrite orb_true_iff, !tuple_eqb_eq. split; [intros [->|H]; auto|]. auto.
Qed.
Lemma term_eqb_op : forall a b, term_eqb a b = true -> same_op (term_op a) (term_op b).
Proof. intros a b H psi x. apply term_eqb_true in H. rewrite <- (simplify_op a), <- (simplify_op b), H. auto. Qed.
Lemma terms_eqb_op : forall a b, terms_eqb a b = true -> same_op (expr_op a) (expr_op b).
Proof.
  induction a as [|s a IH]; intros [|t b] H psi x; try discriminate; auto. simpl in H. apply andb_true_iff in H. destruct H as [H1 H2].
  simpl. unfold op_add. rewrite (term_eqb_op _ _ H1), (IH _ H2). auto.
Qed.
Lemma terms_eqb_refl : forall a, terms_eqb a a = true.
Proof. induction a; simpl; auto. rewrite (proj2 (term_eqb_true a a) eq_refl). auto. Qed.
Lemma expr_eqb_iff : forall a b, expr_eqb a b = true <-> same_op (expr_op a) (expr_op b).
Proof.
  intros a b. unfold expr_eqb. rewrite orb_true_iff. split.
  - intros [H|H]; apply terms_eqb_op in H; auto. intros psi x. rewrite <- (expr_simplify_op a), <- (expr_simplify_op b). apply H.
  - intros H. right. rewrite (simplify_unique _ _ H). apply terms_eqb_refl.
Qed.
Lemma single_op : forall t, same_op (expr_op [t]) (term_op t).
Proof. intros t psi x. simpl. unfold op_add. ring. Qed.
Lemma term_eq_complete : forall a b, t_coeff a <> C0 -> same_op (term_op a) (term_op b) -> term_eqb a b = true.
Proof.
  intros a b Ha S. apply term_eqb_true. set (a' := simplify a). set (b' := simplify b).
  assert (Ca : canonical (t_ops a')) by apply simplify_canonical. assert (Cb : canonical (t_ops b')) by apply simplify_canonical.
  assert (T : same_op (expr_op [a']) (expr_op [b'])).
  { intros psi x. rewrite !single_op. unfold a', b'. rewrite !simplify_op. apply S. }
  assert (U : forall v, canonical v -> wcoef [a'] v = wcoef [b'] v) by (apply coef_unique; auto).
  assert (N : t_coeff a' <> C0).
  { unfold a'. rewrite simplify_eq. simpl. rewrite simple_phase_mul. intros E. apply Cmul_integral in E. destruct E as [E|E]; auto.
    assert (Z : forall psi x, word_op (t_ops a) psi x = C0) by (intros; rewrite simple_op, E; ring).
    pose proof (word_rev (t_ops a) (ket 0)) as W. apply (f_equal (fun f => f 0)) in W.
    assert (Z' : word_op (t_ops a) (ket 0) = fun _ => C0) by (apply functional_extensionality; intro; apply Z).
    rewrite Z', (lin_zero _ (linear_word _)) in W. unfold ket in W. simpl in W. apply C1_neq_C0. auto. }
  assert (X : forall t v, wcoef [t] v = at_word (t_ops t) v (t_coeff t)) by (intros; rewrite wcoef_cons, wcoef_nil; ring).
  pose proof (U _ Ca) as U1. rewrite !X in U1. unfold at_word in U1. rewrite ops_eqb_refl in U1. destruct (ops_eqb (t_ops b') (t_ops a')) eqn:E; [|contradiction].
  apply ops_eqb_eq in E. destruct a', b'. simpl in *. congruence.
Qed.
