(** Terms: products and simplification. *)
From Coq Require Import List Arith ZArith Bool Ascii String Reals Lia Lra Sorted FunctionalExtensionality Permutation.
Import ListNotations.
From Verif Require Import Base Cplx Bits SpecQuantum SpecCircuit ModelGate ModelPauli SpecPauli ProofNumpy ProofFallback ProofUnitary ProofDagger.
Local Open Scope nat_scope.

(** ** Decisions *)
Lemma letter_eqb_eq : forall a b, letter_eqb a b = true <-> a = b.
Proof. intros [] []; simpl; split; intros; congruence || discriminate. Qed.
Lemma pop_eqb_eq : forall a b, pop_eqb a b = true <-> a = b.
Proof.
  intros [a q] [b r]. unfold pop_eqb. simpl. rewrite andb_true_iff, Nat.eqb_eq, letter_eqb_eq. split; [intros [-> ->]; auto|intros H; injection H as -> ->; auto].
Qed.
Lemma pop_eqb_refl : forall a, pop_eqb a a = true. Proof. intros. apply pop_eqb_eq. auto. Qed.
Lemma ops_eqb_eq : forall a b, ops_eqb a b = true <-> a = b.
Proof.
  induction a as [|x a IH]; intros [|y b]; simpl; split; intros H; try discriminate; auto.
  - apply andb_true_iff in H. destruct H as [H1 H2]. apply pop_eqb_eq in H1. apply IH in H2. congruence.
  - injection H as -> ->. rewrite pop_eqb_refl. apply IH. auto.
Qed.
Lemma truthy_true : forall z, truthy z = true <-> z <> C0.
Proof. intros z. unfold truthy. rewrite negb_true_iff. split; intros H. - intros ->. rewrite (proj2 (Ceqb_true C0 C0) eq_refl) in H. discriminate.
  - destruct (Ceqb z C0) eqn:E; auto. apply Ceqb_true in E. contradiction. Qed.
Lemma truthy_false : forall z, truthy z = false <-> z = C0.
Proof. intros z. unfold truthy. rewrite negb_false_iff. apply Ceqb_true. Qed.

(** ** Operators *)
Lemma op_ext : forall (U V : oper) psi, same_op U V -> U psi = V psi.
Proof. intros. apply functional_extensionality. intro. apply H. Qed.

(** an operator that respects sums and multiples *)
Record linear (U : oper) : Prop := {
  lin_add : forall f g, U (fun x => f x + g x)%C = (fun x => U f x + U g x)%C;
  lin_scl : forall k f, U (fun x => k * f x)%C = (fun x => k * U f x)%C }.
Lemma linear_ap1 : forall M t, linear (ap1 M t).
Proof. intros M t. split; intros; apply functional_extensionality; intro x; unfold ap1; ring. Qed.
Lemma linear_one : linear op_one. Proof. split; reflexivity. Qed.
Lemma linear_mul : forall U V, linear U -> linear V -> linear (op_mul U V).
Proof. intros U V HU HV. split; intros; unfold op_mul. - rewrite (lin_add V), (lin_add U); auto. - rewrite (lin_scl V), (lin_scl U); auto. Qed.
Lemma linear_word : forall w, linear (word_op w).
Proof. induction w as [|[l q] w IH]; [exact linear_one|]. simpl. apply linear_mul; auto. apply linear_ap1. Qed.
Lemma linear_scl : forall k U, linear U -> linear (op_scl k U).
Proof. intros k U H. split; intros; unfold op_scl; apply functional_extensionality; intro x. - rewrite (lin_add U); auto. ring. - rewrite (lin_scl U); auto. ring. Qed.
Lemma linear_add : forall U V, linear U -> linear V -> linear (op_add U V).
Proof. intros U V HU HV. split; intros; unfold op_add; apply functional_extensionality; intro x.
  - rewrite (lin_add U), (lin_add V); auto. ring. - rewrite (lin_scl U), (lin_scl V); auto. ring. Qed.
Lemma linear_zero : linear (fun _ _ => C0).
Proof. split; intros; apply functional_extensionality; intro; ring. Qed.
Lemma linear_term : forall t, linear (term_op t).
Proof. intros. apply linear_scl, linear_word. Qed.
Lemma linear_expr : forall e, linear (expr_op e).
Proof. induction e; [exact linear_zero|]. apply linear_add; auto. apply linear_term. Qed.
Lemma lin_zero : forall U, linear U -> U (fun _ => C0) = (fun _ => C0).
Proof. intros U H. replace (fun _ : nat => C0) with (fun x : nat => (C0 * C0)%C) at 1 by (apply functional_extensionality; intro; ring).
  rewrite (lin_scl U H C0 (fun _ => C0)). apply functional_extensionality. intro. ring. Qed.

Lemma lmat_sq : forall l, mmul (lmat l) (lmat l) = mI.
Proof. intros []; [apply sq_x|apply sq_y|apply sq_z]. Qed.
Lemma ap1_one : forall t psi, ap1 mI t psi = psi.
Proof. exact ap1_I. Qed.
Lemma pauli_sq : forall l q psi, ap1 (lmat l) q (ap1 (lmat l) q psi) = psi.
Proof. intros. rewrite ap1_comp, lmat_sq. apply ap1_one. Qed.

Lemma word_app : forall a b psi, word_op (a ++ b) psi = word_op a (word_op b psi).
Proof. induction a as [|[l q] a IH]; intros; simpl; auto. unfold op_mul. rewrite IH. auto. Qed.

(** ** Products *)
Lemma join_loop_op : forall r1 b psi, word_op (join_loop r1 b) psi = word_op (rev r1) (word_op b psi).
Proof.
  induction r1 as [|x r1 IH]; intros [|y b] psi; simpl; auto; try apply word_app.
  destruct (pop_eqb x y) eqn:E; [|apply word_app]. apply pop_eqb_eq in E. subst y. rewrite IH, word_app. destruct x as [l q]. simpl. unfold op_mul, op_one.
  rewrite pauli_sq. auto.
Qed.
Lemma join_op : forall a b psi, word_op (join_ops a b) psi = word_op a (word_op b psi).
Proof. intros. unfold join_ops. rewrite join_loop_op, rev_involutive. auto. Qed.
Lemma term_mul_op : forall a b, same_op (term_op (term_mul a b)) (op_mul (term_op a) (term_op b)).
Proof.
  intros a b psi x. unfold term_op, op_mul, op_scl. simpl. rewrite join_op.
  rewrite (lin_scl _ (linear_word (t_ops a))). ring.
Qed.
Lemma pauli_term_op : forall p, same_op (term_op (pauli_term p)) (val_op (VPauli p)).
Proof.
  intros [|[l q]] psi x; unfold pauli_term; simpl; [unfold term_op, op_scl; simpl; ring|].
  destruct (Ceqb C1 C0) eqn:E; [apply Ceqb_true in E; destruct (C1_neq_C0 E)|]. unfold term_op, op_scl. simpl. unfold op_mul, op_one. ring.
Qed.
Lemma pauli_mul_op : forall p q, same_op (term_op (pauli_mul p q)) (op_mul (val_op (VPauli p)) (val_op (VPauli q))).
Proof.
  intros [|x] q psi z.
  - simpl pauli_mul. rewrite pauli_term_op. reflexivity.
  - destruct q as [|y].
    + unfold pauli_mul. rewrite pauli_term_op. reflexivity.
    + unfold pauli_mul. destruct (pop_eqb x y) eqn:E.
      * apply pop_eqb_eq in E. subst y. destruct x as [l q]. rewrite pauli_term_op. simpl. unfold op_mul. rewrite pauli_sq. reflexivity.
      * unfold term_op, op_scl. simpl. rewrite join_op. destruct x, y. simpl. unfold op_mul, op_one. ring.
Qed.
Lemma term_mul_pauli_op : forall t p, same_op (term_op (term_mul_pauli t p)) (op_mul (term_op t) (val_op (VPauli p))).
Proof.
  intros t [|[l q]] psi x; [reflexivity|]. unfold term_op, op_mul, op_scl. simpl. rewrite join_op. reflexivity.
Qed.
Lemma pauli_mul_term_op : forall t p, same_op (term_op (pauli_mul_term p t)) (op_mul (val_op (VPauli p)) (term_op t)).
Proof.
  intros t [|[l q]] psi x; [reflexivity|]. unfold term_op, op_mul, op_scl. simpl. rewrite join_op. simpl. unfold op_mul, op_one.
  rewrite (lin_scl _ (linear_ap1 (lmat l) q)). reflexivity.
Qed.
Lemma from_pauli_op : forall p c, same_op (term_op (from_pauli p c)) (op_scl c (val_op (VPauli p))).
Proof.
  intros [|[l q]] c psi x; [reflexivity|]. simpl. destruct (Ceqb c C0) eqn:E.
  - apply Ceqb_true in E. subst c. unfold term_op, op_scl. simpl. ring.
  - unfold term_op, op_scl. reflexivity.
Qed.
Lemma term_scale_op : forall t c, same_op (term_op (term_scale t c)) (op_scl c (term_op t)).
Proof. intros t c psi x. unfold term_op, op_scl. simpl. ring. Qed.

Lemma op_pow_scl : forall U k n psi, linear U -> op_pow (op_scl k U) n psi = (fun x => cpow k n * op_pow U n psi x)%C.
Proof.
  induction n; intros psi H; simpl.
  - apply functional_extensionality. intro. ring.
  - unfold op_mul. rewrite IHn by auto. unfold op_scl at 1. apply functional_extensionality. intro x. rewrite (lin_scl U H). ring.
Qed.
Lemma repeat_op : forall w n psi, word_op (repeat_ops w n) psi = op_pow (word_op w) n psi.
Proof. induction n; intros; simpl; auto. rewrite word_app, IHn. reflexivity. Qed.
Lemma term_pow_op : forall t n u, term_pow t n = Ok u -> same_op (term_op u) (op_pow (term_op t) (Z.to_nat n)).
Proof.
  intros t n u H psi x. unfold term_pow in H. destruct (n <? 0)%Z; [discriminate|]. destruct (Z.eqb_spec n 0).
  - injection H as <-. subst n. unfold term_op, op_scl. simpl. unfold op_one. ring.
  - injection H as <-. unfold term_op. rewrite op_pow_scl by apply linear_word. unfold op_scl. simpl. rewrite repeat_op. reflexivity.
Qed.

(** ** Letters of one qubit *)
Definition letters (w : list pop) (q : nat) : list letter := map fst (filter (fun o => snd o =? q) w).
Definition on_qubit (q : nat) (l : list letter) : list pop := map (fun a => (a, q)) l.

Lemma word_comm1 : forall M q w psi, ~ In q (map snd w) -> ap1 M q (word_op w psi) = word_op w (ap1 M q psi).
Proof.
  induction w as [|[l r] w IH]; intros psi H; simpl; auto. unfold op_mul. simpl in H. rewrite ap1_comm, IH by intuition. auto.
Qed.
Lemma on_qubit_snd : forall q l r, In r (map snd (on_qubit q l)) -> r = q.
Proof. induction l; simpl; intros r H; [tauto|]. destruct H; auto. Qed.

(** the operators of the qubits [qs], one qubit after the other *)
Fixpoint by_qubit (w : list pop) (qs : list nat) : oper :=
  match qs with [] => op_one | q :: r => op_mul (word_op (on_qubit q (letters w q))) (by_qubit w r) end.
Lemma by_qubit_skip : forall l q w qs psi, ~ In q qs -> by_qubit ((l, q) :: w) qs psi = by_qubit w qs psi.
Proof.
  induction qs as [|r qs IH]; intros psi H; simpl; auto. unfold op_mul. rewrite IH by (simpl in H; tauto). f_equal.
  unfold letters. simpl. destruct (Nat.eqb_spec q r); auto. simpl in H. exfalso. auto.
Qed.
Lemma by_qubit_cons : forall l q w qs psi, NoDup qs -> In q qs -> by_qubit ((l, q) :: w) qs psi = ap1 (lmat l) q (by_qubit w qs psi).
Proof.
  induction qs as [|r qs IH]; intros psi ND Hq; [destruct Hq|]. inversion ND; subst. simpl. unfold op_mul.
  destruct (Nat.eq_dec r q) as [->|N].
  - rewrite by_qubit_skip by auto. unfold letters at 1. simpl. rewrite Nat.eqb_refl. reflexivity.
  - rewrite IH by (simpl in Hq; tauto). rewrite word_comm1.
    + f_equal. unfold letters. simpl. destruct (Nat.eqb_spec q r); congruence.
    + intros F. apply on_qubit_snd in F. congruence.
Qed.
Lemma by_qubit_word : forall w qs psi, NoDup qs -> (forall o, In o w -> In (snd o) qs) -> by_qubit w qs psi = word_op w psi.
Proof.
  induction w as [|[l q] w IH]; intros qs psi ND H.
  - clear H ND. induction qs; simpl; auto.
  - rewrite by_qubit_cons by (auto; apply (H (l, q)); left; auto). simpl. unfold op_mul. rewrite IH; auto. intros; apply H; right; auto.
Qed.

Definition opt_op (o : option letter) (q : nat) : oper := match o with None => op_one | Some l => ap1 (lmat l) q end.
Lemma mul_map_mat : forall a b r s, mmul (lmat a) (lmat b) r s =
  (fst (mul_map a b) * match snd (mul_map a b) with None => mI r s | Some l => lmat l r s end)%C.
Proof. intros [] [] [] []; unfold mmul, mI; simpl; unfold mX, mY, mZ, mk2; ceq. Qed.
Lemma mul_map_op : forall a b q psi x, ap1 (lmat a) q (ap1 (lmat b) q psi) x = (fst (mul_map a b) * opt_op (snd (mul_map a b)) q psi x)%C.
Proof.
  intros. rewrite ap1_comp. destruct (snd (mul_map a b)) as [l|] eqn:E; simpl.
  - unfold ap1. rewrite !mul_map_mat, E. ring.
  - unfold op_one. replace (psi x) with (ap1 mI q psi x) by (rewrite ap1_I; auto). unfold ap1. rewrite !mul_map_mat, E. ring.
Qed.
Lemma linear_opt : forall o q, linear (opt_op o q).
Proof. intros [l|] q; [apply linear_ap1|apply linear_one]. Qed.
Lemma mul_letter_op : forall a b q psi x,
  opt_op a q (opt_op b q psi) x = (fst (mul_letter a b) * opt_op (snd (mul_letter a b)) q psi x)%C.
Proof.
  intros [a|] [b|] q psi x; simpl; unfold op_one; try ring. apply mul_map_op.
Qed.
Lemma mul_fold_op : forall l k o q psi x,
  (k * opt_op o q (word_op (on_qubit q l) psi) x)%C =
  let s := fold_left (fun (s : C * option letter) b => let '(k, op) := mul_letter (snd s) (Some b) in ((fst s * k)%C, op)) l (k, o) in
  (fst s * opt_op (snd s) q psi x)%C.
Proof.
  induction l as [|a l IH]; intros k o q psi x; simpl fold_left; cbv zeta; [reflexivity|].
  destruct (mul_letter o (Some a)) as [k' o'] eqn:E. cbn [fst snd]. rewrite <- IH. simpl. unfold op_mul.
  change (ap1 (lmat a) q) with (opt_op (Some a) q). rewrite mul_letter_op, E. simpl. ring.
Qed.
Lemma mul_all_op : forall l q psi x, word_op (on_qubit q l) psi x = (fst (mul_all l) * opt_op (snd (mul_all l)) q psi x)%C.
Proof.
  intros [|a l] q psi x; [simpl; ring|]. unfold mul_all. rewrite <- mul_fold_op. simpl. unfold op_mul. ring.
Qed.

(** ** The dictionary of simplify *)
Section DictLemmas.
Context {K V : Type}.
Variable eqb : K -> K -> bool.
Hypothesis eqb_eq : forall a b, eqb a b = true <-> a = b.
Lemma eqb_neq' : forall a b, eqb a b = false <-> a <> b.
Proof. intros a b. split; intros H. - intros E. apply eqb_eq in E. congruence. - destruct (eqb a b) eqn:E; auto. apply eqb_eq in E. contradiction. Qed.
Lemma dget_dset : forall (d : list (K * V)) k v k', dget eqb (dset eqb d k v) k' = if eqb k' k then Some v else dget eqb d k'.
Proof.
  induction d as [|[a b] d IH]; intros k v k'; simpl.
  - destruct (eqb k' k); auto.
  - destruct (eqb k a) eqn:E; simpl.
    + apply eqb_eq in E. subst a. destruct (eqb k' k); auto.
    + destruct (eqb k' a) eqn:E'; [|apply IH]. apply eqb_eq in E'. subst a. destruct (eqb k' k) eqn:E2; auto.
      apply eqb_eq in E2. subst. rewrite (proj2 (eqb_eq k k) eq_refl) in E. discriminate.
Qed.
Lemma dget_In : forall (d : list (K * V)) k v, dget eqb d k = Some v -> In (k, v) d.
Proof. induction d as [|[a b] d IH]; intros k v; simpl; [discriminate|]. destruct (eqb k a) eqn:E; intros H; [apply eqb_eq in E; left; congruence|right; auto]. Qed.
Lemma dget_None : forall (d : list (K * V)) k, dget eqb d k = None <-> ~ In k (map fst d).
Proof.
  induction d as [|[a b] d IH]; intros k; simpl; [tauto|]. destruct (eqb k a) eqn:E.
  - apply eqb_eq in E. subst. split; [discriminate|]. intros H. exfalso. auto.
  - apply eqb_neq' in E. rewrite IH. split; intros H; intuition congruence.
Qed.
Lemma dset_new : forall (d : list (K * V)) k v, ~ In k (map fst d) -> dset eqb d k v = d ++ [(k, v)].
Proof.
  induction d as [|[a b] d IH]; intros k v H; simpl; auto. simpl in H. rewrite (proj2 (eqb_neq' k a)) by intuition. rewrite IH; auto.
Qed.
Lemma dset_keys : forall (d : list (K * V)) k v, map fst (dset eqb d k v) = if dget eqb d k then map fst d else map fst d ++ [k].
Proof.
  induction d as [|[a b] d IH]; intros k v; simpl; auto. destruct (eqb k a) eqn:E; simpl; auto. rewrite IH. destruct (dget eqb d k); auto.
Qed.
Lemma dset_In_keys : forall (d : list (K * V)) k v k', In k' (map fst (dset eqb d k v)) <-> k' = k \/ In k' (map fst d).
Proof.
  intros d k v k'. rewrite dset_keys. destruct (dget eqb d k) eqn:E.
  - apply dget_In in E. apply (in_map fst) in E. simpl in E. split; [auto|]. intros [->|]; auto.
  - rewrite in_app_iff. simpl. intuition.
Qed.
Lemma dset_NoDup : forall (d : list (K * V)) k v, NoDup (map fst d) -> NoDup (map fst (dset eqb d k v)).
Proof.
  intros d k v H. rewrite dset_keys. destruct (dget eqb d k) eqn:E; auto. apply dget_None in E.
  apply Permutation_NoDup with (l := k :: map fst d); [apply Permutation_cons_append|constructor; auto].
Qed.
Lemma ddel_incl : forall (d : list (K * V)) k k', In k' (map fst (ddel eqb d k)) -> In k' (map fst d).
Proof. induction d as [|[a b] d IH]; intros k k'; simpl; auto. destruct (eqb k a); simpl; auto. intros [|]; eauto. Qed.
Lemma ddel_NoDup : forall (d : list (K * V)) k, NoDup (map fst d) -> NoDup (map fst (ddel eqb d k)).
Proof.
  induction d as [|[a b] d IH]; intros k H; simpl; auto. inversion H; subst. destruct (eqb k a); auto. simpl. constructor; auto.
  intros F. apply ddel_incl in F. auto.
Qed.
End DictLemmas.

Lemma before_spec : forall w, NoDup (map fst (before w)) /\ (forall q, In q (map fst (before w)) <-> In q (map snd w)) /\
  forall q, match dget Nat.eqb (before w) q with Some l => l | None => [] end = letters w q.
Proof.
  induction w as [|[l q] w IH] using rev_ind.
  - simpl. split; [constructor|]. split; [tauto|]. reflexivity.
  - destruct IH as [ND [K L]]. unfold before. rewrite fold_left_app. cbn [fold_left fst snd].
    fold (before w). split; [apply dset_NoDup; auto; apply Nat.eqb_eq|]. split.
    + intros r. rewrite dset_In_keys by apply Nat.eqb_eq. rewrite K, map_app, in_app_iff. simpl. intuition.
    + intros r. rewrite dget_dset by apply Nat.eqb_eq. unfold letters. rewrite filter_app, map_app. simpl.
      rewrite (Nat.eqb_sym q r). destruct (Nat.eqb_spec r q).
      * subst r. rewrite L. unfold letters. simpl. reflexivity.
      * rewrite L. unfold letters. simpl. rewrite app_nil_r. auto.
Qed.

(** ** Sorting *)
Section Sorting.
Context {A : Type}.
Variable le : A -> A -> bool.
Lemma insert_perm : forall x l, Permutation (insert_by le x l) (x :: l).
Proof.
  induction l as [|y l IH]; simpl; auto. destruct (le x y); auto. rewrite IH. apply perm_swap.
Qed.
Lemma sort_perm : forall l, Permutation (sort_by le l) l.
Proof. induction l as [|x l IH]; simpl; auto. rewrite insert_perm. auto. Qed.
Hypothesis le_total : forall a b, le a b = true \/ le b a = true.
Hypothesis le_trans : forall a b c, le a b = true -> le b c = true -> le a c = true.
Lemma insert_sorted : forall x l, StronglySorted (fun a b => le a b = true) l -> StronglySorted (fun a b => le a b = true) (insert_by le x l).
Proof.
  induction l as [|y l IH]; intros H; simpl; [repeat constructor|]. inversion H as [|? ? S F]; subst. destruct (le x y) eqn:E.
  - constructor; auto. constructor; auto. eapply Forall_impl; [|exact F]. intros; eauto.
  - assert (E' : le y x = true) by (destruct (le_total x y); congruence). constructor; auto.
    apply Forall_forall. intros z Hz. apply (Permutation_in _ (insert_perm x l)) in Hz. destruct Hz as [<-|Hz]; auto.
    rewrite Forall_forall in F. auto.
Qed.
Lemma sort_sorted : forall l, StronglySorted (fun a b => le a b = true) (sort_by le l).
Proof. induction l; simpl; [constructor|apply insert_sorted; auto]. Qed.
End Sorting.
Lemma sort_NoDup_lt : forall l, NoDup l -> StronglySorted lt (sort_by Nat.leb l).
Proof.
  intros l H. assert (S : StronglySorted (fun a b => Nat.leb a b = true) (sort_by Nat.leb l)).
  { apply sort_sorted. - intros a b. rewrite !Nat.leb_le. lia. - intros a b c. rewrite !Nat.leb_le. lia. }
  apply (Permutation_NoDup (Permutation_sym (sort_perm Nat.leb l))) in H. induction S as [|a r S IH F]; constructor.
  - apply IH. inversion H; auto.
  - inversion H; subst. rewrite Forall_forall in *. intros b Hb. specialize (F b Hb). apply Nat.leb_le in F.
    assert (a <> b) by (intros ->; auto). lia.
Qed.

(** ** simplify *)
Lemma simplify_fold : forall (f : nat -> C * option letter) qs ops c,
  fold_left (fun (s : list pop * C) n => let '(k, op) := f n in
      (fst s ++ match op with None => [] | Some l => [(l, n)] end, (snd s * k)%C)) qs (ops, c) =
  (ops ++ flat_map (fun n => match snd (f n) with None => [] | Some l => [(l, n)] end) qs,
   fold_left (fun c n => (c * fst (f n))%C) qs c).
Proof.
  induction qs as [|q qs IH]; intros ops c; simpl; [rewrite app_nil_r; auto|].
  destruct (f q) as [k o]. simpl. rewrite IH, app_assoc. auto.
Qed.
(** the qubits of a term, in ascending order *)
Definition qubits_of (w : list pop) : list nat := sort_by Nat.leb (map fst (before w)).
Definition simple_ops (w : list pop) : list pop :=
  flat_map (fun n => match snd (mul_all (letters w n)) with None => [] | Some l => [(l, n)] end) (qubits_of w).
Definition simple_phase (w : list pop) (c : C) : C := fold_left (fun c n => (c * fst (mul_all (letters w n)))%C) (qubits_of w) c.
Lemma fold_left_ext : forall A B (f g : A -> B -> A) l a, (forall a b, f a b = g a b) -> fold_left f l a = fold_left g l a.
Proof. induction l; intros; simpl; auto. rewrite H. auto. Qed.
Lemma simplify_eq : forall t, simplify t = Term (simple_ops (t_ops t)) (simple_phase (t_ops t) (t_coeff t)).
Proof.
  intros t. unfold simplify. rewrite simplify_fold. simpl. destruct (before_spec (t_ops t)) as [_ [_ L]].
  unfold simple_ops, simple_phase. f_equal.
  - apply flat_map_ext. intros q. rewrite L. auto.
  - apply fold_left_ext. intros c q. rewrite L. auto.
Qed.
Lemma qubits_of_spec : forall w, StronglySorted lt (qubits_of w) /\ forall q, In q (qubits_of w) <-> In q (map snd w).
Proof.
  intros w. destruct (before_spec w) as [ND [K _]]. split; [apply sort_NoDup_lt; auto|]. intros q. rewrite <- K. unfold qubits_of.
  split; apply Permutation_in; [|symmetry]; apply sort_perm.
Qed.
Lemma sorted_NoDup : forall l, StronglySorted lt l -> NoDup l.
Proof. induction 1; constructor; auto. intros F. rewrite Forall_forall in H0. specialize (H0 a F). lia. Qed.

Lemma phase_mul : forall w qs c, fold_left (fun c n => (c * fst (mul_all (letters w n)))%C) qs c =
  (c * fold_left (fun c n => (c * fst (mul_all (letters w n)))%C) qs C1)%C.
Proof.
  induction qs as [|q qs IH]; intros c; simpl; [ring|]. rewrite IH, (IH (C1 * _)%C). ring.
Qed.
Lemma by_qubit_simple : forall w qs psi x, by_qubit w qs psi x =
  (fold_left (fun c n => (c * fst (mul_all (letters w n)))%C) qs C1 *
   word_op (flat_map (fun n => match snd (mul_all (letters w n)) with None => [] | Some l => [(l, n)] end) qs) psi x)%C.
Proof.
  induction qs as [|q qs IH]; intros psi x; simpl; [unfold op_one; ring|]. unfold op_mul. rewrite phase_mul. rewrite mul_all_op.
  rewrite word_app.
  assert (E : by_qubit w qs psi = fun y => (fold_left (fun c n => (c * fst (mul_all (letters w n)))%C) qs C1 *
   word_op (flat_map (fun n => match snd (mul_all (letters w n)) with None => [] | Some l => [(l, n)] end) qs) psi y)%C)
    by (apply functional_extensionality; intro; apply IH).
  rewrite E, (lin_scl _ (linear_opt _ q)). destruct (snd (mul_all (letters w q))); simpl; unfold op_mul, op_one; ring.
Qed.
Lemma simple_op : forall w psi x, word_op w psi x = (simple_phase w C1 * word_op (simple_ops w) psi x)%C.
Proof.
  intros. destruct (qubits_of_spec w) as [S K]. rewrite <- (by_qubit_word w (qubits_of w)).
  - apply by_qubit_simple.
  - apply sorted_NoDup; auto.
  - intros o Ho. apply K. apply in_map. auto.
Qed.
Lemma simple_phase_mul : forall w c, simple_phase w c = (c * simple_phase w C1)%C.
Proof. intros. apply phase_mul. Qed.
Lemma simplify_op : forall t, same_op (term_op (simplify t)) (term_op t).
Proof.
  intros t psi x. rewrite simplify_eq. unfold term_op, op_scl. simpl. rewrite (simple_op (t_ops t)), simple_phase_mul. ring.
Qed.

Lemma flat_sorted : forall (f : nat -> option letter) qs, StronglySorted lt qs ->
  canonical (flat_map (fun n => match f n with None => [] | Some l => [(l, n)] end) qs).
Proof.
  intros f qs H. unfold canonical. induction H as [|q qs S IH F]; simpl; [constructor|].
  rewrite map_app. destruct (f q); simpl; auto. constructor; auto. apply Forall_forall. intros r Hr. apply in_map_iff in Hr.
  destruct Hr as [[l' r'] [<- Hr]]. apply in_flat_map in Hr. destruct Hr as [z [Hz Hr]]. rewrite Forall_forall in F. destruct (f z); [|destruct Hr].
  destruct Hr as [E|[]]. injection E as <- <-. simpl. auto.
Qed.
Lemma simplify_canonical : forall t, canonical (t_ops (simplify t)).
Proof. intros t. rewrite simplify_eq. simpl. apply flat_sorted. apply qubits_of_spec. Qed.

(** ** Canonical words *)
Definition letter_at (w : list pop) (q : nat) : option letter := snd (mul_all (letters w q)).
Lemma letters_none : forall w q, ~ In q (map snd w) -> letters w q = [].
Proof.
  induction w as [|[l r] w IH]; intros q H; auto. unfold letters. simpl. simpl in H. destruct (Nat.eqb_spec r q); [tauto|]. apply IH. tauto.
Qed.
Lemma canonical_cons : forall l q w, canonical ((l, q) :: w) -> canonical w /\ ~ In q (map snd w) /\ Forall (lt q) (map snd w).
Proof.
  intros l q w H. inversion H as [|? ? S F]; subst. split; auto. split; auto. intros I. rewrite Forall_forall in F. specialize (F _ I). lia.
Qed.
Lemma canonical_letters : forall w l q, canonical w -> In (l, q) w -> letters w q = [l].
Proof.
  induction w as [|[a r] w IH]; intros l q H I; [destruct I|]. destruct (canonical_cons _ _ _ H) as [H' [N _]].
  unfold letters. simpl. destruct I as [E|I].
  - injection E as -> ->. rewrite Nat.eqb_refl. simpl. f_equal. apply letters_none; auto.
  - destruct (Nat.eqb_spec r q).
    + subst r. exfalso. apply N. apply (in_map snd) in I. auto.
    + apply IH; auto.
Qed.
Lemma canonical_at : forall w l q, canonical w -> (letter_at w q = Some l <-> In (l, q) w).
Proof.
  intros w l q H. split; intros I.
  - destruct (in_dec Nat.eq_dec q (map snd w)) as [J|J].
    + apply in_map_iff in J. destruct J as [[a r] [E J]]. simpl in E. subst r. unfold letter_at in I. rewrite (canonical_letters _ _ _ H J) in I.
      simpl in I. congruence.
    + unfold letter_at in I. rewrite letters_none in I by auto. discriminate.
  - unfold letter_at. rewrite (canonical_letters _ _ _ H I). auto.
Qed.
Lemma canonical_nil : canonical []. Proof. constructor. Qed.
Lemma canonical_ext : forall v w, canonical v -> canonical w -> (forall o, In o v <-> In o w) -> v = w.
Proof.
  induction v as [|[a q] v IH]; intros [|[b r] w] Hv Hw H; auto.
  - exfalso. destruct (proj2 (H (b, r))). left; auto.
  - exfalso. destruct (proj1 (H (a, q))). left; auto.
  - destruct (canonical_cons _ _ _ Hv) as [Cv [Nv Fv]]. destruct (canonical_cons _ _ _ Hw) as [Cw [Nw Fw]].
    rewrite Forall_forall in Fv, Fw.
    assert (E : (a, q) = (b, r)).
    { destruct (proj1 (H (a, q)) (or_introl eq_refl)) as [E|I]; auto. destruct (proj2 (H (b, r)) (or_introl eq_refl)) as [E|J]; auto.
      apply (in_map snd) in I, J. simpl in I, J. specialize (Fw _ I). specialize (Fv _ J). lia. }
    injection E as <- <-. f_equal. apply IH; auto. intros o. split; intros I.
    + destruct (proj1 (H o) (or_intror I)) as [<-|J]; auto. exfalso. apply Nv. apply (in_map snd) in I. auto.
    + destruct (proj2 (H o) (or_intror I)) as [<-|J]; auto. exfalso. apply Nw. apply (in_map snd) in I. auto.
Qed.
Lemma simple_ops_In : forall w l q, In (l, q) (simple_ops w) <-> letter_at w q = Some l.
Proof.
  intros w l q. unfold simple_ops. rewrite in_flat_map. split.
  - intros [n [_ H]]. unfold letter_at. destruct (snd (mul_all (letters w n))) as [b|] eqn:E; [|destruct H].
    destruct H as [H|[]]. injection H as -> ->. auto.
  - intros H. exists q. split.
    + apply qubits_of_spec. destruct (in_dec Nat.eq_dec q (map snd w)); auto. unfold letter_at in H. rewrite letters_none in H by auto. discriminate.
    + unfold letter_at in H. rewrite H. left; auto.
Qed.
Lemma simple_canonical : forall w, canonical (simple_ops w).
Proof. intros. apply flat_sorted. apply qubits_of_spec. Qed.
Lemma simple_ops_id : forall w, canonical w -> simple_ops w = w.
Proof.
  intros w H. apply canonical_ext; auto; [apply simple_canonical|]. intros [l q]. rewrite simple_ops_In. apply canonical_at. auto.
Qed.
Lemma simple_phase_id : forall w c, canonical w -> simple_phase w c = c.
Proof.
  intros w c H. unfold simple_phase. generalize (qubits_of w). intros qs. revert c. induction qs as [|q qs IH]; intros c; simpl; auto.
  rewrite IH. assert (E : fst (mul_all (letters w q)) = C1); [|rewrite E; ring].
  destruct (in_dec Nat.eq_dec q (map snd w)) as [J|J].
  - apply in_map_iff in J. destruct J as [[a r] [E J]]. simpl in E. subst r. rewrite (canonical_letters _ _ _ H J). auto.
  - rewrite letters_none by auto. auto.
Qed.
Lemma simplify_id : forall t, canonical (t_ops t) -> simplify t = t.
Proof. intros [w c] H. rewrite simplify_eq. simpl in *. rewrite simple_ops_id, simple_phase_id by auto. auto. Qed.
Lemma simplify_twice : forall t, simplify (simplify t) = simplify t.
Proof. intros. apply simplify_id, simplify_canonical. Qed.
