(** Commutators, terms from characters, identity tests, and programs that raise no exception. *)
From Coq Require Import List Arith ZArith Bool Ascii String Reals Lia Lra Sorted FunctionalExtensionality Permutation.
Import ListNotations.
From Verif Require Import Base Cplx Bits SpecQuantum SpecCircuit ModelGate ModelPauli SpecPauli ProofNumpy ProofFallback ProofUnitary ProofDagger ProofPauli ProofPauliTrace ProofPauliExpr ProofPauliArith.
Local Open Scope nat_scope.

(** ** Commutator *)
Lemma commutator_op : forall a b, same_op (expr_op (commutator a b)) (op_sub (op_mul (expr_op a) (expr_op b)) (op_mul (expr_op b) (expr_op a))).
Proof.
  intros a b. unfold commutator. rewrite <- (op_eq _ _ (expr_simplify_op a)), <- (op_eq _ _ (expr_simplify_op b)).
  intros psi x. rewrite expr_simplify_op. rewrite expr_sub_op by (apply NoDup_distinct, expr_mul_NoDup). unfold op_sub. rewrite !expr_mul_op. auto.
Qed.
Lemma commutator_nil : forall a b, same_op (op_mul (expr_op a) (expr_op b)) (op_mul (expr_op b) (expr_op a)) <-> commutator a b = [].
Proof.
  intros a b. split.
  - intros H. unfold commutator. change (@nil term) with (expr_simplify []). apply simplify_unique. intros psi x. rewrite <- expr_simplify_op.
    fold (commutator a b). rewrite commutator_op. unfold op_sub. rewrite H. simpl. ring.
  - intros H psi x. pose proof (commutator_op a b psi x) as E. rewrite H in E. unfold op_sub in E. simpl in E.
    replace (op_mul (expr_op a) (expr_op b) psi x) with (op_mul (expr_op b) (expr_op a) psi x + (op_mul (expr_op a) (expr_op b) psi x - op_mul (expr_op b) (expr_op a) psi x))%C by ring.
    rewrite <- E. ring.
Qed.
Lemma conj_norm : forall z, Cre (z * Cconj z)%C = Cnorm2 z. Proof. intros [a b]. unfold Cnorm2. simpl. ring. Qed.
Lemma size_from : forall e s, fold_left (fun s t => s + Cre (t_coeff t * Cconj (t_coeff t))%C)%R e s = (s + size e)%R.
Proof.
  unfold size. induction e as [|t e IH]; intros s; simpl; [ring|]. rewrite IH, (IH (0 + _)%R). ring.
Qed.
Lemma size_cons : forall t e, size (t :: e) = (Cnorm2 (t_coeff t) + size e)%R.
Proof. intros. unfold size at 1. simpl. rewrite size_from. rewrite <- conj_norm. simpl. ring. Qed.
Lemma size_pos : forall e, (0 <= size e)%R.
Proof. induction e; [unfold size; simpl; lra|]. rewrite size_cons. pose proof (Cnorm2_pos (t_coeff a)). lra. Qed.
Lemma is_commutable_size : forall a b eps, is_commutable a b eps = true <-> (size (commutator a b) < eps)%R.
Proof. intros. unfold is_commutable. fold (size (commutator a b)). apply Rltb_true. Qed.
Lemma is_commutable_all : forall a b, (forall eps, (0 < eps)%R -> is_commutable a b eps = true) <->
  same_op (op_mul (expr_op a) (expr_op b)) (op_mul (expr_op b) (expr_op a)).
Proof.
  intros a b. rewrite commutator_nil. split.
  - intros H. destruct (commutator a b) as [|t r] eqn:E; auto. exfalso.
    assert (N : t_coeff t <> C0).
    { assert (I : In t (commutator a b)) by (rewrite E; left; auto). unfold commutator in I. exact (simplify_nonzero _ _ I). }
    assert (P : (0 < size (t :: r))%R).
    { rewrite size_cons. pose proof (size_pos r). pose proof (Cnorm2_pos (t_coeff t)). pose proof (Cnorm2_neq0 _ N). lra. }
    specialize (H _ P). apply is_commutable_size in H. rewrite E in H. lra.
  - intros H eps P. apply is_commutable_size. rewrite H. unfold size. simpl. auto.
Qed.

(** ** Signs *)
Definition sgn (n : nat) : C := if Nat.even n then C1 else (- C1)%C.
Lemma sgn_add : forall n m, sgn (n + m) = (sgn n * sgn m)%C.
Proof. intros. unfold sgn. rewrite Nat.even_add. destruct (Nat.even n), (Nat.even m); simpl; ring. Qed.
Definition against (o : pop) (w : list pop) : nat := List.length (filter (clash o) w).
Lemma clashes_cons : forall o v w, clashes (o :: v) w = against o w + clashes v w.
Proof.
  intros. unfold clashes, against. simpl. rewrite filter_app, app_length. f_equal. induction w as [|a w IH]; simpl; auto.
  destruct (clash o a); simpl; rewrite IH; auto.
Qed.
Lemma letter_comm : forall l m q psi x, ap1 (lmat l) q (ap1 (lmat m) q psi) x = ((if letter_eqb l m then C1 else - C1) * ap1 (lmat m) q (ap1 (lmat l) q psi) x)%C.
Proof.
  intros l m q psi x. destruct l, m; simpl; try ring; rewrite !ap1_comp; unfold ap1, mmul, mX, mY, mZ, mk2; destruct (bit x q); ring.
Qed.
Lemma against_cons : forall o a w, against o (a :: w) = (if clash o a then 1 else 0) + against o w.
Proof. intros. unfold against. simpl. destruct (clash o a); auto. Qed.
Lemma pop_word : forall l q w psi x, ap1 (lmat l) q (word_op w psi) x = (sgn (against (l, q) w) * word_op w (ap1 (lmat l) q psi) x)%C.
Proof.
  induction w as [|[m p] w IH]; intros psi x; [change (sgn (against (l, q) [])) with C1; cbn [word_op]; unfold op_one; ring|].
  cbn [word_op]. unfold op_mul. assert (E : ap1 (lmat l) q (word_op w psi) = fun y => (sgn (against (l, q) w) * word_op w (ap1 (lmat l) q psi) y)%C) by (apply functional_extensionality; auto).
  rewrite against_cons, sgn_add. unfold clash. cbn [fst snd]. destruct (Nat.eqb_spec q p) as [->|N].
  - rewrite letter_comm, E. rewrite (lin_scl _ (linear_ap1 _ _)). destruct (letter_eqb l m); cbn [negb andb].
    + change (sgn 0) with C1. ring.
    + change (sgn 1) with (- C1)%C. ring.
  - cbn [andb]. change (sgn 0) with C1. rewrite ap1_comm by auto. rewrite E. rewrite (lin_scl _ (linear_ap1 _ _)). ring.
Qed.
Lemma word_word : forall v w psi x, word_op v (word_op w psi) x = (sgn (clashes v w) * word_op w (word_op v psi) x)%C.
Proof.
  induction v as [|[l q] v IH]; intros w psi x; [change (sgn (clashes [] w)) with C1; cbn [word_op]; unfold op_one; ring|]. rewrite clashes_cons, sgn_add. cbn [word_op]. unfold op_mul.
  assert (E : word_op v (word_op w psi) = fun y => (sgn (clashes v w) * word_op w (word_op v psi) y)%C) by (apply functional_extensionality; auto).
  rewrite E, (lin_scl _ (linear_ap1 _ _)), pop_word. ring.
Qed.
Lemma word_nonzero : forall w c, (forall psi x, (c * word_op w psi x)%C = C0) -> c = C0.
Proof.
  intros w c H. pose proof (f_equal (fun f => f 0) (word_rev (rev w) (ket 0))) as W. rewrite rev_involutive in W.
  specialize (H (word_op (rev w) (ket 0)) 0). rewrite W in H. unfold ket in H. simpl in H. rewrite Cmul_1_r in H. auto.
Qed.
Lemma terms_commute : forall s t, t_coeff s <> C0 -> t_coeff t <> C0 ->
  (same_op (op_mul (term_op s) (term_op t)) (op_mul (term_op t) (term_op s)) <-> Nat.even (clashes (t_ops s) (t_ops t)) = true).
Proof.
  intros [v c] [w d] Hc Hd. simpl in *. assert (E : forall psi x, op_mul (term_op (Term v c)) (term_op (Term w d)) psi x = (c * d * (sgn (clashes v w) * word_op w (word_op v psi) x))%C).
  { intros. unfold op_mul, term_op, op_scl. simpl. rewrite (lin_scl _ (linear_word v)), word_word. ring. }
  assert (F : forall psi x, op_mul (term_op (Term w d)) (term_op (Term v c)) psi x = (c * d * word_op w (word_op v psi) x)%C).
  { intros. unfold op_mul, term_op, op_scl. simpl. rewrite (lin_scl _ (linear_word w)). ring. }
  split.
  - intros H. destruct (Nat.even (clashes v w)) eqn:P; auto. exfalso.
    assert (Z : (c * d * (C1 + C1))%C = C0).
    { apply (word_nonzero (w ++ v)). intros psi x. rewrite word_app. pose proof (H psi x) as H'. rewrite E, F in H'. unfold sgn in H'. rewrite P in H'.
      replace (c * d * (C1 + C1) * word_op w (word_op v psi) x)%C with (c * d * word_op w (word_op v psi) x - c * d * (- C1 * word_op w (word_op v psi) x))%C by ring.
      rewrite H'. ring. }
    apply Cmul_integral in Z. destruct Z as [Z|Z]; [apply Cmul_integral in Z; tauto|]. apply C2_neq0. auto.
  - intros P psi x. rewrite E, F. unfold sgn. rewrite P. ring.
Qed.
Lemma phase_unit : forall a b, Cnorm2 (fst (mul_map a b)) = 1%R.
Proof. intros [] []; unfold Cnorm2; simpl; ring. Qed.
Lemma simple_phase_norm : forall w c, Cnorm2 (simple_phase w c) = Cnorm2 c.
Proof.
  intros w c. unfold simple_phase. revert c. induction (qubits_of w) as [|q qs IH]; intros c; simpl; auto. rewrite IH, Cnorm2_mul.
  assert (K : Cnorm2 (fst (mul_all (letters w q))) = 1%R); [|rewrite K; ring].
  destruct (letters w q) as [|a l]; simpl; [apply Cnorm2_C1|].
  assert (G : forall l s, Cnorm2 (fst s) = 1%R -> Cnorm2 (fst (fold_left (fun (s : C * option letter) b => let '(k, op) := mul_letter (snd s) (Some b) in ((fst s * k)%C, op)) l s)) = 1%R).
  { clear. induction l as [|b l IH]; intros [k o] H; simpl in *; auto. destruct o as [a|]; simpl; apply IH; [|simpl; rewrite Cnorm2_mul, H, Cnorm2_C1; ring].
    destruct (mul_map a b) as [k' o'] eqn:E. simpl. rewrite Cnorm2_mul, H. pose proof (phase_unit a b) as P. rewrite E in P. simpl in P. rewrite P. ring. }
  apply G. apply Cnorm2_C1.
Qed.
Lemma simplify_single : forall t, t_coeff t <> C0 -> expr_simplify [t] = [simplify t].
Proof.
  intros t H. assert (N : t_coeff (simplify t) <> C0).
  { intros E. apply H. apply Cnorm2_eq0. rewrite <- (simple_phase_norm (t_ops t)). rewrite simplify_eq in E. simpl in E. rewrite E. apply Cnorm2_C0. }
  assert (D : sdict [t] = [(t_ops (simplify t), t_coeff (simplify t))]).
  { unfold sdict. simpl. unfold accumulate. simpl. f_equal. f_equal. ring. }
  assert (V : dval (sdict [t]) (t_ops (simplify t)) = t_coeff (simplify t)) by (rewrite D; unfold dval; simpl; rewrite ops_eqb_refl; auto).
  rewrite simplify_expr_eq. unfold skeys. rewrite D. simpl sort_by. rewrite <- D. simpl. rewrite V. rewrite (proj2 (truthy_true _) N). simpl. rewrite V.
  destruct (simplify t); auto.
Qed.
Lemma term_commutator_size : forall s t, t_coeff s <> C0 -> t_coeff t <> C0 -> Nat.even (clashes (t_ops s) (t_ops t)) = false ->
  size (commutator (from_term s) (from_term t)) = (4 * Cnorm2 (t_coeff s) * Cnorm2 (t_coeff t))%R.
Proof.
  intros s t Hs Ht P. set (u := Term (t_ops s ++ t_ops t) (RtoC 2 * t_coeff s * t_coeff t)%C).
  assert (Nu : t_coeff u <> C0).
  { simpl. intros E. apply Cmul_integral in E. destruct E as [E|E]; auto. apply Cmul_integral in E. destruct E as [E|E]; auto. apply RtoC_inj in E. lra. }
  assert (E : commutator (from_term s) (from_term t) = [simplify u]).
  { rewrite <- simplify_single by auto. unfold commutator at 1. apply simplify_unique. intros psi x. rewrite <- expr_simplify_op.
    fold (commutator (from_term s) (from_term t)). rewrite commutator_op, single_op. rewrite !(op_eq _ _ (from_term_op _)). unfold op_sub, op_mul, term_op, op_scl. simpl.
    rewrite word_app. rewrite (lin_scl _ (linear_word (t_ops s))), (lin_scl _ (linear_word (t_ops t))).
    rewrite (word_word (t_ops s) (t_ops t)). unfold sgn. rewrite P. replace (RtoC 2) with (C1 + C1)%C by ceq. ring. }
  rewrite E, size_cons. unfold size at 1. simpl fold_left. rewrite simplify_eq. simpl t_coeff. rewrite simple_phase_norm, !Cnorm2_mul, Cnorm2_RtoC. ring.
Qed.
Lemma term_is_commutable : forall s t eps, t_coeff s <> C0 -> t_coeff t <> C0 ->
  (is_commutable (from_term s) (from_term t) eps = true <->
   (if Nat.even (clashes (t_ops s) (t_ops t)) then 0 < eps else 4 * Cnorm2 (t_coeff s) * Cnorm2 (t_coeff t) < eps)%R).
Proof.
  intros s t eps Hs Ht. rewrite is_commutable_size. destruct (Nat.even (clashes (t_ops s) (t_ops t))) eqn:P.
  - assert (E : commutator (from_term s) (from_term t) = []).
    { apply commutator_nil. rewrite !(op_eq _ _ (from_term_op _)). apply terms_commute; auto. }
    rewrite E. unfold size. simpl. tauto.
  - rewrite term_commutator_size by auto. tauto.
Qed.
Lemma all_terms_commutable : forall e, is_all_terms_commutable e = true <->
  ForallOrdPairs (fun s t => is_commutable (from_term s) (from_term t) default_eps = true) e.
Proof.
  intros e. unfold is_all_terms_commutable. rewrite forallb_forall. induction e as [|t e IH]; simpl.
  - split; intros; [constructor|contradiction].
  - split.
    + intros H. constructor.
      * apply Forall_forall. intros s I. apply (H (t, s)). apply in_or_app. left. apply in_map. auto.
      * apply IH. intros p I. apply H. apply in_or_app. auto.
    + intros H. inversion H; subst. rewrite Forall_forall in H2. intros p I. apply in_app_or in I. destruct I as [I|I].
      * apply in_map_iff in I. destruct I as [s [<- I]]. simpl. auto.
      * apply IH; auto.
Qed.

(** ** Characters *)
Definition pauli_op (p : pauli) : oper := val_op (VPauli p).
Definition paulis_op (ps : list pauli) : oper := fold_right (fun p U => op_mul (pauli_op p) U) op_one ps.
Lemma fold_mul_op : forall ps t, same_op (term_op (fold_left term_mul_pauli ps t)) (op_mul (term_op t) (paulis_op ps)).
Proof.
  induction ps as [|p ps IH]; intros t psi x; simpl; auto. rewrite IH. unfold op_mul at 1. rewrite term_mul_pauli_op. auto.
Qed.
Lemma from_chars_op : forall chars t, from_chars chars = Ok t -> exists ps, chars_paulis chars 0 = Ok ps /\ same_op (term_op t) (paulis_op ps).
Proof.
  intros chars t H. unfold from_chars in H. destruct (chars_paulis chars 0) as [ps|] eqn:E; [|discriminate]. simpl in H. exists ps. split; auto.
  assert (O : forall p, same_op (term_op (from_pauli p C1)) (pauli_op p)).
  { intros p psi x. rewrite from_pauli_op. unfold op_scl, pauli_op. ring. }
  destruct ps as [|p [|q r]]; injection H as <-; intros psi x; simpl paulis_op.
  - apply (O PId).
  - apply (O p).
  - rewrite fold_mul_op. unfold op_mul at 1. rewrite pauli_mul_op. reflexivity.
Qed.
Lemma char_pauli : forall ch n, match pauli_from_char ch n, char_op ch n with
  | Ok p, Some U => U = pauli_op p | Err e, None => e = ValueError | _, _ => False end.
Proof.
  intros [[] [] [] [] [] [] [] []] n; vm_compute; reflexivity.
Qed.
Lemma char_upper_I : forall n, char_op "I" n = Some op_one. Proof. reflexivity. Qed.
Lemma chars_snoc : forall l c n, chars_paulis (l ++ [c]) n =
  let* ps := chars_paulis l n in let* qs := chars_paulis [c] (n + List.length l) in Ok (ps ++ qs).
Proof.
  induction l as [|a l IH]; intros c n; simpl app.
  - cbn [chars_paulis bind List.length]. rewrite Nat.add_0_r. destruct (Ascii.eqb c "I"); auto. destruct (pauli_from_char c n); auto.
  - assert (S1 : forall k d, chars_paulis (a :: k) d = if Ascii.eqb a "I" then chars_paulis k (S d)
      else let* p := pauli_from_char a d in let* ps := chars_paulis k (S d) in Ok (p :: ps)) by reflexivity.
    rewrite (S1 (l ++ [c])), (S1 l), IH. replace (S n + List.length l) with (n + List.length (a :: l)) by (simpl; lia).
    generalize (chars_paulis [c] (n + List.length (a :: l))). intros r.
    destruct (Ascii.eqb a "I"); auto. destruct (pauli_from_char a n); auto. cbn [bind]. destruct (chars_paulis l (S n)); auto. cbn [bind].
    destruct r; auto.
Qed.
Lemma chars_below : forall l n ps, chars_paulis l n = Ok ps -> forall o, In (PP o) ps -> snd o < n + List.length l.
Proof.
  induction l as [|a l IH]; intros n ps H o I; simpl in H; [injection H as <-; destruct I|].
  assert (K : forall qs, chars_paulis l (S n) = Ok qs -> In (PP o) qs -> snd o < n + S (List.length l)).
  { intros qs E J. apply IH with (o := o) in E; auto. lia. }
  destruct (Ascii.eqb a "I"); [apply (K ps); auto|]. destruct (pauli_from_char a n) as [p|] eqn:P; [|discriminate]. simpl in H.
  destruct (chars_paulis l (S n)) as [qs|] eqn:Q; [|discriminate]. injection H as <-. destruct I as [->|I]; [|apply (K qs); auto].
  unfold pauli_from_char in P. repeat (destruct (Ascii.eqb _ _) in P; [try discriminate; injection P as <-; simpl; lia|]). discriminate.
Qed.
Lemma paulis_app : forall a b psi, paulis_op (a ++ b) psi = paulis_op a (paulis_op b psi).
Proof. induction a; intros; simpl; auto. unfold op_mul. rewrite IHa. auto. Qed.
Lemma paulis_comm : forall M q ps psi, (forall o, In (PP o) ps -> snd o <> q) -> paulis_op ps (ap1 M q psi) = ap1 M q (paulis_op ps psi).
Proof.
  induction ps as [|p ps IH]; intros psi H; simpl; auto. unfold op_mul. rewrite IH by (intros; apply H; right; auto). unfold pauli_op.
  destruct p as [|[l r]]; simpl; auto. apply ap1_comm. apply (H (l, r)). left. auto.
Qed.
Lemma string_paulis : forall s, match chars_paulis (rev (list_ascii_of_string s)) 0, string_op s with
  | Ok ps, Some U => same_op (paulis_op ps) U | Err e, None => e = ValueError | _, _ => False end.
Proof.
  induction s as [|ch s IH]; simpl; [intros psi x; reflexivity|]. rewrite chars_snoc. simpl (0 + _). rewrite rev_length.
  assert (L : List.length (list_ascii_of_string s) = String.length s) by (clear; induction s; simpl; auto). rewrite L.
  destruct (chars_paulis (rev (list_ascii_of_string s)) 0) as [ps|e] eqn:E, (string_op s) as [V|]; try contradiction; cbn [bind].
  2: { subst. destruct (char_op ch (String.length s)); auto. }
  pose proof (chars_below _ _ _ E) as B. rewrite rev_length, L in B. simpl in B.
  cbn [chars_paulis]. destruct (Ascii.eqb_spec ch "I") as [->|N].
  - simpl. rewrite app_nil_r. intros psi x. rewrite IH. auto.
  - pose proof (char_pauli ch (String.length s)) as P. destruct (pauli_from_char ch (String.length s)) as [p|e] eqn:F, (char_op ch (String.length s)) as [U|]; try contradiction; cbn [bind]; auto.
    subst U. intros psi x. rewrite paulis_app. simpl. unfold op_mul, op_one. rewrite <- (op_ext _ _ psi IH). unfold pauli_op.
    unfold pauli_from_char in F. repeat (destruct (Ascii.eqb _ _) in F; [try discriminate; injection F as <-; simpl; try (rewrite paulis_comm; auto; intros o I; apply B in I; lia)|]); auto; discriminate.
Qed.
Lemma term_chars : forall s, match term_from_chars s, string_op s with
  | Ok t, Some U => same_op (term_op t) U | Err e, None => e = ValueError | _, _ => False end.
Proof.
  intros s. pose proof (string_paulis s) as H. unfold term_from_chars. destruct (from_chars (rev (list_ascii_of_string s))) as [t|e] eqn:E.
  - destruct (from_chars_op _ _ E) as [ps [F O]]. rewrite F in H. destruct (string_op s); auto. intros psi x. rewrite O, H. auto.
  - unfold from_chars in E. destruct (chars_paulis (rev (list_ascii_of_string s)) 0) as [ps|e']; [destruct ps as [|p [|q r]]; discriminate|]. simpl in E. injection E as ->. auto.
Qed.

(** ** Programs without exceptions *)
Lemma eval_pauli : forall e p, eval e = Ok (VPauli p) -> e = EPauli p.
Proof.
  intros e p H. destruct e; simpl in H; try discriminate.
  - congruence.
  - destruct (eval e1) as [u|]; [|discriminate]. destruct (eval e2) as [w|]; [|discriminate]. destruct u, w; discriminate.
  - destruct (eval e1) as [u|]; [|discriminate]. destruct (eval e2) as [w|]; [|discriminate]. destruct u, w; discriminate.
  - destruct (eval e1) as [u|]; [|discriminate]. destruct (eval e2) as [w|]; [|discriminate]. destruct u, w; discriminate.
  - destruct (eval e) as [u|]; [|discriminate]. destruct u as [[]| | |]; discriminate.
  - destruct (eval e) as [u|]; [|discriminate]. destruct u; simpl in H.
    + destruct (truthy _); discriminate.
    + destruct (truthy _); discriminate.
    + destruct (term_div _ _); discriminate.
    + destruct (truthy _); [|discriminate]. destruct (map_res _ _); discriminate.
  - destruct (eval e) as [u|]; [|discriminate]. destruct u; simpl in H.
    + destruct (n <? 0)%Z; [destruct (truthy _)|]; discriminate.
    + discriminate.
    + destruct (term_pow _ _); discriminate.
    + destruct (expr_pow _ _); discriminate.
Qed.
Lemma term_div_ok : forall t r, r <> 0%R -> exists u, term_div t (NumR r) = Ok u.
Proof.
  intros t r H. simpl. destruct (Reqb r 0) eqn:E; [apply Reqb_true in E; contradiction|]. eauto.
Qed.
Lemma eval_defined : forall e, defined e -> exists v, eval e = Ok v.
Proof.
  induction e as [x|p|a IHa b IHb|a IHa b IHb|a IHa b IHb|a IHa|a IHa x|a IHa n]; intros D; simpl in *; eauto.
  - destruct D as [Da Db]. destruct (IHa Da) as [u ->], (IHb Db) as [v ->]. simpl. eauto.
  - destruct D as [Da Db]. destruct (IHa Da) as [u ->], (IHb Db) as [v ->]. simpl. eauto.
  - destruct D as [Da Db]. destruct (IHa Da) as [u ->], (IHb Db) as [v ->]. simpl. eauto.
  - destruct (IHa D) as [u ->]. simpl. eauto.
  - destruct D as [Da [r [-> N]]]. destruct (IHa Da) as [u ->]. simpl bind. assert (T : truthy (nval (NumR r)) = true) by (apply truthy_true, RtoC_neq0; auto).
    unfold v_div. rewrite T. destruct u as [y|p|t|e]; eauto.
    + destruct (term_div_ok t r N) as [u ->]. simpl. eauto.
    + assert (M : exists d, map_res (fun t => term_div t (NumR r)) e = Ok d).
      { clear -N. induction e as [|t e [d IH]]; [simpl; eauto|]. cbn [map_res]. destruct (term_div_ok t r N) as [u ->]. cbn [bind]. rewrite IH. simpl. eauto. }
      destruct M as [d ->]. simpl. eauto.
  - destruct D as [Da [Hn P]]. destruct (IHa Da) as [u E]. rewrite E. simpl bind. assert (L : (n <? 0)%Z = false) by (apply Z.ltb_ge; auto).
    destruct u as [y|p|t|e]; simpl.
    + rewrite L. eauto.
    + apply eval_pauli in E. subst. contradiction.
    + unfold term_pow. rewrite L. destruct (n =? 0)%Z; simpl; eauto.
    + unfold expr_pow. rewrite L. destruct (n =? 0)%Z; simpl; eauto.
Qed.

(** ** Identity tests *)
Lemma term_identity_sound : forall t, term_is_identity t = true -> multiple_of_one (term_op t).
Proof. intros [[|o w] c] H; [|discriminate]. exists c. intros psi x. reflexivity. Qed.
Lemma canonical_multiple : forall w c k, canonical w -> c <> C0 -> same_op (op_scl c (word_op w)) (op_scl k op_one) -> w = [].
Proof.
  intros w c k H N S. assert (T : forall v, canonical v -> wcoef [Term w c] v = wcoef [Term [] k] v).
  { apply coef_unique; try (constructor; [|constructor]; auto; apply canonical_nil). intros psi x. rewrite !single_op. apply S. }
  specialize (T w H). rewrite !wcoef_cons, !wcoef_nil in T. unfold at_word in T. simpl in T. rewrite ops_eqb_refl in T. destruct w as [|o w]; auto.
  exfalso. apply N. replace c with (c + C0)%C by ring. rewrite T. ring.
Qed.
Lemma term_identity_simplified : forall t, t_coeff t <> C0 -> (term_is_identity (simplify t) = true <-> multiple_of_one (term_op t)).
Proof.
  intros t N. split.
  - intros H. apply term_identity_sound in H. destruct H as [c H]. exists c. intros psi x. rewrite <- simplify_op. apply H.
  - intros [k S]. assert (E : t_ops (simplify t) = []).
    { apply (canonical_multiple _ (t_coeff (simplify t)) k).
      - apply simplify_canonical.
      - intros E. apply N. apply Cnorm2_eq0. rewrite <- (simple_phase_norm (t_ops t)). rewrite simplify_eq in E. simpl in E. rewrite E. apply Cnorm2_C0.
      - intros psi x. rewrite <- S. symmetry. rewrite <- (simplify_op t). reflexivity. }
    unfold term_is_identity. rewrite E. auto.
Qed.
Lemma expr_identity_sound : forall e, e <> [] -> expr_is_identity e = true -> same_op (expr_op e) op_one.
Proof.
  intros [|t [|s e]] N H; try congruence; [|discriminate]. simpl in H. apply andb_true_iff in H. destruct H as [H1 H2]. apply Ceqb_true in H2.
  destruct t as [[|o w] c]; [|discriminate]. simpl in H2. subst. intros psi x. rewrite single_op. unfold term_op, op_scl. simpl. ring.
Qed.
Lemma expr_identity_simplified : forall e, (expr_is_identity (expr_simplify e) = true <-> same_op (expr_op e) op_one \/ same_op (expr_op e) (fun _ _ => C0)).
Proof.
  intros e. split.
  - intros H. destruct (expr_simplify e) as [|t r] eqn:E.
    + right. intros psi x. rewrite <- expr_simplify_op, E. auto.
    + left. intros psi x. rewrite <- expr_simplify_op, E. apply expr_identity_sound; auto. discriminate.
  - intros [H|H].
    + assert (E : expr_simplify e = expr_simplify [Term [] C1]).
      { apply simplify_unique. intros psi x. rewrite H, single_op. unfold term_op, op_scl. simpl. unfold op_one. ring. }
      rewrite E, simplify_single by apply C1_neq_C0. rewrite simplify_id by apply canonical_nil. simpl. apply Ceqb_refl.
    + assert (E : expr_simplify e = expr_simplify []) by (apply simplify_unique; intros psi x; rewrite H; auto). rewrite E. auto.
Qed.
