(** Examples and counterexamples with Pauli operators. *)
From Coq Require Import List Arith ZArith Bool String Ascii Reals Lia Lra.
Import ListNotations.
From Verif Require Import Base Cplx Bits ModelTargets ModelGate SpecQuantum SpecCircuit ModelPauli SpecPauli ProofPauli ProofPauliTrace ProofPauliExpr ProofPauliArith
  ProofPauliComm ProofEvolution ModelPauliMatrix SpecPauliMatrix ProofKron ProofPauliMatrix.
Local Open Scope nat_scope.

Lemma C1_neq0 : C1 <> C0. Proof. intros H. apply (f_equal Cre) in H. simpl in H. lra. Qed.
Lemma truthy1 : truthy C1 = true. Proof. apply truthy_true, C1_neq0. Qed.
Lemma Ceqb10 : Ceqb C1 C0 = false. Proof. pose proof truthy1 as H. unfold truthy in H. destruct (Ceqb C1 C0); auto. Qed.
Definition X0 : pop := (LX, 0).
Definition Y0 : pop := (LY, 0).
Definition Z0 : pop := (LZ, 0).
Definition Z1 : pop := (LZ, 1).

(** ((X[0]*1)**2 + 1) * X[0] + Z[1] *)
Definition ex_lost : pexp :=
  EAdd (EMul (EAdd (EPow (EMul (EPauli (PP X0)) (ENum (NumR 1))) 2) (ENum (NumR 1))) (EPauli (PP X0))) (EPauli (PP Z1)).
Lemma ex_lost_eval : eval ex_lost = Ok (VExpr [Term [X0] C1; Term [Z1] C1]).
Proof.
  assert (E1 : v_mul (VPauli (PP X0)) (VNum (NumR 1)) = VTerm (Term [X0] C1)).
  { cbn [v_mul]. unfold from_pauli. cbn [nval]. change (RtoC 1) with C1. rewrite Ceqb10. auto. }
  assert (E2 : v_pow (VTerm (Term [X0] C1)) 2 = Ok (VTerm (Term [X0; X0] C1))).
  { cbn [v_pow]. unfold term_pow. cbn [Z.ltb Z.eqb Z.compare]. cbv iota. cbn [rmap t_coeff t_ops]. do 3 f_equal.
    change (Z.to_nat 2) with 2. cbn [cpow]. ring. }
  assert (E3 : v_add (VTerm (Term [X0; X0] C1)) (VNum (NumR 1)) = VExpr [Term [X0; X0] C1; Term [] C1]).
  { cbn [v_add v_expr nval]. change (RtoC 1) with C1. unfold from_number, from_term. cbn [t_coeff]. rewrite truthy1. unfold expr_add, terms_to_dict.
    cbn [filter t_coeff]. rewrite truthy1. cbn [fold_left t_ops t_coeff dset]. unfold add_into. cbn [dget ops_eqb pop_eqb]. cbv iota. cbn [dset ops_eqb].
    unfold from_terms_dict. cbn [filter snd]. rewrite truthy1. auto. }
  assert (E4 : v_mul (VExpr [Term [X0; X0] C1; Term [] C1]) (VPauli (PP X0)) = VExpr [Term [X0] C1; Term [X0] C1]).
  { cbn [v_mul]. unfold pauli_term, from_pauli. rewrite Ceqb10. unfold expr_mul_term, term_mul. cbn [map t_ops t_coeff].
    change (join_ops [X0; X0] [X0]) with [X0]. change (join_ops [] [X0]) with [X0]. replace (C1 * C1)%C with C1 by ring. auto. }
  assert (E5 : v_add (VExpr [Term [X0] C1; Term [X0] C1]) (VPauli (PP Z1)) = VExpr [Term [X0] C1; Term [Z1] C1]).
  { cbn [v_add v_expr]. unfold pauli_expr, pauli_term, from_pauli, from_term. rewrite Ceqb10. cbn [t_coeff]. rewrite truthy1. unfold expr_add, terms_to_dict.
    cbn [filter t_coeff]. rewrite truthy1. cbn [fold_left t_ops t_coeff dset ops_eqb]. change (pop_eqb X0 X0) with true. cbn [andb ops_eqb]. cbv iota.
    unfold add_into. cbn [dget ops_eqb]. change (pop_eqb Z1 X0) with false. cbn [andb]. cbv iota. cbn [dset ops_eqb]. change (pop_eqb Z1 X0) with false.
    cbn [andb]. cbv iota. unfold from_terms_dict. cbn [filter snd]. rewrite truthy1. auto. }
  unfold ex_lost. cbn [eval bind]. rewrite E1, E2. cbn [bind]. rewrite E3. cbn [bind]. rewrite E4. cbn [bind]. rewrite E5. auto.
Qed.
Lemma one_op : forall l q psi x, op_mul (ap1 (lmat l) q) op_one psi x = ap1 (lmat l) q psi x. Proof. reflexivity. Qed.
Lemma lost_term : exists e v, eval e = Ok v /\ defined e /\ ~ same_op (val_op v) (meaning e).
Proof.
  exists ex_lost. eexists. split; [exact ex_lost_eval|]. split; [cbn; repeat split; auto; lia|]. intros H. specialize (H (ket 0) 1).
  cbn [val_op expr_op ex_lost meaning] in H. unfold op_add, term_op, op_scl, op_mul, op_pow, op_one in H. cbn [t_ops t_coeff word_op nval] in H.
  unfold op_mul, op_one, ap1 in H. cbn [lmat] in H. unfold mX, mZ, mk2, X0, Z1, ket in H. simpl in H. change (RtoC 1) with C1 in H.
  ring_simplify in H. apply (f_equal Cre) in H. simpl in H. lra.
Qed.

(** equality of a term with an expression depends on the order *)
Lemma eq_mixed : exists t e, same_op (term_op t) (expr_op e) /\ v_eq (VTerm t) (VExpr e) = Ok false /\ v_eq (VExpr e) (VTerm t) = Ok true.
Proof.
  exists (Term [X0] C1), [Term [X0] C1]. split; [intros psi x; rewrite single_op; auto|]. split; auto. cbn [v_eq]. f_equal. apply expr_eqb_iff.
  intros psi x. rewrite from_term_op, single_op. auto.
Qed.
Lemma eq_number : forall x v, match v with VNum _ => False | _ => True end -> v_eq (VNum x) v = Ok false /\ v_eq v (VNum x) = Ok false.
Proof. intros x [] H; [contradiction| | |]; auto. Qed.
Lemma eq_number_same : exists x t, same_op (op_scl (nval x) op_one) (term_op t) /\ v_eq (VTerm t) (VNum x) = Ok false.
Proof. exists (NumR 1), (Term [] C1). split; [intros psi x; reflexivity|reflexivity]. Qed.
Lemma eq_identity : forall a, v_eq (VPauli PId) (VPauli (PP a)) = Ok false /\ v_eq (VPauli (PP a)) (VPauli PId) = Err AttributeError.
Proof. auto. Qed.
Lemma hashes : v_hash (VPauli PId) = Err AttributeError /\ (forall t, v_hash (VTerm t) = Err TypeError) /\ (forall e, v_hash (VExpr e) = Err TypeError).
Proof. auto. Qed.
Lemma eq_zero_terms : exists a b, same_op (term_op a) (term_op b) /\ term_eqb a b = false.
Proof.
  exists (Term [X0] C0), (Term [Z0] C0). split; [intros psi x; unfold term_op, op_scl; simpl; ring|].
  reflexivity.
Qed.

(** small coefficients *)
Lemma small_commute : exists a b, is_commutable (from_term a) (from_term b) default_eps = true /\
  ~ same_op (op_mul (term_op a) (term_op b)) (op_mul (term_op b) (term_op a)).
Proof.
  assert (N : RtoC (/ 10 ^ 5) <> C0) by (apply RtoC_neq0, Rinv_neq_0_compat; lra).
  exists (Term [X0] (RtoC (/ 10 ^ 5))), (Term [Z0] (RtoC (/ 10 ^ 5))). split.
  - apply term_is_commutable; auto. cbn [t_ops t_coeff]. change (Nat.even (clashes [X0] [Z0])) with false. cbv iota.
    unfold Cnorm2, RtoC, default_eps. cbn [Cre Cim fst snd]. lra.
  - rewrite terms_commute by auto. discriminate.
Qed.

(** time evolution *)
Lemma Y_evolution : exists t f s n ops, t_coeff t = C1 /\ term_qubits t <= n /\ time_evolution t = Ok f /\ circuit_ops n (f s) ops /\ t_ops t = [Y0] /\
  exists psi x, apply_all ops psi x <> op_exp s (word_op (t_ops t)) psi x.
Proof.
  assert (T : time_evolution (Term [Y0] C1) = Ok (evolution_gates [Y0] 1)).
  { unfold time_evolution. rewrite simplify_id by (repeat constructor). cbn [t_coeff]. unfold C1 at 1, RtoC. cbn [Cim snd]. 
    destruct (Reqb 0 0) eqn:E; auto. exfalso. unfold Reqb in E. destruct (Req_EM_T 0 0); congruence. }
  destruct (evolution_ops 1 [Y0] 1 (PI / 2)) as [ops [A B]]; [discriminate|intros o [<-|[]]; apply Nat.lt_0_1|repeat constructor; auto|].
  exists (Term [Y0] C1), (evolution_gates [Y0] 1), (PI / 2)%R, 1, ops. split; auto. split; [apply le_n|]. split; auto. split; auto. split; auto.
  exists (ket 0), 1. rewrite B. rewrite Rmult_1_l. unfold op_exp, op_add, op_scl, op_one, sgn. cbn [t_ops word_op Y0]. unfold op_mul, op_one, ap1. cbn [lmat].
  unfold mY, mk2. simpl. rewrite cos_PI2, sin_PI2. unfold ket. simpl. change (RtoC 1) with C1. intros H. ring_simplify in H. apply (f_equal Cre) in H. simpl in H. lra.
Qed.
Lemma identity_evolution : exists t f s n ops, t_coeff t = C1 /\ time_evolution t = Ok f /\ circuit_ops n (f s) ops /\ t_ops t = [] /\
  exists psi x, apply_all ops psi x <> op_exp s (word_op (t_ops t)) psi x.
Proof.
  exists (Term [] C1), (evolution_gates [] 1), PI, 1, []. split; auto. split.
  { unfold time_evolution. rewrite simplify_id by (repeat constructor). cbn [t_coeff]. unfold C1 at 1, RtoC. cbn [Cim snd]. 
    destruct (Reqb 0 0) eqn:E; auto. exfalso. unfold Reqb in E. destruct (Req_EM_T 0 0); congruence. }
  split; [constructor|]. split; auto. exists (ket 0), 0. simpl. unfold op_exp, op_add, op_scl, op_one, ket. simpl. rewrite cos_PI, sin_PI.
  intros H. apply (f_equal Cre) in H. simpl in H. lra.
Qed.

(** identity tests *)
Lemma not_simplified : exists t, eval (EPow (EMul (EPauli (PP X0)) (ENum (NumR 1))) 2) = Ok (VTerm t) /\ same_op (term_op t) op_one /\ term_is_identity t = false.
Proof.
  exists (Term [X0; X0] C1). split.
  - cbn [eval bind v_mul]. unfold from_pauli. cbn [nval]. change (RtoC 1) with C1. rewrite Ceqb10. cbn [v_pow]. unfold term_pow. cbn [Z.ltb Z.eqb Z.compare]. cbv iota.
    cbn [rmap t_coeff t_ops]. do 3 f_equal. change (Z.to_nat 2) with 2. cbn [cpow]. ring.
  - split; auto. intros psi x. rewrite <- simplify_op, simplify_eq. change (simple_ops (t_ops (Term [X0; X0] C1))) with (@nil pop).
    unfold term_op, op_scl, simple_phase. simpl. unfold op_one. ring.
Qed.
Lemma zero_identity : expr_is_identity [] = true /\ ~ same_op (expr_op []) op_one.
Proof. split; auto. intros H. specialize (H (ket 0) 0). simpl in H. unfold op_one, ket in H. simpl in H. symmetry in H. apply C1_neq0 in H. auto. Qed.

(** ** Statements about whole functions *)
Lemma real_Reqb : forall r, Reqb r 0 = true <-> r = 0%R.
Proof. intros r. unfold Reqb. destruct (Req_EM_T r 0); split; intros; auto; try discriminate; congruence. Qed.
Lemma evolution_whole : forall t,
  ((Cim (t_coeff (simplify t)) <> 0)%R -> time_evolution t = Err ValueError) /\
  ((Cim (t_coeff (simplify t)) = 0)%R -> exists f, time_evolution t = Ok f /\ forall n s, fits n (t_ops (simplify t)) -> exists ops, circuit_ops n (f s) ops /\
    (t_ops (simplify t) = [] -> apply_all ops = op_one) /\
    (t_ops (simplify t) <> [] -> same_op (apply_all ops)
      (op_exp ((if Nat.even (ycount (t_ops (simplify t))) then 1 else -1) * Cre (t_coeff (simplify t)) * s) (word_op (t_ops (simplify t)))))).
Proof.
  intros t. unfold time_evolution. set (s := simplify t). split; intros H.
  - destruct (Reqb (Cim (t_coeff s)) 0) eqn:E; auto. apply real_Reqb in E. contradiction.
  - apply real_Reqb in H. rewrite H. eexists. split; [reflexivity|]. intros n tm F. destruct (t_ops s) as [|o w] eqn:W.
    + exists []. split; [constructor|]. split; [reflexivity|congruence].
    + destruct (evolution_ops n (o :: w) (Cre (t_coeff s)) tm) as [ops [A B]]; [discriminate|auto|rewrite <- W; apply canonical_NoDup, simplify_canonical|].
      exists ops. split; auto. split; [discriminate|]. intros _ psi x. rewrite B, exp_sign. f_equal. destruct (Nat.even _); f_equal; ring.
Qed.
Lemma canonical_unique : forall s t, t_coeff s <> C0 -> same_op (term_op s) (term_op t) -> simplify s = simplify t.
Proof. intros s t N S. apply term_eqb_true, term_eq_complete; auto. Qed.
Lemma expr_eq_operand : forall e v, match v with VNum _ => False | _ => True end ->
  (v_eq (VExpr e) v = Ok true <-> same_op (expr_op e) (val_op v)) /\ (v_eq (VExpr e) v = Ok true \/ v_eq (VExpr e) v = Ok false).
Proof.
  intros e [x|p|t|d] H; [contradiction| | |]; cbn [v_eq val_op].
  - split; [|destruct (expr_eqb _ _); auto]. assert (S : same_op (expr_op (pauli_expr p)) (val_op (VPauli p))) by (apply (v_expr_op (VPauli p))).
    transitivity (expr_eqb e (pauli_expr p) = true); [split; congruence|]. rewrite expr_eqb_iff. rewrite (op_eq _ _ S). reflexivity.
  - split; [|destruct (expr_eqb _ _); auto]. transitivity (expr_eqb e (from_term t) = true); [split; congruence|]. rewrite expr_eqb_iff.
    rewrite (op_eq _ _ (from_term_op t)). reflexivity.
  - split; [|destruct (expr_eqb _ _); auto]. transitivity (expr_eqb e d = true); [split; congruence|]. apply expr_eqb_iff.
Qed.
Lemma add_distinct : forall u v, distinct (v_expr u) -> same_op (val_op (v_add u v)) (op_add (val_op u) (val_op v)) /\
  same_op (val_op (v_sub u v)) (op_sub (val_op u) (val_op v)).
Proof. intros u v H. split; [apply v_add_op|apply v_sub_op]; auto. Qed.
Lemma eval_program : forall e, defined e -> tame e -> exists v, eval e = Ok v /\ same_op (val_op v) (meaning e).
Proof. intros e D T. destruct (eval_defined e D) as [v E]. exists v. split; auto. apply eval_sound; auto. Qed.
Lemma append_whole : forall t simp n, fits n (t_ops t) -> exists ops, circuit_ops n (append_gates t simp) ops /\
  same_op (term_op t) (op_scl (t_coeff (if simp then simplify t else t)) (apply_all ops)) /\
  Cnorm2 (t_coeff (if simp then simplify t else t)) = Cnorm2 (t_coeff t).
Proof.
  intros t simp n F. destruct (append_ops t simp n) as [ops [k [A [B E]]]].
  { unfold term_qubits. assert (G : forall (w : list pop) m, (forall o, In o w -> snd o < n) -> m <= n -> fold_left Nat.max (map (fun o => S (snd o)) w) m <= n).
    { induction w as [|o w IH]; intros m H L; simpl; auto. apply IH; [intros; apply H; right; auto|]. specialize (H o (or_introl eq_refl)). lia. }
    apply G; auto. lia. }
  exists ops. split; auto. split; [subst k; exact B|]. destruct simp; auto. rewrite simplify_eq. cbn [t_coeff]. apply simple_phase_norm.
Qed.

(** ** Cases *)
Lemma XY_simplified : simplify (term_mul (Term [X0] C1) (Term [Y0] C1)) = Term [Z0] Ci.
Proof. rewrite simplify_eq. unfold term_mul, simple_phase. cbn. f_equal. ring. Qed.
Definition ex_term : term := Term [(LX, 2); (LY, 0); (LZ, 2); (LX, 0)] (RtoC 3).
Lemma ex_term_simplified : simplify ex_term = Term [Z0; (LY, 2)] (RtoC (-3)).
Proof. rewrite simplify_eq. unfold ex_term, simple_phase. cbn. f_equal. ceq. Qed.
Lemma ex_evolution : exists f, time_evolution ex_term = Ok f /\ fits 3 (t_ops (simplify ex_term)) /\ t_ops (simplify ex_term) <> [].
Proof.
  destruct (proj2 (evolution_whole ex_term)) as [f [E _]]; [rewrite ex_term_simplified; reflexivity|]. exists f. split; auto. rewrite ex_term_simplified. split; [|discriminate].
  intros o [<-|[<-|[]]]; simpl; unfold Z0; simpl; lia.
Qed.
(** (2*X[0] - Z[1]/2)**2 * Y[0] *)
Definition ex_pexp : pexp :=
  EMul (EPow (ESub (EMul (ENum (NumR 2)) (EPauli (PP X0))) (EDiv (EPauli (PP Z1)) (NumR 2))) 2) (EPauli (PP Y0)).
Lemma ex_pexp_fine : defined ex_pexp /\ tame ex_pexp.
Proof.
  split; cbn.
  - repeat split; auto; try lia. exists 2%R. split; [reflexivity|lra].
  - repeat split; auto; try lia. unfold from_pauli. intros t H. exfalso. destruct (truthy _) in H; discriminate.
Qed.
Lemma ex_chars : term_from_chars "ZxI" = Ok (Term [(LX, 1); (LZ, 2)] C1) /\ term_from_chars "XA" = Err ValueError.
Proof. split; [|reflexivity]. cbn. unfold from_pauli. reflexivity. Qed.
Lemma ex_append : fits 3 [(LX, 2); (LY, 0); (LZ, 2)] /\ append_gates (Term [(LX, 2); (LY, 0)] C1) false = [GOne KY (TInt 0); GOne KX (TInt 2)].
Proof. split; [|reflexivity]. intros o [<-|[<-|[<-|[]]]]; simpl; lia. Qed.
(** two operators *)
Lemma eq_paulis : forall a b, (v_eq (VPauli (PP a)) (VPauli (PP b)) = Ok true <-> same_op (val_op (VPauli (PP a))) (val_op (VPauli (PP b)))) /\
  (v_eq (VPauli (PP a)) (VPauli (PP b)) = Ok true <-> exists k, v_hash (VPauli (PP a)) = Ok k /\ v_hash (VPauli (PP b)) = Ok k).
Proof.
  intros a b. assert (P : pop_eqb a b = true <-> a = b).
  { destruct a as [[] n], b as [[] m]; unfold pop_eqb; cbn [fst snd letter_eqb]; rewrite ?andb_true_r, ?andb_false_r, ?Nat.eqb_eq; split; intros H; try discriminate; try congruence. }
  assert (Q : forall b, v_eq (VPauli (PP a)) (VPauli (PP b)) = Ok (pop_eqb a b)) by reflexivity. rewrite Q. split.
  - split; [intros H; injection H as H; apply P in H as ->; intros psi x; reflexivity|]. intros H. f_equal. apply P.
    assert (Cn : forall o : pop, canonical (t_ops (Term [o] C1))) by (intros o; unfold canonical; cbn; repeat constructor).
    assert (X : simplify (Term [a] C1) = simplify (Term [b] C1)).
    { apply canonical_unique; [apply C1_neq0|]. intros psi x. specialize (H psi x). destruct a as [la na], b as [lb nb]. cbn [val_op] in H.
      unfold term_op, word_op, op_scl, op_mul, op_one. cbn [t_ops t_coeff fold_right]. cbn in *. rewrite H. reflexivity. }
    rewrite !simplify_id in X by apply Cn. congruence.
  - split; [intros H; injection H as H; apply P in H as ->; exists b; auto|]. intros [k [A B]]. cbn in A, B. f_equal. apply P. congruence.
Qed.
