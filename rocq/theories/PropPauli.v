(** Properties of Pauli operators, terms and expressions (blueqat/pauli.py).
    [val_op v] is the operator of a value on state vectors, [same_op]: two operators agree on all vectors, [v_mul] etc. are the
    operators of Python on values of any of the types. *)
From Coq Require Import List Arith ZArith Bool String Ascii Reals.
Import ListNotations.
From Verif Require Import Base Cplx Bits ModelTargets ModelGate SpecQuantum SpecCircuit ModelPauli SpecPauli ModelPauliMatrix SpecPauliMatrix
  ProofPauli ProofPauliTrace ProofPauliExpr ProofPauliArith ProofPauliComm ProofEvolution ProofPauliMatrix ProofPauliEx SpecPauliSum ProofPauliSum.
Local Open Scope nat_scope.

(** C31.  The product of two values is the product of their operators. *)
Theorem C31_product : forall u v, same_op (val_op (v_mul u v)) (op_mul (val_op u) (val_op v)).
Proof. exact v_mul_op. Qed.
Print Assumptions C31_product.
Theorem C31_terms : forall a b, v_mul (VTerm a) (VTerm b) = VTerm (term_mul a b) /\
  same_op (term_op (term_mul a b)) (op_mul (term_op a) (term_op b)).
Proof. exact (fun a b => conj eq_refl (term_mul_op a b)). Qed.
Print Assumptions C31_terms.
Example C31_case : simplify (term_mul (Term [(LX, 0)] C1) (Term [(LY, 0)] C1)) = Term [(LZ, 0)] Ci.
Proof. exact XY_simplified. Qed.

(** C32.  simplify() keeps the operator, leaves at most one factor on each qubit, in ascending order, and is idempotent; terms of the same
    operator get the same form. *)
Theorem C32_sound : forall t, same_op (term_op (simplify t)) (term_op t).
Proof. exact simplify_op. Qed.
Print Assumptions C32_sound.
Theorem C32_canonical : forall t, canonical (t_ops (simplify t)).
Proof. exact simplify_canonical. Qed.
Print Assumptions C32_canonical.
Theorem C32_idempotent : forall t, simplify (simplify t) = simplify t.
Proof. exact simplify_twice. Qed.
Print Assumptions C32_idempotent.
Theorem C32_unique : forall s t, t_coeff s <> C0 -> same_op (term_op s) (term_op t) -> simplify s = simplify t.
Proof. exact canonical_unique. Qed.
Print Assumptions C32_unique.
(** The same for Expr.simplify(); no term is left with coefficient 0, none occurs twice. *)
Theorem C32_expr : forall e, same_op (expr_op (expr_simplify e)) (expr_op e) /\ Forall (fun t => canonical (t_ops t)) (expr_simplify e) /\
  NoDup (map t_ops (expr_simplify e)) /\ (forall t, In t (expr_simplify e) -> t_coeff t <> C0) /\ expr_simplify (expr_simplify e) = expr_simplify e.
Proof. exact (fun e => conj (expr_simplify_op e) (conj (expr_simplify_canonical e) (conj (simplify_NoDup e) (conj (simplify_nonzero e) (simplify_simplify e))))). Qed.
Print Assumptions C32_expr.
Theorem C32_expr_unique : forall a b, same_op (expr_op a) (expr_op b) -> expr_simplify a = expr_simplify b.
Proof. exact simplify_unique. Qed.
Print Assumptions C32_expr_unique.
Example C32_case : simplify (Term [(LX, 2); (LY, 0); (LZ, 2); (LX, 0)] (RtoC 3)) = Term [(LZ, 0); (LY, 2)] (RtoC (-3)).
Proof. exact ex_term_simplified. Qed.

(** C33.  == of two expressions decides whether they are the same operator. *)
Theorem C33_decides : forall a b, expr_eqb a b = true <-> same_op (expr_op a) (expr_op b).
Proof. exact expr_eqb_iff. Qed.
Print Assumptions C33_decides.
(** An expression on the left, an operator or a term on the right *)
Theorem C33_operands : forall e v, match v with VNum _ => False | _ => True end ->
  (v_eq (VExpr e) v = Ok true <-> same_op (expr_op e) (val_op v)) /\ (v_eq (VExpr e) v = Ok true \/ v_eq (VExpr e) v = Ok false).
Proof. exact expr_eq_operand. Qed.
Print Assumptions C33_operands.
(** == of two terms *)
Theorem C33_terms : forall a b, (term_eqb a b = true -> same_op (term_op a) (term_op b)) /\
  (t_coeff a <> C0 -> same_op (term_op a) (term_op b) -> term_eqb a b = true).
Proof. exact (fun a b => conj (term_eqb_op a b) (term_eq_complete a b)). Qed.
Print Assumptions C33_terms.
(** X[i], Y[i] and Z[i]: == holds exactly for the same operators, and exactly if the same pair is hashed; numbers never equal operators. *)
Theorem C33_paulis : forall a b, (v_eq (VPauli (PP a)) (VPauli (PP b)) = Ok true <-> same_op (val_op (VPauli (PP a))) (val_op (VPauli (PP b)))) /\
  (v_eq (VPauli (PP a)) (VPauli (PP b)) = Ok true <-> exists k, v_hash (VPauli (PP a)) = Ok k /\ v_hash (VPauli (PP b)) = Ok k).
Proof. exact eq_paulis. Qed.
Print Assumptions C33_paulis.
Theorem C33_number : forall x v, match v with VNum _ => False | _ => True end -> v_eq (VNum x) v = Ok false /\ v_eq v (VNum x) = Ok false.
Proof. exact eq_number. Qed.
Print Assumptions C33_number.
(** I == X[0] is False, X[0] == I raises AttributeError; so does hash(I); terms and expressions cannot be hashed. *)
Theorem C33_identity_refuted : forall a, v_eq (VPauli PId) (VPauli (PP a)) = Ok false /\ v_eq (VPauli (PP a)) (VPauli PId) = Err AttributeError.
Proof. exact eq_identity. Qed.
Print Assumptions C33_identity_refuted.
Theorem C33_hash : v_hash (VPauli PId) = Err AttributeError /\ (forall t, v_hash (VTerm t) = Err TypeError) /\ (forall e, v_hash (VExpr e) = Err TypeError).
Proof. exact hashes. Qed.
Print Assumptions C33_hash.
(** With a term on the left of an expression, == is false for equal operators, and so it is with a number; terms that are zero may differ. *)
Theorem C33_mixed_refuted : exists t e, same_op (term_op t) (expr_op e) /\ v_eq (VTerm t) (VExpr e) = Ok false /\ v_eq (VExpr e) (VTerm t) = Ok true.
Proof. exact eq_mixed. Qed.
Print Assumptions C33_mixed_refuted.
Theorem C33_number_refuted : exists x t, same_op (op_scl (nval x) op_one) (term_op t) /\ v_eq (VTerm t) (VNum x) = Ok false.
Proof. exact eq_number_same. Qed.
Print Assumptions C33_number_refuted.
Theorem C33_zero_refuted : exists a b, same_op (term_op a) (term_op b) /\ term_eqb a b = false.
Proof. exact eq_zero_terms. Qed.
Print Assumptions C33_zero_refuted.

(** C34.  Products, negation, division and powers are those of operators. *)
Theorem C34_neg : forall u, same_op (val_op (v_neg u)) (op_neg (val_op u)).
Proof. exact v_neg_op. Qed.
Print Assumptions C34_neg.
Theorem C34_mul : forall u v, same_op (val_op (v_mul u v)) (op_mul (val_op u) (val_op v)).
Proof. exact v_mul_op. Qed.
Print Assumptions C34_mul.
Theorem C34_div : forall u x v, v_div u (VNum x) = Ok v -> same_op (val_op v) (op_scl (C1 / nval x)%C (val_op u)).
Proof. exact v_div_op. Qed.
Print Assumptions C34_div.
Theorem C34_pow : forall u n v, (0 <= n)%Z -> v_pow u n = Ok v -> same_op (val_op v) (op_pow (val_op u) (Z.to_nat n)).
Proof. exact v_pow_op. Qed.
Print Assumptions C34_pow.
(** Sums and differences too, if the left operand has no two terms with the same operators. *)
Theorem C34_add_partial : forall u v, distinct (v_expr u) -> same_op (val_op (v_add u v)) (op_add (val_op u) (val_op v)) /\
  same_op (val_op (v_sub u v)) (op_sub (val_op u) (val_op v)).
Proof. exact add_distinct. Qed.
Print Assumptions C34_add_partial.
(** In general the left operand is reduced to [k], those of its terms that are not zero and that no later term with the same operators
    replaces, before the right operand is added or subtracted. *)
Theorem C34_survivors : forall e, exists k, survivors e k /\ (forall l, survivors e l -> l = k).
Proof. exact survivors_exist. Qed.
Print Assumptions C34_survivors.
Theorem C34_add_exact : forall u v k, survivors (v_expr u) k ->
  same_op (val_op (v_add u v)) (op_add (expr_op k) (val_op v)) /\ same_op (val_op (v_sub u v)) (op_sub (expr_op k) (val_op v)).
Proof. exact sums_exact. Qed.
Print Assumptions C34_add_exact.
(** So a sum or a difference is right exactly if the terms that are lost add up to 0, whatever the right operand. *)
Theorem C34_add_right : forall u v k, survivors (v_expr u) k ->
  (same_op (val_op (v_add u v)) (op_add (val_op u) (val_op v)) <-> same_op (expr_op k) (val_op u)) /\
  (same_op (val_op (v_sub u v)) (op_sub (val_op u) (val_op v)) <-> same_op (expr_op k) (val_op u)).
Proof. exact sums_right. Qed.
Print Assumptions C34_add_right.
Example C34_add_case : survivors [Term [(LX, 0)] (RtoC 2); Term [(LX, 0)] C1; Term [(LZ, 1)] C0; Term [(LZ, 1)] C1]
  [Term [(LX, 0)] C1; Term [(LZ, 1)] C1].
Proof. exact ex_kept. Qed.
(** Every expression of Python built from operators and numbers means what it says, if it does not raise a term to a power in which
    neighbours cancel ([tame]); it raises no exception if divisors are real and not 0, exponents not negative and no operator itself is
    raised to a power ([defined]). *)
Theorem C34_program_partial : forall e, defined e -> tame e -> exists v, eval e = Ok v /\ same_op (val_op v) (meaning e).
Proof. exact eval_program. Qed.
Print Assumptions C34_program_partial.
(** Without this condition the statement is false: ((X[0]*1)**2 + 1) * X[0] + Z[1] loses a term. *)
Theorem C34_sum_refuted : exists e v, eval e = Ok v /\ defined e /\ ~ same_op (val_op v) (meaning e).
Proof. exact lost_term. Qed.
Print Assumptions C34_sum_refuted.
Theorem C34_power_refuted : forall p n, v_pow (VPauli p) n = Err TypeError.
Proof. exact (fun p n => eq_refl). Qed.
Print Assumptions C34_power_refuted.
(** (2*X[0] - Z[1]/2)**2 * Y[0] *)
Example C34_case : defined ex_pexp /\ tame ex_pexp.
Proof. exact ex_pexp_fine. Qed.

(** C35.  Terms commute exactly if they differ on an even number of shared qubits. *)
Theorem C35_commute : forall s t, t_coeff s <> C0 -> t_coeff t <> C0 ->
  (same_op (op_mul (term_op s) (term_op t)) (op_mul (term_op t) (term_op s)) <-> Nat.even (clashes (t_ops s) (t_ops t)) = true).
Proof. exact terms_commute. Qed.
Print Assumptions C35_commute.
(** is_commutable answers this if the product of the coefficients is not too small for eps. *)
Theorem C35_is_commutable_partial : forall s t eps, t_coeff s <> C0 -> t_coeff t <> C0 ->
  (is_commutable (from_term s) (from_term t) eps = true <->
   (if Nat.even (clashes (t_ops s) (t_ops t)) then 0 < eps else 4 * Cnorm2 (t_coeff s) * Cnorm2 (t_coeff t) < eps)%R).
Proof. exact term_is_commutable. Qed.
Print Assumptions C35_is_commutable_partial.
Theorem C35_small_refuted : exists a b, is_commutable (from_term a) (from_term b) default_eps = true /\
  ~ same_op (op_mul (term_op a) (term_op b)) (op_mul (term_op b) (term_op a)).
Proof. exact small_commute. Qed.
Print Assumptions C35_small_refuted.
(** The commutator of expressions; is_commutable sums the squares of its coefficients. *)
Theorem C35_commutator : forall a b, same_op (expr_op (commutator a b)) (op_sub (op_mul (expr_op a) (expr_op b)) (op_mul (expr_op b) (expr_op a))).
Proof. exact commutator_op. Qed.
Print Assumptions C35_commutator.
Theorem C35_exprs : forall a b, (forall eps, (0 < eps)%R -> is_commutable a b eps = true) <->
  same_op (op_mul (expr_op a) (expr_op b)) (op_mul (expr_op b) (expr_op a)).
Proof. exact is_commutable_all. Qed.
Print Assumptions C35_exprs.
Theorem C35_size : forall a b eps, is_commutable a b eps = true <-> (size (commutator a b) < eps)%R.
Proof. exact is_commutable_size. Qed.
Print Assumptions C35_size.
Theorem C35_all_terms : forall e, is_all_terms_commutable e = true <->
  ForallOrdPairs (fun s t => is_commutable (from_term s) (from_term t) default_eps = true) e.
Proof. exact all_terms_commutable. Qed.
Print Assumptions C35_all_terms.
Example C35_case : Nat.even (clashes [(LX, 0); (LY, 1); (LZ, 3)] [(LY, 0); (LX, 1); (LZ, 2)]) = true /\ Nat.even (clashes [(LX, 0); (LY, 1)] [(LY, 0); (LY, 1)]) = false.
Proof. exact (conj eq_refl eq_refl). Qed.

(** C36.  to_matrix(n) of a term, in every layout, is the matrix of its operator on [n] qubits, if these hold the qubits of the term. *)
Theorem C36_term : forall t n sp, term_qubits t <= n -> exists m, term_matrix t (Some n) sp = Ok (sp, m) /\ matrix_of n (term_op t) m.
Proof. exact term_matrix_qubits. Qed.
Print Assumptions C36_term.
Theorem C36_term_default : forall t sp, exists m, term_matrix t None sp = Ok (sp, m) /\ matrix_of (term_qubits t) (term_op t) m.
Proof. exact term_matrix_default. Qed.
Print Assumptions C36_term_default.
(** Only the qubits of the simplified term matter; too small an [n] raises IndexError. *)
Theorem C36_term_simplified : forall t n sp, 0 < n ->
  (fits n (t_ops (simplify t)) -> exists m, term_matrix t (Some n) sp = Ok (sp, m) /\ matrix_of n (term_op t) m) /\
  (~ fits n (t_ops (simplify t)) -> term_matrix t (Some n) sp = Err IndexError).
Proof. exact (fun t n sp P => conj (term_matrix_ok t n sp P) (term_matrix_err t n sp P)). Qed.
Print Assumptions C36_term_simplified.
(** An expression, unless it is the zero operator on at least one qubit *)
Theorem C36_expr_partial : forall e n sp, expr_qubits e <= n -> n = 0 \/ expr_simplify e <> [] ->
  exists m, expr_matrix e (Some n) sp = Ok (sp, m) /\ matrix_of n (expr_op e) m.
Proof. exact expr_matrix_qubits. Qed.
Print Assumptions C36_expr_partial.
Theorem C36_expr_default_partial : forall e sp, expr_qubits e = 0 \/ expr_simplify e <> [] ->
  exists m, expr_matrix e None sp = Ok (sp, m) /\ matrix_of (expr_qubits e) (expr_op e) m.
Proof. exact expr_matrix_default. Qed.
Print Assumptions C36_expr_default_partial.
(** That one raises ZeroDivisionError. *)
Theorem C36_zero_refuted : forall e n sp, 0 < n -> expr_simplify e = [] -> expr_matrix e (Some n) sp = Err ZeroDivisionError.
Proof. exact expr_matrix_zero. Qed.
Print Assumptions C36_zero_refuted.
Example C36_case : term_qubits (Term [(LX, 2); (LY, 0); (LZ, 2)] (RtoC 3)) = 3 /\ expr_simplify [] = [].
Proof. exact (conj eq_refl eq_refl). Qed.

(** C37.  term_from_chars builds the product of its characters, the last one on qubit 0, and raises ValueError for other characters. *)
Theorem C37_chars : forall s, match term_from_chars s, string_op s with
  | Ok t, Some U => same_op (term_op t) U | Err e, None => e = ValueError | _, _ => False end.
Proof. exact term_chars. Qed.
Print Assumptions C37_chars.
Example C37_case : term_from_chars "ZxI" = Ok (Term [(LX, 1); (LZ, 2)] C1) /\ term_from_chars "XA" = Err ValueError.
Proof. exact ex_chars. Qed.

(** C38.  append_to_circuit adds gates that apply the operator up to the coefficient (with simplify: up to that of the simplified term, which
    differs from it by a phase). *)
Theorem C38_append : forall t simp n, fits n (t_ops t) -> exists ops, circuit_ops n (append_gates t simp) ops /\
  same_op (term_op t) (op_scl (t_coeff (if simp then simplify t else t)) (apply_all ops)) /\
  Cnorm2 (t_coeff (if simp then simplify t else t)) = Cnorm2 (t_coeff t).
Proof. exact append_whole. Qed.
Print Assumptions C38_append.
Example C38_case : fits 3 [(LX, 2); (LY, 0); (LZ, 2)] /\
  append_gates (Term [(LX, 2); (LY, 0)] C1) false = [GOne KY (TInt 0); GOne KX (TInt 2)].
Proof. exact ex_append. Qed.

(** C39.  The circuit of get_time_evolution applies exp(i c t P) if P has an even number of factors Y, and exp(-i c t P) otherwise; for the
    identity it has no gates; ValueError is raised exactly for coefficients that are not real. *)
Theorem C39_evolution_partial : forall t,
  ((Cim (t_coeff (simplify t)) <> 0)%R -> time_evolution t = Err ValueError) /\
  ((Cim (t_coeff (simplify t)) = 0)%R -> exists f, time_evolution t = Ok f /\ forall n s, fits n (t_ops (simplify t)) -> exists ops, circuit_ops n (f s) ops /\
    (t_ops (simplify t) = [] -> apply_all ops = op_one) /\
    (t_ops (simplify t) <> [] -> same_op (apply_all ops)
      (op_exp ((if Nat.even (ycount (t_ops (simplify t))) then 1 else -1) * Cre (t_coeff (simplify t)) * s) (word_op (t_ops (simplify t)))))).
Proof. exact evolution_whole. Qed.
Print Assumptions C39_evolution_partial.
(** So there is not one sign for all strings: Y[0] at time pi/2 *)
Theorem C39_sign_refuted : exists t f s n ops, t_coeff t = C1 /\ term_qubits t <= n /\ time_evolution t = Ok f /\ circuit_ops n (f s) ops /\ t_ops t = [(LY, 0)] /\
  exists psi x, apply_all ops psi x <> op_exp s (word_op (t_ops t)) psi x.
Proof. exact Y_evolution. Qed.
Print Assumptions C39_sign_refuted.
Theorem C39_identity_refuted : exists t f s n ops, t_coeff t = C1 /\ time_evolution t = Ok f /\ circuit_ops n (f s) ops /\ t_ops t = [] /\
  exists psi x, apply_all ops psi x <> op_exp s (word_op (t_ops t)) psi x.
Proof. exact identity_evolution. Qed.
Print Assumptions C39_identity_refuted.
Example C39_case : exists f, time_evolution ex_term = Ok f /\ fits 3 (t_ops (simplify ex_term)) /\ t_ops (simplify ex_term) <> [].
Proof. exact ex_evolution. Qed.

(** C40.  Term.is_identity is right about simplified terms, Expr.is_identity about simplified expressions other than 0. *)
Theorem C40_term_sound : forall t, term_is_identity t = true -> multiple_of_one (term_op t).
Proof. exact term_identity_sound. Qed.
Print Assumptions C40_term_sound.
Theorem C40_term_partial : forall t, t_coeff t <> C0 -> (term_is_identity (simplify t) = true <-> multiple_of_one (term_op t)).
Proof. exact term_identity_simplified. Qed.
Print Assumptions C40_term_partial.
Theorem C40_expr_sound : forall e, e <> [] -> expr_is_identity e = true -> same_op (expr_op e) op_one.
Proof. exact expr_identity_sound. Qed.
Print Assumptions C40_expr_sound.
Theorem C40_expr_partial : forall e, (expr_is_identity (expr_simplify e) = true <-> same_op (expr_op e) op_one \/ same_op (expr_op e) (fun _ _ => C0)).
Proof. exact expr_identity_simplified. Qed.
Print Assumptions C40_expr_partial.
(** (X[0]*1)**2 is the identity, but its is_identity is False; the zero expression is not, but its is_identity is True. *)
Theorem C40_term_refuted : exists t, eval (EPow (EMul (EPauli (PP (LX, 0))) (ENum (NumR 1))) 2) = Ok (VTerm t) /\
  same_op (term_op t) op_one /\ term_is_identity t = false.
Proof. exact not_simplified. Qed.
Print Assumptions C40_term_refuted.
Theorem C40_zero_refuted : expr_is_identity [] = true /\ ~ same_op (expr_op []) op_one.
Proof. exact zero_identity. Qed.
Print Assumptions C40_zero_refuted.
