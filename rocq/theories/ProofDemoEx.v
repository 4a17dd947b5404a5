(** Proofs about the Hamiltonians of the programs in /repo/examples. *)
From Coq Require Import String List Arith ZArith Bool Reals Lra Lia FunctionalExtensionality.
Import ListNotations.
From Verif Require Import Base Cplx Bits ModelTargets ModelGate ModelNumpy ModelCircuit ModelPauli ModelPauliMatrix ModelVqe ModelVqeLoop ModelDemo SpecTargets SpecQuantum SpecCircuit
  SpecMeasure SpecRun SpecAPI SpecPauli SpecPauliMatrix SpecVqe SpecVqeLoop SpecWq SpecDemo ProofPauli ProofPauliTrace ProofPauliExpr ProofPauliArith ProofWq ProofDemo.
Local Open Scope R_scope.

Lemma v_expr_same : forall v d, val_op v = diag_op d -> same_op (expr_op (v_expr v)) (diag_op d).
Proof. intros v d H psi x. rewrite v_expr_op, H. reflexivity. Qed.
Lemma from_term_distinct : forall t, distinct (from_term t).
Proof. intros t. unfold distinct, from_term. destruct (truthy (t_coeff t)) eqn:E; cbn [filter map]; [|constructor]. rewrite E. cbn [map]. constructor; [intros []|constructor]. Qed.
Lemma pauli_z : forall q, val_op (VPauli (PP (LZ, q))) = diag_op (fun x => spin x q).
Proof. intros q. apply z_op. Qed.
Lemma spin_square : forall x q, spin x q * spin x q = 1.
Proof. intros x q. unfold spin. destruct (bit x q); lra. Qed.

(** ** Cuts *)
Lemma maxcut_loop : forall edges h d, distinct (v_expr h) -> val_op h = diag_op d ->
  val_op (fold_left (fun h e => v_add h (v_mul (VPauli (PP (LZ, fst e))) (VPauli (PP (LZ, snd e))))) edges h) = diag_op (fun x => d x + Rsum (fun e => spin x (fst e) * spin x (snd e)) edges).
Proof.
  induction edges as [|e edges IH]; intros h d D V; cbn [fold_left].
  - rewrite V. f_equal. apply functional_extensionality. intros x. cbn. lra.
  - rewrite (IH _ (fun x => d x + spin x (fst e) * spin x (snd e)) (v_add_distinct _ _)).
    + f_equal. apply functional_extensionality. intros x. cbn [Rsum]. lra.
    + rewrite (op_eq _ _ (v_add_op _ _ D)), V, (op_eq _ _ (v_mul_op _ _)), !pauli_z, diag_mul, diag_add. reflexivity.
Qed.
Lemma spins_cut : forall edges x, Rsum (fun e => spin x (fst e) * spin x (snd e)) edges = cut_cost edges x.
Proof.
  intros edges x. unfold cut_cost, cut. induction edges as [|e edges IH]; cbn [Rsum filter List.length]; [cbn; lra|]. rewrite S_INR. unfold is_cut at 1. unfold spin at 1 2.
  destruct (bit x (fst e)), (bit x (snd e)); cbn [xorb List.length]; rewrite ?S_INR; lra.
Qed.
Lemma maxcut_cost : forall edges, same_op (val_op (maxcut_hamiltonian edges)) (diag_op (cut_cost edges)).
Proof.
  intros edges psi x. unfold maxcut_hamiltonian. rewrite (maxcut_loop edges _ (fun _ => 0)).
  - unfold diag_op. cbv beta. rewrite spins_cut, Rplus_0_l. reflexivity.
  - cbn [v_mul v_expr]. apply from_term_distinct.
  - apply op_eq. intros phi y. rewrite v_mul_op. unfold op_mul, diag_op. cbn [val_op nval]. unfold op_one, op_scl. ceq; ring.
Qed.
Lemma lowest_cut : forall edges x, lowest (cut_cost edges) x <-> maximum_cut edges x.
Proof.
  intros edges x. unfold lowest, maximum_cut, cut_cost. split; intros H y; specialize (H y).
  - apply INR_le. lra.
  - apply le_INR in H. lra.
Qed.
Lemma cut_flip : forall edges q, cut edges 0 = 0%nat /\ cut edges (flip 0 q) = List.length (filter (fun e => xorb (fst e =? q)%nat (snd e =? q)%nat) edges).
Proof.
  intros edges q. unfold cut. split.
  - induction edges as [|e edges IH]; auto. cbn [filter]. unfold is_cut at 1. rewrite !Nat.bits_0. auto.
  - f_equal. apply filter_ext. intros e. unfold is_cut. rewrite !testbit_flip, !Nat.bits_0, !(Nat.eqb_sym q). destruct (fst e =? q)%nat, (snd e =? q)%nat; auto.
Qed.
Lemma cut_bits : forall edges n, of_bits n (cut_cost edges) <-> joined edges n.
Proof.
  intros edges n. split.
  - intros O. apply Forall_forall. intros e I N.
    assert (G : forall q, (n <= q)%nat -> (fst e = q \/ snd e = q) -> False).
    { intros q Q H. pose proof (O 0%nat q Q) as X. unfold cut_cost in X. destruct (cut_flip edges q) as [C0' C1']. rewrite C0', C1' in X. cbn [INR] in X.
      assert (L : List.length (filter (fun e => xorb (fst e =? q)%nat (snd e =? q)%nat) edges) = 0%nat) by (apply INR_eq; cbn [INR]; lra).
      apply length_zero_iff_nil in L. assert (J : In e (filter (fun e => xorb (fst e =? q)%nat (snd e =? q)%nat) edges)).
      { apply filter_In. split; auto. destruct (Nat.eqb_spec (fst e) q), (Nat.eqb_spec (snd e) q); auto; exfalso; [congruence|tauto]. }
      rewrite L in J. destruct J. }
    split; [destruct (le_lt_dec n (fst e)) as [Q|]; auto; exfalso; apply (G (fst e)); auto|destruct (le_lt_dec n (snd e)) as [Q|]; auto; exfalso; apply (G (snd e)); auto].
  - intros F x q Q. unfold cut_cost, cut. do 3 f_equal. f_equal. apply filter_ext_in. intros e I. unfold joined in F. rewrite Forall_forall in F. specialize (F e I). unfold is_cut. rewrite !testbit_flip.
    destruct (Nat.eq_dec (fst e) (snd e)) as [E|N].
    + rewrite E. destruct (q =? snd e)%nat; auto. rewrite !xorb_nilpotent. auto.
    + destruct (F N) as [F1 F2]. destruct (Nat.eqb_spec q (fst e)); [lia|]. destruct (Nat.eqb_spec q (snd e)); [lia|]. auto.
Qed.

(** ** Partitions *)
Lemma partition_loop : forall l h d, distinct (v_expr h) -> val_op h = diag_op d ->
  let h' := fold_left (fun h ix => v_add h (v_mul (VPauli (PP (LZ, fst ix))) (VNum (NumR (snd ix))))) l h in
  val_op h' = diag_op (fun x => d x + Rsum (fun ix : nat * R => spin x (fst ix) * snd ix) l).
Proof.
  induction l as [|ix l IH]; intros h d D V; cbv zeta; cbn [fold_left].
  - rewrite V. f_equal. apply functional_extensionality. intros x. cbn. lra.
  - cbv zeta in IH. rewrite (IH _ (fun x => d x + spin x (fst ix) * snd ix) (v_add_distinct _ _)).
    + f_equal. apply functional_extensionality. intros x. cbn [Rsum]. lra.
    + rewrite (op_eq _ _ (v_add_op _ _ D)), V, (op_eq _ _ (v_mul_op _ _)), pauli_z, num_diag, diag_mul, diag_add. reflexivity.
Qed.
Definition spin_sum (nums : list R) (x : nat) : R := Rsum (fun i => spin x i * nth i nums 0) (seq 0 (List.length nums)).
Lemma combine_sum : forall (f : nat -> R -> R) nums a, Rsum (fun ix : nat * R => f (fst ix) (snd ix)) (combine (seq a (List.length nums)) nums) = Rsum (fun i => f i (nth (i - a) nums 0)) (seq a (List.length nums)).
Proof.
  intros f. induction nums as [|y nums IH]; intros a; [reflexivity|]. cbn [List.length seq combine Rsum fst snd]. rewrite IH, Nat.sub_diag. cbn [nth]. f_equal. apply Rsum_ext. intros i I. apply in_seq in I.
  replace (i - a)%nat with (S (i - S a)) by lia. reflexivity.
Qed.
Lemma sum_sides : forall nums x, spin_sum nums x = side nums x false - side nums x true.
Proof.
  intros nums x. unfold spin_sum, side. rewrite <- Bits.Rsum_sub. apply Rsum_ext. intros i _. unfold spin. destruct (bit x i); cbn [Bool.eqb]; lra.
Qed.
Lemma fold_expr : forall l e, exists e', fold_left (fun h (ix : nat * R) => v_add h (v_mul (VPauli (PP (LZ, fst ix))) (VNum (NumR (snd ix))))) l (VExpr e) = VExpr e'.
Proof. induction l as [|ix l IH]; intros e; cbn [fold_left]; [exists e; auto|]. cbn [v_mul v_add]. apply IH. Qed.
Lemma partition_cost_ok : forall nums, exists e, partition_hamiltonian nums = Ok (VExpr e) /\ same_op (expr_op e) (diag_op (partition_cost nums)).
Proof.
  intros nums. unfold partition_hamiltonian. destruct (fold_expr (combine (seq 0 (List.length nums)) nums) []) as [e E]. unfold partition_sum. rewrite E.
  pose proof (partition_loop (combine (seq 0 (List.length nums)) nums) (VExpr []) (fun _ => 0)) as L. cbv zeta in L. rewrite E in L.
  assert (V : val_op (VExpr e) = diag_op (spin_sum nums)).
  { rewrite L; [|constructor|].
    - f_equal. apply functional_extensionality. intros x. rewrite Rplus_0_l. rewrite (combine_sum (fun i y => spin x i * y)). unfold spin_sum. apply Rsum_ext. intros i _. rewrite Nat.sub_0_r. auto.
    - apply op_eq. intros psi x. cbn. unfold diag_op. ceq; ring. }
  cbn [v_pow expr_pow]. unfold expr_pow. change (2 <? 0)%Z with false. change (2 =? 0)%Z with false. cbn [rmap bind v_expr]. change (Z.to_nat 2 - 1)%nat with 1%nat. cbn [Nat.iter nat_rect].
  exists (expr_simplify (expr_mul e e)). split; [reflexivity|]. intros psi x. rewrite expr_simplify_op. pose proof (v_mul_op (VExpr e) (VExpr e) psi x) as M. cbn [v_mul val_op] in M, V. rewrite M, V, diag_mul.
  unfold diag_op, partition_cost. rewrite <- sum_sides. do 2 f_equal. ring.
Qed.
Lemma spin_flip : forall x q i, spin (flip x q) i = if (q =? i)%nat then - spin x i else spin x i.
Proof. intros x q i. unfold spin. rewrite testbit_flip. destruct (q =? i)%nat, (bit x i); cbn [negb]; lra. Qed.
Lemma spin_sum_flip : forall nums x q, spin_sum nums (flip x q) = spin_sum nums x - 2 * spin x q * nth q nums 0.
Proof.
  intros nums x q. unfold spin_sum. destruct (le_lt_dec (List.length nums) q) as [L|L].
  - rewrite (nth_overflow nums) by auto. rewrite Rmult_0_r, Rminus_0_r. apply Rsum_ext. intros i I. apply in_seq in I. rewrite spin_flip. destruct (Nat.eqb_spec q i); [lia|auto].
  - replace (2 * spin x q * nth q nums 0) with (Rsum (fun i => if (q =? i)%nat then 2 * spin x i * nth i nums 0 else 0) (seq 0 (List.length nums))).
    + rewrite <- Bits.Rsum_sub. apply Rsum_ext. intros i _. rewrite spin_flip. destruct (q =? i)%nat; lra.
    + rewrite (ProofVqeRun.Rsum_one _ _ _ q); [rewrite Nat.eqb_refl; auto|apply seq_NoDup|apply in_seq; lia|]. intros i _ N. destruct (Nat.eqb_spec q i); [congruence|auto].
Qed.
Lemma partition_bits : forall nums n, of_bits n (partition_cost nums) <-> forall i, (n <= i)%nat -> idle nums i.
Proof.
  intros nums n. split.
  - intros O i L. destruct (Req_dec (nth i nums 0) 0) as [Z|Z]; [left; auto|]. right.
    assert (H : forall x, spin_sum nums x = spin x i * nth i nums 0).
    { intros x. pose proof (O x i L) as X. unfold partition_cost in X. rewrite <- !sum_sides, spin_sum_flip in X. pose proof (spin_square x i) as S2. 
      set (a := spin_sum nums x) in *. set (s := spin x i) in *. set (y := nth i nums 0) in *.
      assert (P : (s * y) * (a - s * y) = 0) by nra. apply Rmult_integral in P. destruct P as [P|P]; [|lra]. exfalso. apply Rmult_integral in P. destruct P as [P|P]; [rewrite P in S2; lra|contradiction]. }
    intros j N. pose proof (H (flip 0%nat j)) as H1. rewrite spin_sum_flip, H, spin_flip in H1. destruct (Nat.eqb_spec j i); [contradiction|].
    unfold spin in H1. rewrite !Nat.bits_0 in H1. lra.
  - intros A x q L. unfold partition_cost. rewrite <- !sum_sides, spin_sum_flip. destruct (A q L) as [Z|Z]; [rewrite Z; ring|].
    assert (E : spin_sum nums x = spin x q * nth q nums 0).
    { unfold spin_sum. destruct (le_lt_dec (List.length nums) q) as [G|G].
      - rewrite (nth_overflow nums) by auto. rewrite Rmult_0_r. apply Rsum_zero. intros i I. apply in_seq in I. rewrite Z by lia. ring.
      - rewrite (ProofVqeRun.Rsum_one _ _ _ q); [auto|apply seq_NoDup|apply in_seq; lia|]. intros i _ N. rewrite Z by auto. ring. }
    rewrite E. ring.
Qed.
(** the groups of the measured bits *)
Lemma group_sum : forall nums o b, Forall is_bit o -> (List.length o <= List.length nums)%nat ->
  Rsum (fun y => y) (map fst (filter (fun ab : R * nat => (snd ab =? b)%nat) (combine nums o))) = Rsum (fun i => if (nth i o 0 =? b)%nat then nth i nums 0 else 0) (seq 0 (List.length o)).
Proof.
  intros nums o b F. revert nums. induction F as [|c o B F IH]; intros nums L; [destruct nums; reflexivity|]. destruct nums as [|y nums]; cbn [List.length] in L; [lia|].
  rewrite Rsum_map. cbn [combine filter snd List.length seq Rsum nth]. rewrite <- seq_shift, Rsum_map. cbv beta. cbn [nth]. specialize (IH nums ltac:(lia)). rewrite Rsum_map in IH.
  destruct (c =? b)%nat; cbn [Rsum fst]; rewrite IH; [reflexivity|rewrite Rplus_0_l; reflexivity].
Qed.
Lemma side_cut : forall nums o b, Forall is_bit o -> (List.length o <= List.length nums)%nat -> 
  side nums (number o) b = Rsum (fun i => if Bool.eqb (nth i o 0 =? 1)%nat b then nth i nums 0 else 0) (seq 0 (List.length o)) +
    (if b then 0 else Rsum (fun i => nth i nums 0) (seq (List.length o) (List.length nums - List.length o))).
Proof.
  intros nums o b F L. unfold side. replace (List.length nums) with (List.length o + (List.length nums - List.length o))%nat at 1 by lia. rewrite seq_app, Bits.Rsum_app. cbn [Nat.add]. f_equal.
  - apply Rsum_ext. intros i _. rewrite number_bit by auto. reflexivity.
  - assert (A : forall i, In i (seq (List.length o) (List.length nums - List.length o)) -> bit (number o) i = false).
    { intros i I. apply in_seq in I. rewrite number_bit by auto. rewrite nth_overflow by lia. reflexivity. }
    destruct b; [apply Rsum_zero|apply Rsum_ext]; intros i I; rewrite (A i I); reflexivity.
Qed.
Lemma groups_side : forall nums o, Forall is_bit o -> (List.length o <= List.length nums)%nat -> 
  Rsum (fun y => y) (snd (groups nums o)) = side nums (number o) true /\
  Rsum (fun y => y) (fst (groups nums o)) + Rsum (fun i => nth i nums 0) (seq (List.length o) (List.length nums - List.length o)) = side nums (number o) false.
Proof.
  intros nums o F L. unfold groups. cbn [fst snd]. rewrite !group_sum, !side_cut by auto. 
  assert (A : forall i, is_bit (nth i o 0%nat)).
  { intros i. destruct (le_lt_dec (List.length o) i) as [G|G]; [rewrite nth_overflow by auto; left; auto|]. rewrite Forall_forall in F. apply F, nth_In, G. }
  split; [rewrite Rplus_0_r|f_equal]; apply Rsum_ext; intros i _; destruct (A i) as [E|E]; rewrite E; reflexivity.
Qed.
Lemma groups_equal : forall nums o, Forall is_bit o -> (List.length o <= List.length nums)%nat -> (forall i, (List.length o <= i)%nat -> idle nums i) -> partition_cost nums (number o) = 0 ->
  Rsum (fun y => y) (fst (groups nums o)) = Rsum (fun y => y) (snd (groups nums o)).
Proof.
  intros nums o F L I C. destruct (groups_side nums o F L) as [G1 G0]. rewrite G1.
  assert (S : side nums (number o) false - side nums (number o) true = 0) by (unfold partition_cost in C; nra).
  assert (A : forall i, (List.length o <= i)%nat -> nth i nums 0 = 0).
  { intros i Li. destruct (I i Li) as [Z|Z]; auto. destruct (Req_dec (nth i nums 0) 0) as [Y|Y]; auto. exfalso. apply Y.
    rewrite <- sum_sides in S. unfold spin_sum in S. rewrite (ProofVqeRun.Rsum_one _ _ _ i) in S.
    - unfold spin in S. destruct (bit (number o) i); lra.
    - apply seq_NoDup.
    - apply in_seq. destruct (le_lt_dec (List.length nums) i) as [G|G]; [|lia]. exfalso. apply Y, nth_overflow, G.
    - intros j _ N. rewrite Z by auto. ring. }
  assert (Z : Rsum (fun i => nth i nums 0) (seq (List.length o) (List.length nums - List.length o)) = 0) by (apply Rsum_zero; intros i Ii; apply in_seq in Ii; apply A; lia). lra.
Qed.

(** ** Factors *)
Lemma nbit_loop_ok : forall fuel m n, (1 <= m)%nat -> (n <= fuel + m)%nat -> (forall k, (1 <= k)%nat -> (k < m)%nat -> (2 ^ k < n)%nat) -> exists r, nbit_loop fuel m n = Ok r /\ bits_for n r.
Proof.
  induction fuel as [|fuel IH]; intros m n M L A; cbn [nbit_loop]; destruct (Nat.ltb_spec (2 ^ m) n) as [G|G].
  - exfalso. pose proof (Nat.pow_gt_lin_r 2 m ltac:(lia)). lia.
  - exists m. split; auto. split; [auto|split; [auto|]]. intros k K Kn. destruct (le_lt_dec m k); auto. pose proof (A k K ltac:(auto)). lia.
  - apply IH; [lia|lia|]. intros k K Kn. destruct (Nat.eq_dec k m) as [->|]; auto. apply A; auto. lia.
  - exists m. split; auto. split; [auto|split; [auto|]]. intros k K Kn. destruct (le_lt_dec m k); auto. pose proof (A k K ltac:(auto)). lia.
Qed.
Lemma get_nbit_ok : forall n, exists m, get_nbit n = Ok m /\ bits_for n m.
Proof. intros n. unfold get_nbit. apply nbit_loop_ok; lia. Qed.
Lemma odd_part_next : forall x a n, INR (odd_part x a (S n)) = INR (odd_part x a n) + 2 ^ (n + 1) * bit_value x (n + a).
Proof.
  intros x a n. unfold odd_part. rewrite (Nat.pow_succ_r' 2 n), (Nat.mul_comm 2 (2 ^ n)), Nat.mod_mul_r by (try apply Nat.pow_nonzero; lia). rewrite Nat.div_div by (apply Nat.pow_nonzero; lia). rewrite <- Nat.pow_add_r.
  rewrite <- Nat.testbit_spec', (Nat.add_comm a n). rewrite !plus_INR, !mult_INR, plus_INR, mult_INR, pow_INR, pow_add. unfold bit_value. change (INR 2) with 2. destruct (Nat.testbit x (n + a)); cbn [Nat.b2n INR]; ring.
Qed.
Lemma mk_expr_ok : forall off n, distinct (v_expr (mk_expr off n)) /\ val_op (mk_expr off n) = diag_op (fun x => INR (odd_part x off n)).
Proof.
  intros off n. unfold mk_expr. induction n as [|n IH].
  - cbn [seq fold_left]. split; [apply (num_distinct (NumR 1))|]. apply op_eq. intros psi x. unfold diag_op, odd_part. cbn [Nat.pow]. rewrite Nat.mod_1_r. cbn [val_op]. rewrite from_number_op. unfold op_scl, op_one. change (INR (1 + 2 * 0)) with 1. reflexivity.
  - rewrite seq_S, fold_left_app. cbn [fold_left Nat.add]. split; [apply v_add_distinct|]. destruct IH as [D V].
    rewrite (op_eq _ _ (v_add_op _ _ D)), V, (op_eq _ _ (v_mul_op _ _)), num_diag, (op_eq _ _ (qubo_bit_op _)), diag_mul, diag_add. f_equal. apply functional_extensionality. intros x. rewrite odd_part_next. reflexivity.
Qed.
Lemma expr_square : forall e d, val_op (VExpr e) = diag_op d -> exists e', v_pow (VExpr e) 2 = Ok (VExpr e') /\ same_op (expr_op e') (diag_op (fun x => d x ^ 2)).
Proof.
  intros e d V. cbn [v_pow expr_pow]. unfold expr_pow. change (2 <? 0)%Z with false. change (2 =? 0)%Z with false. cbn [rmap bind v_expr]. change (Z.to_nat 2 - 1)%nat with 1%nat. cbn [Nat.iter nat_rect].
  exists (expr_mul e e). split; [reflexivity|]. intros psi x. pose proof (v_mul_op (VExpr e) (VExpr e) psi x) as M. cbn [v_mul val_op] in M, V. rewrite M, V, diag_mul.
  unfold diag_op. do 2 f_equal. ring.
Qed.
Lemma mk_expr_expr : forall off n, exists e, mk_expr off n = VExpr e.
Proof.
  intros off n. unfold mk_expr. generalize (from_number C1). generalize (seq 0 n). induction l as [|i l IH]; intros e; cbn [fold_left]; [exists e; auto|]. cbn [v_mul v_add]. apply IH.
Qed.
Lemma factoring_cost : forall num n1 n2, exists e, factoring_hamiltonian num n1 n2 = Ok (VExpr e) /\ same_op (expr_op e) (diag_op (factor_cost num n1 n2)).
Proof.
  intros num n1 n2. unfold factoring_hamiltonian. destruct (mk_expr_ok 0 n1) as [_ V1]. destruct (mk_expr_ok n1 n2) as [_ V2]. destruct (mk_expr_expr 0 n1) as [e1 E1]. destruct (mk_expr_expr n1 n2) as [e2 E2].
  pose proof (op_eq _ _ (v_sub_op (VNum (NumR (INR num))) (v_mul (mk_expr 0 n1) (mk_expr n1 n2)) (num_distinct _))) as S. rewrite (op_eq _ _ (v_mul_op _ _)), V1, V2, num_diag, diag_mul in S.
  rewrite E1, E2 in *. cbn [v_mul v_sub] in S |- *. apply expr_square. rewrite S. apply op_eq. intros psi x. unfold op_sub, diag_op. ceq; ring.
Qed.
Lemma odd_part_flip : forall x q a n, (a + n <= q)%nat -> odd_part (flip x q) a n = odd_part x a n.
Proof.
  intros x q a n L. unfold odd_part. rewrite <- !number_readout. do 3 f_equal. unfold readout. apply map_ext_in. intros i I. apply in_seq in I. rewrite testbit_flip. destruct (Nat.eqb_spec q i); [lia|auto].
Qed.
Lemma odd_part_at : forall p q n1 n2, (p < 2 ^ n1)%nat -> (q < 2 ^ n2)%nat -> odd_part (p + 2 ^ n1 * q) 0 n1 = (1 + 2 * p)%nat /\ odd_part (p + 2 ^ n1 * q) n1 n2 = (1 + 2 * q)%nat.
Proof.
  intros p q n1 n2 P Q. pose proof (Nat.pow_nonzero 2 n1 ltac:(lia)) as Z. unfold odd_part. cbn [Nat.pow]. rewrite Nat.div_1_r. split.
  - rewrite (Nat.mul_comm (2 ^ n1) q), Nat.mod_add, Nat.mod_small by auto. auto.
  - rewrite (Nat.mul_comm (2 ^ n1) q), Nat.div_add, Nat.div_small, Nat.add_0_l, Nat.mod_small by auto. auto.
Qed.
Lemma flip_at : forall p q n1 n2, (p < 2 ^ n1)%nat -> (q < 2 ^ n2)%nat -> flip (p + 2 ^ n1 * q) (n1 + n2) = (p + 2 ^ n1 * (q + 2 ^ n2))%nat.
Proof.
  intros p q n1 n2 P Q. assert (L : (p + 2 ^ n1 * q < 2 ^ (n1 + n2))%nat) by (rewrite Nat.pow_add_r; nia).
  rewrite flip_add; [rewrite Nat.pow_add_r; nia|]. unfold bit. apply Nat.testbit_false. rewrite Nat.div_small; auto.
Qed.
Lemma factor_bits : forall num n1 n, of_bits n (factor_cost num n1 (S n1)) <-> (n1 + S n1 <= n)%nat \/ (num = 2 /\ n1 = 0)%nat.
Proof.
  intros num n1 n. split.
  - intros O. destruct (le_lt_dec (n1 + S n1) n) as [L|L]; auto. right. pose proof (Nat.pow_nonzero 2 n1 ltac:(lia)) as Z.
    assert (H : forall p, (p < 2 ^ n1)%nat -> INR num = (1 + 2 * INR p) * (1 + INR (2 ^ n1))).
    { intros p P. pose proof (O (p + 2 ^ n1 * 0)%nat (n1 + n1)%nat ltac:(lia)) as X. rewrite flip_at in X by lia. unfold factor_cost in X.
      destruct (odd_part_at p 0 n1 (S n1) P ltac:(cbn [Nat.pow]; lia)) as [X1 X2]. destruct (odd_part_at p (0 + 2 ^ n1) n1 (S n1) P ltac:(cbn [Nat.pow]; lia)) as [X3 X4].
      rewrite X1, X2, X3, X4 in X. rewrite !plus_INR, !mult_INR in X. change (INR 1) with 1 in X. change (INR 2) with 2 in X. cbn [Nat.add] in X. change (INR 0) with 0 in X.
      assert (T : 0 < INR (2 ^ n1)) by (apply lt_0_INR; lia). assert (Pp : 0 <= INR p) by apply pos_INR. set (t := INR (2 ^ n1)) in *. set (a := INR p) in *. set (N := INR num) in *.
      assert (Q : ((1 + 2 * a) * t) * (N - (1 + 2 * a) * (1 + t)) = 0) by nra. apply Rmult_integral in Q. destruct Q as [Q|Q]; [|lra]. exfalso. nra. }
    destruct n1 as [|n1].
    + split; auto. apply INR_eq. rewrite (H 0%nat) by (cbn; lia). cbn. lra.
    + exfalso. pose proof (H 0%nat ltac:(lia)) as H0. rewrite (H 1%nat) in H0 by (cbn [Nat.pow]; pose proof (Nat.pow_nonzero 2 n1 ltac:(lia)); lia). change (INR 1) with 1 in H0. change (INR 0) with 0 in H0.
      assert (T : 0 < INR (2 ^ S n1)) by (apply lt_0_INR; lia). lra.
  - intros [L|[-> ->]] x q Q.
    + unfold factor_cost. rewrite !odd_part_flip by lia. auto.
    + unfold factor_cost, odd_part. change (2 ^ 0)%nat with 1%nat. change (2 ^ 1)%nat with 2%nat. rewrite !Nat.mod_1_r, !Nat.div_1_r. 
      pose proof (Nat.mod_upper_bound x 2 ltac:(lia)) as B1. pose proof (Nat.mod_upper_bound (flip x q) 2 ltac:(lia)) as B2.
      destruct (x mod 2) as [|[|]]; [| |lia]; destruct (flip x q mod 2) as [|[|]]; try lia; cbn; lra.
Qed.
Lemma factor_zero : forall num n1 n2 x, factor_cost num n1 n2 x = 0 <-> num = (odd_part x 0 n1 * odd_part x n1 n2)%nat.
Proof.
  intros num n1 n2 x. unfold factor_cost. rewrite <- mult_INR. split.
  - intros H. apply INR_eq. nra.
  - intros <-. ring.
Qed.
Lemma factor_proper : forall num m x, bits_for (Nat.sqrt num) m -> (3 < num)%nat -> factor_cost num (m - 1) m x = 0 -> (1 < odd_part x 0 (m - 1) /\ 1 < odd_part x (m - 1) m)%nat.
Proof.
  intros num m x [M [U Lm]] N Z. apply factor_zero in Z. set (p := odd_part x 0 (m - 1)) in *. set (q := odd_part x (m - 1) m) in *.
  assert (P : (1 <= p < 2 ^ m)%nat).
  { unfold p, odd_part. pose proof (Nat.mod_upper_bound (x / 2 ^ 0) (2 ^ (m - 1)) ltac:(apply Nat.pow_nonzero; lia)). assert (E : (2 ^ m = 2 * 2 ^ (m - 1))%nat) by (replace m with (S (m - 1)) at 1 by lia; reflexivity). lia. }
  assert (Q : (1 <= q < 2 * 2 ^ m)%nat).
  { unfold q, odd_part. pose proof (Nat.mod_upper_bound (x / 2 ^ (m - 1)) (2 ^ m) ltac:(apply Nat.pow_nonzero; lia)). lia. }
  assert (G : (2 * 2 ^ m <= num)%nat \/ m = 1%nat).
  { destruct (Nat.eq_dec m 1) as [|M1]; auto. left. assert (Sq : (2 ^ (m - 1) < Nat.sqrt num)%nat).
    { destruct (le_lt_dec (Nat.sqrt num) (2 ^ (m - 1))) as [G|G]; auto. pose proof (Lm (m - 1)%nat ltac:(lia) G). lia. }
    pose proof (Nat.sqrt_spec num ltac:(lia)) as [S1 _]. assert (E : (2 ^ m = 4 * 2 ^ (m - 2))%nat) by (replace m with (S (S (m - 2))) at 1 by lia; cbn [Nat.pow]; lia).
    assert (E' : (2 ^ (m - 1) = 2 * 2 ^ (m - 2))%nat) by (replace (m - 1)%nat with (S (m - 2)) at 1 by lia; cbn [Nat.pow]; lia). pose proof (Nat.pow_nonzero 2 (m - 2) ltac:(lia)). nia. }
  split.
  - destruct (Nat.eq_dec p 1) as [E|]; [|lia]. exfalso. rewrite E in Z. destruct G as [G|G]; [lia|]. subst m. cbn [Nat.pow] in Q. assert (q mod 2 = 1)%nat; [|destruct q as [|[|[|[|]]]]; cbn in *; lia].
    unfold q, odd_part. rewrite (Nat.mul_comm 2), Nat.mod_add by lia. auto.
  - destruct (Nat.eq_dec q 1) as [E|]; [|lia]. exfalso. rewrite E in Z. destruct G as [G|G]; [lia|]. subst m. cbn [Nat.pow] in P. lia.
Qed.
Lemma factor_exists : forall a b m, let num := ((1 + 2 * a) * (1 + 2 * b))%nat in bits_for (Nat.sqrt num) m -> (a <= b)%nat -> (b < 2 ^ m)%nat -> 
  let x := (a + 2 ^ (m - 1) * b)%nat in (x < 2 ^ (m - 1 + m))%nat /\ odd_part x 0 (m - 1) = (1 + 2 * a)%nat /\ odd_part x (m - 1) m = (1 + 2 * b)%nat /\ factor_cost num (m - 1) m x = 0.
Proof.
  intros a b m num [M [U Lm]] AB B x. 
  assert (A : (a < 2 ^ (m - 1))%nat).
  { assert (Sq : (1 + 2 * a <= Nat.sqrt num)%nat) by (rewrite <- (Nat.sqrt_square (1 + 2 * a)); apply Nat.sqrt_le_mono; unfold num; nia).
    replace m with (S (m - 1)) in U by lia. cbn [Nat.pow] in U. lia. }
  destruct (odd_part_at a b (m - 1) m A B) as [X1 X2]. refine (conj _ (conj X1 (conj X2 _))).
  - unfold x. rewrite Nat.pow_add_r. nia.
  - apply factor_zero. unfold x. rewrite X1, X2. reflexivity.
Qed.
Lemma bits_number_ok : forall l, Forall is_bit l -> bits_number l = (1 + 2 * number l)%nat.
Proof.
  intros l F. unfold bits_number.
  assert (G : forall p m, fst (fold_left (fun pm b => ((if (b =? 0)%nat then fst pm else fst pm + 2 ^ snd pm)%nat, S (snd pm))) l (p, m)) = (p + 2 ^ m * number l)%nat).
  { induction F as [|b l B F IH]; intros p m; cbn [fold_left number fst snd]; [lia|]. rewrite IH. cbn [Nat.pow]. destruct B; subst; cbn [Nat.eqb]; lia. }
  rewrite G. cbn. lia.
Qed.
Lemma number_app : forall l l', number (l ++ l') = (number l + 2 ^ List.length l * number l')%nat.
Proof. induction l as [|b l IH]; intros l'; cbn [app number List.length Nat.pow]; [lia|]. rewrite IH. lia. Qed.
Lemma separator_ok : forall n1 n2 o, Forall is_bit o -> List.length o = (n1 + n2)%nat -> bitseparator n1 n2 o = Ok (odd_part (number o) 0 n1, odd_part (number o) n1 n2).
Proof.
  intros n1 n2 o F L. unfold bitseparator. rewrite L, Nat.eqb_refl. cbn [negb].
  assert (F12 : Forall is_bit (firstn n1 o) /\ Forall is_bit (skipn n1 o)) by (apply Forall_app; rewrite firstn_skipn; auto). destruct F12 as [F1 F2].
  rewrite !bits_number_ok by auto. rewrite <- (firstn_skipn n1 o) at 3 4. rewrite number_app, firstn_length, Nat.min_l by lia.
  pose proof (number_bound _ F1) as B1. pose proof (number_bound _ F2) as B2. rewrite firstn_length, Nat.min_l in B1 by lia. rewrite skipn_length in B2. replace (List.length o - n1)%nat with n2 in B2 by lia.
  destruct (odd_part_at _ _ n1 n2 B1 B2) as [-> ->]. reflexivity.
Qed.
Lemma separator_refused : forall n1 n2 o, List.length o <> (n1 + n2)%nat -> bitseparator n1 n2 o = Err AssertionError.
Proof. intros n1 n2 o N. unfold bitseparator. apply Nat.eqb_neq in N. rewrite N. reflexivity. Qed.
