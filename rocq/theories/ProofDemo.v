(** Proofs about diagonal Hamiltonians. *)
From Coq Require Import String List Arith ZArith Bool Reals Lra Lia Permutation Sorted FunctionalExtensionality.
Import ListNotations.
From Verif Require Import Base Cplx Bits ModelTargets ModelGate ModelNumpy ModelCircuit ModelPauli ModelPauliMatrix ModelVqe ModelVqeLoop SpecTargets SpecQuantum SpecCircuit
  SpecMeasure SpecRun SpecAPI SpecPauli SpecPauliMatrix SpecVqe SpecVqeLoop SpecWq SpecDemo ProofPauli ProofPauliTrace ProofPauliExpr ProofPauliArith ProofPauliMatrix
  ProofQaoa ProofVqeRun ProofVqeRes ProofVqeLoop ProofVqeLoopEx ProofWq.
Local Open Scope R_scope.

Definition zword (w : list pop) : Prop := Forall (fun o => fst o = LZ) w.
Definition spin (x q : nat) : R := if bit x q then -1 else 1.
Fixpoint zsign (w : list pop) (x : nat) : R := match w with [] => 1 | o :: r => spin x (snd o) * zsign r x end.
Lemma z_op : forall q, ap1 mZ q = diag_op (fun x => spin x q).
Proof.
  intros q. apply op_eq. intros psi x. unfold ap1, mZ, mk2, diag_op, spin. destruct (bit x q) eqn:B.
  - replace (setb x q true) with x by (symmetry; apply setb_same; auto). ceq; ring.
  - replace (setb x q false) with x by (symmetry; apply setb_same; auto). ceq; ring.
Qed.
Lemma zword_op : forall w, zword w -> word_op w = diag_op (zsign w).
Proof.
  intros w F. induction F as [|[l q] w E F IH]; cbn [word_op].
  - apply op_eq. intros psi x. unfold op_one, diag_op. cbn [zsign]. ceq; ring.
  - cbn in E. subst l. cbn [lmat]. rewrite IH, z_op, diag_mul. reflexivity.
Qed.
Lemma diag_values : forall d e, same_op (diag_op d) (diag_op e) -> forall x, d x = e x.
Proof. intros d e H x. pose proof (H (fun _ => C1) x) as E. unfold diag_op in E. apply (f_equal fst) in E. cbn in E. lra. Qed.

(** a word with a letter other than Z has no diagonal entries *)
Lemma word_diagonal0 : forall v x, NoDup (map snd v) -> ~ zword v -> word_op v (ket x) x = C0.
Proof.
  intros v x K N. assert (E : exists w1 l q w2, v = w1 ++ (l, q) :: w2 /\ l <> LZ).
  { clear K. induction v as [|[l q] v IH]; [exfalso; apply N; constructor|]. destruct l; [exists [], LX, q, v; split; [auto|discriminate]|exists [], LY, q, v; split; [auto|discriminate]|].
    destruct IH as [w1 [l [r [w2 [-> H]]]]]; [intros F; apply N; constructor; auto|]. exists ((LZ, q) :: w1), l, r, w2. auto. }
  destruct E as [w1 [l [q [w2 [-> L]]]]]. rewrite word_app. cbn [word_op]. unfold op_mul.
  assert (D : ~ In q (map snd w1) /\ ~ In q (map snd w2)).
  { rewrite map_app in K. cbn [map snd] in K. apply NoDup_remove_2 in K. rewrite in_app_iff in K. tauto. }
  destruct D as [D1 D2]. apply (word_vanish w1 q (bit x q)); auto. intros y By. rewrite ap1_offdiag by (destruct l; try reflexivity; contradiction).
  rewrite (word_vanish w2 q (negb (bit x q))); auto; [ring| |].
  - intros z Bz. unfold ket. destruct (Nat.eqb_spec z x) as [->|]; auto. destruct (bit x q); discriminate.
  - rewrite testbit_flip, Nat.eqb_refl, By. reflexivity.
Qed.
(** the coefficient of a word in a diagonal operator *)
Lemma diag_coef : forall e d t, same_op (expr_op e) (diag_op d) -> In t (expr_simplify e) -> exists n, fits n (t_ops t) /\
  (t_coeff t * tr n op_one)%C = Csum (fun x => RtoC (d x) * word_op (rev (t_ops t)) (ket x) x)%C (seq 0 (2 ^ n)).
Proof.
  intros e d t S I. destruct (fits_expr (expr_simplify e)) as [n F]. exists n. pose proof (expr_simplify_canonical e) as K. rewrite Forall_forall in F, K. split; [apply F; auto|].
  replace (t_coeff t) with (wcoef (expr_simplify e) (t_ops t)).
  - rewrite <- (tr_expr n (t_ops t) (expr_simplify e)) by (auto; apply Forall_forall; auto).
    unfold tr. apply Csum_ext. intros x _. unfold op_mul.
    replace (expr_op (expr_simplify e) (ket x)) with (fun y => (RtoC (d x) * ket x y)%C).
    + exact (f_equal (fun g => g x) (lin_scl _ (linear_word (rev (t_ops t))) (RtoC (d x)) (ket x))).
    + apply functional_extensionality. intros y. rewrite expr_simplify_op, S. unfold diag_op, ket. destruct (Nat.eqb_spec y x) as [->|]; auto. ring.
  - pose proof (simplify_NoDup e) as ND. clear S K F. induction (expr_simplify e) as [|s l IH]; [destruct I|]. cbn [map] in ND. inversion ND as [|? ? N1 N2]; subst. rewrite wcoef_cons. unfold at_word.
    destruct I as [->|I].
    + rewrite ops_eqb_refl, wcoef_absent by auto. ring.
    + rewrite IH by auto. destruct (ops_eqb (t_ops s) (t_ops t)) eqn:E; [|ring]. apply ops_eqb_eq in E. exfalso. apply N1. rewrite E. apply in_map. auto.
Qed.
Lemma zword_rev : forall w, zword w -> zword (rev w).
Proof. intros w F. apply Forall_rev. auto. Qed.
Lemma tr_one_real : forall n, exists r, r <> 0 /\ tr n op_one = RtoC r.
Proof.
  intros n. assert (E : tr n op_one = RtoC (Rsum (fun _ => 1) (seq 0 (2 ^ n)))).
  { unfold tr, op_one. rewrite <- Csum_RtoC. apply Csum_ext. intros x _. unfold ket. rewrite Nat.eqb_refl. reflexivity. }
  exists (Rsum (fun _ => 1) (seq 0 (2 ^ n))). split; auto. intros H. apply (tr_one n). rewrite E, H. reflexivity.
Qed.
Lemma z_dec : forall w : list pop, {zword w} + {~ zword w}.
Proof. intros w. apply Forall_dec. intros [[| |] q]; cbn; [right|right|left]; congruence. Qed.
Lemma diag_zword : forall e d t, same_op (expr_op e) (diag_op d) -> In t (expr_simplify e) -> zword (t_ops t) /\ exists n r k, fits n (t_ops t) /\ r <> 0 /\ k <> 0 /\
  t_coeff t = RtoC k /\ k * r = Rsum (fun x => d x * zsign (rev (t_ops t)) x) (seq 0 (2 ^ n)).
Proof.
  intros e d t S I. destruct (diag_coef e d t S I) as [n [F E]]. pose proof (simplify_nonzero e t I) as N0.
  assert (K : canonical (t_ops t)) by (pose proof (expr_simplify_canonical e) as K; rewrite Forall_forall in K; auto).
  assert (Z : zword (t_ops t)).
  { destruct (z_dec (t_ops t)) as [Z|Z]; auto. exfalso. apply N0. rewrite Csum_0 in E.
    - replace (t_coeff t) with (t_coeff t * tr n op_one / tr n op_one)%C by (field; apply tr_one). rewrite E. field. apply tr_one.
    - intros x _. rewrite word_diagonal0; [ring| |].
      + rewrite map_rev. apply NoDup_rev. apply sorted_NoDup. exact K.
      + intros R. apply Z. rewrite <- (rev_involutive (t_ops t)). apply zword_rev. auto. }
  split; auto. destruct (tr_one_real n) as [r [R0 R1]]. exists n, r. rewrite R1 in E. rewrite (zword_op _ (zword_rev _ Z)) in E.
  rewrite (Csum_ext _ _ (fun x => RtoC (d x * zsign (rev (t_ops t)) x))) in E.
  2:{ intros x _. unfold diag_op, ket. rewrite Nat.eqb_refl, RtoC_mul. ring. }
  rewrite Csum_RtoC in E. exists (Rsum (fun x => d x * zsign (rev (t_ops t)) x) (seq 0 (2 ^ n)) / r).
  assert (T : t_coeff t = RtoC (Rsum (fun x => d x * zsign (rev (t_ops t)) x) (seq 0 (2 ^ n)) / r)).
  { destruct (t_coeff t) as [a b]. unfold RtoC in *. injection E as E1 E2. assert (b = 0) by (apply (Rmult_eq_reg_r r); [lra|auto]). subst b. f_equal. apply (Rmult_eq_reg_r r); auto.
    unfold Rdiv. rewrite Rmult_assoc, Rinv_l by auto. lra. }
  split; auto. split; auto. split; [|split; auto].
  - intros H. apply N0. rewrite T, H. reflexivity.
  - unfold Rdiv. rewrite Rmult_assoc, Rinv_l by auto. ring.
Qed.
Lemma zsign_flip_out : forall w x q, ~ In q (map snd w) -> zsign w (flip x q) = zsign w x.
Proof.
  induction w as [|[l r] w IH]; intros x q H; auto. cbn [map snd] in H. cbn [zsign snd]. rewrite IH by (intros J; apply H; right; auto). f_equal. unfold spin. rewrite testbit_flip.
  destruct (Nat.eqb_spec q r) as [->|]; auto. exfalso. apply H. left. auto.
Qed.
Lemma zsign_flip_in : forall w x q, NoDup (map snd w) -> In q (map snd w) -> zsign w (flip x q) = - zsign w x.
Proof.
  induction w as [|[l r] w IH]; intros x q D H; [destruct H|]. cbn [map snd] in D, H. inversion D; subst. cbn [zsign snd]. destruct H as [->|H].
  - rewrite zsign_flip_out by auto. unfold spin. rewrite testbit_flip, Nat.eqb_refl. destruct (bit x q); cbn [negb]; lra.
  - rewrite IH by auto. unfold spin. rewrite testbit_flip. destruct (Nat.eqb_spec q r) as [->|]; [contradiction|]. lra.
Qed.
Lemma expr_diag : forall l, Forall (fun t => zword (t_ops t) /\ exists k, t_coeff t = RtoC k) l ->
  exists f, same_op (expr_op l) (diag_op f) /\ forall n, Forall (fun t => fits n (t_ops t)) l -> of_bits n f.
Proof.
  intros l F. induction F as [|t l [Z [k E]] F [f [IH1 IH2]]].
  - exists (fun _ => 0). split; [|intros n _ x q _; auto]. intros psi x. cbn [expr_op]. unfold diag_op. ceq; ring.
  - exists (fun x => k * zsign (t_ops t) x + f x). split.
    + intros psi x. cbn [expr_op]. unfold op_add, term_op, op_scl. rewrite IH1, E, (zword_op _ Z). unfold diag_op. rewrite RtoC_add, RtoC_mul. ring.
    + intros n Fn. inversion Fn as [|? ? F1 F2]; subst. intros x q Q. rewrite (IH2 n F2 x q Q). rewrite zsign_flip_out; auto. intros J. apply in_map_iff in J. destruct J as [o [<- J]]. specialize (F1 o J). lia.
Qed.
Lemma max_bound : forall l m n, (m <= n)%nat -> (forall a, In a l -> (a <= n)%nat) -> (fold_left Nat.max l m <= n)%nat.
Proof. induction l as [|a l IH]; intros m n M H; cbn [fold_left]; auto. apply IH; [apply Nat.max_lub; auto; apply H; left; auto|]. intros b I. apply H. right. auto. Qed.
Lemma qubits_fits : forall e n, (expr_qubits e <= n)%nat <-> Forall (fun t => fits n (t_ops t)) e.
Proof.
  intros e n. split; [apply expr_fit|]. intros F. rewrite Forall_forall in F. unfold expr_qubits. apply max_bound; [lia|]. intros a I. apply in_map_iff in I. destruct I as [t [<- I]]. apply filter_In in I.
  unfold term_qubits. apply max_bound; [lia|]. intros a J. apply in_map_iff in J. destruct J as [o [<- J]]. apply (F t (proj1 I) o J).
Qed.
Lemma diag_width : forall e d n, same_op (expr_op e) (diag_op d) -> ((expr_qubits (expr_simplify e) <= n)%nat <-> of_bits n d).
Proof.
  intros e d n S. rewrite qubits_fits. split.
  - intros F. destruct (expr_diag (expr_simplify e)) as [f [E1 E2]].
    + apply Forall_forall. intros t I. destruct (diag_zword e d t S I) as [Z [m [r [k [_ [_ [_ [K _]]]]]]]]. eauto.
    + assert (E : forall x, d x = f x).
      { apply diag_values. intros psi x. rewrite <- E1, expr_simplify_op, S. reflexivity. }
      intros x q Q. rewrite !E. apply (E2 n F); auto.
  - intros O. apply Forall_forall. intros t I [l q] J. cbn [snd]. destruct (le_lt_dec n q) as [Q|Q]; auto. exfalso.
    destruct (diag_zword e d t S I) as [Z [m [r [k [Fm [R0 [K0 [K E]]]]]]]]. set (f := fun x => d x * zsign (rev (t_ops t)) x) in E.
    assert (Kn : canonical (t_ops t)) by (pose proof (expr_simplify_canonical e) as Kn; rewrite Forall_forall in Kn; auto).
    assert (H : forall x, f (flip x q) = - f x).
    { intros x. unfold f. rewrite (O x q Q), zsign_flip_in; [ring| |].
      - rewrite map_rev. apply NoDup_rev. apply sorted_NoDup. exact Kn.
      - rewrite map_rev. apply in_rev. rewrite rev_involutive. apply (in_map snd) in J. exact J. }
    pose proof (Rsum_flip m q f (Fm (l, q) J)) as X. rewrite (Rsum_ext _ _ (fun x => - f x)) in X by auto.
    assert (Y : Rsum f (seq 0 (2 ^ m)) = 0). { rewrite (Rsum_ext _ (fun x => - f x) (fun x => (-1) * f x)), Rsum_mul_l in X by (intros; ring). lra. }
    rewrite Y in E. apply Rmult_integral in E. tauto.
Qed.

Lemma diag_terms : forall e d, same_op (expr_op e) (diag_op d) -> Forall (fun t => Forall (fun o => fst o = LZ) (t_ops t) /\ Cim (t_coeff t) = 0) (expr_simplify e).
Proof.
  intros e d S. apply Forall_forall. intros t I. destruct (diag_zword e d t S I) as [Z [m [r [k [_ [_ [_ [K _]]]]]]]]. split; auto. rewrite K. reflexivity.
Qed.
Lemma diag_commuting : forall l, Forall (fun t => zword (t_ops t) /\ Cim (t_coeff t) = 0) l -> pairwise_commuting l.
Proof.
  assert (G : forall s t, zword (t_ops s) -> zword (t_ops t) -> same_op (op_mul (term_op s) (term_op t)) (op_mul (term_op t) (term_op s))).
  { intros s t Zs Zt psi x. unfold op_mul, term_op, op_scl. rewrite (zword_op _ Zs), (zword_op _ Zt). unfold diag_op. ring. }
  intros l F. induction F as [|t l [Z _] F IH]; constructor; auto. apply Forall_forall. intros s I. rewrite Forall_forall in F. apply G; auto. apply F; auto.
Qed.
Lemma diag_energy : forall n d psi, Cre (expval n (diag_op d) psi) = mean_value n d psi.
Proof.
  intros n d psi. unfold expval, inner, mean_value. rewrite (Csum_ext _ _ (fun x => RtoC (d x * Cnorm2 (psi x)))).
  - rewrite Csum_RtoC. reflexivity.
  - intros x _. unfold diag_op. rewrite RtoC_mul. unfold Cnorm2. ceq; ring.
Qed.

(** ** Measured bits *)
Lemma number_bound : forall l, Forall is_bit l -> (number l < 2 ^ List.length l)%nat.
Proof. induction 1 as [|b l B F IH]; cbn [number List.length Nat.pow]; [lia|]. destruct B; lia. Qed.
Lemma number_bit : forall l i, Forall is_bit l -> bit (number l) i = (nth i l 0 =? 1)%nat.
Proof.
  intros l i F. revert i. induction F as [|b l B F IH]; intros i; cbn [number nth].
  - rewrite Nat.bits_0. destruct i; auto.
  - replace (b + 2 * number l)%nat with (2 * number l + b)%nat by lia. destruct B as [->| ->].
    + rewrite Nat.add_0_r. destruct i as [|i]; [apply Nat.testbit_even_0|]. rewrite Nat.testbit_even_succ by lia. apply IH.
    + destruct i as [|i]; [apply Nat.testbit_odd_0|]. rewrite Nat.testbit_odd_succ by lia. apply IH.
Qed.
Lemma readout_bits : forall l x, Forall is_bit (readout l x).
Proof. intros l x. apply Forall_forall. intros b I. apply in_map_iff in I. destruct I as [m [<- _]]. unfold is_bit. destruct (bit x m); auto. Qed.
Lemma number_readout : forall n a x, number (readout (seq a n) x) = ((x / 2 ^ a) mod 2 ^ n)%nat.
Proof.
  induction n as [|n IH]; intros a x; cbn [seq readout map number]; [rewrite Nat.mod_1_r; auto|]. change (map _ (seq (S a) n)) with (readout (seq (S a) n) x). rewrite IH.
  set (y := (x / 2 ^ a)%nat). assert (B : bit x a = Nat.odd y).
  { unfold y. rewrite <- Nat.bit0_odd, Nat.div_pow2_bits. auto. }
  assert (E : (x / 2 ^ S a = y / 2)%nat) by (unfold y; rewrite Nat.div_div by (try apply Nat.pow_nonzero; lia); f_equal; rewrite Nat.pow_succ_r'; lia).
  rewrite B, E. rewrite Nat.pow_succ_r'. rewrite (Nat.mod_mul_r y 2 (2 ^ n)) by (try apply Nat.pow_nonzero; lia). f_equal.
  rewrite <- Nat.bit0_mod, Nat.bit0_odd. destruct (Nat.odd y); auto.
Qed.

Lemma readout_inj : forall n x y, (x < 2 ^ n)%nat -> (y < 2 ^ n)%nat -> readout (seq 0 n) x = readout (seq 0 n) y -> x = y.
Proof. intros n x y X Y E. apply (f_equal number) in E. rewrite !number_readout, !Nat.div_1_r, !Nat.mod_small in E by auto. auto. Qed.
Lemma readout_number : forall n x, (x < 2 ^ n)%nat -> number (readout (seq 0 n) x) = x.
Proof. intros n x X. rewrite number_readout, Nat.div_1_r, Nat.mod_small; auto. Qed.
Lemma dist_perm : forall n psi l, distribution (arr n psi) (seq 0 n) l ->
  Permutation l (map (fun x => (readout (seq 0 n) x, Cnorm2 (psi x))) (filter (fun x => if Req_EM_T (Cnorm2 (psi x)) 0 then false else true) (seq 0 (2 ^ n)))).
Proof.
  intros n psi l [ND D]. assert (L : List.length (arr n psi) = (2 ^ n)%nat) by (unfold arr; rewrite map_length, seq_length; auto).
  assert (M : forall x, (x < 2 ^ n)%nat -> marginal (arr n psi) (seq 0 n) (readout (seq 0 n) x) = Cnorm2 (psi x)).
  { intros x X. unfold marginal. rewrite L. rewrite (Rsum_one _ _ _ x).
    - destruct (list_eq_dec _ _ _) as [_|N]; [|contradiction]. unfold arr. rewrite (nth_indep _ C0 (psi 0%nat)) by (rewrite map_length, seq_length; auto). rewrite map_nth, seq_nth by auto. auto.
    - apply seq_NoDup.
    - apply in_seq. lia.
    - intros y I Y. apply in_seq in I. destruct (list_eq_dec _ _ _) as [E|_]; auto. apply readout_inj in E; [contradiction|lia|auto]. }
  apply NoDup_Permutation.
  - apply (NoDup_map_inv fst). auto.
  - apply NoDup_map_inj; [apply NoDup_filter, seq_NoDup|]. intros x y X Y E. apply filter_In in X, Y. rewrite in_seq in X, Y. injection E as E _. apply readout_inj in E; auto; lia.
  - intros [o p]. rewrite D, in_map_iff. split.
    + intros [-> N]. destruct (existsb (fun x => if list_eq_dec Nat.eq_dec (readout (seq 0 n) x) o then true else false) (seq 0 (2 ^ n))) eqn:E.
      * apply existsb_exists in E. destruct E as [x [I E]]. destruct (list_eq_dec _ _ _) as [<-|]; [|discriminate]. assert (X : (x < 2 ^ n)%nat) by (apply in_seq in I; lia).
        exists x. rewrite M in * by auto. split; auto. apply filter_In. split; auto. destruct (Req_EM_T _ _); [contradiction|auto].
      * exfalso. apply N. unfold marginal. rewrite L. apply Rsum_0. intros x I. destruct (list_eq_dec _ _ _) as [H|]; auto. exfalso. assert (X : existsb (fun x => if list_eq_dec Nat.eq_dec (readout (seq 0 n) x) o then true else false) (seq 0 (2 ^ n)) = true).
        { apply existsb_exists. exists x. split; auto. destruct (list_eq_dec _ _ _); [auto|contradiction]. }
        rewrite X in E. discriminate.
    + intros [x [E I]]. injection E as <- <-. apply filter_In in I. destruct I as [I N]. assert (X : (x < 2 ^ n)%nat) by (apply in_seq in I; lia). rewrite M by auto. split; auto. destruct (Req_EM_T _ _); [discriminate|auto].
Qed.
Lemma dist_mean : forall n d psi l, distribution (arr n psi) (seq 0 n) l -> mean_cost d l = mean_value n d psi.
Proof.
  intros n d psi l D. unfold mean_cost. rewrite (Bits.Rsum_perm _ _ _ _ (dist_perm n psi l D)). rewrite Bits.Rsum_map. cbn [fst snd]. unfold mean_value. rewrite Rsum_filter. apply Bits.Rsum_ext. intros x I.
  apply in_seq in I. rewrite readout_number by lia. destruct (Req_EM_T (Cnorm2 (psi x)) 0) as [->|]; lra.
Qed.
Lemma dist_keys : forall n psi l, distribution (arr n psi) (seq 0 n) l -> Forall (fun op => List.length (fst op) = n /\ Forall is_bit (fst op) /\ 0 < snd op) l.
Proof.
  intros n psi l D. apply Forall_forall. intros op I. pose proof (Permutation_in _ (dist_perm n psi l D) I) as J. apply in_map_iff in J. destruct J as [x [<- J]]. cbn [fst snd].
  split; [unfold readout; rewrite map_length, seq_length; auto|]. split; [apply readout_bits|]. apply filter_In in J. destruct J as [_ J]. destruct (Req_EM_T _ _) as [|N]; [discriminate|]. pose proof (Cnorm2_pos (psi x)). lra.
Qed.
Lemma mean_bound : forall d g l, Forall (fun op : list nat * R => 0 < snd op) l -> mass l = 1 -> (forall x, g <= d x) ->
  g <= mean_cost d l /\ (mean_cost d l = g -> Forall (fun op => d (number (fst op)) = g) l).
Proof.
  intros d g l P M G. rewrite Forall_forall in P.
  assert (E : mean_cost d l - g = Rsum (fun op => snd op * (d (number (fst op)) - g)) l).
  { unfold mean_cost. rewrite (Bits.Rsum_ext _ (fun op => snd op * (d (number (fst op)) - g)) (fun op => snd op * d (number (fst op)) - snd op * g)) by (intros; ring). rewrite Bits.Rsum_sub, Bits.Rsum_mul_r. unfold mass in M. rewrite M. ring. }
  assert (N : forall op, In op l -> 0 <= snd op * (d (number (fst op)) - g)).
  { intros op I. apply Rmult_le_pos; [specialize (P op I); lra|specialize (G (number (fst op))); lra]. }
  pose proof (Rsum_nonneg _ _ l N) as Q. split; [lra|]. intros H. apply Forall_forall. intros op I. rewrite H in E. assert (Z : Rsum (fun op => snd op * (d (number (fst op)) - g)) l = 0) by lra.
  pose proof (Rsum_0_inv _ _ l N Z op I) as X. cbv beta in X. apply Rmult_integral in X. specialize (P op I). lra.
Qed.

(** ** The phases of a round *)
Lemma zsign_unit : forall w x, zsign w x = 1 \/ zsign w x = -1.
Proof. induction w as [|o w IH]; intros x; cbn [zsign]; [auto|]. unfold spin. destruct (bit x (snd o)), (IH x) as [->| ->]; lra. Qed.
Lemma cis_sign : forall a z, z = 1 \/ z = -1 -> cis (a * z) = (RtoC (cos a) + Ci * RtoC (sin a) * RtoC z)%C.
Proof. intros a z [->| ->]; unfold cis; [rewrite Rmult_1_r|replace (a * -1) with (- a) by ring; rewrite cos_neg, sin_neg]; ceq; ring. Qed.
Lemma ycount_z : forall w, zword w -> ycount w = 0%nat.
Proof. intros w F. unfold ycount. induction F as [|[l q] w E F IH]; auto. cbn in E. subst l. cbn. exact IH. Qed.
Lemma evolved_z : forall s t k psi x, zword (t_ops t) -> t_coeff t = RtoC k -> t_ops t <> [] -> evolved s t psi x = (cis (s * (k * zsign (t_ops t) x)) * psi x)%C.
Proof.
  intros s t k psi x Z K N. unfold evolved. rewrite K. destruct (t_ops t) as [|o w] eqn:E; [contradiction|]. rewrite (ycount_z _ Z). change (Nat.even 0) with true. cbv iota.
  unfold op_exp. rewrite (zword_op _ Z). unfold diag_op. replace (s * (k * zsign (o :: w) x)) with (1 * Cre (RtoC k) * s * zsign (o :: w) x) by (cbn [Cre RtoC fst]; ring).
  rewrite (cis_sign _ _ (zsign_unit _ _)). unfold op_add, op_scl, op_one. ring.
Qed.
Lemma evolved_list : forall l, Forall (fun t => zword (t_ops t) /\ exists k, t_coeff t = RtoC k) l -> exists c f, same_op (expr_op l) (diag_op f) /\
  forall s psi x, evolved_all s l psi x = (cis (s * (f x - c)) * psi x)%C.
Proof.
  intros l F. unfold evolved_all. induction F as [|t l [Z [k E]] F [c [f [IH1 IH2]]]].
  - exists 0, (fun _ => 0). split.
    + intros psi x. cbn [expr_op]. unfold diag_op. ceq; ring.
    + intros s psi x. cbn [fold_left]. replace (s * (0 - 0)) with 0 by ring. rewrite cis_0. ring.
  - exists (c + if match t_ops t with [] => true | _ => false end then k else 0), (fun x => k * zsign (t_ops t) x + f x). split.
    + intros psi x. cbn [expr_op]. unfold op_add, term_op, op_scl. rewrite IH1, E, (zword_op _ Z). unfold diag_op. rewrite RtoC_add, RtoC_mul. ring.
    + intros s psi x. cbn [fold_left]. rewrite IH2. destruct (t_ops t) as [|o w] eqn:W.
      * unfold evolved. rewrite W. unfold op_one. cbn [zsign]. do 2 f_equal. ring.
      * rewrite (evolved_z s t k) by (rewrite ?W; auto; discriminate). rewrite W, Cmul_assoc, cis_add. do 2 f_equal. ring.
Qed.
Lemma diag_phase : forall e d, same_op (expr_op e) (diag_op d) -> exists c, forall s psi x, evolved_all s (expr_simplify e) psi x = (cis (s * (d x - c)) * psi x)%C.
Proof.
  intros e d Sd. destruct (evolved_list (expr_simplify e)) as [c [f [H1 H2]]].
  - apply Forall_forall. intros t I. destruct (diag_zword e d t Sd I) as [Z [m [r [k [_ [_ [_ [K _]]]]]]]]. eauto.
  - exists c. intros s psi x. rewrite H2. do 4 f_equal. symmetry. apply (diag_values d f). intros phi y. rewrite <- H1, expr_simplify_op, Sd. reflexivity.
Qed.
