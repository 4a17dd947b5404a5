(** Gates appended by append_to_circuit and get_time_evolution. *)
From Coq Require Import List Arith ZArith Bool Reals Lia Lra Sorted FunctionalExtensionality.
Import ListNotations.
From Verif Require Import Base Cplx Bits ModelTargets ModelGate SpecTargets SpecQuantum SpecCircuit ModelPauli SpecPauli ProofNumpy ProofFallback ProofUnitary ProofDagger ProofPauli ProofPauliTrace ProofPauliComm.
Local Open Scope nat_scope.

Lemma one_gate : forall n k q, q < n -> gate_ops n (GOne k (TInt (Z.of_nat q))) [sem1 k q].
Proof.
  intros n k q H. replace [sem1 k q] with (map (fun t => sem1 k (Z.to_nat t)) [Z.of_nat q]) by (simpl; rewrite Nat2Z.id; auto).
  apply go_one.
  - apply den_one. replace [Z.of_nat q] with [rel (Z.of_nat n) (Z.of_nat q)]; [apply den_int|]. unfold rel. destruct (Z.ltb_spec (Z.of_nat q) 0); auto. lia.
  - constructor; [|constructor]. unfold inside. lia.
Qed.
Lemma cx_gate : forall n a b, a < n -> b < n -> a <> b -> gate_ops n (GTwo KCX (TTuple [TInt (Z.of_nat a); TInt (Z.of_nat b)])) [sem2 KCX a b].
Proof.
  intros n a b Ha Hb N. replace [sem2 KCX a b] with (map (fun p => sem2 KCX (Z.to_nat (fst p)) (Z.to_nat (snd p))) [(Z.of_nat a, Z.of_nat b)]) by (simpl; rewrite !Nat2Z.id; auto).
  assert (D : forall q, denotes (Z.of_nat n) (TInt (Z.of_nat q)) [Z.of_nat q]).
  { intros q. apply den_one. replace [Z.of_nat q] with [rel (Z.of_nat n) (Z.of_nat q)]; [apply den_int|]. unfold rel. destruct (Z.ltb_spec (Z.of_nat q) 0); auto. lia. }
  apply go_two.
  - exists (TInt (Z.of_nat a)), (TInt (Z.of_nat b)), [Z.of_nat a], [Z.of_nat b]. simpl. split; [auto|]. split; [apply D|]. split; [apply D|].
    split; auto. split; auto. constructor; [|constructor]. simpl. lia.
  - constructor; [|constructor]. unfold inside. simpl. lia.
Qed.
Lemma gates_app : forall n a oa b ob, circuit_ops n a oa -> circuit_ops n b ob -> circuit_ops n (a ++ b) (oa ++ ob).
Proof. induction 1; intros; simpl; auto. rewrite <- app_assoc. constructor; auto. Qed.
Lemma gates_one : forall n g o, gate_ops n g o -> circuit_ops n [g] o.
Proof. intros. rewrite <- (app_nil_r o). constructor; auto. constructor. Qed.
Lemma apply_app : forall a b psi, apply_all (a ++ b) psi = apply_all b (apply_all a psi).
Proof. intros. apply fold_left_app. Qed.

(** ** append_to_circuit *)
Lemma letter_mat : forall l, mat1 (letter_gate l) = lmat l. Proof. intros []; auto. Qed.
Lemma append_word : forall n w, fits n w -> exists ops,
  circuit_ops n (map (fun o => GOne (letter_gate (fst o)) (TInt (Z.of_nat (snd o)))) (rev w)) ops /\ forall psi, apply_all ops psi = word_op w psi.
Proof.
  induction w as [|[l q] w IH]; intros F.
  - exists []. split; [constructor|auto].
  - destruct IH as [ops [H E]]; [intros o I; apply F; right; auto|]. exists (ops ++ [sem1 (letter_gate l) q]). simpl rev. rewrite map_app. split.
    + apply gates_app; auto. apply gates_one, one_gate. apply (F (l, q)). left. auto.
    + intros psi. rewrite apply_app, E. simpl. unfold sem1. rewrite letter_mat. reflexivity.
Qed.
Lemma qubits_max : forall (w : list pop) m o, In o w -> snd o < fold_left Nat.max (map (fun o => S (snd o)) w) m.
Proof.
  assert (G : forall l m, m <= fold_left Nat.max l m) by (induction l as [|a l IH]; intros m; simpl; auto; specialize (IH (Nat.max m a)); lia).
  induction w as [|a w IH]; intros m o I; [destruct I|]. destruct I as [->|I]; simpl; auto. specialize (G (map (fun o => S (snd o)) w) (Nat.max m (S (snd o)))). lia.
Qed.
Lemma qubits_fit : forall t n, term_qubits t <= n -> fits n (t_ops t).
Proof. intros t n H o I. unfold term_qubits in H. pose proof (qubits_max (t_ops t) 0 o I). lia. Qed.
Lemma append_ops : forall t simp n, term_qubits t <= n -> exists ops k,
  circuit_ops n (append_gates t simp) ops /\ (forall psi x, term_op t psi x = (k * apply_all ops psi x)%C) /\
  k = t_coeff (if simp then simplify t else t).
Proof.
  intros t simp n H. apply qubits_fit in H. assert (F : fits n (t_ops (if simp then simplify t else t))).
  { destruct simp; auto. rewrite simplify_eq. apply simple_fits. auto. }
  destruct (append_word n _ F) as [ops [G E]]. exists ops, (t_coeff (if simp then simplify t else t)). split; [exact G|]. split; auto.
  intros psi x. rewrite E. destruct simp; [rewrite <- simplify_op|]; reflexivity.
Qed.

(** ** Diagonal operators *)
Fixpoint zsign (w : list pop) (x : nat) : C := match w with [] => C1 | o :: r => ((if bit x (snd o) then - C1 else C1) * zsign r x)%C end.
Definition zword (w : list pop) : list pop := map (fun o => (LZ, snd o)) w.
Lemma z_apply : forall q psi x, ap1 mZ q psi x = ((if bit x q then - C1 else C1) * psi x)%C.
Proof. intros. unfold ap1, mZ, mk2. destruct (bit x q) eqn:E; rewrite (setb_same x q _ E); ring. Qed.
Lemma zword_apply : forall w psi x, word_op (zword w) psi x = (zsign w x * psi x)%C.
Proof.
  induction w as [|[l q] w IH]; intros psi x; cbn [zword map word_op zsign snd]; [unfold op_one; ring|]. unfold op_mul.
  change (ap1 (lmat LZ) q) with (ap1 mZ q). rewrite z_apply. fold (zword w). rewrite IH. ring.
Qed.
Definition cxi (a b x : nat) : nat := if bit x a then flip x b else x.
Lemma cx_apply : forall a b psi x, a <> b -> sem2 KCX a b psi x = psi (cxi a b x).
Proof.
  intros a b psi x N. unfold sem2, ctl, cxi. destruct (bit x a); auto. rewrite flip_setb. unfold ap1, mX, mk2. destruct (bit x b); cbn [negb]; ring.
Qed.
Lemma cxi_bit : forall a b x q, a <> b -> bit (cxi a b x) q = if q =? b then xorb (bit x a) (bit x b) else bit x q.
Proof.
  intros a b x q N. unfold cxi. destruct (bit x a) eqn:E.
  - rewrite testbit_flip. rewrite (Nat.eqb_sym b q). destruct (Nat.eqb_spec q b); subst; auto.
  - destruct (Nat.eqb_spec q b); subst; auto. destruct (bit x b); auto.
Qed.
Lemma cxi_cxi : forall a b x, a <> b -> cxi a b (cxi a b x) = x.
Proof.
  intros a b x N. apply Nat.bits_inj. intros q. change (bit (cxi a b (cxi a b x)) q = bit x q). rewrite !cxi_bit by auto.
  rewrite Nat.eqb_refl. destruct (Nat.eqb_spec q b); subst; auto. destruct (Nat.eqb_spec a b); [contradiction|]. destruct (bit x a), (bit x b); auto.
Qed.
Lemma zsign_cxi : forall w a b x, a <> b -> ~ In b (map snd w) -> zsign w (cxi a b x) = zsign w x.
Proof.
  induction w as [|[l q] w IH]; intros a b x N I; auto. simpl in *. rewrite IH by tauto. rewrite cxi_bit by auto. destruct (Nat.eqb_spec q b); auto. tauto.
Qed.
Definition phase_of (s : R) (z : C) : C := (RtoC (cos s) + Ci * RtoC (sin s) * z)%C.
Lemma rz_apply : forall s q psi x, ap1 (mRZ (- 2 * s)) q psi x = (phase_of s (if bit x q then - C1 else C1) * psi x)%C.
Proof.
  intros s q psi x. unfold ap1, mRZ, mk2. replace (- 2 * s / 2)%R with (- s)%R by field. rewrite Ropp_involutive.
  assert (A : cis s = phase_of s C1) by (unfold phase_of, cis; ceq).
  assert (B : cis (- s) = phase_of s (- C1)%C) by (rewrite cis_opp; unfold phase_of, cis, Cconj; ceq).
  destruct (bit x q) eqn:E; rewrite (setb_same x q _ E), ?A, ?B; ring.
Qed.
Lemma last_first : forall (r : list pop) a b, last (b :: r) a = last r b.
Proof. induction r as [|c r IH]; intros a b; auto. change (last (b :: c :: r) a) with (last (c :: r) a). rewrite !IH. auto. Qed.
Lemma ladder_ops : forall n s r o, fits n (o :: r) -> NoDup (map snd (o :: r)) -> exists ops,
  circuit_ops n (ladder (o :: r)) ops /\ circuit_ops n (rev (ladder (o :: r))) (rev ops) /\
  forall psi x, apply_all (rev ops) (ap1 (mRZ (- 2 * s)) (snd (last r o)) (apply_all ops psi)) x = (phase_of s (zsign (o :: r) x) * psi x)%C.
Proof.
  intros n s. induction r as [|b r IH]; intros a F N.
  - exists []. split; [constructor|]. split; [constructor|]. intros psi x. change (ap1 (mRZ (- 2 * s)) (snd a) psi x = (phase_of s (zsign [a] x) * psi x)%C). rewrite rz_apply. simpl zsign.
    f_equal. f_equal. destruct (bit x (snd a)); ring.
  - destruct (IH b) as [ops [H1 [H2 H3]]]; [intros p I; apply F; right; auto|inversion N; auto|].
    assert (Hab : snd a <> snd b) by (inversion N; subst; simpl in *; intros E; apply H4; left; auto).
    assert (Hb : ~ In (snd b) (map snd r)) by (inversion N; subst; inversion H5; auto).
    assert (G : gate_ops n (GTwo KCX (TTuple [TInt (Z.of_nat (snd a)); TInt (Z.of_nat (snd b))])) [sem2 KCX (snd a) (snd b)]).
    { apply cx_gate; auto; apply F; [left|right; left]; auto. }
    exists (sem2 KCX (snd a) (snd b) :: ops). split; [|split].
    + apply (co_cons n _ _ [sem2 KCX (snd a) (snd b)]); auto.
    + change (ladder (a :: b :: r)) with (GTwo KCX (TTuple [TInt (Z.of_nat (snd a)); TInt (Z.of_nat (snd b))]) :: ladder (b :: r)).
      simpl rev. apply gates_app; auto. apply gates_one. auto.
    + intros psi x. change (rev (sem2 KCX (snd a) (snd b) :: ops)) with (rev ops ++ [sem2 KCX (snd a) (snd b)]). rewrite apply_app. change (apply_all (sem2 KCX (snd a) (snd b) :: ops) psi) with (apply_all ops (sem2 KCX (snd a) (snd b) psi)).
      rewrite last_first.
      change (apply_all [sem2 KCX (snd a) (snd b)] ?z) with (sem2 KCX (snd a) (snd b) z). rewrite cx_apply by auto. rewrite H3. rewrite cx_apply by auto. rewrite cxi_cxi by auto. f_equal. f_equal.
      simpl. rewrite zsign_cxi by auto. rewrite cxi_bit, Nat.eqb_refl by auto. destruct (bit x (snd a)), (bit x (snd b)); simpl; ring.
Qed.

(** ** Change of basis *)
Definition bmat (ang : R) (l : letter) : mat2 := match l with LX => mH | LY => mRX ang | LZ => mI end.
Definition bop (ang : R) (w : list pop) (psi : state) : state := fold_left (fun s o => ap1 (bmat ang (fst o)) (snd o) s) w psi.
Lemma basis_ops : forall n ang w, fits n w -> exists ops, circuit_ops n (basis_gates ang w) ops /\ forall psi, apply_all ops psi = bop ang w psi.
Proof.
  induction w as [|[l q] w IH]; intros F.
  - exists []. split; [constructor|auto].
  - destruct IH as [ops [H E]]; [intros o I; apply F; right; auto|]. assert (L : q < n) by (apply (F (l, q)); left; auto).
    destruct l.
    + exists (sem1 KH q :: ops). split; [apply (co_cons n _ _ [sem1 KH q]); auto; apply one_gate; auto|]. intros psi. apply (E (sem1 KH q psi)).
    + exists (sem1 (KRX ang) q :: ops). split; [apply (co_cons n _ _ [sem1 (KRX ang) q]); auto; apply one_gate; auto|]. intros psi. apply (E (sem1 (KRX ang) q psi)).
    + exists ops. split; auto. intros psi. rewrite E. unfold bop. cbn [fold_left fst snd bmat]. rewrite ap1_I. auto.
Qed.
Lemma bop_comm : forall ang w M q psi, ~ In q (map snd w) -> bop ang w (ap1 M q psi) = ap1 M q (bop ang w psi).
Proof.
  induction w as [|[l r] w IH]; intros M q psi H; auto. simpl in *. rewrite (ap1_comm _ _ r q) by tauto. rewrite IH by tauto. auto.
Qed.
Lemma linear_bop : forall ang w, linear (bop ang w).
Proof.
  induction w as [|[l q] w IH]; [split; reflexivity|]. split; intros; simpl.
  - rewrite (lin_add _ (linear_ap1 _ _)). apply (lin_add _ IH).
  - rewrite (lin_scl _ (linear_ap1 _ _)). apply (lin_scl _ IH).
Qed.
Lemma hsq : forall r s, mmul mH mH r s = mI r s.
Proof.
  assert (E := C_inv_sqrt2_sq). assert (H := C_half). intros r s. unfold mmul, mH, mscale, mI, mk2. destruct r, s.
  all: match goal with |- ?l = ?x => match x with
    | C1 => transitivity (RtoC (/ sqrt 2) * RtoC (/ sqrt 2) + RtoC (/ sqrt 2) * RtoC (/ sqrt 2))%C; [ring|rewrite E; auto]
    | C0 => ring end end.
Qed.
Lemma hzh : forall r s, mmul mH (mmul mZ mH) r s = mX r s.
Proof.
  assert (E := C_inv_sqrt2_sq). assert (H := C_half). intros r s. unfold mmul, mH, mscale, mX, mZ, mk2. destruct r, s.
  all: match goal with |- ?l = ?x => match x with
    | C1 => transitivity (RtoC (/ sqrt 2) * RtoC (/ sqrt 2) + RtoC (/ sqrt 2) * RtoC (/ sqrt 2))%C; [ring|rewrite E; auto]
    | C0 => ring end end.
Qed.
Lemma rx_sum : forall a b r s, mmul (mRX a) (mRX b) r s = mRX (a + b) r s.
Proof.
  intros a b r s. unfold mmul, mRX, mk2. replace ((a + b) / 2)%R with (a / 2 + b / 2)%R by field. rewrite cos_plus, sin_plus.
  destruct r, s; ceq.
Qed.
Lemma rx_back : forall r s, mmul (mRX (PI / 2)) (mRX (- (PI / 2))) r s = mI r s.
Proof.
  intros r s. rewrite rx_sum. replace (PI / 2 + - (PI / 2))%R with 0%R by field. unfold mRX, mI, mk2. replace (0 / 2)%R with 0%R by field. rewrite cos_0, sin_0.
  destruct r, s; ceq.
Qed.
Lemma rzr : forall r s, mmul (mRX (PI / 2)) (mmul mZ (mRX (- (PI / 2)))) r s = (- mY r s)%C.
Proof.
  intros r s. unfold mmul, mRX, mZ, mY, mk2. replace (PI / 2 / 2)%R with (PI / 4)%R by field. replace (- (PI / 2) / 2)%R with (- (PI / 4))%R by field.
  rewrite cos_neg, sin_neg, cos_PI4, sin_PI4.
  assert (Q : (1 / sqrt 2 * (1 / sqrt 2) = / 2)%R) by (rewrite <- inv_sqrt2_sq; unfold Rdiv; ring).
  destruct r, s; apply C_ext; simpl; ring_simplify; try lra; replace ((1 / sqrt 2) ^ 2)%R with (/ 2)%R by (rewrite <- Q; ring); lra.
Qed.
Lemma letter_conj : forall l q psi x, ap1 (bmat (PI / 2) l) q (ap1 mZ q (ap1 (bmat (- (PI / 2)) l) q psi)) x =
  ((if letter_eqb l LY then - C1 else C1) * ap1 (lmat l) q psi x)%C.
Proof.
  intros l q psi x. rewrite (ap1_comp mZ), ap1_comp. destruct l; cbn [bmat letter_eqb].
  - rewrite (ap1_ext _ _ q hzh). cbn [lmat]. ring.
  - rewrite (ap1_ext _ (fun r s => (- mY r s)%C) q rzr). cbn [lmat]. unfold ap1. ring.
  - rewrite (ap1_ext _ mZ); [cbn [lmat]; ring|]. intros r s. unfold mmul, mI, mZ, mk2. destruct r, s; ring.
Qed.
Lemma bop_back : forall w psi, NoDup (map snd w) -> bop (PI / 2) w (bop (- (PI / 2)) w psi) = psi.
Proof.
  induction w as [|[l q] w IH]; intros psi N; auto. inversion N; subst. simpl. rewrite <- bop_comm by auto. rewrite IH by auto.
  rewrite ap1_comp. destruct l; cbn [bmat]; rewrite <- (ap1_I q psi) at 2; apply ap1_ext; [apply hsq|apply rx_back|].
  intros r s. unfold mmul, mI, mk2. destruct r, s; ring.
Qed.
Lemma bop_conj : forall w psi x, NoDup (map snd w) -> bop (PI / 2) w (word_op (zword w) (bop (- (PI / 2)) w psi)) x = (sgn (ycount w) * word_op w psi x)%C.
Proof.
  induction w as [|[l q] w IH]; intros psi x N; [change (sgn (ycount [])) with C1; simpl; unfold op_one; ring|]. inversion N as [|? ? Nq Nw]; subst.
  assert (Zq : ~ In q (map snd (zword w))) by (unfold zword; rewrite map_map; auto).
  cbn [zword map word_op fst snd]. fold (zword w). unfold op_mul. change (lmat LZ) with mZ.
  unfold bop at 1 2. cbn [fold_left fst snd]. fold (bop (PI / 2) w). fold (bop (- (PI / 2)) w).
  change (fold_left (fun s o => ap1 (bmat (PI / 2) (fst o)) (snd o) s) w ?z) with (bop (PI / 2) w z).
  change (fold_left (fun s o => ap1 (bmat (- (PI / 2)) (fst o)) (snd o) s) w ?z) with (bop (- (PI / 2)) w z).
  rewrite !bop_comm by auto. rewrite <- word_comm1 by auto. rewrite bop_comm by auto.
  assert (E : bop (PI / 2) w (word_op (zword w) (bop (- (PI / 2)) w psi)) = fun y => (sgn (ycount w) * word_op w psi y)%C) by (apply functional_extensionality; auto).
  rewrite E. rewrite (lin_scl _ (linear_ap1 (bmat (- (PI / 2)) l) q)), (lin_scl _ (linear_ap1 mZ q)), (lin_scl _ (linear_ap1 (bmat (PI / 2) l) q)).
  rewrite letter_conj. unfold ycount. cbn [filter fst]. destruct (letter_eqb l LY); cbn [List.length].
  - change (S (List.length (filter (fun o : letter * nat => letter_eqb (fst o) LY) w))) with (1 + ycount w). rewrite sgn_add. change (sgn 1) with (- C1)%C. fold (ycount w). ring.
  - fold (ycount w). ring.
Qed.
Lemma canonical_NoDup : forall w, canonical w -> NoDup (map snd w). Proof. intros w H. apply sorted_NoDup. exact H. Qed.
Lemma evolution_ops : forall n w c t, w <> [] -> fits n w -> NoDup (map snd w) -> exists ops, circuit_ops n (evolution_gates w c t) ops /\
  forall psi x, apply_all ops psi x = op_exp (c * t) (op_scl (sgn (ycount w)) (word_op w)) psi x.
Proof.
  intros n [|o r] c t Hw F N; [congruence|]. clear Hw. destruct (basis_ops n (- (PI / 2)) _ F) as [o1 [B1 E1]]. destruct (basis_ops n (PI / 2) _ F) as [o2 [B2 E2]].
  destruct (ladder_ops n (c * t) r o F N) as [ol [L1 [L2 E]]].
  assert (Lq : snd (last r o) < n).
  { apply F. clear. revert o. induction r as [|b r IH]; intros o; [left; auto|]. right. rewrite last_first. apply IH. }
  exists (o1 ++ ol ++ [sem1 (KRZ (- 2 * c * t)) (snd (last r o))] ++ rev ol ++ o2). split.
  - unfold evolution_gates. repeat apply gates_app; auto. apply gates_one, one_gate. auto.
  - intros psi x. rewrite !apply_app. rewrite E1, E2. change (apply_all [sem1 (KRZ (- 2 * c * t)) (snd (last r o))] ?z) with (ap1 (mRZ (- 2 * c * t)) (snd (last r o)) z).
    replace (- 2 * c * t)%R with (- 2 * (c * t))%R by ring. set (w := o :: r) in *. set (phi := bop (- (PI / 2)) w psi).
    assert (X : apply_all (rev ol) (ap1 (mRZ (- 2 * (c * t))) (snd (last r o)) (apply_all ol phi)) =
      fun y => (RtoC (cos (c * t)) * phi y + (Ci * RtoC (sin (c * t))) * word_op (zword w) phi y)%C).
    { apply functional_extensionality. intros y. rewrite E, zword_apply. unfold phase_of. ring. }
    rewrite X. rewrite (lin_add _ (linear_bop _ _)), !(lin_scl _ (linear_bop _ _)). unfold phi. rewrite bop_back, bop_conj by auto.
    unfold op_exp, op_add, op_scl, op_one. ring.
Qed.
Lemma evolution_nil : forall c t, evolution_gates [] c t = []. Proof. reflexivity. Qed.
Lemma exp_sign : forall s k U, same_op (op_exp s (op_scl (sgn k) U)) (op_exp (if Nat.even k then s else - s) U).
Proof.
  intros s k U psi x. unfold op_exp, op_add, op_scl, sgn. destruct (Nat.even k); [ring|]. rewrite cos_neg, sin_neg, RtoC_opp. ring.
Qed.
