(** Proofs: QAOA for a diagonal Hamiltonian reaches energies as near to the minimum as wanted *)
From Coq Require Import List Arith ZArith Bool Reals Lia Lra FunctionalExtensionality.
Import ListNotations.
From Verif Require Import Base Cplx Bits SpecQuantum SpecLaw SpecWq ModelPauli SpecPauli SpecVqe SpecVqeLoop SpecDemo SpecEvolve SpecAnneal ProofLawStat ProofDagger ProofPauli ProofPauliExpr ProofEmbed ProofEvolve ProofGap ProofPerron ProofClimb.
From Verif Require ProofFloat ProofAnneal ProofAnnealConv ProofDemo ProofUnitary ProofQaoa ProofQasmOps ProofSympy.
Local Open Scope R_scope.

Definition re (psi : state) (x : nat) : R := Cre (psi x).
Definition im (psi : state) (x : nat) : R := Cim (psi x).
(** the square of the overlap with a real vector *)
Definition ov2 (n : nat) (v : nat -> R) (psi : state) : R := ip n v (re psi) * ip n v (re psi) + ip n v (im psi) * ip n v (im psi).
Lemma norm_parts : forall n psi, norm2 n psi = ip n (re psi) (re psi) + ip n (im psi) (im psi).
Proof. intros n psi. unfold norm2, ip. rewrite <- Rsum_add. apply Rsum_ext. intros x _. unfold re, im, Cnorm2, Cre, Cim. destruct (psi x). cbn. ring. Qed.

(** ** Small steps *)
Lemma uniform : forall X (l : list X) (P : X -> R -> Prop), (forall a, In a l -> exists t, 0 < t /\ forall h, 0 < h < t -> P a h) -> exists t, 0 < t /\ forall h, 0 < h < t -> forall a, In a l -> P a h.
Proof.
  intros X. induction l as [|a l IH]; intros P H.
  - exists 1. split; [lra|]. intros h _ a [].
  - destruct (H a (or_introl eq_refl)) as (t1 & T1 & H1). destruct (IH P (fun b B => H b (or_intror B))) as (t2 & T2 & H2). exists (Rmin t1 t2). split; [apply Rmin_glb_lt; assumption|].
    intros h Hh b [<-|B]; [apply H1|apply H2; [|exact B]]; pose proof (Rmin_l t1 t2); pose proof (Rmin_r t1 t2); lra.
Qed.
Lemma vec_small : forall n psi b, norm2 n psi <= 1 -> In b (values (S n)) -> Rabs (vec psi b) <= 1.
Proof.
  intros n psi b N B. apply values_spec in B. destruct b as [|f b]; [discriminate|]. cbn in B. injection B as B. apply values_spec in B. pose proof (val_below n b B) as V. cbn [vec].
  rewrite norm_parts in N. pose proof (ip_at n (re psi) (val b) V) as Q1. pose proof (ip_at n (im psi) (val b) V) as Q2. pose proof (ip_pos n (re psi)). pose proof (ip_pos n (im psi)). unfold re, im in *.
  rewrite <- (Rabs_pos_eq 1) by lra. apply Rsqr_le_abs_0. unfold Rsqr. destruct f; cbn [part]; lra.
Qed.
Lemma small_steps : forall n Sf K e1, germ n Sf K -> 0 < e1 -> exists h0, 0 < h0 /\ forall h, 0 < h < h0 -> forall psi, norm2 n psi <= 1 -> forall x, (x < 2 ^ n)%nat ->
  Rabs (re (Sf h psi) x - re psi x - h * re (K psi) x) <= e1 * h /\ Rabs (im (Sf h psi) x - im psi x - h * im (K psi) x) <= e1 * h.
Proof.
  intros n Sf K e1 (DK & DS & Gm) He1. set (N := INR (List.length (values (S n)))).
  assert (NP : 0 < N). { apply lt_0_INR. destruct (values (S n)) eqn:E; [|cbn; lia]. pose proof (proj2 (values_spec (S n) (repeat true (S n))) (repeat_length _ _)) as Q. rewrite E in Q. destruct Q. }
  destruct (uniform _ (list_prod (values (S n)) (values (S n))) (fun bc h => Rabs (emb (Sf h) (fst bc) (snd bc) - is (fst bc) (snd bc) - h * emb K (fst bc) (snd bc)) <= e1 / N * h)) as (h0 & H0 & Hu).
  { intros (b & c) I. apply in_prod_iff in I as (B & C). cbn [fst snd]. destruct (Gm b c B C) as (G0 & G1). destruct (G1 (e1 / N) ltac:(apply Rdiv_lt_0_compat; assumption)) as (dl & Hd). exists (pos dl). split; [apply cond_pos|].
    intros h Hh. specialize (Hd h ltac:(lra) ltac:(rewrite Rabs_pos_eq; lra)). rewrite Rplus_0_l, G0 in Hd.
    replace (emb (Sf h) b c - is b c - h * emb K b c) with (((emb (Sf h) b c - is b c) / h - emb K b c) * h) by (field; lra). rewrite Rabs_mult, (Rabs_pos_eq h) by lra. apply Rmult_le_compat_r; lra. }
  exists h0. split; [exact H0|]. intros h Hh psi Np x X.
  assert (Q : forall b, In b (values (S n)) -> Rabs (vec (Sf h psi) b - vec psi b - h * vec (K psi) b) <= e1 * h).
  { intros b B. rewrite (emb_apply n (Sf h) psi b (DS h) B), (emb_apply n K psi b DK B). change (vec psi b) with (vec (op_one psi) b). rewrite (emb_apply n op_one psi b (ProofSympy.det_id n) B).
    rewrite <- Rsum_mul_l, <- !Rsum_sub. apply Rle_trans with (1 := ProofAnnealConv.Rsum_abs _ _ _).
    replace (e1 * h) with (Rsum (fun _ : list bool => e1 / N * h) (values (S n))) by (rewrite ProofAnneal.Rsum_const; fold N; field; lra).
    apply Rsum_mono. intros c C. rewrite (emb_one n b c B C). replace (emb (Sf h) b c * vec psi c - is b c * vec psi c - h * (emb K b c * vec psi c)) with ((emb (Sf h) b c - is b c - h * emb K b c) * vec psi c) by ring.
    rewrite Rabs_mult, <- (Rmult_1_r (e1 / N * h)). apply Rmult_le_compat; try apply Rabs_pos; [|apply (vec_small n); assumption].
    apply (Hu h Hh (b, c)). apply in_prod; assumption. }
  destruct (val_onto n x X) as (c & C & <-). split.
  - apply (Q (false :: c)). apply values_spec. cbn. f_equal. apply values_spec. exact C.
  - apply (Q (true :: c)). apply values_spec. cbn. f_equal. apply values_spec. exact C.
Qed.

(** ** One round *)
Lemma gen_diag : forall e d, same_op (expr_op e) (diag_op d) -> exists c, forall psi x, expr_op (generated (expr_simplify e)) psi x = (RtoC (d x - c) * psi x)%C.
Proof.
  intros e d Sd. assert (G : forall l, Forall (fun t => Forall (fun o => fst o = LZ) (t_ops t) /\ Cim (t_coeff t) = 0) l -> exists c, forall psi x, expr_op (generated l) psi x = (expr_op l psi x - RtoC c * psi x)%C).
  { induction l as [|[w k] l IH]; intros F.
    - exists 0. intros psi x. cbn. unfold RtoC. generalize (psi x). intros []. ceq.
    - inversion F as [|? ? (Z & I) F']; subst. destruct (IH F') as (c & Hc). cbn [t_ops t_coeff] in Z, I. destruct k as [k1 k2]. cbn in I. subst k2. destruct w as [|o w].
      + exists (k1 + c). intros psi x. rewrite generated_cons, Hc. unfold generated. cbn [flat_map app expr_op t_ops t_coeff]. unfold op_add, term_op, op_scl. cbn [t_ops t_coeff word_op]. unfold op_one. generalize (psi x), (expr_op l psi x). intros [] []. unfold RtoC. ceq.
      + exists c. intros psi x. rewrite generated_cons, Hc. replace (generated [Term (o :: w) (k1, 0)]) with [Term (o :: w) (k1, 0)].
        * cbn [expr_op]. unfold op_add. generalize (psi x), (expr_op l psi x), (term_op (Term (o :: w) (k1, 0)) psi x). intros [] [] []. unfold RtoC. ceq.
        * symmetry. apply generated_same. constructor; [|constructor]. cbn [t_ops t_coeff]. split; [discriminate|]. split; [|reflexivity].
          assert (Y : ycount (o :: w) = 0%nat). { clear - Z. induction Z as [|[l q] r E Z IH]; [reflexivity|]. cbn in E. subst l. unfold ycount in *. cbn in *. exact IH. }
          rewrite Y. reflexivity. }
  destruct (G _ (ProofDemo.diag_terms e d Sd)) as (c & Hc). exists c. intros psi x. rewrite Hc, expr_simplify_op, Sd. unfold diag_op. generalize (psi x). intros []. unfold RtoC. ceq.
Qed.
Lemma ap1_x : forall q psi x, ap1 mX q psi x = psi (flip x q).
Proof. intros q psi x. rewrite flip_setb. unfold ap1, mX, mk2. destruct (bit x q); cbn [negb]; generalize (psi (setb x q true)), (psi (setb x q false)); intros [] []; ceq. Qed.
Lemma everywhere_norm : forall n m psi, ProofUnitary.munitary m -> norm2 n (everywhere n m psi) = norm2 n psi.
Proof.
  intros n m psi U. unfold everywhere. assert (G : forall l, (forall q, In q l -> (q < n)%nat) -> forall psi, norm2 n (fold_left (fun psi q => ap1 m q psi) l psi) = norm2 n psi).
  { induction l as [|q l IH]; intros H phi; [reflexivity|]. cbn [fold_left]. rewrite IH by (intros; apply H; right; assumption). apply ProofUnitary.preserves_norm. apply ProofUnitary.preserves_ap1; [apply H; left; reflexivity|exact U]. }
  apply G. intros q I. apply in_seq in I. lia.
Qed.
Section Climb.
Variables (e0 : expr) (d : nat -> R).
Hypothesis HD : same_op (expr_op e0) (diag_op d).
Let e := expr_simplify e0.
Let n := expr_qubits e.
Lemma round_norm : forall psi bg, norm2 n (qaoa_round n e None psi bg) = norm2 n psi.
Proof.
  intros psi bg. unfold qaoa_round, mixed. rewrite everywhere_norm by apply ProofUnitary.mu_rx. destruct (ProofDemo.diag_phase e0 d HD) as (c & Hc). unfold norm2. apply Rsum_ext. intros x _.
  unfold e. rewrite Hc, ProofQasmOps.norm_mul, ProofQasmOps.norm_cis. ring.
Qed.
Lemma e_fits : Forall (fun t => fits n (t_ops t)) e.
Proof.
  assert (Im : Forall (fun t => Cim (t_coeff t) = 0) e) by (eapply Forall_impl; [|exact (ProofDemo.diag_terms e0 d HD)]; intros t (_ & H); exact H).
  pose proof (ProofQaoa.simplified_suits e0 (Z.of_nat n) Im (Z.le_refl _)) as (_ & _ & F). rewrite Nat2Z.id in F. exact F.
Qed.
(** rounds with the angles [h] and the rotation by the eigenvalue *)
Definition turn (mu : R) (psi : state) : state := op_exp mu op_one psi.
Lemma turn_at : forall mu psi x, turn mu psi x = (cis mu * psi x)%C.
Proof. intros. unfold turn, op_exp, op_add, op_scl, op_one, cis. generalize (psi x). intros []. unfold RtoC, Ci. ceq. Qed.
Lemma turn_norm : forall mu psi, norm2 n (turn mu psi) = norm2 n psi.
Proof. intros. unfold norm2. apply Rsum_ext. intros x _. rewrite turn_at, ProofQasmOps.norm_mul, ProofQasmOps.norm_cis. ring. Qed.
Definition step (s mu h : R) (psi : state) : state := turn (mu * h) (qaoa_round n e None psi (2 / PI * h, s / (2 * PI) * h)).
Definition rounds (bgs : list (R * R)) (psi : state) : state := fold_left (qaoa_round n e None) bgs psi.
Lemma step_germ : exists c, forall s mu, exists K, germ n (step s mu) K /\ forall psi x, (x < 2 ^ n)%nat ->
  re (K psi) x = hop n (fun x => d x - c) s (im psi) x - mu * im psi x /\ im (K psi) x = - (hop n (fun x => d x - c) s (re psi) x - mu * re psi x).
Proof.
  destruct (gen_diag e0 d HD) as (c & Hc). exists c. intros s mu. eexists. split; [apply (germ_comp n _ _ _ _ (germ_round n e None (2 / PI) (s / (2 * PI)) e_fits I) (germ_exp n op_one mu (ProofSympy.det_id n)))|].
  intros psi x X. unfold re, im, op_add, op_scl, qaoa_generator, op_one. cbn beta. unfold op_scl, op_add, op_scl. fold e in Hc. rewrite Hc. unfold hop, sum_x.
  rewrite (Csum_ext _ _ (fun q => psi (flip x q))) by (intros; apply ap1_x). pose proof PI_RGT_0 as Pi.
  replace (2 * PI * (s / (2 * PI))) with s by (field; lra). replace (- (PI * (2 / PI) / 2)) with (-1) by (field; lra).
  assert (Sr : Cre (Csum (fun q => psi (flip x q)) (seq 0 n)) = Rsum (fun q => re psi (flip x q)) (seq 0 n)) by (apply (part_Csum _ false)).
  assert (Si : Cim (Csum (fun q => psi (flip x q)) (seq 0 n)) = Rsum (fun q => im psi (flip x q)) (seq 0 n)) by (apply (part_Csum _ true)).
  fold (re psi) (im psi). change (fun q => Cim (psi (flip x q))) with (fun q => im psi (flip x q)). change (fun q => Cre (psi (flip x q))) with (fun q => re psi (flip x q)).
  rewrite <- Sr, <- Si. generalize (Csum (fun q => psi (flip x q)) (seq 0 n)), (psi x). intros [a1 a2] [b1 b2]. unfold RtoC, Ci, Cmul, Cadd, Cre, Cim. cbn. split; ring.
Qed.
Lemma steps_rounds : forall s mu h j psi x, (x < 2 ^ n)%nat -> op_pow (step s mu h) j psi x = (cis (INR j * (mu * h)) * rounds (repeat (2 / PI * h, s / (2 * PI) * h)%R j) psi x)%C.
Proof.
  intros s mu h j psi. set (bg := (2 / PI * h, s / (2 * PI) * h)). set (U := fun psi => qaoa_round n e None psi bg).
  assert (D : determined n U). { destruct (germ_round n e None (2 / PI) (s / (2 * PI)) e_fits I) as (_ & D & _). apply (D h). }
  assert (F : forall j, rounds (repeat bg j) psi = op_pow U j psi) by (intros i; unfold rounds; rewrite fold_repeat; reflexivity).
  induction j as [|j IH]; intros x X; rewrite F in *.
  - cbn [op_pow INR]. rewrite Rmult_0_l. unfold cis. rewrite cos_0, sin_0. generalize (psi x). intros []. ceq.
  - cbn [op_pow]. unfold op_mul. change (step s mu h (op_pow (step s mu h) j psi)) with (turn (mu * h) (U (op_pow (step s mu h) j psi))). rewrite turn_at. rewrite (D (op_pow (step s mu h) j psi) x X), (D (op_pow U j psi) x X).
    rewrite (Csum_ext _ _ (fun k => (cis (INR j * (mu * h)) * (U (ket k) x * op_pow U j psi k))%C)).
    + rewrite Csum_mul_l, Cmul_assoc, cis_add. rewrite S_INR. do 2 f_equal. ring.
    + intros k Ik. apply in_seq in Ik. specialize (IH k ltac:(lia)). rewrite IH. ring.
Qed.
Lemma turned_ov2 : forall u a psi phi, (forall x, (x < 2 ^ n)%nat -> psi x = (cis a * phi x)%C) -> ov2 n u psi = ov2 n u phi.
Proof.
  intros u a psi phi H.
  assert (R1 : ip n u (re psi) = cos a * ip n u (re phi) + - sin a * ip n u (im phi)).
  { rewrite <- !ip_scl, <- ip_add. apply ip_ext; [reflexivity|]. intros x X. unfold re, im. rewrite (H x X). unfold cis. generalize (phi x). intros []. unfold Cmul, Cre, Cim. cbn. ring. }
  assert (R2 : ip n u (im psi) = cos a * ip n u (im phi) + sin a * ip n u (re phi)).
  { rewrite <- !ip_scl, <- ip_add. apply ip_ext; [reflexivity|]. intros x X. unfold re, im. rewrite (H x X). unfold cis. generalize (phi x). intros []. unfold Cmul, Cre, Cim. cbn. ring. }
  unfold ov2. rewrite R1, R2. pose proof (sin2_cos2 a) as Sc. unfold Rsqr in Sc.
  transitivity ((sin a * sin a + cos a * cos a) * (ip n u (re phi) * ip n u (re phi) + ip n u (im phi) * ip n u (im phi))); [ring|]. rewrite Sc. ring.
Qed.
(** a sequence of rounds keeps the overlap with the next vector *)
Lemma stage : exists c, forall s m mu v u psi eta, 0 < m -> top n (fun x => d x - c) s m mu v -> ip n u u = 1 -> norm2 n psi = 1 -> 0 < eta ->
  exists bgs, ip n u v * ip n u v * ov2 n v psi - eta <= ov2 n u (rounds bgs psi).
Proof.
  destruct step_germ as (c & Hc). exists c. intros s m mu v u psi eta M T Uu Np He. destruct (Hc s mu) as (K & GK & HK). clear Hc.
  pose proof (gap_pos n m M) as G. assert (P2 : 0 < 2 ^ n) by (apply pow_lt; lra).
  set (Tm := 24 * 2 ^ n / (gap n m * eta)). assert (TP : 0 < Tm) by (apply Rdiv_lt_0_compat; [lra|apply Rmult_lt_0_compat; assumption]).
  set (e1 := Rmin (gap n m * eta / (12 * 2 ^ n)) (eta / (12 * (Tm * 2 ^ n)))).
  assert (E1 : 0 < e1). { apply Rmin_glb_lt; apply Rdiv_lt_0_compat; try lra; [apply Rmult_lt_0_compat; assumption|]. apply Rmult_lt_0_compat; [lra|apply Rmult_lt_0_compat; assumption]. }
  destruct (small_steps n _ K e1 GK E1) as (h0 & H0 & Hs).
  destruct (archimed (Tm / h0)) as (Ar & _). set (J := Z.to_nat (up (Tm / h0))).
  assert (UP : (0 < up (Tm / h0))%Z). { apply lt_IZR. pose proof (Rdiv_lt_0_compat Tm h0 TP H0). lra. }
  assert (JI : INR J = IZR (up (Tm / h0))) by (unfold J; rewrite INR_IZR_INZ, Z2Nat.id by lia; reflexivity). assert (HJ : (0 < J)%nat) by (unfold J; lia). assert (JP : 0 < INR J) by (apply lt_0_INR; exact HJ).
  set (h := Tm / INR J). assert (Hh : 0 < h) by (apply Rdiv_lt_0_compat; assumption). assert (Jh : INR J * h = Tm) by (unfold h; field; lra).
  assert (Hh0 : h < h0). { unfold h. apply Rmult_lt_reg_r with (INR J); [exact JP|]. replace (Tm / INR J * INR J) with Tm by (field; lra). rewrite JI. apply Rmult_lt_reg_l with (/ h0); [apply Rinv_0_lt_compat; exact H0|].
    replace (/ h0 * (h0 * IZR (up (Tm / h0)))) with (IZR (up (Tm / h0))) by (field; lra). unfold Rdiv in Ar. lra. }
  set (th := fun j => op_pow (step s mu h) j psi).
  assert (Nt : forall j, norm2 n (th j) = 1). { induction j as [|j IH]; [exact Np|]. unfold th in *. cbn [op_pow]. unfold op_mul. unfold step at 1. rewrite turn_norm, round_norm. exact IH. }
  destruct (some_step n (fun x => d x - c) s m mu v u h e1 (fun j => re (th j)) (fun j => im (th j)) J (eta / 4) M T Uu Hh (Rlt_le _ _ E1)) as (j & Lj & Q).
  - intros j x X. destruct (Hs h ltac:(lra) (th j) ltac:(rewrite Nt; lra) x X) as (Q & _). rewrite (proj1 (HK (th j) x X)) in Q. exact Q.
  - intros j x X. destruct (Hs h ltac:(lra) (th j) ltac:(rewrite Nt; lra) x X) as (_ & Q). rewrite (proj2 (HK (th j) x X)) in Q. replace (im (th (S j)) x - im (th j) x + h * (hop n (fun x => d x - c) s (re (th j)) x - mu * re (th j) x)) with
      (im (th (S j)) x - im (th j) x - h * - (hop n (fun x => d x - c) s (re (th j)) x - mu * re (th j) x)) by ring. exact Q.
  - intros j. pose proof (Nt j) as Q. rewrite norm_parts in Q. pose proof (ip_pos n (im (th j))). lra.
  - intros j. pose proof (Nt j) as Q. rewrite norm_parts in Q. pose proof (ip_pos n (re (th j))). lra.
  - exact HJ.
  - rewrite Jh. assert (A1 : e1 <= gap n m * eta / (12 * 2 ^ n)) by apply Rmin_l. assert (A2 : e1 <= eta / (12 * (Tm * 2 ^ n))) by apply Rmin_r.
    assert (B1 : 2 ^ n * (2 / Tm + e1) / gap n m <= eta / 12 + eta / 12).
    { replace (2 ^ n * (2 / Tm + e1) / gap n m) with (2 ^ n * (2 / Tm) / gap n m + 2 ^ n / gap n m * e1) by (field; lra). apply Rplus_le_compat.
      - right. unfold Tm. field. repeat split; lra.
      - apply Rle_trans with (2 ^ n / gap n m * (gap n m * eta / (12 * 2 ^ n))); [apply Rmult_le_compat_l; [left; apply Rdiv_lt_0_compat; assumption|exact A1]|]. right. field. lra. }
    assert (B2 : Tm * (2 ^ n * e1) <= eta / 12).
    { apply Rle_trans with (Tm * (2 ^ n * (eta / (12 * (Tm * 2 ^ n))))); [apply Rmult_le_compat_l; [lra|apply Rmult_le_compat_l; [lra|exact A2]]|]. right. field. lra. }
    lra.
  - exists (repeat (2 / PI * h, s / (2 * PI) * h) j). rewrite <- (turned_ov2 u (INR j * (mu * h)) (th j)) by (intros x X; apply steps_rounds; exact X). unfold ov2 at 2. cbn beta in Q. fold (ov2 n v psi) in Q. unfold ov2. 
    replace (4 * (eta / 4)) with eta in Q by field. exact Q.
Qed.
End Climb.
