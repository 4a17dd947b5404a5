(** Circuits on a backend whose gate methods are close to the operators, in arithmetic with underflow and overflow *)
From Coq Require Import List Arith ZArith Bool Reals Lia Lra Psatz FunctionalExtensionality.
Import ListNotations.
From Verif Require Import Base Cplx Bits ModelTargets ModelGate ModelNumpy ModelFloat SpecTargets SpecQuantum SpecCircuit SpecFloat SpecFinite
  ProofTargets ProofArray ProofNumpy ProofFallback ProofFallback3 ProofUnitary ProofPauli ProofRun ProofFloat ProofFloatOps ProofFloatKern ProofFloatCoef ProofFloatRun
  ProofFinite ProofFiniteCoef.
Local Open Scope R_scope.

(** gates for which a backend may have no method *)
Definition may_lack1 (k : g1) : Prop := match k with KI | KTdg | KSdg | KU2 _ _ => True | _ => False end.
Definition may_lack2 (k : g2) : Prop := match k with KCX | KCZ | KCRX _ | KCRY _ | KCRZ _ | KCPhase _ => False | _ => True end.
Definition may_lack3 (k : g3) : Prop := match k with KCSwap => True | _ => False end.
Definition weight (g : gate) : nat := match g with GThree _ _ => 3 | _ => 1 end.

Section Run.
Context {X : Type}.
Variable n : nat.
Variable rep : X -> state -> Prop.
Variable gap : R.
Hypothesis Hgap : 0 <= gap.
Variable A : arith.
Variable u eta B M : R.
Hypothesis HR : rounds_within A u eta B.
Hypothesis Hu0 : 0 < u.
Hypothesis He : eta <= u.
Hypothesis HM : 3 <= M.
Hypothesis HBM : 128 * M <= B.
Hypothesis Hs : 1000 * u * M <= 1.
Let h := u * M.

Variable unitary : gate -> option (X -> res X).
Variable single : nat -> gate -> X -> res X.
Hypothesis single_eq : forall fuel g s, single fuel g s =
  match unitary g with
  | Some f => f s
  | None => match fuel with O => Err RecursionError | S fuel => let* gs := fl_fallback A g (Z.of_nat n) in for_list gs (single fuel) s end
  end.
Hypothesis lack1 : forall kd tg, unitary (GOne kd tg) = None -> may_lack1 kd.
Hypothesis lack2 : forall kd tg, unitary (GTwo kd tg) = None -> may_lack2 kd.
Hypothesis lack3 : forall kd tg, unitary (GThree kd tg) = None -> may_lack3 kd.
Hypothesis native : forall N g ops f, M <= N <= 2 * M -> gate_ops n g ops -> angles_within N g -> unitary g = Some f ->
  nearly n rep gap f (apply_all ops) (cost (130 * (u * N)) (weight g * List.length ops)).

Lemma vp : 0 <= h. Proof. unfold h. apply Rmult_le_pos; lra. Qed.
Lemma vs : h <= 1 / 1000. Proof. unfold h. lra. Qed.
Lemma vh : u <= h / 3. Proof. unfold h. nra. Qed.
Lemma veta : 0 <= eta <= h / 3.
Proof. pose proof (eta_pos A u eta B HR ltac:(lra)). pose proof vh. lra. Qed.
Let k := 300 * h.
Lemma vk : 0 <= k. Proof. pose proof vp. unfold k. lra. Qed.

(** ** Angles of the fallbacks *)
Definition angw (a b : R) : Prop := Rabs (a - b) <= 4 * h /\ Rabs a <= 2 * M.
Lemma v_div_err : forall x a d q, Rabs (x - a) <= d -> 2 <= q <= B -> Rabs x <= B -> Rabs (f_div A x q - a / q) <= u * (Rabs a + d) / 2 + d / 2 + eta.
Proof.
  intros x a d q H Q LX. pose proof (ab_near _ _ _ H) as N. pose proof (Rinv_0_lt_compat q ltac:(lra)) as IP.
  assert (I : / q <= / 2) by (apply Rinv_le_contravar; lra).
  assert (K : forall y, Rabs (y / q) <= Rabs y / 2).
  { intros y. unfold Rdiv. rewrite Rabs_mult, (Rabs_pos_eq (/ q)) by lra. apply Rmult_le_compat_l; [apply Rabs_pos|auto]. }
  replace (u * (Rabs a + d) / 2 + d / 2 + eta) with ((u * (Rabs a + d) / 2 + eta) + d / 2) by lra.
  apply ab_tri with (x / q).
  - eapply Rle_trans; [apply (w_div _ _ _ _ HR); lra|]. pose proof (K x). apply Rplus_le_compat_r. unfold Rdiv in *. nra.
  - replace (x / q - a / q) with ((x - a) / q) by (field; lra). pose proof (K (x - a)). lra.
Qed.
Lemma vpi : Rabs (f_pi A - PI) <= 4 * u.
Proof. pose proof (w_pi _ _ _ _ HR). pose proof pi4. nra. Qed.
Lemma vpi' : Rabs (- f_pi A - - PI) <= 4 * u. Proof. apply ab_opp, vpi. Qed.
Lemma angw_bound : forall a b, Rabs (a - b) <= 4 * h -> Rabs b <= M -> angw a b.
Proof. intros a b H L. split; auto. pose proof (ab_near _ _ _ H). pose proof vs. lra. Qed.
Lemma vpi_err : forall x p q, Rabs (x - p) <= 4 * u -> Rabs p <= 4 -> 2 <= q <= B -> Rabs (f_div A x q - p / q) <= 4 * h.
Proof.
  intros x p q H P Q. pose proof vh. pose proof vs. pose proof vp. pose proof veta. pose proof (ab_near _ _ _ H). eapply Rle_trans; [apply v_div_err; eauto; lra|].
  assert (u * (Rabs p + 4 * u) <= u * (4 + 1)) by (apply Rmult_le_compat_l; lra). lra.
Qed.
Lemma angw_pi : forall q, 2 <= q <= 4 -> angw (f_div A (f_pi A) q) (PI / q).
Proof.
  intros q Q. apply angw_bound; [apply vpi_err; auto using vpi, pi_abs; lra|]. pose proof (q_abs PI q pi_abs (proj1 Q)). lra.
Qed.
Lemma angw_pi' : forall q, 2 <= q <= 4 -> angw (f_div A (- f_pi A) q) (- PI / q).
Proof.
  intros q Q. apply angw_bound; [apply vpi_err; auto using vpi', pi_abs'; lra|]. pose proof (q_abs (- PI) q pi_abs' (proj1 Q)). lra.
Qed.
Lemma vmul_half : forall x p, Rabs (x - p) <= 4 * u -> Rabs p <= 4 -> angw (f_mul A x (1 / 2)) (p * (1 / 2)).
Proof.
  intros x p H P. pose proof vh. pose proof vs. pose proof vp. pose proof veta. pose proof (ab_near _ _ _ H) as N. apply angw_bound.
  - pose proof (whalf_err A u eta B HR ltac:(lra) ltac:(lra) x 5 ltac:(lra) ltac:(lra)) as E. apply half_dist in H. replace (p * (1 / 2)) with (p / 2) by field.
    eapply Rle_trans; [eapply ab_tri; eauto|]. lra.
  - rewrite Rabs_mult, (Rabs_pos_eq (1 / 2)) by lra. lra.
Qed.
Lemma angw_mul_pi : angw (f_mul A (f_pi A) (1 / 2)) (PI * (1 / 2)). Proof. apply vmul_half; auto using vpi, pi_abs. Qed.
Lemma angw_mul_pi' : angw (f_mul A (- f_pi A) (1 / 2)) (- PI * (1 / 2)). Proof. apply vmul_half; auto using vpi', pi_abs'. Qed.
Lemma angw_half : forall a, Rabs a <= M -> angw (f_div A a 2) (a / 2).
Proof.
  intros a H. pose proof vp. pose proof veta. apply angw_bound.
  - eapply Rle_trans; [apply (v_div_err a a 0 2); [rewrite Rminus_diag_eq, Rabs_R0 by auto; lra|lra|lra]|].
    assert (u * (Rabs a + 0) <= h) by (unfold h; apply Rmult_le_compat_l; lra). lra.
  - pose proof (half_abs _ _ H). lra.
Qed.
Lemma angw_half' : forall a, Rabs a <= M -> angw (f_div A (- a) 2) (- a / 2).
Proof. intros. apply angw_half. rewrite Rabs_Ropp. auto. Qed.
Lemma vdiv_two : forall x a, Rabs (x - a) <= 7 / 3 * h -> Rabs a <= 2 * M -> angw (f_div A x 2) (a / 2).
Proof.
  intros x a H L. pose proof vh. pose proof vs. pose proof vp. pose proof veta. pose proof (ab_near _ _ _ H). apply angw_bound.
  - eapply Rle_trans; [apply (v_div_err x a (7 / 3 * h) 2); auto; lra|].
    assert (u * (Rabs a + 7 / 3 * h) <= u * (2 * M + 7 / 3 * h)) by (apply Rmult_le_compat_l; lra).
    assert (u * (2 * M + 7 / 3 * h) = 2 * h + 7 / 3 * (u * h)) by (unfold h; field). assert (u * h <= 1 / 1000 * h) by (apply Rmult_le_compat_r; lra). lra.
  - pose proof (half_abs _ _ L). lra.
Qed.
Lemma angw_sub : forall a b, Rabs a <= M -> Rabs b <= M -> angw (f_div A (f_sub A a b) 2) ((a - b) / 2).
Proof.
  intros a b Ha Hb. assert (L : Rabs (a - b) <= 2 * M) by (pose proof (ab_minus a b); lra).
  apply vdiv_two; auto. eapply (wsub_range A u eta B M); try eassumption; lra.
Qed.
Lemma angw_add : forall a b, Rabs a <= M -> Rabs b <= M -> angw (f_div A (- f_add A a b) 2) (- (a + b) / 2).
Proof.
  intros a b Ha Hb. assert (L : Rabs (a + b) <= 2 * M) by (pose proof (Rabs_triang a b); lra).
  apply vdiv_two; [|rewrite Rabs_Ropp; auto]. apply ab_opp. eapply (wadd_range A u eta B M); try eassumption; lra.
Qed.
Lemma angw_same : forall a, Rabs a <= M -> angw a a.
Proof. intros. apply angw_bound; auto. rewrite Rminus_diag_eq, Rabs_R0 by auto. pose proof vp. lra. Qed.
Lemma angw_0 : angw 0 0. Proof. apply angw_same. rewrite Rabs_R0. lra. Qed.

(** ** Single gates *)
Lemma single_native : forall fuel g f, unitary g = Some f -> single fuel g = f.
Proof. intros fuel g f H. apply functional_extensionality. intro s. rewrite single_eq, H. reflexivity. Qed.
Lemma has1 : forall kd tg, ~ may_lack1 kd -> exists f, unitary (GOne kd tg) = Some f.
Proof. intros kd tg H. destruct (unitary (GOne kd tg)) as [f|] eqn:E; [eauto|]. apply lack1 in E. tauto. Qed.
Lemma has2 : forall kd tg, ~ may_lack2 kd -> exists f, unitary (GTwo kd tg) = Some f.
Proof. intros kd tg H. destruct (unitary (GTwo kd tg)) as [f|] eqn:E; [eauto|]. apply lack2 in E. tauto. Qed.
Lemma has3 : forall kd tg, ~ may_lack3 kd -> exists f, unitary (GThree kd tg) = Some f.
Proof. intros kd tg H. destruct (unitary (GThree kd tg)) as [f|] eqn:E; [eauto|]. apply lack3 in E. tauto. Qed.
Lemma Forall_1 : forall (T : Type) (P : T -> Prop) a, P a -> Forall P [a]. Proof. intros. apply Forall_cons; auto. Qed.

Lemma v_native : forall fuel kd t f, inside n t -> Forall (fun a => Rabs a <= 2 * M) (angles1 kd) -> unitary (GOne kd (TInt t)) = Some f ->
  nearly n rep gap (single fuel (GOne kd (TInt t))) (sem1 kd (Z.to_nat t)) (260 * h).
Proof.
  intros fuel kd t f Ht W E. rewrite (single_native _ _ _ E).
  pose proof (native (2 * M) (GOne kd (TInt t)) _ f ltac:(lra) (go_one n kd (TInt t) [t] (denotes_int n t Ht) (forall_one n t Ht)) W E) as N.
  eapply nearly_le; [auto|exact N|]. cbn [weight List.length Nat.mul map]. change (1 * 1)%nat with 1%nat. rewrite cost_1. unfold h. lra.
Qed.
Lemma v_near : forall fuel kd kd' t, inside n t -> Forall (fun a => Rabs a <= 2 * M) (angles1 kd) -> ~ may_lack1 kd ->
  (forall r s, n1 (mat1 kd r s - mat1 kd' r s)%C <= 3 * (4 * h)) ->
  nearly n rep gap (single fuel (GOne kd (TInt t))) (sem1 kd' (Z.to_nat t)) (cost k 1).
Proof.
  intros fuel kd kd' t Ht W NL L. destruct (has1 kd (TInt t) NL) as [f E]. rewrite cost_1. pose proof vp. eapply nearly_le; [auto| |].
  - eapply nearly_close; [auto|eapply v_native; eauto|apply close_ap1; [apply inside_lt; auto| |exact L]; lra|lra].
  - unfold k. lra.
Qed.
Lemma v_plain : forall fuel kd t, inside n t -> Forall (fun a => Rabs a <= M) (angles1 kd) -> ~ may_lack1 kd ->
  nearly n rep gap (single fuel (GOne kd (TInt t))) (sem1 kd (Z.to_nat t)) (cost k 1).
Proof.
  intros fuel kd t Ht W NL. eapply v_near; eauto.
  - eapply Forall_impl; [|exact W]. intros a Ha. cbv beta in Ha. lra.
  - intros r s. rewrite n1_self. pose proof vp. lra.
Qed.
Ltac ang1 H := destruct H as [H ?]; apply v_near; [assumption|cbn [angles1]; repeat (apply Forall_cons; [assumption|]); apply Forall_nil|cbn; tauto|].
Lemma v_phase : forall fuel t a b, inside n t -> angw a b -> nearly n rep gap (single fuel (GOne (KPhase a) (TInt t))) (sem1 (KPhase b) (Z.to_nat t)) (cost k 1).
Proof. intros fuel t a b Ht H. ang1 H. apply phase_lip; auto. Qed.
Lemma v_rx : forall fuel t a b, inside n t -> angw a b -> nearly n rep gap (single fuel (GOne (KRX a) (TInt t))) (sem1 (KRX b) (Z.to_nat t)) (cost k 1).
Proof. intros fuel t a b Ht H. ang1 H. apply rx_lip; auto. Qed.
Lemma v_ry : forall fuel t a b, inside n t -> angw a b -> nearly n rep gap (single fuel (GOne (KRY a) (TInt t))) (sem1 (KRY b) (Z.to_nat t)) (cost k 1).
Proof. intros fuel t a b Ht H. ang1 H. apply ry_lip; auto. Qed.
Lemma v_u1 : forall fuel t a b, inside n t -> angw a b -> nearly n rep gap (single fuel (GOne (KU1 a) (TInt t))) (sem1 (KU1 b) (Z.to_nat t)) (cost k 1).
Proof. intros fuel t a b Ht H. ang1 H. apply rz_lip; auto. Qed.
Lemma v_u3 : forall fuel t a b c a' b' c', inside n t -> angw a a' -> angw b b' -> angw c c' ->
  nearly n rep gap (single fuel (GOne (KU3 a b c) (TInt t))) (sem1 (KU3 a' b' c') (Z.to_nat t)) (cost k 1).
Proof.
  intros fuel t a b c a' b' c' Ht [H1 W1] [H2 W2] [H3 W3]. apply v_near; [assumption|cbn [angles1]; repeat (apply Forall_cons; [assumption|]); apply Forall_nil|cbn; tauto|].
  apply u3_lip; auto.
Qed.
Lemma v_h : forall fuel t, inside n t -> nearly n rep gap (single fuel (GOne KH (TInt t))) (sem1 KH (Z.to_nat t)) (cost k 1).
Proof. intros. apply v_plain; [auto|apply Forall_nil|cbn; tauto]. Qed.
Lemma v_s : forall fuel t, inside n t -> nearly n rep gap (single fuel (GOne KS (TInt t))) (sem1 KS (Z.to_nat t)) (cost k 1).
Proof. intros. apply v_plain; [auto|apply Forall_nil|cbn; tauto]. Qed.
Lemma v_rz : forall fuel t a, inside n t -> Rabs a <= M -> nearly n rep gap (single fuel (GOne (KRZ a) (TInt t))) (sem1 (KRZ a) (Z.to_nat t)) (cost k 1).
Proof. intros. apply v_plain; [auto|apply Forall_1; auto|cbn; tauto]. Qed.
Lemma native_k : forall g ops f, gate_ops n g ops -> angles_within M g -> unitary g = Some f -> nearly n rep gap f (apply_all ops) (cost k (weight g * List.length ops)).
Proof.
  intros g ops f H W E. eapply nearly_le; [auto|apply (native M g ops f); auto; lra|]. apply cost_mono. pose proof vp. unfold k, h in *. lra.
Qed.
Lemma v_cx : forall fuel c t, inside n c -> inside n t -> c <> t ->
  nearly n rep gap (single fuel (GTwo KCX (pair_tg c t))) (sem2 KCX (Z.to_nat c) (Z.to_nat t)) (cost k 1).
Proof.
  intros fuel c t Hc Ht Hct. destruct (has2 KCX (pair_tg c t) ltac:(cbn; tauto)) as [f E]. rewrite (single_native _ _ _ E).
  exact (native_k (GTwo KCX (pair_tg c t)) _ f (go_two n KCX (pair_tg c t) [(c, t)] (pair_den n c t Hc Ht Hct) (pair_in n c t Hc Ht)) (Forall_nil _) E).
Qed.

(** ** Lists of gates *)
Lemma vl_nil : forall (f : gate -> X -> res X) m, nearly n rep gap (for_list [] f) (apply_all []) (cost k m).
Proof. intros f m. apply nearly_same; [auto| |apply cost_pos, vk]. intros s psi R. exists s. auto. Qed.
Lemma vl_cons : forall f (g : gate) gs U ops a b, nearly n rep gap (f g) U (cost k a) -> nearly n rep gap (for_list gs f) (apply_all ops) (cost k b) -> good n U -> Forall (good n) ops ->
  nearly n rep gap (for_list (g :: gs) f) (apply_all (U :: ops)) (cost k (a + b)).
Proof. intros. apply (nearly_cost_seq n rep gap Hgap (f g) (for_list gs f) U (apply_all ops)); auto using vk, good_all. Qed.
Lemma vl_app : forall (f : gate -> X -> res X) xs ys U V a b, nearly n rep gap (for_list xs f) U (cost k a) -> nearly n rep gap (for_list ys f) V (cost k b) -> good n U -> good n V ->
  nearly n rep gap (for_list (xs ++ ys) f) (fun psi => V (U psi)) (cost k (a + b)).
Proof.
  intros f xs ys U V a b H1 H2 G1 G2. pose proof (nearly_cost_seq n rep gap Hgap _ _ U V k a b H1 H2 G1 G2 vk) as H.
  replace (for_list (xs ++ ys) f) with (fun s => bind (for_list xs f s) (for_list ys f)); auto.
  apply functional_extensionality. intros s. rewrite for_list_app. reflexivity.
Qed.
Lemma vl_flat : forall T f (gs : T -> list gate) (U : T -> oper) m l,
  (forall a, In a l -> nearly n rep gap (for_list (gs a) f) (U a) (cost k m) /\ good n (U a)) ->
  nearly n rep gap (for_list (flat_map gs l) f) (apply_all (map U l)) (cost k (m * List.length l)).
Proof.
  intros T f gs U m l. induction l as [|a l IH]; intros H; cbn [flat_map map List.length].
  - apply vl_nil.
  - destruct (H a (or_introl eq_refl)) as [H1 G1]. rewrite Nat.mul_succ_r, Nat.add_comm.
    apply (vl_app f (gs a) (flat_map gs l) (U a) (apply_all (map U l))); auto.
    + apply IH. intros. apply H. right; auto.
    + apply good_all, Forall_map, Forall_forall. intros b I. apply H. right; auto.
Qed.

Lemma v1_fallback : forall fuel kd f tg l m, unitary (GOne kd tg) = None -> kd <> KI -> fl_fallback1 A kd = Some f ->
  denotes (Z.of_nat n) tg l -> Forall (inside n) l ->
  (forall t, inside n t -> nearly n rep gap (for_list (f t) (single fuel)) (sem1 kd (Z.to_nat t)) (cost k m)) ->
  nearly n rep gap (single (S fuel) (GOne kd tg)) (apply_all (map (fun t => sem1 kd (Z.to_nat t)) l)) (cost k (m * List.length l)).
Proof.
  intros fuel kd f tg l m E NI Ef D F H s psi. rewrite single_eq, E.
  assert (E2 : fl_fallback A (GOne kd tg) (Z.of_nat n) = Ok (flat_map f l)).
  { apply slicing_iff in D; [|lia]. unfold fl_fallback. rewrite Ef, D. destruct kd; try reflexivity. congruence. }
  rewrite E2. cbn [bind]. rewrite Forall_forall in F.
  apply (vl_flat Z (single fuel) f (fun t => sem1 kd (Z.to_nat t)) m l).
  intros t I. split; [apply H; auto|apply good_sem1; auto].
Qed.
Lemma v2_fallback : forall fuel kd f tg ps m, unitary (GTwo kd tg) = None -> fl_fallback2 A kd = Some f ->
  denotes_pairs (Z.of_nat n) tg ps -> Forall (fun p => inside n (fst p) /\ inside n (snd p)) ps ->
  (forall c t, inside n c -> inside n t -> c <> t -> nearly n rep gap (for_list (f c t) (single fuel)) (sem2 kd (Z.to_nat c) (Z.to_nat t)) (cost k m)) ->
  nearly n rep gap (single (S fuel) (GTwo kd tg)) (apply_all (map (fun p => sem2 kd (Z.to_nat (fst p)) (Z.to_nat (snd p))) ps)) (cost k (m * List.length ps)).
Proof.
  intros fuel kd f tg ps m E Ef D F H s psi. rewrite single_eq, E.
  pose proof (proj2 (pairs_iff (Z.of_nat n) tg ps ltac:(lia)) D) as E1.
  assert (E2 : fl_fallback A (GTwo kd tg) (Z.of_nat n) = Ok (flat_map (fun p => f (fst p) (snd p)) ps)).
  { unfold fl_fallback. rewrite Ef, E1. reflexivity. }
  rewrite E2. cbn [bind]. destruct D as [a [b [la [lb [_ [_ [_ [_ [_ Hd]]]]]]]]]. rewrite Forall_forall in F, Hd.
  apply (vl_flat _ (single fuel) (fun p => f (fst p) (snd p)) (fun p => sem2 kd (Z.to_nat (fst p)) (Z.to_nat (snd p))) m ps).
  intros [c t] I. destruct (F _ I). pose proof (Hd _ I). split; [apply H; auto|apply good_sem2; auto].
Qed.

Ltac gd := first [apply good_sem1; assumption | apply good_sem2; auto; fail | apply good_sem3; auto; fail].
Ltac gds := repeat first [apply Forall_nil | apply Forall_cons; [gd|]].
Ltac step a b t := eapply (vl_cons _ _ _ _ _ a b); [t| |gd|gds].
Ltac final t := eapply (vl_cons _ _ _ _ _ 1 0); [t|apply vl_nil|gd|gds].

Lemma l_sdg : forall fuel t, inside n t -> nearly n rep gap (for_list [GOne (KPhase (f_div A (- f_pi A) 2)) (TInt t)] (single fuel)) (sem1 KSdg (Z.to_nat t)) (cost k 1).
Proof.
  intros fuel t Ht. eapply nearly_ext; [final ltac:(apply v_phase with (b := - PI / 2); auto; apply angw_pi'; lra)|]. intros psi. apply fb_sdg.
Qed.
Lemma v_sdg : forall fuel t, inside n t -> nearly n rep gap (single (S fuel) (GOne KSdg (TInt t))) (sem1 KSdg (Z.to_nat t)) (cost k 1).
Proof.
  intros fuel t Ht. destruct (unitary (GOne KSdg (TInt t))) as [f|] eqn:E.
  - rewrite (single_native _ _ _ E). exact (native_k _ _ f (go_one n KSdg (TInt t) [t] (denotes_int n t Ht) (forall_one n t Ht)) (Forall_nil _) E).
  - apply (v1_fallback fuel KSdg _ (TInt t) [t] 1 E ltac:(discriminate) eq_refl (denotes_int n t Ht) (forall_one n t Ht)). intros. apply l_sdg; auto.
Qed.
Lemma vl_rzz : forall fuel c t a, inside n c -> inside n t -> c <> t -> Rabs a <= M ->
  nearly n rep gap (for_list [GTwo KCX (pair_tg c t); GOne (KRZ a) (TInt t); GTwo KCX (pair_tg c t)] (single fuel)) (sem2 (KRZZ a) (Z.to_nat c) (Z.to_nat t)) (cost k 3).
Proof.
  intros fuel c t a Hc Ht Hct Ha. eapply nearly_ext; [|intros psi; apply fb_rzz; unfold inside in *; lia].
  step 1%nat 2%nat ltac:(apply v_cx; auto). step 1%nat 1%nat ltac:(apply v_rz; auto). final ltac:(apply v_cx; auto).
Qed.
Lemma v_rzz : forall fuel c t a, inside n c -> inside n t -> c <> t -> Rabs a <= M ->
  nearly n rep gap (single (S fuel) (GTwo (KRZZ a) (pair_tg c t))) (sem2 (KRZZ a) (Z.to_nat c) (Z.to_nat t)) (cost k 3).
Proof.
  intros fuel c t a Hc Ht Hct Ha. destruct (unitary (GTwo (KRZZ a) (pair_tg c t))) as [f|] eqn:E.
  - rewrite (single_native _ _ _ E). eapply nearly_cost_le; [auto| |apply vk|].
    + exact (native_k _ _ f (go_two n (KRZZ a) (pair_tg c t) [(c, t)] (pair_den n c t Hc Ht Hct) (pair_in n c t Hc Ht)) (Forall_1 R (fun x => Rabs x <= M) a Ha) E).
    + cbn. lia.
  - apply (v2_fallback fuel (KRZZ a) _ (pair_tg c t) [(c, t)] 3 E eq_refl (pair_den n c t Hc Ht Hct) (pair_in n c t Hc Ht)). intros. apply vl_rzz; auto.
Qed.
Lemma vl_cu3 : forall fuel c t th p l, inside n c -> inside n t -> c <> t -> Rabs th <= M -> Rabs p <= M -> Rabs l <= M ->
  nearly n rep gap (for_list [GOne (KU1 (f_div A (f_sub A l p) 2)) (TInt t); GTwo KCX (pair_tg c t);
    GOne (KU3 (f_div A (- th) 2) 0 (f_div A (- f_add A p l) 2)) (TInt t); GTwo KCX (pair_tg c t); GOne (KU3 (f_div A th 2) p 0) (TInt t)] (single fuel))
    (sem2 (KCU3 th p l) (Z.to_nat c) (Z.to_nat t)) (cost k 5).
Proof.
  intros fuel c t th p l Hc Ht Hct H1 H2 H3. eapply nearly_ext; [|intros psi; apply fb_cu3; unfold inside in *; lia].
  step 1%nat 4%nat ltac:(apply v_u1; [auto|apply angw_sub; auto]). step 1%nat 3%nat ltac:(apply v_cx; auto).
  step 1%nat 2%nat ltac:(apply v_u3; [auto|apply angw_half'; auto|apply angw_0|apply angw_add; auto]). step 1%nat 1%nat ltac:(apply v_cx; auto).
  final ltac:(apply v_u3; [auto|apply angw_half; auto|apply angw_same; auto|apply angw_0]).
Qed.
Lemma v_cu3 : forall fuel c t th p l, inside n c -> inside n t -> c <> t -> Rabs th <= M -> Rabs p <= M -> Rabs l <= M ->
  nearly n rep gap (single (S fuel) (GTwo (KCU3 th p l) (pair_tg c t))) (sem2 (KCU3 th p l) (Z.to_nat c) (Z.to_nat t)) (cost k 5).
Proof.
  intros fuel c t th p l Hc Ht Hct H1 H2 H3. destruct (unitary (GTwo (KCU3 th p l) (pair_tg c t))) as [f|] eqn:E.
  - rewrite (single_native _ _ _ E). eapply nearly_cost_le; [auto| |apply vk|].
    + refine (native_k _ _ f (go_two n (KCU3 th p l) (pair_tg c t) [(c, t)] (pair_den n c t Hc Ht Hct) (pair_in n c t Hc Ht)) _ E).
      repeat (apply Forall_cons; [assumption|]). apply Forall_nil.
    + cbn. lia.
  - apply (v2_fallback fuel (KCU3 th p l) _ (pair_tg c t) [(c, t)] 5 E eq_refl (pair_den n c t Hc Ht Hct) (pair_in n c t Hc Ht)). intros. apply vl_cu3; auto.
Qed.

Ltac fb1 m := eapply nearly_cost_le; [exact Hgap|eapply (v1_fallback _ _ _ _ _ m); try eassumption; try reflexivity; try discriminate; intros t Ht|apply vk|nia].
Ltac fb2 m := eapply nearly_cost_le; [exact Hgap|eapply (v2_fallback _ _ _ _ _ m); try eassumption; try reflexivity; intros c t Hc Ht Hct|apply vk|nia].

Lemma gate_nearly : forall fuel g ops, gate_ops n g ops -> angles_within M g -> nearly n rep gap (single (S (S fuel)) g) (apply_all ops) (cost k (7 * List.length ops)).
Proof.
  intros fuel g ops H W. pose proof vp as HP. destruct (unitary g) as [f|] eqn:E.
  { rewrite (single_native _ _ _ E). eapply nearly_cost_le; [auto|eapply native_k; eauto|apply vk|]. apply Nat.mul_le_mono_r. destruct g; cbn; lia. }
  destruct H as [kd tg l D F|kd tg ps D F|kd a b c Ha Hb Hc Hab Hac Hbc]; unfold angles_within in W; cbn [angles] in W; rewrite ?map_length.
  - pose proof (lack1 _ _ E) as LK.
    destruct kd; try destruct LK; cbn [angles1] in W; repeat match goal with W : Forall _ (_ :: _) |- _ => apply Forall_cons_iff in W; destruct W as [? W] end.
    + apply nearly_same; [auto| |apply cost_pos, vk]. intros s psi R. exists s. split; [rewrite single_eq, E; reflexivity|].
      replace (apply_all (map (fun t => sem1 KI (Z.to_nat t)) l) psi) with psi; auto.
      clear. induction l; simpl; auto. rewrite apply_all_cons. unfold sem1 at 2. simpl mat1. rewrite ap1_I. auto.
    + fb1 1%nat. eapply nearly_ext; [final ltac:(apply v_phase with (b := - PI / 4); auto; apply angw_pi'; lra)|]. intros psi. apply fb_tdg.
    + fb1 1%nat. apply l_sdg; auto.
    + fb1 1%nat. eapply nearly_ext; [final ltac:(apply v_u3 with (a' := PI / 2) (b' := phi) (c' := lambd); [auto|apply angw_pi; lra|apply angw_same; auto|apply angw_same; auto])|].
      reflexivity.
  - pose proof (lack2 _ _ E) as LK.
    destruct kd; try destruct LK; cbn [angles2] in W; repeat match goal with W : Forall _ (_ :: _) |- _ => apply Forall_cons_iff in W; destruct W as [? W] end.
    + (* CY *) fb2 3%nat. eapply nearly_ext; [|intros psi; apply fb_cy; unfold inside in *; lia].
      step 1%nat 2%nat ltac:(apply v_sdg; auto). step 1%nat 1%nat ltac:(apply v_cx; auto). final ltac:(apply v_s; auto).
    + (* CH *) fb2 3%nat. eapply nearly_ext; [|intros psi; apply fb_ch; unfold inside in *; lia].
      step 1%nat 2%nat ltac:(apply v_ry; [auto|apply angw_pi; lra]). step 1%nat 1%nat ltac:(apply v_cx; auto). final ltac:(apply v_ry; [auto|apply angw_pi'; lra]).
    + (* RXX *) fb2 7%nat. eapply nearly_ext; [|intros psi; apply fb_rxx; unfold inside in *; lia].
      step 1%nat 6%nat ltac:(apply v_h; auto). step 1%nat 5%nat ltac:(apply v_h; auto). step 3%nat 2%nat ltac:(apply v_rzz; auto).
      step 1%nat 1%nat ltac:(apply v_h; auto). final ltac:(apply v_h; auto).
    + (* RYY *) fb2 7%nat. eapply nearly_ext; [|intros psi; apply fb_ryy; unfold inside in *; lia].
      step 1%nat 6%nat ltac:(apply v_rx; [auto|apply angw_mul_pi']). step 1%nat 5%nat ltac:(apply v_rx; [auto|apply angw_mul_pi']). step 3%nat 2%nat ltac:(apply v_rzz; auto).
      step 1%nat 1%nat ltac:(apply v_rx; [auto|apply angw_mul_pi]). final ltac:(apply v_rx; [auto|apply angw_mul_pi]).
    + (* RZZ *) fb2 3%nat. apply vl_rzz; auto.
    + (* Swap *) fb2 3%nat. eapply nearly_ext; [|intros psi; apply fb_swap; unfold inside in *; lia].
      step 1%nat 2%nat ltac:(apply v_cx; auto). step 1%nat 1%nat ltac:(apply v_cx; auto). final ltac:(apply v_cx; auto).
    + (* CU1 *) fb2 5%nat. eapply nearly_ext; [|intros psi; apply fb_cu1; unfold inside in *; lia].
      step 1%nat 4%nat ltac:(apply v_u1; [auto|apply angw_half; auto]). step 1%nat 3%nat ltac:(apply v_cx; auto).
      step 1%nat 2%nat ltac:(apply v_u1; [auto|apply angw_half'; auto]). step 1%nat 1%nat ltac:(apply v_cx; auto). final ltac:(apply v_u1; [auto|apply angw_half; auto]).
    + (* CU2 *) fb2 6%nat. destruct (angw_pi 2 ltac:(lra)) as [AE _].
      assert (AM : Rabs (f_div A (f_pi A) 2) <= M).
      { pose proof (ab_near _ _ _ AE). pose proof (q_abs PI 2 pi_abs ltac:(lra)). pose proof vs. lra. }
      assert (CL : close n (sem2 (KCU3 (f_div A (f_pi A) 2) phi lambd) (Z.to_nat c) (Z.to_nat t)) (sem2 (KCU2 phi lambd) (Z.to_nat c) (Z.to_nat t)) (3 * (3 * (4 * h)))).
      { apply close_ctl; [apply inside_lt; auto|lra|]. apply u3_lip; auto; rewrite Rminus_diag_eq, Rabs_R0 by auto; lra. }
      eapply nearly_le; [auto| |].
      * eapply nearly_close; [auto| |exact CL|lra].
        apply (vl_cons _ _ _ (sem2 (KCU3 (f_div A (f_pi A) 2) phi lambd) (Z.to_nat c) (Z.to_nat t)) [] 5 0); [apply v_cu3; auto|apply vl_nil|gd|gds].
      * unfold cost. pose proof (pow_R1_Rle (1 + k) 5 ltac:(pose proof vk; lra)) as P1. pose proof vk.
        replace ((1 + k) ^ 6) with ((1 + k) ^ 5 * (1 + k)) by ring. cbn [Nat.add].
        assert (3 * (3 * (4 * h)) <= k) by (unfold k; lra). nra.
    + (* CU3 *) fb2 5%nat. apply vl_cu3; auto.
  - pose proof (lack3 _ _ E) as LK. destruct kd; try destruct LK.
    assert (CCX : forall fuel, nearly n rep gap (single fuel (GThree KCCX (TTuple [TInt a; TInt b; TInt c]))) (sem3 KCCX (Z.to_nat a) (Z.to_nat b) (Z.to_nat c)) (cost k 3)).
    { intros f0. destruct (has3 KCCX (TTuple [TInt a; TInt b; TInt c]) ltac:(cbn; tauto)) as [f Ef]. rewrite (single_native _ _ _ Ef).
      exact (native_k _ _ f (go_three n KCCX a b c Ha Hb Hc Hab Hac Hbc) (Forall_nil _) Ef). }
    eapply nearly_cost_le with (a := 5%nat); [auto| |apply vk|cbn [List.length]; lia].
    eapply nearly_ext; [|intros psi; change (apply_all [sem3 KCSwap (Z.to_nat a) (Z.to_nat b) (Z.to_nat c)] psi) with (sem3 KCSwap (Z.to_nat a) (Z.to_nat b) (Z.to_nat c) psi);
        apply fb_cswap; unfold inside in *; lia].
    replace (single (S (S fuel)) (GThree KCSwap (TTuple [TInt a; TInt b; TInt c])))
      with (for_list [GTwo KCX (pair_tg c b); GThree KCCX (TTuple [TInt a; TInt b; TInt c]); GTwo KCX (pair_tg c b)] (single (S fuel)))
      by (apply functional_extensionality; intro s; rewrite (single_eq (S (S fuel))), E; reflexivity).
    step 1%nat 4%nat ltac:(apply v_cx; auto). step 3%nat 1%nat ltac:(apply CCX). final ltac:(apply v_cx; auto).
Qed.

Lemma circuit_nearly : forall fuel gs ops, circuit_ops n gs ops -> Forall (angles_within M) gs ->
  nearly n rep gap (for_list gs (single (S (S fuel)))) (apply_all ops) (cost k (7 * List.length ops)) /\ Forall (good n) ops.
Proof.
  intros fuel gs ops H. induction H as [|g gs o os Hg Hgs IH]; intros W.
  - split; [apply vl_nil|constructor].
  - apply Forall_cons_iff in W. destruct W as [W1 W2]. destruct (IH W2) as [I1 I2]. pose proof (good_gate n g o Hg) as G.
    split; [|apply Forall_app; auto]. rewrite app_length, Nat.mul_add_distr_l.
    eapply nearly_ext; [apply (nearly_cost_seq n rep gap Hgap (single (S (S fuel)) g) (for_list gs (single (S (S fuel)))) (apply_all o) (apply_all os)); auto using vk, good_all|].
    + apply gate_nearly; auto.
    + intros psi. symmetry. apply apply_all_app.
Qed.
End Run.
