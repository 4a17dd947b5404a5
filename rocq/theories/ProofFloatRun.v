(** Circuits of the numpy backend in rounded arithmetic *)
From Coq Require Import List Arith ZArith Bool Reals Lia Lra Psatz FunctionalExtensionality.
Import ListNotations.
From Verif Require Import Base Cplx Bits ModelTargets ModelGate ModelNumpy ModelFloat SpecTargets SpecQuantum SpecCircuit SpecFloat
  ProofTargets ProofArray ProofNumpy ProofFallback ProofFallback3 ProofUnitary ProofPauli ProofRun ProofFloat ProofFloatOps ProofFloatKern ProofFloatCoef.
Local Open Scope R_scope.

Section Run.
Variable A : arith.
Variable u M : R.
Hypothesis HR : rounds A u.
Hypothesis HM : 3 <= M.
Hypothesis Hs : 1000 * u * M <= 1.
Let h := u * M.

Lemma up : 0 <= u. Proof. apply (u_pos A u HR). Qed.
Lemma hp : 0 <= h. Proof. pose proof up. unfold h. apply Rmult_le_pos; lra. Qed.
Lemma hs : h <= 1 / 1000. Proof. unfold h. lra. Qed.
Lemma uh : u <= h / 3. Proof. pose proof up. unfold h. nra. Qed.
Let k := 256 * h.
Lemma kp : 0 <= k. Proof. pose proof hp. unfold k. lra. Qed.

(** gates with angles up to [2 M] *)
Lemma wide : u * (2 * M) <= 1 / 400. Proof. pose proof hs. unfold h in *. lra. Qed.
Lemma wide_k : 0 <= 100 * (u * (2 * M)) <= k. Proof. pose proof hp. unfold k, h in *. lra. Qed.

(** ** Angles of the fallbacks *)
Definition ang (a b : R) : Prop := Rabs (a - b) <= 3 * h /\ Rabs a <= 2 * M.
Lemma f_div_err : forall x a d q, Rabs (x - a) <= d -> 2 <= q -> Rabs (f_div A x q - a / q) <= u * (Rabs a + d) / 2 + d / 2.
Proof.
  intros x a d q H Q. pose proof up. pose proof (ab_near _ _ _ H) as N. pose proof (Rinv_0_lt_compat q ltac:(lra)) as IP.
  assert (I : / q <= / 2) by (apply Rinv_le_contravar; lra).
  assert (K : forall y, Rabs (y / q) <= Rabs y / 2).
  { intros y. unfold Rdiv. rewrite Rabs_mult, (Rabs_pos_eq (/ q)) by lra. apply Rmult_le_compat_l; [apply Rabs_pos|auto]. }
  apply ab_tri with (x / q).
  - eapply Rle_trans; [apply (r_div A u HR); lra|]. pose proof (K x). unfold Rdiv in *. nra.
  - replace (x / q - a / q) with ((x - a) / q) by (field; lra). pose proof (K (x - a)). lra.
Qed.
Lemma pi4 : 0 < PI <= 4. Proof. split; [apply PI_RGT_0|apply PI_4]. Qed.
Lemma fpi : Rabs (f_pi A - PI) <= 4 * u.
Proof. pose proof (r_pi A u HR). pose proof pi4. pose proof up. nra. Qed.
Lemma fpi' : Rabs (- f_pi A - - PI) <= 4 * u. Proof. apply ab_opp, fpi. Qed.
Lemma ang_bound : forall a b, Rabs (a - b) <= 3 * h -> Rabs b <= M -> ang a b.
Proof. intros a b H B. split; auto. pose proof (ab_near _ _ _ H). pose proof hs. lra. Qed.
Lemma pi_err : forall x p q, Rabs (x - p) <= 4 * u -> Rabs p <= 4 -> 2 <= q -> Rabs (f_div A x q - p / q) <= 3 * h.
Proof.
  intros x p q H P Q. pose proof up. pose proof uh. pose proof hs. pose proof hp. eapply Rle_trans; [apply f_div_err; eauto|].
  assert (u * (Rabs p + 4 * u) <= u * (4 + 1)) by (apply Rmult_le_compat_l; lra). lra.
Qed.
Lemma pi_abs : Rabs PI <= 4. Proof. pose proof pi4. rewrite Rabs_pos_eq; lra. Qed.
Lemma pi_abs' : Rabs (- PI) <= 4. Proof. rewrite Rabs_Ropp. apply pi_abs. Qed.
Lemma q_abs : forall p q, Rabs p <= 4 -> 2 <= q -> Rabs (p / q) <= 2.
Proof.
  intros p q P Q. unfold Rdiv. pose proof (Rinv_0_lt_compat q ltac:(lra)) as IP. assert (I : / q <= / 2) by (apply Rinv_le_contravar; lra).
  rewrite Rabs_mult, (Rabs_pos_eq (/ q)) by lra. pose proof (Rabs_pos p). nra.
Qed.
Lemma ang_pi : forall q, 2 <= q -> ang (f_div A (f_pi A) q) (PI / q).
Proof.
  intros q Q. apply ang_bound; [apply pi_err; auto using fpi, pi_abs|]. pose proof (q_abs PI q pi_abs Q). lra.
Qed.
Lemma ang_pi' : forall q, 2 <= q -> ang (f_div A (- f_pi A) q) (- PI / q).
Proof.
  intros q Q. apply ang_bound; [apply pi_err; auto using fpi', pi_abs'|]. pose proof (q_abs (- PI) q pi_abs' Q). lra.
Qed.
Lemma mul_half : forall x p, Rabs (x - p) <= 4 * u -> Rabs p <= 4 -> ang (f_mul A x (1 / 2)) (p * (1 / 2)).
Proof.
  intros x p H P. pose proof up. pose proof uh. pose proof hs. pose proof hp. pose proof (ab_near _ _ _ H) as N. apply ang_bound.
  - pose proof (half_err A u HR x 5 ltac:(lra)) as E. apply half_dist in H. replace (p * (1 / 2)) with (p / 2) by field.
    eapply Rle_trans; [eapply ab_tri; eauto|]. lra.
  - rewrite Rabs_mult, (Rabs_pos_eq (1 / 2)) by lra. lra.
Qed.
Lemma ang_mul_pi : ang (f_mul A (f_pi A) (1 / 2)) (PI * (1 / 2)). Proof. apply mul_half; auto using fpi, pi_abs. Qed.
Lemma ang_mul_pi' : ang (f_mul A (- f_pi A) (1 / 2)) (- PI * (1 / 2)). Proof. apply mul_half; auto using fpi', pi_abs'. Qed.
Lemma half_abs : forall a B, Rabs a <= B -> Rabs (a / 2) <= B / 2.
Proof. intros. unfold Rdiv. rewrite Rabs_mult, (Rabs_pos_eq (/ 2)) by lra. lra. Qed.
Lemma ang_half : forall a, Rabs a <= M -> ang (f_div A a 2) (a / 2).
Proof.
  intros a H. pose proof up. pose proof hp. apply ang_bound.
  - eapply Rle_trans; [apply (f_div_err a a 0 2); [rewrite Rminus_diag_eq, Rabs_R0 by auto; lra|lra]|].
    assert (u * (Rabs a + 0) <= h) by (unfold h; apply Rmult_le_compat_l; lra). lra.
  - pose proof (half_abs _ _ H). lra.
Qed.
Lemma ang_half' : forall a, Rabs a <= M -> ang (f_div A (- a) 2) (- a / 2).
Proof. intros. apply ang_half. rewrite Rabs_Ropp. auto. Qed.
Lemma div_two : forall x a, Rabs (x - a) <= 2 * h -> Rabs a <= 2 * M -> ang (f_div A x 2) (a / 2).
Proof.
  intros x a H B. pose proof up. pose proof uh. pose proof hs. pose proof hp. apply ang_bound.
  - eapply Rle_trans; [apply (f_div_err x a (2 * h) 2); auto; lra|].
    assert (u * (Rabs a + 2 * h) <= u * (2 * M + 2 * h)) by (apply Rmult_le_compat_l; lra).
    assert (u * (2 * M + 2 * h) = 2 * h + 2 * (u * h)) by (unfold h; ring). assert (u * h <= h / 1000) by nra. lra.
  - pose proof (half_abs _ _ B). lra.
Qed.
Lemma ang_sub : forall a b, Rabs a <= M -> Rabs b <= M -> ang (f_div A (f_sub A a b) 2) ((a - b) / 2).
Proof.
  intros a b Ha Hb. pose proof up. assert (B : Rabs (a - b) <= 2 * M) by (pose proof (ab_minus a b); lra).
  apply div_two; auto. eapply Rle_trans; [apply (r_sub A u HR)|]. unfold h. nra.
Qed.
Lemma ang_add : forall a b, Rabs a <= M -> Rabs b <= M -> ang (f_div A (- f_add A a b) 2) (- (a + b) / 2).
Proof.
  intros a b Ha Hb. pose proof up. assert (B : Rabs (a + b) <= 2 * M) by (pose proof (Rabs_triang a b); lra).
  apply div_two; [|rewrite Rabs_Ropp; auto]. apply ab_opp. eapply Rle_trans; [apply (r_add A u HR)|]. unfold h. nra.
Qed.
Lemma ang_same : forall a, Rabs a <= M -> ang a a.
Proof. intros. apply ang_bound; auto. rewrite Rminus_diag_eq, Rabs_R0 by auto. pose proof hp. lra. Qed.
Lemma ang_0 : ang 0 0. Proof. apply ang_same. rewrite Rabs_R0. lra. Qed.

(** ** Single gates *)
Lemma fl_single_native : forall fuel n g f, fl_unitary A g n = Some f -> fl_single A fuel n g = f.
Proof. intros fuel n g f H. apply functional_extensionality. intro s. destruct fuel; cbn [fl_single]; rewrite H; reflexivity. Qed.

Lemma one_native : forall fuel n kd t f, inside n t -> Forall (fun a => Rabs a <= 2 * M) (angles1 kd) -> fl_unitary A (GOne kd (TInt t)) n = Some f ->
  approx n (fl_single A fuel n (GOne kd (TInt t))) (sem1 kd (Z.to_nat t)) (200 * h).
Proof.
  intros fuel n kd t f Ht W E. rewrite (fl_single_native _ _ _ _ E). pose proof HM.
  pose proof (native1 A u (2 * M) HR ltac:(lra) wide n kd (TInt t) [t] f (denotes_int n t Ht) (Forall_cons t Ht (Forall_nil _)) W E) as N.
  eapply approx_le; [exact N|]. cbn [List.length Nat.mul]. rewrite cost_1. unfold h. lra.
Qed.
Lemma one_near : forall fuel n kd kd' t f, inside n t -> Forall (fun a => Rabs a <= 2 * M) (angles1 kd) -> fl_unitary A (GOne kd (TInt t)) n = Some f ->
  (forall r s, n1 (mat1 kd r s - mat1 kd' r s)%C <= 3 * (3 * h)) ->
  approx n (fl_single A fuel n (GOne kd (TInt t))) (sem1 kd' (Z.to_nat t)) (cost k 1).
Proof.
  intros fuel n kd kd' t f Ht W E L. rewrite cost_1. pose proof hp. eapply approx_le.
  - eapply approx_close; [eapply one_native; eauto|]. apply close_ap1; [apply inside_lt; auto| |exact L]. lra.
  - unfold k. lra.
Qed.
Lemma one_plain : forall fuel n kd t f, inside n t -> Forall (fun a => Rabs a <= M) (angles1 kd) -> fl_unitary A (GOne kd (TInt t)) n = Some f ->
  approx n (fl_single A fuel n (GOne kd (TInt t))) (sem1 kd (Z.to_nat t)) (cost k 1).
Proof.
  intros fuel n kd t f Ht W E. eapply one_near; eauto.
  - eapply Forall_impl; [|exact W]. intros a Ha. cbv beta in Ha. pose proof HM. lra.
  - intros r s. rewrite n1_self. pose proof hp. lra.
Qed.
Ltac ang1 H := destruct H as [H ?]; eapply one_near; [assumption|cbn [angles1]; repeat (apply Forall_cons; [assumption|]); apply Forall_nil|reflexivity|].
Lemma s_phase : forall fuel n t a b, inside n t -> ang a b -> approx n (fl_single A fuel n (GOne (KPhase a) (TInt t))) (sem1 (KPhase b) (Z.to_nat t)) (cost k 1).
Proof. intros fuel n t a b Ht H. ang1 H. apply phase_lip; auto. Qed.
Lemma s_rx : forall fuel n t a b, inside n t -> ang a b -> approx n (fl_single A fuel n (GOne (KRX a) (TInt t))) (sem1 (KRX b) (Z.to_nat t)) (cost k 1).
Proof. intros fuel n t a b Ht H. ang1 H. apply rx_lip; auto. Qed.
Lemma s_ry : forall fuel n t a b, inside n t -> ang a b -> approx n (fl_single A fuel n (GOne (KRY a) (TInt t))) (sem1 (KRY b) (Z.to_nat t)) (cost k 1).
Proof. intros fuel n t a b Ht H. ang1 H. apply ry_lip; auto. Qed.
Lemma s_u1 : forall fuel n t a b, inside n t -> ang a b -> approx n (fl_single A fuel n (GOne (KU1 a) (TInt t))) (sem1 (KU1 b) (Z.to_nat t)) (cost k 1).
Proof. intros fuel n t a b Ht H. ang1 H. apply rz_lip; auto. Qed.
Lemma s_u3 : forall fuel n t a b c a' b' c', inside n t -> ang a a' -> ang b b' -> ang c c' ->
  approx n (fl_single A fuel n (GOne (KU3 a b c) (TInt t))) (sem1 (KU3 a' b' c') (Z.to_nat t)) (cost k 1).
Proof.
  intros fuel n t a b c a' b' c' Ht [H1 W1] [H2 W2] [H3 W3]. eapply one_near; [assumption|cbn [angles1]; repeat (apply Forall_cons; [assumption|]); apply Forall_nil|reflexivity|].
  apply u3_lip; auto.
Qed.
Lemma s_h : forall fuel n t, inside n t -> approx n (fl_single A fuel n (GOne KH (TInt t))) (sem1 KH (Z.to_nat t)) (cost k 1).
Proof. intros. eapply one_plain; auto; [apply Forall_nil|reflexivity]. Qed.
Lemma s_s : forall fuel n t, inside n t -> approx n (fl_single A fuel n (GOne KS (TInt t))) (sem1 KS (Z.to_nat t)) (cost k 1).
Proof. intros. eapply one_plain; auto; [apply Forall_nil|reflexivity]. Qed.
Lemma s_rz : forall fuel n t a, inside n t -> Rabs a <= M -> approx n (fl_single A fuel n (GOne (KRZ a) (TInt t))) (sem1 (KRZ a) (Z.to_nat t)) (cost k 1).
Proof. intros. eapply one_plain; auto; [apply Forall_cons; [assumption|apply Forall_nil]|reflexivity]. Qed.
Lemma s_cx : forall fuel n c t, inside n c -> inside n t -> c <> t ->
  approx n (fl_single A fuel n (GTwo KCX (pair_tg c t))) (sem2 KCX (Z.to_nat c) (Z.to_nat t)) (cost k 1).
Proof.
  intros fuel n c t Hc Ht Hct. rewrite (fl_single_native _ _ _ (loop2 n (pair_tg c t) step_cx)) by reflexivity.
  apply (loop2_approx n (pair_tg c t) [(c, t)] step_cx (sem2 KCX) k 1).
  - exists (TInt c), (TInt t), [c], [t]. repeat split; auto using denotes_int.
  - apply Forall_cons; [auto|apply Forall_nil].
  - apply kp.
  - intros c' t' Hc' Ht' Hct'. split; [|apply good_sem2; auto]. eapply approx_le; [apply acts_approx, step_cx_acts; auto|apply cost_pos, kp].
Qed.

(** ** Lists of gates *)
Lemma list_nil : forall n f m, approx n (fl_list f []) (apply_all []) (cost k m).
Proof.
  intros n f m psi beta. exists psi, beta. split; [reflexivity|]. change (apply_all [] psi) with psi. rewrite dist_self.
  apply Rmult_le_pos; [apply cost_pos, kp|apply norm_pos].
Qed.
Lemma list_cons : forall n f g gs U ops a b, approx n (f g) U (cost k a) -> approx n (fl_list f gs) (apply_all ops) (cost k b) -> good n U -> Forall (good n) ops ->
  approx n (fl_list f (g :: gs)) (apply_all (U :: ops)) (cost k (a + b)).
Proof. intros. apply (approx_cost_seq n (f g) (fl_list f gs) U (apply_all ops)); auto using kp, good_all. Qed.
Lemma list_app : forall n f xs ys U V a b, approx n (fl_list f xs) U (cost k a) -> approx n (fl_list f ys) V (cost k b) -> good n U -> good n V ->
  approx n (fl_list f (xs ++ ys)) (fun psi => V (U psi)) (cost k (a + b)).
Proof.
  intros n f xs ys U V a b H1 H2 G1 G2. pose proof (approx_cost_seq n _ _ U V k a b H1 H2 G1 G2 kp) as H.
  replace (fl_list f (xs ++ ys)) with (fun s => bind (fl_list f xs s) (fl_list f ys)); auto.
  apply functional_extensionality. clear. induction xs as [|g xs IH]; intros s; simpl; auto. destruct (f g s); simpl; auto.
Qed.
Lemma list_flat : forall X n f (gs : X -> list gate) (U : X -> oper) m l,
  (forall a, In a l -> approx n (fl_list f (gs a)) (U a) (cost k m) /\ good n (U a)) ->
  approx n (fl_list f (flat_map gs l)) (apply_all (map U l)) (cost k (m * List.length l)).
Proof.
  intros X n f gs U m l. induction l as [|a l IH]; intros H; cbn [flat_map map List.length].
  - apply list_nil.
  - destruct (H a (or_introl eq_refl)) as [H1 G1]. rewrite Nat.mul_succ_r, Nat.add_comm.
    apply (list_app n f (gs a) (flat_map gs l) (U a) (apply_all (map U l))); auto.
    + apply IH. intros. apply H. right; auto.
    + apply good_all, Forall_map, Forall_forall. intros b I. apply H. right; auto.
Qed.

Lemma one_fallback : forall fuel n kd f tg l m, fl_unitary A (GOne kd tg) n = None -> kd <> KI -> fl_fallback1 A kd = Some f ->
  denotes (Z.of_nat n) tg l -> Forall (inside n) l ->
  (forall t, inside n t -> approx n (fl_list (fl_single A fuel n) (f t)) (sem1 kd (Z.to_nat t)) (cost k m)) ->
  approx n (fl_single A (S fuel) n (GOne kd tg)) (apply_all (map (fun t => sem1 kd (Z.to_nat t)) l)) (cost k (m * List.length l)).
Proof.
  intros fuel n kd f tg l m E NI Ef D F H psi beta. cbn [fl_single]. rewrite E.
  assert (E2 : fl_fallback A (GOne kd tg) (Z.of_nat n) = Ok (flat_map f l)).
  { apply slicing_iff in D; [|lia]. unfold fl_fallback. rewrite Ef, D. destruct kd; try reflexivity. congruence. }
  rewrite E2. cbn [bind]. rewrite Forall_forall in F.
  apply (list_flat Z n (fl_single A fuel n) f (fun t => sem1 kd (Z.to_nat t)) m l).
  intros t I. split; [apply H; auto|apply good_sem1; auto].
Qed.
Lemma two_fallback : forall fuel n kd f tg ps m, fl_unitary A (GTwo kd tg) n = None -> fl_fallback2 A kd = Some f ->
  denotes_pairs (Z.of_nat n) tg ps -> Forall (fun p => inside n (fst p) /\ inside n (snd p)) ps ->
  (forall c t, inside n c -> inside n t -> c <> t -> approx n (fl_list (fl_single A fuel n) (f c t)) (sem2 kd (Z.to_nat c) (Z.to_nat t)) (cost k m)) ->
  approx n (fl_single A (S fuel) n (GTwo kd tg)) (apply_all (map (fun p => sem2 kd (Z.to_nat (fst p)) (Z.to_nat (snd p))) ps)) (cost k (m * List.length ps)).
Proof.
  intros fuel n kd f tg ps m E Ef D F H psi beta. cbn [fl_single]. rewrite E.
  pose proof (proj2 (pairs_iff (Z.of_nat n) tg ps ltac:(lia)) D) as E1.
  assert (E2 : fl_fallback A (GTwo kd tg) (Z.of_nat n) = Ok (flat_map (fun p => f (fst p) (snd p)) ps)).
  { unfold fl_fallback. rewrite Ef, E1. reflexivity. }
  rewrite E2. cbn [bind]. destruct D as [a [b [la [lb [_ [_ [_ [_ [_ Hd]]]]]]]]]. rewrite Forall_forall in F, Hd.
  apply (list_flat _ n (fl_single A fuel n) (fun p => f (fst p) (snd p)) (fun p => sem2 kd (Z.to_nat (fst p)) (Z.to_nat (snd p))) m ps).
  intros [c t] I. destruct (F _ I). pose proof (Hd _ I). split; [apply H; auto|apply good_sem2; auto].
Qed.

Lemma forall_one : forall n t, inside n t -> Forall (inside n) [t]. Proof. intros. constructor; auto. Qed.
Lemma pair_den : forall n c t, inside n c -> inside n t -> c <> t -> denotes_pairs (Z.of_nat n) (pair_tg c t) [(c, t)].
Proof. intros. exists (TInt c), (TInt t), [c], [t]. repeat split; auto using denotes_int. Qed.
Lemma pair_in : forall n c t, inside n c -> inside n t -> Forall (fun p => inside n (fst p) /\ inside n (snd p)) [(c, t)].
Proof. intros. apply Forall_cons; [auto|apply Forall_nil]. Qed.

Lemma s_sdg : forall fuel n t, inside n t -> approx n (fl_single A (S fuel) n (GOne KSdg (TInt t))) (sem1 KSdg (Z.to_nat t)) (cost k 1).
Proof.
  intros fuel n t Ht.
  apply (one_fallback fuel n KSdg _ (TInt t) [t] 1 eq_refl ltac:(discriminate) eq_refl (denotes_int n t Ht) (forall_one n t Ht)).
  intros x Hx. eapply approx_ext; [eapply list_cons with (a := 1%nat) (b := 0%nat); [apply s_phase with (b := - PI / 2); auto; apply ang_pi'; lra|apply list_nil|apply good_sem1; auto|constructor]|].
  intros psi. apply fb_sdg.
Qed.

Ltac gd := first [apply good_sem1; assumption | apply good_sem2; auto; fail | apply good_sem3; auto; fail].
Ltac gds := repeat first [apply Forall_nil | apply Forall_cons; [gd|]].

(** the lists of gates of the fallbacks *)
Lemma l_rzz : forall fuel n c t a, inside n c -> inside n t -> c <> t -> Rabs a <= M ->
  approx n (fl_list (fl_single A fuel n) [GTwo KCX (pair_tg c t); GOne (KRZ a) (TInt t); GTwo KCX (pair_tg c t)]) (sem2 (KRZZ a) (Z.to_nat c) (Z.to_nat t)) (cost k 3).
Proof.
  intros fuel n c t a Hc Ht Hct Ha. eapply approx_ext; [|intros psi; apply fb_rzz; unfold inside in *; lia].
  eapply (list_cons n _ _ _ _ _ 1 2); [apply s_cx; auto| |gd|gds].
    eapply (list_cons n _ _ _ _ _ 1 1); [apply s_rz; auto| |gd|gds].
    eapply (list_cons n _ _ _ _ _ 1 0); [apply s_cx; auto|apply list_nil|gd|gds].
Qed.
Lemma s_rzz : forall fuel n c t a, inside n c -> inside n t -> c <> t -> Rabs a <= M ->
  approx n (fl_single A (S fuel) n (GTwo (KRZZ a) (pair_tg c t))) (sem2 (KRZZ a) (Z.to_nat c) (Z.to_nat t)) (cost k 3).
Proof.
  intros fuel n c t a Hc Ht Hct Ha.
  apply (two_fallback fuel n (KRZZ a) _ (pair_tg c t) [(c, t)] 3 eq_refl eq_refl (pair_den n c t Hc Ht Hct) (pair_in n c t Hc Ht)).
  intros. apply l_rzz; auto.
Qed.
Lemma l_cu3 : forall fuel n c t th p l, inside n c -> inside n t -> c <> t -> Rabs th <= M -> Rabs p <= M -> Rabs l <= M ->
  approx n (fl_list (fl_single A fuel n) [GOne (KU1 (f_div A (f_sub A l p) 2)) (TInt t); GTwo KCX (pair_tg c t);
    GOne (KU3 (f_div A (- th) 2) 0 (f_div A (- f_add A p l) 2)) (TInt t); GTwo KCX (pair_tg c t); GOne (KU3 (f_div A th 2) p 0) (TInt t)])
    (sem2 (KCU3 th p l) (Z.to_nat c) (Z.to_nat t)) (cost k 5).
Proof.
  intros fuel n c t th p l Hc Ht Hct H1 H2 H3. eapply approx_ext; [|intros psi; apply fb_cu3; unfold inside in *; lia].
  eapply (list_cons n _ _ _ _ _ 1 4); [apply s_u1; [auto|apply ang_sub; auto]| |gd|gds].
    eapply (list_cons n _ _ _ _ _ 1 3); [apply s_cx; auto| |gd|gds].
    eapply (list_cons n _ _ _ _ _ 1 2); [apply s_u3; [auto|apply ang_half'; auto|apply ang_0|apply ang_add; auto]| |gd|gds].
    eapply (list_cons n _ _ _ _ _ 1 1); [apply s_cx; auto| |gd|gds].
    eapply (list_cons n _ _ _ _ _ 1 0); [apply s_u3; [auto|apply ang_half; auto|apply ang_same; auto|apply ang_0]|apply list_nil|gd|gds].
Qed.
Lemma s_cu3 : forall fuel n c t th p l, inside n c -> inside n t -> c <> t -> Rabs th <= M -> Rabs p <= M -> Rabs l <= M ->
  approx n (fl_single A (S fuel) n (GTwo (KCU3 th p l) (pair_tg c t))) (sem2 (KCU3 th p l) (Z.to_nat c) (Z.to_nat t)) (cost k 5).
Proof.
  intros fuel n c t th p l Hc Ht Hct H1 H2 H3.
  apply (two_fallback fuel n (KCU3 th p l) _ (pair_tg c t) [(c, t)] 5 eq_refl eq_refl (pair_den n c t Hc Ht Hct) (pair_in n c t Hc Ht)).
  intros. apply l_cu3; auto.
Qed.

Ltac fb1 m := eapply approx_cost_le; [eapply (one_fallback _ _ _ _ _ _ m); try eassumption; try reflexivity; try discriminate; intros t Ht|apply kp|nia].
Ltac fb2 m := eapply approx_cost_le; [eapply (two_fallback _ _ _ _ _ _ m); try eassumption; try reflexivity; intros c t Hc Ht Hct|apply kp|nia].

Lemma gate_approx : forall fuel n g ops, gate_ops n g ops -> angles_within M g -> approx n (fl_single A (S (S fuel)) n g) (apply_all ops) (cost k (7 * List.length ops)).
Proof.
  intros fuel n g ops H W. pose proof hp as HP. destruct H as [kd tg l D F|kd tg ps D F|kd a b c Ha Hb Hc Hab Hac Hbc]; unfold angles_within in W; cbn [angles] in W; rewrite ?map_length.
  - destruct (fl_unitary A (GOne kd tg) n) as [f|] eqn:E.
    { rewrite (fl_single_native _ _ _ _ E). eapply approx_le; [eapply (native1 A u M HR HM); eauto|].
      - pose proof hs. unfold h in *. lra.
      - eapply Rle_trans; [apply (cost_mono _ k)|apply cost_le; [apply kp|lia]]. unfold k, h in *. lra. }
    assert (W' := W). destruct kd; try discriminate E; cbn [angles1] in W; repeat match goal with W : Forall _ (_ :: _) |- _ => apply Forall_cons_iff in W; destruct W as [? W] end.
    + intros psi beta. exists psi, beta. split; [reflexivity|]. replace (apply_all (map (fun t => sem1 KI (Z.to_nat t)) l) psi) with psi.
      * rewrite dist_self. apply Rmult_le_pos; [apply cost_pos, kp|apply norm_pos].
      * clear. induction l; simpl; auto. rewrite apply_all_cons. unfold sem1 at 2. simpl mat1. rewrite ap1_I. auto.
    + fb1 1%nat. eapply approx_ext; [eapply (list_cons n _ _ _ _ _ 1 0); [apply s_phase with (b := - PI / 4); auto; apply ang_pi'; lra|apply list_nil|gd|gds]|].
      intros psi. apply fb_tdg.
    + fb1 1%nat. eapply approx_ext; [eapply (list_cons n _ _ _ _ _ 1 0); [apply s_phase with (b := - PI / 2); auto; apply ang_pi'; lra|apply list_nil|gd|gds]|].
      intros psi. apply fb_sdg.
    + fb1 1%nat. eapply approx_ext; [eapply (list_cons n _ _ _ _ _ 1 0); [apply s_u3 with (a' := PI / 2) (b' := phi) (c' := lambd); [auto|apply ang_pi; lra|apply ang_same; auto|apply ang_same; auto]|apply list_nil|gd|gds]|].
      reflexivity.
  - destruct (fl_unitary A (GTwo kd tg) n) as [f|] eqn:E.
    { rewrite (fl_single_native _ _ _ _ E). eapply approx_le; [eapply (native2 A u M HR HM); eauto|].
      - pose proof hs. unfold h in *. lra.
      - eapply Rle_trans; [apply (cost_mono _ k)|apply cost_le; [apply kp|lia]]. unfold k, h in *. lra. }
    destruct kd; try discriminate E; cbn [angles2] in W; repeat match goal with W : Forall _ (_ :: _) |- _ => apply Forall_cons_iff in W; destruct W as [? W] end.
    + (* CY *) fb2 3%nat. eapply approx_ext; [|intros psi; apply fb_cy; unfold inside in *; lia].
      eapply (list_cons n _ _ _ _ _ 1 2); [apply s_sdg; auto| |gd|gds].
        eapply (list_cons n _ _ _ _ _ 1 1); [apply s_cx; auto| |gd|gds].
        eapply (list_cons n _ _ _ _ _ 1 0); [apply s_s; auto|apply list_nil|gd|gds].
    + (* CH *) fb2 3%nat. eapply approx_ext; [|intros psi; apply fb_ch; unfold inside in *; lia].
      eapply (list_cons n _ _ _ _ _ 1 2); [apply s_ry; [auto|apply ang_pi; lra]| |gd|gds].
        eapply (list_cons n _ _ _ _ _ 1 1); [apply s_cx; auto| |gd|gds].
        eapply (list_cons n _ _ _ _ _ 1 0); [apply s_ry; [auto|apply ang_pi'; lra]|apply list_nil|gd|gds].
    + (* RXX *) fb2 7%nat. eapply approx_ext; [|intros psi; apply fb_rxx; unfold inside in *; lia].
      eapply (list_cons n _ _ _ _ _ 1 6); [apply s_h; auto| |gd|gds].
        eapply (list_cons n _ _ _ _ _ 1 5); [apply s_h; auto| |gd|gds].
        eapply (list_cons n _ _ _ _ _ 3 2); [apply s_rzz; auto| |gd|gds].
        eapply (list_cons n _ _ _ _ _ 1 1); [apply s_h; auto| |gd|gds].
        eapply (list_cons n _ _ _ _ _ 1 0); [apply s_h; auto|apply list_nil|gd|gds].
    + (* RYY *) fb2 7%nat. eapply approx_ext; [|intros psi; apply fb_ryy; unfold inside in *; lia].
      eapply (list_cons n _ _ _ _ _ 1 6); [apply s_rx; [auto|apply ang_mul_pi']| |gd|gds].
        eapply (list_cons n _ _ _ _ _ 1 5); [apply s_rx; [auto|apply ang_mul_pi']| |gd|gds].
        eapply (list_cons n _ _ _ _ _ 3 2); [apply s_rzz; auto| |gd|gds].
        eapply (list_cons n _ _ _ _ _ 1 1); [apply s_rx; [auto|apply ang_mul_pi]| |gd|gds].
        eapply (list_cons n _ _ _ _ _ 1 0); [apply s_rx; [auto|apply ang_mul_pi]|apply list_nil|gd|gds].
    + (* RZZ *) fb2 3%nat. apply l_rzz; auto.
    + (* Swap *) fb2 3%nat. eapply approx_ext; [|intros psi; apply fb_swap; unfold inside in *; lia].
      eapply (list_cons n _ _ _ _ _ 1 2); [apply s_cx; auto| |gd|gds].
        eapply (list_cons n _ _ _ _ _ 1 1); [apply s_cx; auto| |gd|gds].
        eapply (list_cons n _ _ _ _ _ 1 0); [apply s_cx; auto|apply list_nil|gd|gds].
    + (* CU1 *) fb2 5%nat. eapply approx_ext; [|intros psi; apply fb_cu1; unfold inside in *; lia].
      eapply (list_cons n _ _ _ _ _ 1 4); [apply s_u1; [auto|apply ang_half; auto]| |gd|gds].
        eapply (list_cons n _ _ _ _ _ 1 3); [apply s_cx; auto| |gd|gds].
        eapply (list_cons n _ _ _ _ _ 1 2); [apply s_u1; [auto|apply ang_half'; auto]| |gd|gds].
        eapply (list_cons n _ _ _ _ _ 1 1); [apply s_cx; auto| |gd|gds].
        eapply (list_cons n _ _ _ _ _ 1 0); [apply s_u1; [auto|apply ang_half; auto]|apply list_nil|gd|gds].
    + (* CU2 *) fb2 6%nat. destruct (ang_pi 2 ltac:(lra)) as [AE _].
      assert (AM : Rabs (f_div A (f_pi A) 2) <= M).
      { pose proof (ab_near _ _ _ AE). pose proof (q_abs PI 2 pi_abs ltac:(lra)). pose proof hs. pose proof HM. lra. }
      assert (CL : close n (sem2 (KCU3 (f_div A (f_pi A) 2) phi lambd) (Z.to_nat c) (Z.to_nat t)) (sem2 (KCU2 phi lambd) (Z.to_nat c) (Z.to_nat t)) (3 * (3 * (3 * h)))).
      { apply close_ctl; [apply inside_lt; auto|lra|]. apply u3_lip; auto; rewrite Rminus_diag_eq, Rabs_R0 by auto; lra. }
      eapply approx_le.
      * eapply approx_close; [|exact CL]. 
        apply (list_cons n _ _ _ (sem2 (KCU3 (f_div A (f_pi A) 2) phi lambd) (Z.to_nat c) (Z.to_nat t)) [] 5 0); [apply s_cu3; auto|apply list_nil|gd|gds].
      * unfold cost. pose proof (pow_R1_Rle (1 + k) 5 ltac:(pose proof kp; lra)) as P1. pose proof kp.
        replace ((1 + k) ^ 6) with ((1 + k) ^ 5 * (1 + k)) by ring. cbn [Nat.add]. 
        assert (3 * (3 * (3 * h)) <= k) by (unfold k; lra). nra.
    + (* CU3 *) fb2 5%nat. apply l_cu3; auto.
  - assert (HL : u * M <= 1 / 400) by (pose proof hs; unfold h in *; lra).
    assert (KL : 0 <= 100 * (u * M) <= k) by (unfold k, h in *; lra).
    assert (CCX : forall fuel, approx n (fl_single A fuel n (GThree KCCX (TTuple [TInt a; TInt b; TInt c]))) (sem3 KCCX (Z.to_nat a) (Z.to_nat b) (Z.to_nat c)) (cost k 3)).
    { intros f0. rewrite (fl_single_native _ _ _ (fl_ccx A n (TTuple [TInt a; TInt b; TInt c]))) by reflexivity.
      eapply approx_le; [apply (native_ccx A u M HR HM HL); auto|apply cost_mono; auto]. }
    destruct kd.
    + eapply approx_cost_le; [apply CCX|apply kp|cbn [List.length]; lia].
    + rewrite (fl_single_native _ _ _ (fl_ccz A n (TTuple [TInt a; TInt b; TInt c]))) by reflexivity.
      eapply approx_le; [apply (native_ccz A u M HR HM HL); auto|]. eapply Rle_trans; [apply (cost_mono _ k); auto|apply cost_le; [apply kp|cbn [List.length]; lia]].
    + eapply approx_cost_le with (a := 5%nat); [|apply kp|cbn [List.length]; lia].
      eapply approx_ext; [|intros psi; change (apply_all [sem3 KCSwap (Z.to_nat a) (Z.to_nat b) (Z.to_nat c)] psi) with (sem3 KCSwap (Z.to_nat a) (Z.to_nat b) (Z.to_nat c) psi);
        apply fb_cswap; unfold inside in *; lia].
        change (fl_single A (S (S fuel)) n (GThree KCSwap (TTuple [TInt a; TInt b; TInt c])))
          with (fl_list (fl_single A (S fuel) n) [GTwo KCX (pair_tg c b); GThree KCCX (TTuple [TInt a; TInt b; TInt c]); GTwo KCX (pair_tg c b)]).
        eapply (list_cons n _ _ _ _ _ 1 4); [apply s_cx; auto| |gd|gds].
        eapply (list_cons n _ _ _ _ _ 3 1); [apply CCX| |gd|gds].
        eapply (list_cons n _ _ _ _ _ 1 0); [apply s_cx; auto|apply list_nil|gd|gds].
Qed.

Lemma circuit_approx : forall fuel n gs ops, circuit_ops n gs ops -> Forall (angles_within M) gs ->
  approx n (fl_list (fl_single A (S (S fuel)) n) gs) (apply_all ops) (cost k (7 * List.length ops)) /\ Forall (good n) ops.
Proof.
  intros fuel n gs ops H. induction H as [|g gs o os Hg Hgs IH]; intros W.
  - split; [apply list_nil|constructor].
  - apply Forall_cons_iff in W. destruct W as [W1 W2]. destruct (IH W2) as [I1 I2]. pose proof (good_gate n g o Hg) as G.
    split; [|apply Forall_app; auto]. rewrite app_length, Nat.mul_add_distr_l.
    eapply approx_ext; [apply (approx_cost_seq n (fl_single A (S (S fuel)) n g) (fl_list (fl_single A (S (S fuel)) n) gs) (apply_all o) (apply_all os)); auto using kp, good_all|].
    + apply gate_approx; auto.
    + intros psi. symmetry. apply apply_all_app.
Qed.
End Run.
