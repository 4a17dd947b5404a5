(** Measurements and resets of the numba backend in arithmetic with underflow and overflow *)
From Coq Require Import List Arith NArith Nnat ZArith Bool Reals Lia Lra Psatz FunctionalExtensionality.
Import ListNotations.
From Verif Require Import Base Cplx Bits ModelTargets ModelGate ModelNumpy ModelNumba ModelFloat ModelFloatNumba ModelFloatNumbaMeasure SpecTargets SpecQuantum SpecCircuit SpecMeasure
  SpecNumba SpecLaw SpecFloat SpecFloatMeasure SpecFinite SpecFloatNumba SpecFiniteMeasure ProofTargets ProofArray ProofNumpy ProofUnitary ProofRun ProofMeasure ProofIndex ProofKernel
  ProofPair ProofNumba ProofNumbaRun ProofFloat ProofFloatOps ProofFloatKern ProofFloatCoef ProofFloatRun ProofFloatMeas ProofFloatMeasRun ProofFinite ProofFiniteKern ProofFloatNumba
  ProofFiniteShot ProofFiniteMeas.
Local Arguments N.pow : simpl never.
Local Arguments N.ones : simpl never.
Local Arguments shl1 : simpl never.
Local Open Scope R_scope.

(** ** The sum *)
Lemma half_bound : forall n, (N.to_nat (half (N.of_nat n)) <= 2 ^ n)%nat.
Proof.
  intros n. unfold half, shl1, u64. rewrite N.shiftl_1_l.
  assert (L : (2 ^ (N.of_nat n - 1) mod 2 ^ 64 <= 2 ^ N.of_nat n)%N).
  { eapply N.le_trans; [apply N.mod_le; apply N.pow_nonzero; discriminate|]. apply N.pow_le_mono_r; lia. }
  assert (E : N.to_nat (2 ^ N.of_nat n) = (2 ^ n)%nat) by (rewrite N2Nat.inj_pow, Nat2N.id; reflexivity). lia.
Qed.
Lemma map_res_ok : forall X Y (f : X -> res Y) h l, (forall x, In x l -> f x = Ok (h x)) -> map_res f l = Ok (map h l).
Proof.
  intros X Y f h l. induction l as [|a l IH]; intros H; cbn [map_res map]; [reflexivity|].
  rewrite (H a (or_introl eq_refl)). cbn [bind]. rewrite IH by (intros x I; apply H; right; auto). reflexivity.
Qed.
Lemma fn_p0calc_ok : forall n t (psum : carr -> R) psi, (n <= 64)%nat -> (t < N.of_nat n)%N ->
  exists v, fn_p0calc psum (arr n psi) t (N.of_nat n) = Ok (psum v) /\ (List.length v <= 2 ^ n)%nat /\ exact_norm2 v = prob n (N.to_nat t) false psi.
Proof.
  intros n t psum psi Hn Ht. pose proof (shifted_visits (N.of_nat n) t ltac:(lia) Ht) as V. set (its := map N.of_nat (seq 0 (N.to_nat (half (N.of_nat n))))).
  assert (LD : forall i, In i its -> load (arr n psi) (idx0 t i) = Ok (psi (N.to_nat (idx0 t i)))).
  { intros i Hi. apply load_arr. apply to_nat_lt. destruct (visits_elim _ _ _ _ V) as [H _]. apply H. apply in_range; auto. }
  exists (map (fun i => psi (N.to_nat (idx0 t i))) its). split; [|split].
  - unfold fn_p0calc. fold its. rewrite (map_res_ok _ _ _ (fun i => psi (N.to_nat (idx0 t i)))) by exact LD. reflexivity.
  - unfold its. rewrite !map_length, seq_length. apply half_bound.
  - pose proof (p0calc_ok n t Hn Ht psi) as E. unfold p0calc in E. fold its in E.
    rewrite (p0calc_seq t (fun i => Cnorm2 (psi (N.to_nat (idx0 t i))))) in E by (intros i Hi; eexists; split; [apply LD; auto|reflexivity]).
    injection E as E. rewrite <- E, Rplus_0_l. unfold exact_norm2. rewrite Rsum_map. reflexivity.
Qed.

(** ** The loops *)
Section Bodies.
Variables (n : nat) (a b : N).
Hypothesis Ha : (N.to_nat a < 2 ^ n)%nat.
Hypothesis Hb : (N.to_nat b < 2 ^ n)%nat.
Hypothesis Hab : a <> b.
Variable c : compiled.
Ltac body := split; [simpl; intuition auto|]; intros psi; eexists; unfold exec_body;
  repeat (cbn [app fk_scale_at for_list exec_instr bind fst]; rewrite ?load_arr, ?store_arr by assumption);
  cbn [app fk_scale_at for_list exec_instr bind fst];
  split; [reflexivity|]; unfold set_reg, update; cbn [Nat.eqb];
  rewrite ?Nat.eqb_refl, ?(proj2 (Nat.eqb_neq _ _) (nab a b Hab)), ?(proj2 (Nat.eqb_neq _ _) (not_eq_sym (nab a b Hab))), ?Nat.eqb_refl; split; reflexivity.
Lemma fbody_reduce0 : forall f, pair_body n (fk_scale_at c a f ++ [Store b (fun _ => C0)]) a b (fun x _ => c_mul c a x f) (fun _ _ => C0).
Proof. intros f. body. Qed.
Lemma fbody_reduce1 : forall f, pair_body n (fk_scale_at c b f ++ [Store a (fun _ => C0)]) a b (fun _ _ => C0) (fun _ y => c_mul c b y f).
Proof. intros f. body. Qed.
Lemma fbody_reset1 : forall f, pair_body n [Load 0 b; Store a (fun r => c_mul c a (r 0%nat) f); Store b (fun _ => C0)] a b (fun _ y => c_mul c a y f) (fun _ _ => C0).
Proof. intros f. body. Qed.
End Bodies.

Section Loops.
Variable c : compiled.
Variables (n : nat) (t : N).
Hypothesis Hn : (n <= 64)%nat.
Hypothesis Ht : (t < N.of_nat n)%N.
Lemma fk_reduce0_kacts : forall s, kacts n (fk_reduce0 c s (N.of_nat n) t) (pairop_at [] t (fun i x _ => c_mul c (N.of_nat i) x (RtoC s)) (fun _ _ _ => C0)).
Proof. intros s. apply one_kernel_at; auto. intros a b Ha Hb Hab i <- <-. rewrite N2Nat.id. apply (fbody_reduce0 n _ _ Ha Hb Hab). Qed.
Lemma fk_reduce1_kacts : forall s, kacts n (fk_reduce1 c s (N.of_nat n) t) (pairop_at [] t (fun _ _ _ => C0) (fun i _ y => c_mul c (N.of_nat i) y (RtoC s))).
Proof. intros s. apply one_kernel_at; auto. intros a b Ha Hb Hab i <- <-. rewrite N2Nat.id. apply (fbody_reduce1 n _ _ Ha Hb Hab). Qed.
Lemma fk_reset1_kacts : forall s, kacts n (fk_reset1 c s (N.of_nat n) t) (pairop_at [] t (fun i _ y => c_mul c (N.of_nat i) y (RtoC s)) (fun _ _ _ => C0)).
Proof. intros s. apply one_kernel_at; auto. intros a b Ha Hb Hab i <- <-. rewrite N2Nat.id. apply (fbody_reset1 n _ _ Ha Hb Hab). Qed.
End Loops.
Lemma fk_measure_race_free : forall c n t s a, (n <= 64)%nat -> (t < N.of_nat n)%N -> List.length a = (2 ^ n)%nat ->
  race_free (fk_reduce0 c s (N.of_nat n) t) a /\ race_free (fk_reduce1 c s (N.of_nat n) t) a /\ race_free (fk_reset1 c s (N.of_nat n) t) a.
Proof.
  intros c n t s a Hn Ht L. repeat split; (eapply kacts_race_free; [|exact L]); [apply fk_reduce0_kacts|apply fk_reduce1_kacts|apply fk_reset1_kacts]; auto.
Qed.

(** ** Errors *)
Section Meas.
Variable c : compiled.
Variables u eta B : R.
Let A := c_arith c.
Hypothesis HR : rounds_within A u eta B.
Hypothesis HQ : divides_within A u eta B.
Hypothesis HS : scales c u eta.
Hypothesis Hu : 0 < u.
Hypothesis Hu1 : 3000 * u <= 1.
Hypothesis He0 : 0 <= eta.
Hypothesis He : eta <= u * u.
Hypothesis HB : / u <= B.
Variable psum : carr -> R.
Variable n : nat.
Hypothesis Hn : (n <= 64)%nat.
Variables w g : R.
Hypothesis HN : sums_within psum n w g.
Hypothesis Hw : u <= w <= 1 / 100.
Hypothesis Hg : eta / u * sqrt (2 ^ n) <= g.
Hypothesis Hg1 : g <= 1.
Variable rng : nat -> R.

(** the factor *)
Lemma inv_sqrt_rel : forall s t, 30 * u <= t -> t <= 3 / 2 -> 1000 * u <= t * t -> rel (3 * u) s t -> Rabs (f_div A 1 s - / t) <= 6 * u * / t.
Proof.
  intros s t T1 T2 T3 R1. pose proof (B_big u B Hu Hu1 HB) as BB. pose proof (B_inv u B Hu HB) as BI.
  unfold rel in R1. rewrite (Rabs_pos_eq t) in R1 by lra. apply Rabs_le_inv in R1 as R1'.
  assert (S1 : 29 * u <= s) by nra. assert (S2 : s <= 2) by nra.
  assert (IT : 0 < / t) by (apply Rinv_0_lt_compat; lra). assert (IT1 : 2 / 3 <= / t) by (replace (2 / 3) with (/ (3 / 2)) by field; apply Rinv_le_contravar; lra).
  assert (I : Rabs (1 / s - 1 / t) <= 31 / 10 * u * (1 / t)).
  { pose proof (rel_inv (3 * u) (31 / 10 * u) s t ltac:(lra) ltac:(lra)) as RI. unfold rel in RI. rewrite (Rabs_pos_eq t) in RI by lra.
    rewrite (Rabs_pos_eq (1 / t)) in RI by (unfold Rdiv; lra). apply RI; auto. nra. }
  pose proof (HQ 1 s ltac:(rewrite Rabs_pos_eq; lra) ltac:(lra)) as W2. rewrite (Rabs_pos_eq (1 / s)) in W2 by (left; apply Rdiv_lt_0_compat; lra).
  replace (1 / t) with (/ t) in I by (unfold Rdiv; ring). apply Rabs_le_inv in I as I'.
  eapply Rle_trans; [apply (ab_tri _ (1 / s)); eauto|]. assert (u * (1 / s) <= u * (11 / 10 * / t)) by (apply Rmult_le_compat_l; nra). assert (eta <= u / 3000) by nra. nra.
Qed.
Lemma fn_sqrt_inv_ok : forall b p, let q := if b : bool then 1 - p else p in 1000 * u <= q -> q <= 2 ->
  exists s, fn_sqrt_inv c (if b then f_sub A 1 p else p) = Ok s /\ Rabs (s - / sqrt q) <= 6 * u * / sqrt q.
Proof.
  intros b p q Q1 Q2. destruct (sqrt_range u q Hu Hu1 Q1 Q2) as (S1 & S2 & S3).
  assert (X : 0 <= (if b then f_sub A 1 p else p)).
  { destruct b; [|unfold q in *; lra]. apply (wsqrt1_rel A u eta B HR Hu Hu1 He0 He HB p); auto. }
  assert (R1 : rel (3 * u) (f_sqrt A (if b then f_sub A 1 p else p)) (sqrt q)) by (apply (wsqrt_any A u eta B HR Hu Hu1 He0 He HB b p); auto).
  set (x := if b then f_sub A 1 p else p) in *. exists (f_div A 1 (f_sqrt A x)). split; [|apply inv_sqrt_rel; auto].
  unfold fn_sqrt_inv. fold A. unfold rel in R1. rewrite (Rabs_pos_eq (sqrt q)) in R1 by lra. apply Rabs_le_inv in R1.
  replace (Rltb x 0) with false by (symmetry; apply Rltb_false; lra). replace (Reqb (f_sqrt A x) 0) with false; [reflexivity|].
  symmetry. destruct (Reqb (f_sqrt A x) 0) eqn:E; auto. apply Reqb_true in E. exfalso. nra.
Qed.
(** one entry *)
Lemma scale_entry : forall i z s t, 30 * u <= t -> t <= 3 / 2 -> Rabs (s - / t) <= 6 * u * / t -> n1 z <= 6 ->
  n1 (c_mul c i z (RtoC s) - RtoC (/ t) * z)%C <= 30 * (u * / t) * (n1 z + eta / u).
Proof.
  intros i z s t T1 T2 D Z. assert (IT : 0 < / t) by (apply Rinv_0_lt_compat; lra). assert (IT1 : 2 / 3 <= / t) by (replace (2 / 3) with (/ (3 / 2)) by field; apply Rinv_le_contravar; lra).
  assert (IT2 : 30 * (u * / t) <= 1). { apply Rmult_le_reg_r with t; [lra|]. rewrite Rmult_assoc, (Rmult_assoc u), Rinv_l by lra. lra. }
  apply Rabs_le_inv in D as D'. pose proof (n1_pos z) as ZP.
  assert (SS : Rabs s <= 101 / 100 * / t) by (apply Rabs_le; nra).
  assert (SU : Rabs s <= / u).
  { eapply Rle_trans; [exact SS|]. apply Rmult_le_reg_r with u; auto. rewrite Rinv_l by lra. lra. }
  pose proof (HS i z s Z SU) as H1. change size with n1 in H1.
  assert (H2 : n1 (z * RtoC s - RtoC (/ t) * z)%C <= 6 * u * / t * n1 z).
  { replace (z * RtoC s - RtoC (/ t) * z)%C with (RtoC (s - / t) * z)%C by (unfold RtoC; apply C_ext; cunfold; ring).
    replace (n1 (RtoC (s - / t) * z)%C) with (Rabs (s - / t) * n1 z); [apply Rmult_le_compat_r; auto|].
    unfold n1. cunfold. unfold RtoC. cbn [fst snd]. rewrite !Rmult_0_l, Rminus_0_r, Rplus_0_r. rewrite !Rabs_mult. ring. }
  eapply Rle_trans; [apply (n1_tri _ (z * RtoC s)%C); eauto|].
  assert (H3 : 5 * u * (n1 z * Rabs s) <= 5 * u * (n1 z * (101 / 100 * / t))).
  { apply Rmult_le_compat_l; [lra|]. apply Rmult_le_compat_l; auto. }
  assert (H4 : 20 * eta <= 30 * (u * / t) * (eta / u)).
  { replace (30 * (u * / t) * (eta / u)) with (30 * (/ t * eta)) by (field; split; lra). nra. }
  assert (0 <= u * / t * n1 z) by (apply Rmult_le_pos; auto; apply Rmult_le_pos; lra). lra.
Qed.
Lemma n1_00 : forall z, n1 (C0 - (C0 * z + C0 * z))%C = 0.
Proof. intros z. replace (C0 - (C0 * z + C0 * z))%C with C0 by ring. unfold n1. simpl. rewrite Rabs_R0. lra. Qed.
Lemma gap_pos : 0 <= eta / u. Proof. apply Rmult_le_pos; auto. left. apply Rinv_0_lt_compat; auto. Qed.

Lemma scale_rows : forall s t, 30 * u <= t -> t <= 3 / 2 -> Rabs (s - / t) <= 6 * u * / t -> let r := 30 * (u * / t) in
  rows (fun i x _ => c_mul c (N.of_nat i) x (RtoC s)) (fun _ _ _ => C0) (mk2 (RtoC (/ t)) C0 C0 C0) r (eta / u) /\
  rows (fun _ _ _ => C0) (fun i _ y => c_mul c (N.of_nat i) y (RtoC s)) (mk2 C0 C0 C0 (RtoC (/ t))) r (eta / u) /\
  rows (fun i _ y => c_mul c (N.of_nat i) y (RtoC s)) (fun _ _ _ => C0) (mk2 C0 (RtoC (/ t)) C0 C0) r (eta / u).
Proof.
  intros s t T1 T2 D r. assert (IT : 0 < / t) by (apply Rinv_0_lt_compat; lra). assert (RP : 0 <= r) by (unfold r; apply Rmult_le_pos; [lra|]; apply Rmult_le_pos; lra). pose proof gap_pos as GP.
  assert (Z0 : forall a b : C, 0 <= r * (n1 a + n1 b + eta / u)) by (intros a b; apply Rmult_le_pos; auto; pose proof (n1_pos a); pose proof (n1_pos b); lra).
  assert (E0 : forall a b, n1 (C0 - (C0 * a + C0 * b))%C <= r * (n1 a + n1 b + eta / u)).
  { intros a b. replace (C0 - (C0 * a + C0 * b))%C with (C0 - (C0 * a + C0 * a))%C by ring. rewrite n1_00. auto. }
  assert (EL : forall i a b, n1 a <= 6 -> n1 (c_mul c i a (RtoC s) - (RtoC (/ t) * a + C0 * b))%C <= r * (n1 a + n1 b + eta / u)).
  { intros i a b La. replace (RtoC (/ t) * a + C0 * b)%C with (RtoC (/ t) * a)%C by ring. eapply Rle_trans; [apply (scale_entry i a s t); auto|]. fold r. pose proof (n1_pos b).
    apply Rmult_le_compat_l; auto. lra. }
  assert (ER : forall i a b, n1 b <= 6 -> n1 (c_mul c i b (RtoC s) - (C0 * a + RtoC (/ t) * b))%C <= r * (n1 a + n1 b + eta / u)).
  { intros i a b La. replace (C0 * a + RtoC (/ t) * b)%C with (RtoC (/ t) * b + C0 * a)%C by ring. rewrite (Rplus_comm (n1 a)). auto. }
  repeat split; cbn [mk2]; auto.
Qed.

Lemma scaled : forall k tz f0 f1 M phi b q V, inside n tz -> kacts n k (pairop_at [] (Z.to_N tz) f0 f1) -> rows f0 f1 M (30 * (u * / sqrt q)) (eta / u) ->
  1000 * u <= q -> q <= 2 -> norm n phi <= 3 / 2 -> (forall psi x, ap1 M (Z.to_nat tz) psi x = scl (RtoC (/ sqrt q)) (V (project (Z.to_nat tz) b psi)) x) ->
  exists phi', run_kernel k (arr n phi) = Ok (arr n phi') /\ dist n phi' (scl (RtoC (/ sqrt q)) (V (project (Z.to_nat tz) b phi))) <= 100 * u * (/ sqrt q * (norm n phi + g)).
Proof.
  intros k tz f0 f1 M phi b q V Ht K RW Q1 Q2 NL EQ. destruct (inside_reg n tz Ht) as (_ & TL & TE). destruct (sqrt_range u q Hu Hu1 Q1 Q2) as (S1 & S2 & S3).
  set (t := sqrt q) in *. assert (IT : 0 < / t) by (apply Rinv_0_lt_compat; lra). assert (UP : 0 <= u * / t) by (apply Rmult_le_pos; lra). pose proof gap_pos as GP.
  pose proof (norm_pos n phi) as NP. pose proof (sqrt_pos (2 ^ n)) as SP. assert (GS : 0 <= eta / u * sqrt (2 ^ n)) by (apply Rmult_le_pos; auto).
  assert (UT : 1000 * (u * / t) <= 3 / 2).
  { apply Rmult_le_reg_r with t; [lra|]. replace (1000 * (u * / t) * t) with (1000 * u) by (field; lra). nra. }
  destruct (kernel_nearly n k [] (Z.to_N tz) f0 f1 M (30 * (u * / t)) (eta / u) K TL RW ltac:(lra) GP (arr n phi) phi eq_refl) as (s' & phi' & E & -> & D).
  { apply Rle_trans with (5 / 2 * (8 / 5)); [apply Rmult_le_compat; lra|lra]. }
  exists phi'. split; auto. change (controlled [] (Z.to_N tz) M phi) with (ap1 M (N.to_nat (Z.to_N tz)) phi) in D. rewrite TE in D.
  replace (scl (RtoC (/ t)) (V (project (Z.to_nat tz) b phi))) with (ap1 M (Z.to_nat tz) phi) by (apply functional_extensionality; intros x; apply EQ).
  eapply Rle_trans; [exact D|]. replace (100 * u * (/ t * (norm n phi + g))) with (100 * (u * / t) * (norm n phi + g)) by ring.
  apply Rmult_le_compat; lra.
Qed.

Lemma p_bound : forall v t phi, (List.length v <= 2 ^ n)%nat -> exact_norm2 v = prob n t false phi -> norm n phi <= 3 / 2 ->
  Rabs (psum v - prob n t false phi) <= 2 * w * (norm n phi + g).
Proof.
  intros v t phi L E NL. pose proof (norm_pos n phi) as NP. pose proof (norm_sq n phi) as NS. pose proof (prob_total n t phi) as PT. pose proof (prob_nonneg n t true phi) as P1.
  pose proof (prob_nonneg n t false phi) as P0. pose proof (HN v L) as H1. rewrite E in H1. specialize (H1 ltac:(nra)). eapply Rle_trans; [exact H1|].
  pose proof gap_pos. assert (0 <= g). { pose proof (sqrt_pos (2 ^ n)). assert (0 <= eta / u * sqrt (2 ^ n)) by (apply Rmult_le_pos; auto). lra. }
  replace (2 * w * (norm n phi + g)) with (w * (2 * (norm n phi + g))) by ring. apply Rmult_le_compat_l; [lra|]. nra.
Qed.

Lemma fn_measure_collapses : collapses n u g (2 * w) rng after_measure rec_measure (fn_measure c psum rng n).
Proof.
  intros tz phi bits pos Ht NL t. destruct (inside_reg n tz Ht) as (IR & TL & TE). destruct (fn_p0calc_ok n (Z.to_N tz) psum phi Hn TL) as (v & EP & LV & EV). rewrite TE in EV. fold t in EV.
  exists (psum v). split; [apply p_bound; auto|]. set (p := psum v) in *. intros b BIT q Q1 Q2.
  destruct (sqrt_range u q Hu Hu1 Q1 Q2) as (S1 & S2 & S3). destruct (fn_sqrt_inv_ok b p Q1 Q2) as (s & ES & DS). fold q in DS.
  destruct (scale_rows s (sqrt q) S1 S3 DS) as (R0 & R1 & _).
  unfold fn_measure. rewrite IR, EP. cbn [bind]. rewrite BIT. destruct b; cbn [negb] in *.
  - destruct (scaled _ tz _ _ _ phi true q (after_measure true t) Ht (fk_reduce1_kacts c n (Z.to_N tz) Hn TL s) R1 Q1 Q2 NL) as (phi' & EK & DK).
    { intros psi x. rewrite ap1_flip. unfold scl, after_measure, project, mk2. destruct (bit x (Z.to_nat tz)); simpl; ring. }
    exists phi'. change (c_arith c) with A. rewrite ES. cbn [bind]. rewrite EK. cbn [bind]. rewrite list_set_map by (unfold inside in Ht; lia). cbn [bind]. split; auto.
  - destruct (scaled _ tz _ _ _ phi false q (after_measure false t) Ht (fk_reduce0_kacts c n (Z.to_N tz) Hn TL s) R0 Q1 Q2 NL) as (phi' & EK & DK).
    { intros psi x. rewrite ap1_flip. unfold scl, after_measure, project, mk2. destruct (bit x (Z.to_nat tz)); simpl; ring. }
    exists phi'. rewrite ES. cbn [bind]. rewrite EK. cbn [bind]. rewrite list_set_map by (unfold inside in Ht; lia). cbn [bind]. split; auto.
Qed.
Lemma fn_reset_collapses : collapses n u g (2 * w) rng after_reset rec_reset (fn_reset c psum rng n).
Proof.
  intros tz phi bits pos Ht NL t. destruct (inside_reg n tz Ht) as (IR & TL & TE). destruct (fn_p0calc_ok n (Z.to_N tz) psum phi Hn TL) as (v & EP & LV & EV). rewrite TE in EV. fold t in EV.
  exists (psum v). split; [apply p_bound; auto|]. set (p := psum v) in *. intros b BIT q Q1 Q2.
  destruct (sqrt_range u q Hu Hu1 Q1 Q2) as (S1 & S2 & S3). destruct (fn_sqrt_inv_ok b p Q1 Q2) as (s & ES & DS). fold q in DS.
  destruct (scale_rows s (sqrt q) S1 S3 DS) as (R0 & _ & R2).
  unfold fn_reset. rewrite IR, EP. cbn [bind]. rewrite BIT. destruct b; cbn [negb] in *.
  - destruct (scaled _ tz _ _ _ phi true q (after_reset true t) Ht (fk_reset1_kacts c n (Z.to_N tz) Hn TL s) R2 Q1 Q2 NL) as (phi' & EK & DK).
    { intros psi x. unfold after_reset. rewrite ap1_flip. unfold scl. rewrite ap1_flip. unfold project, mk2, mX, t. rewrite testbit_flip, Nat.eqb_refl. destruct (bit x (Z.to_nat tz)); simpl; ring. }
    exists phi'. change (c_arith c) with A. rewrite ES. cbn [bind]. rewrite EK. split; auto.
  - destruct (scaled _ tz _ _ _ phi false q (after_reset false t) Ht (fk_reduce0_kacts c n (Z.to_N tz) Hn TL s) R0 Q1 Q2 NL) as (phi' & EK & DK).
    { intros psi x. rewrite ap1_flip. unfold scl, after_reset, project, mk2. destruct (bit x (Z.to_nat tz)); simpl; ring. }
    exists phi'. rewrite ES. cbn [bind]. rewrite EK. split; auto.
Qed.
End Meas.
