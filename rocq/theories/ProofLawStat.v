From Coq Require Import List Arith ZArith Bool String Reals Lia Lra FunctionalExtensionality.
Import ListNotations.
From Verif Require Import Base Cplx Bits ModelTargets ModelGate ModelNumpy ModelNumba SpecTargets SpecQuantum SpecCircuit SpecMeasure SpecRun SpecLaw
  ProofUnitary ProofCache ProofMeasure ProofBorn ProofWhole ProofExamples ProofNumbaProps ProofLaw.
Local Open Scope R_scope.

(** ** A finite law repeated independently *)
Lemma Rsum_flat_map : forall A B (f : B -> R) (g : A -> list B) l, Rsum f (flat_map g l) = Rsum (fun a => Rsum f (g a)) l.
Proof. intros. induction l; cbn; auto. rewrite Rsum_app, IHl. reflexivity. Qed.
Lemma Rsum_le : forall A (f g : A -> R) l, (forall a, In a l -> f a <= g a) -> Rsum f l <= Rsum g l.
Proof.
  intros A f g l. induction l as [|a l IH]; intros H; cbn; [lra|]. pose proof (H a (or_introl eq_refl)). assert (Rsum f l <= Rsum g l) by (apply IH; intros; apply H; right; auto). lra.
Qed.
Section Finite.
Variable A : Type.
Variable l : list A.
Variable w x : A -> R.
Hypothesis Hw : forall a, In a l -> 0 <= w a.
Hypothesis H1 : Rsum w l = 1.
Hypothesis Hx : forall a, x a * x a = x a.
Let p : R := Rsum (fun a => w a * x a) l.
Definition pw (ss : list A) : R := fold_right (fun s v => w s * v) 1 ss.
Definition sx (ss : list A) : R := fold_right (fun s v => x s + v) 0 ss.
Definition ex (N : nat) (F : list A -> R) : R := Rsum (fun ss => pw ss * F ss) (sequences N l).
Lemma ex_S : forall N F, ex (S N) F = Rsum (fun a => w a * ex N (fun ss => F (a :: ss))) l.
Proof.
  intros. unfold ex. cbn [sequences]. rewrite Rsum_flat_map. apply Rsum_ext. intros a _. rewrite Rsum_map, <- Rsum_mul_l. apply Rsum_ext. intros ss _. cbn [pw fold_right]. fold (pw ss). ring.
Qed.
Lemma ex_ext : forall N F G, (forall ss, F ss = G ss) -> ex N F = ex N G.
Proof. intros. unfold ex. apply Rsum_ext. intros. rewrite H. auto. Qed.
Lemma ex_add : forall N F G, ex N (fun ss => F ss + G ss) = ex N F + ex N G.
Proof. intros. unfold ex. rewrite <- Rsum_add. apply Rsum_ext. intros. ring. Qed.
Lemma ex_mul : forall N k F, ex N (fun ss => k * F ss) = k * ex N F.
Proof. intros. unfold ex. rewrite <- Rsum_mul_l. apply Rsum_ext. intros. ring. Qed.
Lemma ex_1 : forall N, ex N (fun _ => 1) = 1.
Proof.
  induction N as [|N IH]; [unfold ex; cbn; lra|]. rewrite ex_S. transitivity (Rsum w l); auto. apply Rsum_ext. intros. rewrite IH. ring.
Qed.
Lemma ex_const : forall N k, ex N (fun _ => k) = k.
Proof. intros. transitivity (ex N (fun _ => k * 1)); [apply ex_ext; intros; ring|]. rewrite (ex_mul N k (fun _ => 1)), ex_1. ring. Qed.
Lemma ex_mean : forall N, ex N sx = INR N * p.
Proof.
  induction N as [|N IH]; [unfold ex; cbn; lra|]. rewrite ex_S.
  rewrite (Rsum_ext _ _ (fun a => w a * x a + w a * (INR N * p))).
  - rewrite Rsum_add, Rsum_mul_r, H1. fold p. rewrite S_INR. ring.
  - intros a _. cbn [sx fold_right]. fold sx. rewrite (ex_ext N _ (fun ss => x a + sx ss)) by reflexivity. rewrite ex_add, ex_const, IH. ring.
Qed.
Lemma ex_var : forall N, ex N (fun ss => (sx ss - INR N * p) * (sx ss - INR N * p)) = INR N * (p * (1 - p)).
Proof.
  induction N as [|N IH]; [unfold ex; cbn; lra|]. rewrite ex_S.
  rewrite (Rsum_ext _ _ (fun a => w a * (INR N * (p * (1 - p))) + (w a * x a * (1 - 2 * p) + w a * (p * p)))).
  - rewrite !Rsum_add, !Rsum_mul_r, H1. fold p. rewrite S_INR. ring.
  - intros a _.
    rewrite (ex_ext N _ (fun ss => (sx ss - INR N * p) * (sx ss - INR N * p) + (2 * (x a - p) * sx ss + ((x a - p) * (x a - p) - 2 * (x a - p) * (INR N * p))))).
    + rewrite !ex_add, IH, ex_mul, ex_mean, ex_const. replace ((x a - p) * (x a - p)) with (x a * x a - 2 * p * x a + p * p) by ring. rewrite Hx. ring.
    + intros ss. cbn [sx fold_right]. fold (sx ss). rewrite S_INR. ring.
Qed.
Lemma pw_nonneg : forall N ss, In ss (sequences N l) -> 0 <= pw ss.
Proof.
  induction N as [|N IH]; intros ss I; cbn in I.
  - destruct I as [<-|[]]. cbn. lra.
  - apply in_flat_map in I. destruct I as (a & I & J). apply in_map_iff in J. destruct J as (t & <- & J). cbn. apply Rmult_le_pos; [apply Hw; exact I|apply (IH t J)].
Qed.
Lemma p_var : p * (1 - p) <= / 4.
Proof. pose proof (Rle_0_sqr (p - / 2)) as Q. unfold Rsqr in Q. lra. Qed.
Lemma ex_large : forall N eps, (0 < N)%nat -> 0 < eps ->
  ex N (fun ss => if Rle_dec eps (Rabs (sx ss / INR N - p)) then 1 else 0) <= p * (1 - p) / (INR N * (eps * eps)).
Proof.
  intros N eps HN He. assert (HN' : 0 < INR N) by (apply lt_0_INR; auto).
  assert (Hd : 0 < INR N * (eps * eps)) by (apply Rmult_lt_0_compat; auto; apply Rmult_lt_0_compat; auto).
  apply (Rmult_le_reg_r (INR N * (INR N * (eps * eps)))); [apply Rmult_lt_0_compat; auto|].
  replace (p * (1 - p) / (INR N * (eps * eps)) * (INR N * (INR N * (eps * eps)))) with (INR N * (p * (1 - p))) by (field; lra).
  rewrite <- ex_var. unfold ex. rewrite <- Rsum_mul_r. apply Rsum_le. intros ss I. rewrite Rmult_assoc. apply Rmult_le_compat_l; [eapply pw_nonneg; eauto|].
  destruct (Rle_dec eps (Rabs (sx ss / INR N - p))) as [L|L].
  - rewrite Rmult_1_l. replace ((sx ss - INR N * p) * (sx ss - INR N * p)) with (INR N * (INR N * (Rabs (sx ss / INR N - p) * Rabs (sx ss / INR N - p)))).
    + apply Rmult_le_compat_l; [lra|]. apply Rmult_le_compat_l; [lra|]. apply Rmult_le_compat; lra.
    + rewrite <- Rabs_mult, Rabs_right by (apply Rle_ge, Rle_0_sqr). field. lra.
  - rewrite Rmult_0_l. apply Rle_0_sqr.
Qed.
End Finite.

(** ** The law of shots *)
Lemma branch_zero : forall n es, Forall (event_ok n) es -> forall s psi, norm2 n psi = 0 -> norm2 n (branch es s psi) = 0.
Proof. intros n es F s psi H. pose proof (branch_norm n es F s psi). pose proof (norm2_nonneg n (branch es s psi)). lra. Qed.
Lemma branch_total : forall n es, Forall (event_ok n) es -> forall psi, Rsum (fun s => norm2 n (branch es s psi)) (values (draws es)) = norm2 n psi.
Proof.
  intros n es F. induction F as [|e es E F IH]; intros psi; [cbn; lra|].
  destruct e as [U|t|t]; cbn [event_ok draws values branch] in *.
  - rewrite IH. apply (preserves_norm n U). apply E.
  - rewrite Rsum_app, !Rsum_map. rewrite !IH. apply prob_total.
  - rewrite Rsum_app, !Rsum_map. rewrite !IH. rewrite (preserves_norm n (ap1 mX t)) by (apply preserves_ap1; auto; apply mu_x). apply prob_total.
Qed.
Lemma law_total : forall n gs es, circuit_events n gs es -> Rsum (weight n es) (values (draws es)) = 1.
Proof. intros n gs es C. unfold weight. rewrite (branch_total n es (circuit_events_ok _ _ _ C)). apply ket_norm. Qed.
Lemma values_spec : forall d s, In s (values d) <-> List.length s = d.
Proof.
  induction d as [|d IH]; intros s; cbn.
  - split; [intros [<-|[]]; auto|]. destruct s; [auto|discriminate].
  - rewrite in_app_iff, !in_map_iff. split.
    + intros [(t & <- & I)|(t & <- & I)]; cbn; f_equal; apply IH; auto.
    + destruct s as [|b s]; [discriminate|]. intros L. injection L as L. destruct b; [right|left]; exists s; split; auto; apply IH; auto.
Qed.
Lemma values_nodup : forall d, NoDup (values d).
Proof.
  assert (NA : forall A (a b : list A), NoDup a -> NoDup b -> (forall x, In x a -> In x b -> False) -> NoDup (a ++ b)).
  { intros A a b Ha Hb. induction Ha as [|x a N Ha IH]; intros D; cbn; auto. constructor.
    - rewrite in_app_iff. intros [I|I]; [auto|]. eapply D; [left; reflexivity|exact I].
    - apply IH. intros y I J. eapply D; [right; exact I|exact J]. }
  induction d as [|d IH]; cbn; [constructor; [intros []|constructor]|].
  apply NA; [apply FinFun.Injective_map_NoDup; auto; intros a b E; congruence..|].
  intros x I J. apply in_map_iff in I. apply in_map_iff in J. destruct I as (u & <- & _). destruct J as (v & E & _). discriminate.
Qed.
Lemma sequences_spec : forall A (l : list A) N ss, In ss (sequences N l) <-> List.length ss = N /\ Forall (fun s => In s l) ss.
Proof.
  intros A l. induction N as [|N IH]; intros ss; cbn.
  - split; [intros [<-|[]]; auto|]. intros [L _]. destruct ss; [auto|discriminate].
  - rewrite in_flat_map. split.
    + intros (a & I & J). apply in_map_iff in J. destruct J as (t & <- & J). apply IH in J. cbn. split; [f_equal; tauto|constructor; tauto].
    + intros [L F]. destruct ss as [|a t]; [discriminate|]. inversion F; subst. exists a. split; auto. apply in_map. apply IH. auto.
Qed.
Definition is_k (n : nat) (es : list event) (k : list nat) (s : list bool) : R := if list_eq_dec Nat.eq_dec (record n es s) k then 1 else 0.
Lemma chance_is : forall n es k, chance n es k = Rsum (fun a => weight n es a * is_k n es k a) (values (draws es)).
Proof.
  intros. unfold chance. rewrite Rsum_filter. apply Rsum_ext. intros s _. unfold is_k. destruct (list_eq_dec Nat.eq_dec (record n es s) k); ring.
Qed.
Lemma hits_is : forall n es k ss, INR (hits n es k ss) = sx _ (is_k n es k) ss.
Proof.
  intros. unfold hits. induction ss as [|s ss IH]; auto. cbn [map count_occ sx fold_right]. unfold is_k at 1.
  destruct (list_eq_dec Nat.eq_dec (record n es s) k); [rewrite S_INR|]; rewrite IH; unfold sx; lra.
Qed.
Lemma expected_is : forall n es N F, expected n es N F = ex _ (values (draws es)) (weight n es) N F.
Proof. reflexivity. Qed.
Lemma is_k_sq : forall n es k s, is_k n es k s * is_k n es k s = is_k n es k s.
Proof. intros. unfold is_k. destruct (list_eq_dec Nat.eq_dec (record n es s) k); ring. Qed.
Lemma law_all : forall n gs es N, circuit_events n gs es -> expected n es N (fun _ => 1) = 1.
Proof. intros. rewrite expected_is. apply ex_1. eapply law_total; eauto. Qed.
Lemma law_mean : forall n gs es N k, circuit_events n gs es -> expected n es N (fun ss => INR (hits n es k ss)) = INR N * chance n es k.
Proof.
  intros n gs es N k C. rewrite expected_is, chance_is. rewrite <- ex_mean by (eapply law_total; eauto). apply ex_ext. intros. apply hits_is.
Qed.
Lemma law_spread : forall n gs es N k, circuit_events n gs es ->
  expected n es N (fun ss => Rsqr (INR (hits n es k ss) - INR N * chance n es k)) = INR N * (chance n es k * (1 - chance n es k)).
Proof.
  intros n gs es N k C. rewrite expected_is, chance_is. rewrite <- (ex_var _ (values (draws es)) (weight n es) (is_k n es k)) by (try apply is_k_sq; eapply law_total; eauto).
  apply ex_ext. intros. rewrite hits_is. reflexivity.
Qed.
Lemma law_large : forall n gs es N k eps, circuit_events n gs es -> (0 < N)%nat -> 0 < eps ->
  expected n es N (fun ss => if Rle_dec eps (Rabs (INR (hits n es k ss) / INR N - chance n es k)) then 1 else 0) <= 1 / (4 * INR N * Rsqr eps).
Proof.
  intros n gs es N k eps C HN He. rewrite expected_is, chance_is.
  rewrite (ex_ext _ _ _ N _ (fun ss => if Rle_dec eps (Rabs (sx _ (is_k n es k) ss / INR N - Rsum (fun a => weight n es a * is_k n es k a) (values (draws es)))) then 1 else 0))
    by (intros; rewrite hits_is; reflexivity).
  assert (HN' : 0 < INR N) by (apply lt_0_INR; auto). assert (He' : 0 < eps * eps) by (apply Rmult_lt_0_compat; auto).
  assert (Hd : 0 < / (INR N * (eps * eps))) by (apply Rinv_0_lt_compat, Rmult_lt_0_compat; auto).
  eapply Rle_trans; [apply ex_large; auto|].
  - intros s _. apply norm2_nonneg.
  - eapply law_total; eauto.
  - apply is_k_sq.
  - unfold Rsqr. replace (1 / (4 * INR N * (eps * eps))) with (/ 4 * / (INR N * (eps * eps))) by (field; lra). apply Rmult_le_compat_r; [lra|].
    apply (p_var _ (values (draws es)) (weight n es) (is_k n es k)).
Qed.

(** the box of a sequence of shots *)
Lemma in_box_app : forall rng a b pos, in_box (a ++ b) rng pos <-> in_box a rng pos /\ in_box b rng (pos + List.length a).
Proof.
  intros rng. induction a as [|iv a IH]; intros b pos.
  - cbn. rewrite Nat.add_0_r. split; [intros H; split; auto; intros i L; cbn in L; lia|tauto].
  - cbn [app]. rewrite !in_box_cons, IH. cbn [List.length]. replace (pos + S (List.length a))%nat with (S pos + List.length a)%nat by lia. tauto.
Qed.
Lemma box_volume_app : forall a b, box_volume (a ++ b) = box_volume a * box_volume b.
Proof. induction a as [|iv a IH]; intros b; cbn [app]; [change (box_volume []) with 1; ring|].
  change (box_volume (iv :: a)) with ((snd iv - fst iv) * box_volume a). change (box_volume (iv :: a ++ b)) with ((snd iv - fst iv) * box_volume (a ++ b)). rewrite IH. ring.
Qed.
Lemma law_product : forall n gs es ss, circuit_events n gs es -> Forall (fun s => List.length s = draws es) ss ->
  let B := flat_map (fun s => box n es s (ket 0)) ss in
  (List.length B = List.length ss * draws es)%nat /\ box_volume B = seq_weight n es ss /\
  forall rng pos, in_box B rng pos <-> forall i s, nth_error ss i = Some s -> in_box (box n es s (ket 0)) rng (pos + i * draws es).
Proof.
  intros n gs es ss C F. induction F as [|s ss L F IH]; cbn zeta in *.
  - cbn. split; auto. split; auto. intros rng pos. split; [intros _ [|i] s E; discriminate|]. intros _ i L. cbn in L. lia.
  - destruct IH as (I1 & I2 & I3). destruct (law_box n gs es s C L) as (B1 & B2 & B3). cbn [flat_map List.length seq_weight fold_right]. split; [|split].
    + rewrite app_length, B1, I1. lia.
    + rewrite box_volume_app, B3, I2. reflexivity.
    + intros rng pos. rewrite in_box_app, I3, B1. split.
      * intros [J1 J2] [|i] s' E; cbn in E.
        -- injection E as <-. rewrite Nat.mul_0_l, Nat.add_0_r. exact J1.
        -- replace (pos + S i * draws es)%nat with (pos + draws es + i * draws es)%nat by lia. apply J2. exact E.
      * intros J. split; [specialize (J 0%nat s eq_refl); rewrite Nat.mul_0_l, Nat.add_0_r in J; exact J|].
        intros i s' E. replace (pos + draws es + i * draws es)%nat with (pos + S i * draws es)%nat by lia. apply (J (S i)). exact E.
Qed.

(** which circuits *)
Lemma law_events : forall n gs, valid n gs <-> exists es, circuit_events n gs es.
Proof.
  intros n gs. split; [|intros [es C]; eapply circuit_events_valid; eauto].
  induction 1 as [|g gs V _ [es IH]]; [exists []; constructor|].
  assert (G : exists e, gate_events n g e).
  { destruct g; cbn in V; try (destruct V as [l [D F]]; eexists; constructor; eauto; fail); destruct V as [ops V]; eexists; constructor; eauto. }
  destruct G as [e G]. eexists. econstructor; eauto.
Qed.

(** numba *)
Lemma law_counts_numba : forall rng n gs es N pos c, (n <= 64)%nat -> draws_ok rng -> (0 < n)%nat -> circuit_events n gs es ->
  exists ss d b', nb_run rng new_backend gs n (NbArgs (RunArgs (Some (Z.of_nat N)) None false) c) pos = (Ok (RShots d), b', (pos + N * draws es)%nat) /\ List.length ss = N /\
    (forall i s, (i < N)%nat -> (nth_error ss i = Some s <-> List.length s = draws es /\ in_box (box n es s (ket 0)) rng (pos + i * draws es))) /\
    forall k, lookup d k = hits n es k ss.
Proof.
  intros rng n gs es N pos c H64 Hr Hn C. destruct (law_counts rng n gs es N pos new_backend Hr Hn C (new_cache_ok n gs)) as (ss & d & b' & E & L & A & K).
  destruct (run_agree rng n gs (RunArgs (Some (Z.of_nat N)) None false) c pos H64 Hr (circuit_events_valid _ _ _ C) ltac:(discriminate)) as (r & p & b1 & b2 & E1 & E2).
  rewrite E in E2. injection E2 as <- <- <-. exists ss, d, b1. split; [exact E1|]. auto.
Qed.

(** ** An example: H, measure, reset *)
Definition ex_law : list gate := [GOne KH (TInt 0); GMeasure (TInt 0); GReset (TSlice None None None)].
Definition ex_events : list event := [EOp (sem1 KH 0); EMeasure 0; EReset 0].
Lemma ex_law_events : circuit_events 1 ex_law ex_events.
Proof.
  apply (ce_cons 1 (GOne KH (TInt 0)) _ [EOp (sem1 KH 0)]).
  { apply (ge_ops 1 _ [sem1 KH 0]). apply (go_one 1 KH (TInt 0) [0%Z]); [den|ins]. }
  apply (ce_cons 1 (GMeasure (TInt 0)) _ [EMeasure 0]). { apply (ge_measure 1 (TInt 0) [0%Z]); [den|ins]. }
  apply (ce_cons 1 (GReset (TSlice None None None)) _ [EReset 0] []). { apply (ge_reset 1 _ [0%Z]); [den|ins]. }
  constructor.
Qed.
Lemma ex_weights : weight 1 ex_events [false; false] = 1 / 2 /\ weight 1 ex_events [true; true] = 1 / 2 /\
  weight 1 ex_events [false; true] = 0 /\ weight 1 ex_events [true; false] = 0.
Proof.
  assert (Q : / sqrt 2 * / sqrt 2 = 1 / 2) by (rewrite <- Rinv_mult, sqrt_sqrt by lra; lra).
  unfold weight, norm2, ex_events, branch, project, sem1, ap1, ket. cbn. cunfold.
  repeat split; ring_simplify; rewrite ?Rmult_1_r; try lra; simpl; nra.
Qed.
Lemma ex_chance : draws ex_events = 2%nat /\ record 1 ex_events [true; true] = [1%nat] /\ chance 1 ex_events [1%nat] = 1 / 2.
Proof.
  split; [reflexivity|]. split; [reflexivity|]. destruct ex_weights as (A & B & C & D).
  unfold chance. match goal with |- Rsum _ ?l = _ => change l with [[true; false]; [true; true]] end. cbn [Rsum]. rewrite B, D. lra.
Qed.
