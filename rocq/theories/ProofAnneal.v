(** Proofs: the Markov chain of simulated annealing *)
From Coq Require Import List Arith ZArith Bool Reals Lia Lra.
Import ListNotations.
From Verif Require Import Cplx Bits SpecQuantum SpecLaw SpecAnneal ProofLawStat.
Local Open Scope R_scope.

Lemma flip_length : forall b x, List.length (flip_spin b x) = List.length b.
Proof. induction b as [|s b IH]; intros [|x]; cbn; auto. Qed.
Lemma flip_twice : forall b x, flip_spin (flip_spin b x) x = b.
Proof. induction b as [|s b IH]; intros [|x]; cbn; auto; [rewrite negb_involutive; auto|]. rewrite IH. auto. Qed.
Lemma flip_nth : forall b x i, (x < List.length b)%nat -> nth i (flip_spin b x) false = if (i =? x)%nat then negb (nth i b false) else nth i b false.
Proof.
  induction b as [|s b IH]; intros [|x] i H; cbn in H; try lia; destruct i as [|i]; cbn; auto. rewrite IH by lia. auto.
Qed.
Lemma flip_values : forall n b x, In b (values n) -> In (flip_spin b x) (values n).
Proof. intros n b x. rewrite !values_spec, flip_length. auto. Qed.
Lemma is_same : forall b, is b b = 1. Proof. intros. unfold is. destruct (list_eq_dec bool_dec b b); congruence. Qed.
Lemma is_other : forall b c, b <> c -> is b c = 0. Proof. intros. unfold is. destruct (list_eq_dec bool_dec b c); congruence. Qed.
Lemma is_sym : forall b c, is b c = is c b.
Proof. intros. unfold is. destruct (list_eq_dec bool_dec b c), (list_eq_dec bool_dec c b); congruence. Qed.
Lemma is_flip : forall b c x, is (flip_spin b x) c = is (flip_spin c x) b.
Proof.
  intros. unfold is. destruct (list_eq_dec bool_dec (flip_spin b x) c) as [e|e], (list_eq_dec bool_dec (flip_spin c x) b) as [f|f]; auto.
  - exfalso. apply f. rewrite <- e. apply flip_twice.
  - exfalso. apply e. rewrite <- f. apply flip_twice.
Qed.
Lemma is_range : forall b c, 0 <= is b c <= 1.
Proof. intros. unfold is. destruct (list_eq_dec bool_dec b c); lra. Qed.
Lemma sum_is_in : forall (l : list (list bool)) b f, NoDup l -> In b l -> Rsum (fun c => is b c * f c) l = f b.
Proof.
  induction l as [|a l IH]; intros b f N I; [destruct I|]. inversion N; subst. cbn [Rsum]. destruct I as [->|I].
  - rewrite is_same, (Rsum_0 _ (fun c => is b c * f c) l); [ring|]. intros c Ic. rewrite is_other; [ring|]. intros ->. auto.
  - rewrite IH by auto. rewrite is_other; [ring|]. intros ->. auto.
Qed.
Lemma sum_is : forall n b f, In b (values n) -> Rsum (fun c => is b c * f c) (values n) = f b.
Proof. intros. apply sum_is_in; auto. apply values_nodup. Qed.
Lemma sum_values_len : forall n, List.length (values n) = (2 ^ n)%nat.
Proof. induction n as [|n IH]; cbn [values]; auto. rewrite app_length, !map_length, IH. cbn. lia. Qed.
Lemma Rsum_const : forall X k (l : list X), Rsum (fun _ => k) l = INR (List.length l) * k.
Proof. induction l as [|a l IH]; cbn [Rsum List.length]; [cbn; ring|]. rewrite IH, S_INR. ring. Qed.

Lemma Rsum_below : forall X (f g : X -> R) l, (forall x, In x l -> f x <= g x) -> Rsum f l <= Rsum g l.
Proof. induction l as [|a l IH]; intros H; cbn [Rsum]; [lra|]. pose proof (H a (or_introl eq_refl)). assert (Rsum f l <= Rsum g l) by (apply IH; intros; apply H; right; auto). lra. Qed.

Section Chain.
Variable n : nat.
Variable E : list bool -> R.
Hypothesis Hn : (0 < n)%nat.
Notation V := (values n).
Notation P := (move n E).
Notation PP := (moves n E).
Notation acc := (accept E).

Lemma acc_range : forall T b x, 0 < acc T b x <= 1.
Proof. clear Hn. intros. unfold accept, Rmin. destruct (Rle_dec _ _); [lra|]. split; [apply exp_pos|lra]. Qed.
Lemma n_pos : 0 < / INR n. Proof. apply Rinv_0_lt_compat. apply lt_0_INR. auto. Qed.
Lemma n_inv : INR n * / INR n = 1. Proof. apply Rinv_r. apply not_0_INR. lia. Qed.
Lemma move_nonneg : forall T b c, 0 <= P T b c.
Proof.
  intros. apply Rsum_nonneg. intros x _. pose proof (acc_range T b x). pose proof (is_range b c). pose proof (is_range (flip_spin b x) c). pose proof n_pos.
  apply Rmult_le_pos; [lra|]. apply Rplus_le_le_0_compat; apply Rmult_le_pos; lra.
Qed.
(** what a function becomes in one proposal *)
Lemma move_sum : forall T b f, In b V -> Rsum (fun c => P T b c * f c) V = Rsum (fun x => / INR n * (acc T b x * f (flip_spin b x) + (1 - acc T b x) * f b)) (seq 0 n).
Proof.
  clear Hn. intros T b f I. transitivity (Rsum (fun c => Rsum (fun x => / INR n * (acc T b x * is (flip_spin b x) c + (1 - acc T b x) * is b c) * f c) (seq 0 n)) V).
  - apply Rsum_ext. intros c _. unfold move. rewrite <- Rsum_mul_r. reflexivity.
  - rewrite Rsum_swap. apply Rsum_ext. intros x _.
    rewrite (Rsum_ext _ _ (fun c => / INR n * acc T b x * (is (flip_spin b x) c * f c) + / INR n * (1 - acc T b x) * (is b c * f c))) by (intros; ring).
    rewrite Rsum_add, !Rsum_mul_l, !sum_is by (auto; apply flip_values; auto). ring.
Qed.
Lemma move_total : forall T b, In b V -> Rsum (P T b) V = 1.
Proof.
  intros T b I. rewrite (Rsum_ext _ _ (fun c => P T b c * 1)) by (intros; ring). rewrite (move_sum T b (fun _ => 1) I).
  rewrite (Rsum_ext _ _ (fun _ => / INR n)) by (intros; ring). rewrite Rsum_const, seq_length. apply n_inv.
Qed.
Lemma moves_nonneg : forall ts b c, 0 <= PP ts b c.
Proof. induction ts as [|T ts IH]; intros; cbn [moves]; [apply is_range|]. apply Rsum_nonneg. intros. apply Rmult_le_pos; [apply move_nonneg|apply IH]. Qed.
Lemma moves_total : forall ts b, In b V -> Rsum (PP ts b) V = 1.
Proof.
  induction ts as [|T ts IH]; intros b I; cbn [moves].
  - rewrite (Rsum_ext _ _ (fun c => is b c * 1)) by (intros; ring). apply (sum_is n b (fun _ => 1) I).
  - rewrite Rsum_swap. rewrite (Rsum_ext _ _ (fun d => P T b d)); [apply move_total; auto|]. intros d Id. rewrite Rsum_mul_l, IH by auto. ring.
Qed.
Lemma moves_app : forall ts us b c, In b V -> PP (ts ++ us) b c = Rsum (fun d => PP ts b d * PP us d c) V.
Proof.
  induction ts as [|T ts IH]; intros us b c I; cbn [moves app].
  - symmetry. apply (sum_is n b (fun d => PP us d c) I).
  - transitivity (Rsum (fun d => Rsum (fun e => P T b d * PP ts d e * PP us e c) V) V).
    + apply Rsum_ext. intros d Id. rewrite IH by auto. rewrite <- Rsum_mul_l. apply Rsum_ext. intros; ring.
    + rewrite Rsum_swap. apply Rsum_ext. intros e _. rewrite <- Rsum_mul_r. reflexivity.
Qed.

(** Boltzmann's law *)
Lemma acc_balance : forall T b x, exp (- E b / T) * acc T b x = exp (- E (flip_spin b x) / T) * acc T (flip_spin b x) x.
Proof.
  clear Hn. intros T b x. unfold accept, rise. rewrite flip_twice. set (f := E (flip_spin b x)). set (g := E b).
  assert (A : forall u v, exp (- u / T) * Rmin 1 (exp (- (v - u) / T)) = Rmin (exp (- u / T)) (exp (- v / T))).
  { intros u v. replace (exp (- v / T)) with (exp (- u / T) * exp (- (v - u) / T)) by (rewrite <- exp_plus; f_equal; unfold Rdiv; ring).
    pose proof (exp_pos (- u / T)) as Q. set (p := exp (- u / T)) in *. set (w := exp (- (v - u) / T)). unfold Rmin. destruct (Rle_dec 1 w) as [L|L], (Rle_dec p (p * w)) as [M|M]; try ring.
    - exfalso. apply M. rewrite <- (Rmult_1_r p) at 1. apply Rmult_le_compat_l; lra.
    - exfalso. apply L. apply Rmult_le_reg_l with p; lra. }
  rewrite !A. apply Rmin_comm.
Qed.
Lemma balance : forall T b c, exp (- E b / T) * P T b c = exp (- E c / T) * P T c b.
Proof.
  clear Hn. intros T b c. unfold move. rewrite <- !Rsum_mul_l. apply Rsum_ext. intros x _. destruct (list_eq_dec bool_dec b c) as [->|Nb]; [ring|].
  rewrite (is_other b c Nb), (is_other c b) by congruence. rewrite (is_flip c b x). destruct (list_eq_dec bool_dec (flip_spin b x) c) as [<-|Nf].
  - rewrite is_same. transitivity (/ INR n * (exp (- E b / T) * acc T b x)); [ring|]. rewrite acc_balance. ring.
  - rewrite (is_other _ _ Nf). ring.
Qed.
Lemma partition_pos : forall T, 0 < Rsum (fun c => exp (- E c / T)) V.
Proof.
  clear Hn. intros T. destruct V as [|b l] eqn:EV; [exfalso; pose proof (sum_values_len n) as L; rewrite EV in L; cbn in L; pose proof (Nat.pow_nonzero 2 n); lia|].
  cbn [Rsum]. pose proof (exp_pos (- E b / T)). assert (0 <= Rsum (fun c => exp (- E c / T)) l) by (apply Rsum_nonneg; intros; left; apply exp_pos). lra.
Qed.
Notation B := (boltzmann n E).
Lemma boltzmann_pos : forall T b, 0 < B T b.
Proof. clear Hn. intros. apply Rdiv_lt_0_compat; [apply exp_pos|apply partition_pos]. Qed.
Lemma boltzmann_total : forall T, Rsum (B T) V = 1.
Proof. clear Hn. intros T. unfold boltzmann, Rdiv. rewrite Rsum_mul_r. apply Rinv_r. pose proof (partition_pos T). unfold Rdiv in *. lra. Qed.
Lemma boltzmann_balance : forall T b c, B T b * P T b c = B T c * P T c b.
Proof.
  clear Hn. intros. unfold boltzmann, Rdiv. pose proof (balance T b c) as H. unfold Rdiv in H.
  set (z := / Rsum _ _). transitivity (exp (- E b * / T) * P T b c * z); [ring|]. rewrite H. ring.
Qed.
Lemma boltzmann_stays : forall T c, In c V -> Rsum (fun b => B T b * P T b c) V = B T c.
Proof.
  intros T c I. rewrite (Rsum_ext _ _ (fun b => B T c * P T c b)) by (intros; apply boltzmann_balance). rewrite Rsum_mul_l, move_total by auto. ring.
Qed.
Lemma boltzmann_sweep : forall T k c, In c V -> Rsum (fun b => B T b * PP (repeat T k) b c) V = B T c.
Proof.
  intros T. induction k as [|k IH]; intros c I; cbn [repeat moves].
  - rewrite (Rsum_ext _ _ (fun b => is c b * B T b)) by (intros; rewrite is_sym; ring). apply (sum_is n c (B T) I).
  - transitivity (Rsum (fun b => Rsum (fun d => B T b * P T b d * PP (repeat T k) d c) V) V).
    + apply Rsum_ext. intros b _. rewrite <- Rsum_mul_l. apply Rsum_ext. intros; ring.
    + rewrite Rsum_swap. rewrite (Rsum_ext _ _ (fun d => B T d * PP (repeat T k) d c)); [apply IH; auto|]. intros d Id. rewrite Rsum_mul_r, boltzmann_stays by auto. reflexivity.
Qed.
(** configurations far above the minimum are rare *)
Lemma boltzmann_ground : forall T g m, 0 < T -> In m V -> Rsum (fun b => if Rle_dec (E m + g) (E b) then B T b else 0) V <= 2 ^ n * exp (- g / T).
Proof.
  clear Hn. intros T g m HT I. pose proof (partition_pos T) as Z. assert (M : exp (- E m / T) <= Rsum (fun c => exp (- E c / T)) V).
  { clear Z. revert I. induction V as [|a l IH]; intros I; [destruct I|]. cbn [Rsum]. assert (0 <= Rsum (fun c => exp (- E c / T)) l) by (apply Rsum_nonneg; intros; left; apply exp_pos). pose proof (exp_pos (- E a / T)).
    destruct I as [->|I]; [lra|]. specialize (IH I). lra. }
  apply Rle_trans with (Rsum (fun _ => exp (- g / T)) V).
  - apply Rsum_below. intros b _. destruct (Rle_dec (E m + g) (E b)) as [L|L]; [|left; apply exp_pos]. unfold boltzmann.
    apply Rmult_le_reg_r with (1 := Z). unfold Rdiv at 1. rewrite Rmult_assoc, Rinv_l, Rmult_1_r by lra.
    apply Rle_trans with (exp (- g / T) * exp (- E m / T)).
    + rewrite <- exp_plus. assert (X : - E b / T <= - g / T + - E m / T). { unfold Rdiv. rewrite <- Rmult_plus_distr_r. apply Rmult_le_compat_r; [left; apply Rinv_0_lt_compat; auto|lra]. }
      destruct X as [X|X]; [left; apply exp_increasing; auto|right; rewrite X; auto].
    + apply Rmult_le_compat_l; [left; apply exp_pos|auto].
  - rewrite Rsum_const, sum_values_len, pow_INR. right. f_equal.
Qed.
End Chain.
