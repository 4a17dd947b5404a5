(** Proofs: convergence of the Markov chain of simulated annealing at a fixed temperature *)
From Coq Require Import List Arith ZArith Bool Reals Lia Lra.
Import ListNotations.
From Verif Require Import Cplx Bits SpecQuantum SpecLaw SpecAnneal ProofLawStat ProofAnneal.
Local Open Scope R_scope.

Lemma Rsum_ge_one : forall X (f : X -> R) l a, (forall x, In x l -> 0 <= f x) -> In a l -> f a <= Rsum f l.
Proof.
  induction l as [|b l IH]; intros a H I; [destruct I|]. cbn [Rsum]. assert (0 <= Rsum f l) by (apply Rsum_nonneg; intros; apply H; right; auto).
  pose proof (H b (or_introl eq_refl)). destruct I as [->|I]; [lra|]. assert (f a <= Rsum f l) by (apply IH; auto; intros; apply H; right; auto). lra.
Qed.
Lemma Rsum_abs : forall X (f : X -> R) l, Rabs (Rsum f l) <= Rsum (fun x => Rabs (f x)) l.
Proof. induction l as [|a l IH]; cbn [Rsum]; [rewrite Rabs_R0; lra|]. apply Rle_trans with (1 := Rabs_triang _ _). lra. Qed.
Lemma least : forall X (f : X -> R) l, (forall x, In x l -> 0 < f x) -> exists d, 0 < d /\ forall x, In x l -> d <= f x.
Proof.
  induction l as [|a l IH]; intros H; [exists 1; split; [lra|intros x []]|]. destruct IH as (d & D & L); [intros; apply H; right; auto|].
  exists (Rmin d (f a)). split; [apply Rmin_glb_lt; auto; apply H; left; auto|]. intros x [<-|I]; [apply Rmin_r|]. apply Rle_trans with d; [apply Rmin_l|auto].
Qed.

Section Chain.
Variable n : nat.
Variable E : list bool -> R.
Variable T : R.
Hypothesis Hn : (0 < n)%nat.
Hypothesis HT : 0 < T.
Notation V := (values n).
Notation P := (move n E T).
Notation PP := (moves n E).
Notation K k := (moves n E (repeat T k)).
Notation B := (boltzmann n E T).

Lemma chain_add : forall j k b c, In b V -> K (j + k) b c = Rsum (fun d => K j b d * K k d c) V.
Proof. intros. rewrite repeat_app. apply moves_app; auto. Qed.
Lemma chain_through : forall j k b d c, In b V -> In d V -> 0 < K j b d -> 0 < K k d c -> 0 < K (j + k) b c.
Proof.
  intros j k b d c Ib Id H1 H2. rewrite chain_add by auto. apply Rlt_le_trans with (K j b d * K k d c); [apply Rmult_lt_0_compat; auto|].
  apply (Rsum_ge_one _ (fun d => K j b d * K k d c)); auto. intros. apply Rmult_le_pos; apply moves_nonneg; auto.
Qed.
Lemma chain_one : forall b c, In b V -> In c V -> K 1 b c = P b c.
Proof.
  intros b c Ib Ic. cbn [repeat moves]. rewrite (Rsum_ext _ _ (fun d => is c d * P b d)) by (intros; rewrite is_sym; ring). apply (sum_is n c (P b) Ic).
Qed.
Lemma flip_positive : forall b x, In b V -> (x < n)%nat -> 0 < P b (flip_spin b x).
Proof.
  intros b x I H. pose proof (acc_range E T b x). pose proof (n_pos n Hn).
  apply Rlt_le_trans with (/ INR n * (accept E T b x * is (flip_spin b x) (flip_spin b x) + (1 - accept E T b x) * is b (flip_spin b x))).
  - rewrite is_same. pose proof (is_range b (flip_spin b x)). apply Rmult_lt_0_compat; auto. assert (0 <= (1 - accept E T b x) * is b (flip_spin b x)) by (apply Rmult_le_pos; lra). lra.
  - apply (Rsum_ge_one _ (fun y => / INR n * (accept E T b y * is (flip_spin b y) (flip_spin b x) + (1 - accept E T b y) * is b (flip_spin b x)))); [|apply in_seq; lia].
    intros y _. pose proof (acc_range E T b y). pose proof (is_range b (flip_spin b x)). pose proof (is_range (flip_spin b y) (flip_spin b x)).
    apply Rmult_le_pos; [lra|]. apply Rplus_le_le_0_compat; apply Rmult_le_pos; lra.
Qed.
(** all configurations are reached *)
Lemma nth_firstn_skipn : forall (c b : list bool) j i, List.length c = n -> List.length b = n -> (j <= n)%nat -> nth i (firstn j c ++ skipn j b) false = if (i <? j)%nat then nth i c false else nth i b false.
Proof.
  clear Hn HT. intros c b j i Lc Lb J. assert (L : List.length (firstn j c) = j) by (rewrite firstn_length; lia). destruct (Nat.ltb_spec i j).
  - rewrite app_nth1 by lia. rewrite <- (firstn_skipn j c) at 2. rewrite app_nth1 by lia. auto.
  - rewrite app_nth2, L by lia. rewrite <- (firstn_skipn j b) at 2. rewrite app_nth2; rewrite firstn_length; [|lia]. f_equal. lia.
Qed.
Lemma list_ext : forall b c : list bool, List.length b = List.length c -> (forall i, nth i b false = nth i c false) -> b = c.
Proof. clear. intros b c L H. apply (nth_ext _ _ false false L). intros. apply H. Qed.
Lemma reaches : forall b c, In b V -> In c V -> exists d, (d <= n)%nat /\ 0 < K d b c.
Proof.
  intros b c Ib Ic. pose proof Ib as Lb. pose proof Ic as Lc. rewrite values_spec in Lb, Lc.
  assert (G : forall j, (j <= n)%nat -> exists d, (d <= j)%nat /\ 0 < K d b (firstn j c ++ skipn j b)).
  { induction j as [|j IH]; intros J.
    - exists 0%nat. split; auto. cbn [firstn skipn app repeat moves]. rewrite is_same. lra.
    - destruct (IH ltac:(lia)) as (d & D & H). set (m := firstn j c ++ skipn j b) in *. assert (Lm : List.length m = n) by (unfold m; rewrite app_length, firstn_length, skipn_length; lia).
      assert (Im : In m V) by (apply values_spec; auto).
      assert (Ls : List.length (firstn (S j) c ++ skipn (S j) b) = n) by (rewrite app_length, firstn_length, skipn_length; lia).
      destruct (bool_dec (nth j b false) (nth j c false)) as [e|e].
      + exists d. split; [lia|]. replace (firstn (S j) c ++ skipn (S j) b) with m; auto. apply list_ext; [lia|]. intros i. unfold m. rewrite !nth_firstn_skipn by (auto; lia).
        destruct (Nat.ltb_spec i j), (Nat.ltb_spec i (S j)); auto; try lia. replace i with j by lia. auto.
      + exists (d + 1)%nat. split; [lia|]. apply chain_through with m; auto. replace (firstn (S j) c ++ skipn (S j) b) with (flip_spin m j).
        * rewrite chain_one; auto; [|apply flip_values; auto]. apply flip_positive; auto.
        * apply list_ext; [rewrite flip_length; lia|]. intros i. rewrite flip_nth by lia. unfold m. rewrite !nth_firstn_skipn by (auto; lia).
          destruct (Nat.eqb_spec i j), (Nat.ltb_spec i j), (Nat.ltb_spec i (S j)); auto; try lia. subst i. destruct (nth j b false), (nth j c false); auto; exfalso; apply e; auto. }
  destruct (G n (le_n n)) as (d & D & H). exists d. split; auto. rewrite firstn_all2, skipn_all2, app_nil_r in H by lia. exact H.
Qed.
(** a configuration that can stay *)
Hypothesis varies : exists b x, In b V /\ (x < n)%nat /\ rise E b x <> 0.
Lemma stays : exists s, In s V /\ 0 < P s s.
Proof.
  destruct varies as (b & x & Ib & Hx & R0). assert (G : exists s, In s V /\ 0 < rise E s x).
  { destruct (Rlt_dec 0 (rise E b x)) as [L|L]; [exists b; auto|]. exists (flip_spin b x). split; [apply flip_values; auto|]. unfold rise in *. rewrite flip_twice. lra. }
  destruct G as (s & Is & Rs). exists s. split; auto. pose proof (acc_range E T s) as A. pose proof (n_pos n Hn).
  assert (L : accept E T s x < 1). { unfold accept. apply Rle_lt_trans with (exp (- rise E s x / T)); [apply Rmin_r|]. rewrite <- exp_0. apply exp_increasing. unfold Rdiv. pose proof (Rinv_0_lt_compat T HT). rewrite Ropp_mult_distr_l_reverse. pose proof (Rmult_lt_0_compat _ _ Rs H0). lra. }
  apply Rlt_le_trans with (/ INR n * (accept E T s x * is (flip_spin s x) s + (1 - accept E T s x) * is s s)).
  - rewrite is_same. pose proof (is_range (flip_spin s x) s). pose proof (A x). apply Rmult_lt_0_compat; auto. assert (0 <= accept E T s x * is (flip_spin s x) s) by (apply Rmult_le_pos; lra). lra.
  - apply (Rsum_ge_one _ (fun y => / INR n * (accept E T s y * is (flip_spin s y) s + (1 - accept E T s y) * is s s))); [|apply in_seq; lia].
    intros y _. pose proof (A y). pose proof (is_range s s). pose proof (is_range (flip_spin s y) s). apply Rmult_le_pos; [lra|]. apply Rplus_le_le_0_compat; apply Rmult_le_pos; lra.
Qed.
Lemma all_positive : forall b c, In b V -> In c V -> 0 < K (2 * n) b c.
Proof.
  intros b c Ib Ic. destruct stays as (s & Is & Ps). destruct (reaches b s Ib Is) as (d1 & D1 & H1). destruct (reaches s c Is Ic) as (d2 & D2 & H2).
  assert (L : forall m, 0 < K m s s).
  { induction m as [|m IH]; [cbn [repeat moves]; rewrite is_same; lra|]. change (S m) with (1 + m)%nat. apply chain_through with s; auto. rewrite chain_one; auto. }
  replace (2 * n)%nat with (d1 + ((2 * n - d1 - d2) + d2))%nat by lia. apply chain_through with s; auto. apply chain_through with s; auto.
Qed.
(** contraction *)
Lemma floor : exists d, 0 < d /\ forall b c, In b V -> In c V -> d <= K (2 * n) b c.
Proof.
  destruct (least _ (fun p => K (2 * n) (fst p) (snd p)) (list_prod V V)) as (d & D & H).
  - intros [b c] I. apply in_prod_iff in I. apply all_positive; tauto.
  - exists d. split; auto. intros b c Ib Ic. apply (H (b, c)). apply in_prod; auto.
Qed.
Definition far (r : R) (k : nat) (c : list bool) : Prop := forall a b, In a V -> In b V -> Rabs (K k a c - K k b c) <= r.
Lemma contracts : forall d, (forall b c, In b V -> In c V -> d <= K (2 * n) b c) -> let q := 1 - 2 ^ n * d in 0 <= q /\ forall r k c, 0 <= r -> far r k c -> far (q * r) (2 * n + k) c.
Proof.
  intros d Hd q. assert (TT : forall b, In b V -> Rsum (fun e => K (2 * n) b e - d) V = q).
  { intros b Ib. rewrite Rsum_sub, Rsum_const, moves_total, sum_values_len, pow_INR by auto. unfold q. replace (INR 2) with 2 by (simpl; lra). ring. }
  assert (Q0 : 0 <= q). { destruct stays as (s & Is & _). rewrite <- (TT s Is). apply Rsum_nonneg. intros e Ie. pose proof (Hd s e Is Ie). lra. }
  split; auto. intros r k c R0 F a b Ia Ib. set (u := fun e => K (2 * n) a e - d). set (v := fun e => K (2 * n) b e - d).
  assert (U : Rsum u V = q) by (apply TT; auto). assert (W : Rsum v V = q) by (apply TT; auto).
  assert (u0 : forall e, In e V -> 0 <= u e) by (intros e Ie; unfold u; pose proof (Hd a e Ia Ie); lra). assert (v0 : forall e, In e V -> 0 <= v e) by (intros e Ie; unfold v; pose proof (Hd b e Ib Ie); lra).
  assert (X : K (2 * n + k) a c - K (2 * n + k) b c = Rsum (fun e => u e * K k e c) V - Rsum (fun e => v e * K k e c) V).
  { rewrite !chain_add by auto. rewrite <- !Rsum_sub. apply Rsum_ext. intros e _. unfold u, v. ring. }
  assert (Y : q * (K (2 * n + k) a c - K (2 * n + k) b c) = Rsum (fun e => Rsum (fun f => u e * v f * (K k e c - K k f c)) V) V).
  { rewrite X. symmetry. rewrite (Rsum_ext _ _ (fun e => u e * K k e c * q - u e * Rsum (fun f => v f * K k f c) V)).
    - rewrite Rsum_sub, !Rsum_mul_r, U. ring.
    - intros e _. rewrite <- W, <- !Rsum_mul_l, <- Rsum_sub. apply Rsum_ext. intros f _. ring. }
  assert (Z : Rabs (q * (K (2 * n + k) a c - K (2 * n + k) b c)) <= q * (q * r)).
  { rewrite Y. apply Rle_trans with (1 := Rsum_abs _ _ _). apply Rle_trans with (Rsum (fun e => u e * (q * r)) V); [|rewrite Rsum_mul_r, U; lra].
    apply Rsum_below. intros e Ie. apply Rle_trans with (1 := Rsum_abs _ _ _). apply Rle_trans with (Rsum (fun f => v f * (u e * r)) V); [|rewrite Rsum_mul_r, W; lra].
    apply Rsum_below. intros f If. rewrite Rabs_mult, (Rabs_pos_eq (u e * v f)) by (apply Rmult_le_pos; auto).
    replace (v f * (u e * r)) with (u e * v f * r) by ring. apply Rmult_le_compat_l; [apply Rmult_le_pos; auto|]. apply F; auto. }
  rewrite Rabs_mult, (Rabs_pos_eq q) in Z by auto. destruct Q0 as [Q|Q]; [apply Rmult_le_reg_l with q; auto|].
  rewrite X. assert (N : forall w, (forall e, In e V -> 0 <= w e) -> Rsum w V = q -> Rsum (fun e => w e * K k e c) V = 0).
  { intros w w0 Ws. apply Rsum_0. intros e Ie. rewrite (Rsum_0_inv _ w V w0) by (auto; lra). ring. }
  rewrite (N u), (N v) by auto. rewrite <- Q, Rminus_0_r, Rabs_R0. lra.
Qed.
Lemma stationary_close : forall r k m b c, In b V -> In c V -> far r k c -> Rabs (K (m + k) b c - B c) <= r.
Proof.
  intros r k m b c Ib Ic F. assert (X : K (m + k) b c - B c = Rsum (fun d => K m b d * Rsum (fun e => B e * (K k d c - K k e c)) V) V).
  { rewrite chain_add by auto. rewrite (Rsum_ext _ (fun d => K m b d * Rsum (fun e => B e * (K k d c - K k e c)) V) (fun d => K m b d * K k d c - K m b d * B c)).
    - rewrite Rsum_sub, Rsum_mul_r, moves_total by auto. ring.
    - intros d Id. rewrite (Rsum_ext _ (fun e => B e * (K k d c - K k e c)) (fun e => B e * K k d c - B e * K k e c)) by (intros; ring).
      rewrite Rsum_sub, Rsum_mul_r, boltzmann_total, boltzmann_sweep by auto. ring. }
  rewrite X. apply Rle_trans with (1 := Rsum_abs _ _ _). apply Rle_trans with (Rsum (fun d => K m b d * r) V); [|rewrite Rsum_mul_r, moves_total by auto; lra].
  apply Rsum_below. intros d Id. rewrite Rabs_mult, (Rabs_pos_eq (K m b d)) by (apply moves_nonneg; auto). apply Rmult_le_compat_l; [apply moves_nonneg; auto|].
  apply Rle_trans with (1 := Rsum_abs _ _ _). apply Rle_trans with (Rsum (fun e => B e * r) V); [|rewrite Rsum_mul_r, boltzmann_total; lra].
  apply Rsum_below. intros e Ie. pose proof (boltzmann_pos n E T e). rewrite Rabs_mult, (Rabs_pos_eq (B e)) by lra. apply Rmult_le_compat_l; [lra|]. apply F; auto.
Qed.
Lemma converges : forall eps, 0 < eps -> exists k0, forall k, (k0 <= k)%nat -> forall b c, In b V -> In c V -> Rabs (K k b c - B c) < eps.
Proof.
  intros eps He. destruct floor as (d & D & Hd). destruct (contracts d Hd) as [Q0 Ct]. set (q := 1 - 2 ^ n * d) in *.
  assert (Q1 : Rabs q < 1). { rewrite Rabs_pos_eq by auto. unfold q. assert (0 < 2 ^ n) by (apply pow_lt; lra). pose proof (Rmult_lt_0_compat _ _ H D). lra. }
  destruct (pow_lt_1_zero q Q1 eps He) as (j & J). specialize (J j (le_n j)). rewrite Rabs_pos_eq in J by (apply pow_le; auto).
  assert (F : forall i c, In c V -> far (q ^ i) (i * (2 * n)) c).
  { induction i as [|i IH]; intros c Ic.
    - intros a b Ia Ib. cbn [Nat.mul repeat moves pow]. pose proof (is_range a c). pose proof (is_range b c). apply Rabs_le. lra.
    - change (S i * (2 * n))%nat with (2 * n + i * (2 * n))%nat. cbn [pow]. apply Ct; [apply pow_le; auto|]. apply IH; auto. }
  exists (j * (2 * n))%nat. intros k Hk b c Ib Ic. replace k with ((k - j * (2 * n)) + j * (2 * n))%nat by lia.
  apply Rle_lt_trans with (q ^ j); auto. apply stationary_close; auto.
Qed.
End Chain.

(** A constant energy: every proposal turns its spin, and the number of them decides the parity. *)
Lemma alternates : forall T k, moves 1 (fun _ => 0) (repeat T k) [false] [false] = if Nat.even k then 1 else 0.
Proof.
  intros T. assert (A : forall b, accept (fun _ => 0) T b 0 = 1) by (intros; unfold accept, rise; replace (- (0 - 0) / T) with 0 by (unfold Rdiv; ring); rewrite exp_0; apply Rmin_left; lra).
  assert (M : forall s t, move 1 (fun _ => 0) T [s] [t] = if bool_dec s t then 0 else 1).
  { intros s t. unfold move. cbn [seq Rsum flip_spin]. rewrite A. unfold is. destruct s, t; cbn; lra. }
  assert (G : forall k, moves 1 (fun _ => 0) (repeat T k) [false] [false] = (if Nat.even k then 1 else 0) /\ moves 1 (fun _ => 0) (repeat T k) [true] [false] = (if Nat.even k then 0 else 1)).
  { induction k as [|k [I1 I2]]; cbn [repeat moves]; [unfold is; cbn; auto|]. cbn [values map app Rsum]. rewrite I1, I2, !M, Nat.even_succ, <- Nat.negb_even. destruct (Nat.even k); cbn; split; lra. }
  apply G.
Qed.
