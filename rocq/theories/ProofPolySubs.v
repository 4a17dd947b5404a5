(** Substitution of powers and the reduction of polynomials to flat ones. *)
From Coq Require Import List Arith Bool Reals Lra Lia Sorted Permutation.
Import ListNotations.
From Verif Require Import Base Cplx Bits ModelWq ModelOpt ModelPoly SpecNbody SpecPoly ProofPoly.
Local Open Scope R_scope.

(** ** Exponents *)
Lemma subs_exp_0 : forall k, subs_exp k 0 = 0%nat.
Proof. intros k. unfold subs_exp. destruct k; auto. rewrite Nat.mod_0_l, Nat.div_0_l by lia. auto. Qed.
Lemma subs_exp_pos : forall k n, (0 < k)%nat -> (0 < n)%nat -> (0 < subs_exp k n)%nat.
Proof.
  intros k n K N. unfold subs_exp. destruct (n mod k =? 0)%nat eqn:E; auto. apply Nat.eqb_eq in E. apply Nat.div_str_pos. split; [|]; auto.
  destruct (Nat.lt_ge_cases n k); auto. rewrite Nat.mod_small in E; lia.
Qed.
Lemma subs_exp_self : forall k, (0 < k)%nat -> subs_exp k k = 1%nat.
Proof. intros k K. unfold subs_exp. rewrite Nat.mod_same, Nat.div_same by lia. auto. Qed.
Lemma subs_exp_below : forall k n, (0 < n < k)%nat -> subs_exp k n = n.
Proof. intros k n H. unfold subs_exp. rewrite Nat.mod_small by lia. destruct n; [lia|]. auto. Qed.
Lemma subs_exp_one : forall n, subs_exp 1 n = n.
Proof. intros n. unfold subs_exp. rewrite Nat.mod_1_r, Nat.div_1_r. auto. Qed.
Lemma subs_exp_1 : forall k, (0 < k)%nat -> subs_exp k 1 = 1%nat.
Proof. intros k K. destruct k as [|[|k]]; [lia|apply subs_exp_one|]. apply subs_exp_below. lia. Qed.

Definition on_exps (g : nat -> nat) (m : mono) : mono := map (fun f => (fst f, g (snd f))) m.
Lemma on_exps_valid : forall g m, (forall n, (0 < n)%nat -> (0 < g n)%nat) -> valid m -> valid (on_exps g m).
Proof.
  intros g m H [A F]. split.
  - unfold on_exps. rewrite map_map. cbn [fst]. auto.
  - unfold on_exps. apply Forall_map. cbn [snd]. rewrite Forall_forall in *. auto.
Qed.
Lemma on_exps_comp : forall g h m, on_exps g (on_exps h m) = on_exps (fun n => g (h n)) m.
Proof. intros. unfold on_exps. rewrite map_map. reflexivity. Qed.
Lemma on_exps_ext : forall g h m, Forall (fun f => g (snd f) = h (snd f)) m -> on_exps g m = on_exps h m.
Proof. intros g h m F. unfold on_exps. apply map_ext_in. intros f I. rewrite Forall_forall in F. rewrite (F f I). auto. Qed.
Lemma on_exps_id : forall m, on_exps (fun n => n) m = m.
Proof. intros m. unfold on_exps. rewrite <- (map_id m) at 2. apply map_ext. intros [a b]. auto. Qed.
Lemma exponent_on_exps : forall g m v, g 0%nat = 0%nat -> exponent (on_exps g m) v = g (exponent m v).
Proof. intros g m v H. induction m as [|[w k] r IH]; cbn; auto. destruct (v =? w)%nat; auto. Qed.

(** ** subs_all *)
Lemma subs_mono_valid : forall j k m, (0 < k)%nat -> valid m -> valid (subs_mono j k m).
Proof.
  intros j k m K [A F]. split.
  - unfold subs_mono. rewrite map_map. replace (map (fun x => fst (if (fst x =? j)%nat then (fst x, subs_exp k (snd x)) else x)) m) with (map fst m); auto.
    apply map_ext. intros [a b]. cbn. destruct (a =? j)%nat; auto.
  - unfold subs_mono. apply Forall_map. rewrite Forall_forall in *. intros [a b] I. specialize (F _ I). cbn in *. destruct (a =? j)%nat; auto. cbn. apply subs_exp_pos; auto.
Qed.
Lemma subs_power_normal : forall j k p, (0 < k)%nat -> normal p -> normal (subs_power j k p).
Proof.
  intros j k p K [N F]. apply collect_normal. apply Forall_map. cbn [fst]. rewrite Forall_forall in *. intros t I. apply subs_mono_valid; auto. apply F; auto.
Qed.
Lemma subs_power_weight : forall f j k p, weight f (subs_power j k p) = weight (fun m => f (subs_mono j k m)) p.
Proof. intros f j k p. unfold subs_power. rewrite weight_collect. rewrite (weight_map f (subs_mono j k)). reflexivity. Qed.
Lemma subs_fold_normal : forall k js p, (0 < k)%nat -> normal p -> normal (fold_left (fun f j => subs_power j k f) js p).
Proof. induction js as [|j js IH]; intros p K N; cbn; auto. apply IH; auto. apply subs_power_normal; auto. Qed.
Lemma subs_fold_weight : forall f k js p, weight f (fold_left (fun f j => subs_power j k f) js p) = weight (fun m => f (fold_left (fun m j => subs_mono j k m) js m)) p.
Proof. intros f k js. induction js as [|j js IH]; intros p; cbn [fold_left]; auto. rewrite IH, subs_power_weight. reflexivity. Qed.
Definition subs_factor (j k : nat) (f : nat * nat) : nat * nat := if (fst f =? j)%nat then (fst f, subs_exp k (snd f)) else f.
Lemma subs_fold_map : forall k js m, fold_left (fun m j => subs_mono j k m) js m = map (fun f => fold_left (fun f j => subs_factor j k f) js f) m.
Proof.
  induction js as [|j js IH]; intros m; cbn [fold_left]; [symmetry; apply map_id|]. rewrite IH. unfold subs_mono. rewrite map_map. reflexivity.
Qed.
Lemma subs_factor_out : forall k js v n, ~ In v js -> fold_left (fun f j => subs_factor j k f) js (v, n) = (v, n).
Proof.
  induction js as [|j js IH]; intros v n H; cbn [fold_left]; auto. unfold subs_factor at 2. cbn [fst snd]. destruct (v =? j)%nat eqn:E.
  - apply Nat.eqb_eq in E. subst. exfalso. apply H. left. auto.
  - apply IH. intros I. apply H. right. auto.
Qed.
Lemma subs_factor_in : forall k js v n, NoDup js -> In v js -> fold_left (fun f j => subs_factor j k f) js (v, n) = (v, subs_exp k n).
Proof.
  induction js as [|j js IH]; intros v n N I; [contradiction|]. cbn [fold_left]. inversion N as [|? ? N1 N2]; subst. unfold subs_factor at 2. cbn [fst snd].
  destruct (v =? j)%nat eqn:E.
  - apply Nat.eqb_eq in E. subst. apply subs_factor_out. auto.
  - apply IH; auto. destruct I as [->|I]; auto. rewrite Nat.eqb_refl in E. discriminate.
Qed.
Lemma in_free : forall p v, In v (free_symbols p) <-> exists m c, In (m, c) p /\ In v (map fst m).
Proof.
  intros p v. unfold free_symbols. rewrite nodup_In, in_flat_map. split.
  - intros ([m c] & A & B). exists m, c. auto.
  - intros (m & c & A & B). exists (m, c). auto.
Qed.
Lemma nodup_free : forall p, NoDup (free_symbols p).
Proof. intros p. apply NoDup_nodup. Qed.

Section Sets.
Variable order : list nat -> list nat.
Hypothesis Ho : forall l, Permutation (order l) l.

Lemma subs_all_normal : forall k p, (0 < k)%nat -> normal p -> normal (subs_all order k p).
Proof. intros. apply subs_fold_normal; auto. Qed.
Lemma subs_all_weight : forall f k p, weight f (subs_all order k p) = weight (fun m => f (on_exps (subs_exp k) m)) p.
Proof.
  intros f k p. unfold subs_all. rewrite subs_fold_weight. apply weight_ext. intros m c I. f_equal. rewrite subs_fold_map. unfold on_exps. apply map_ext_in.
  intros [v n] J. apply subs_factor_in.
  - apply (Permutation_NoDup (Permutation_sym (Ho _))). apply nodup_free.
  - apply (Permutation_in _ (Permutation_sym (Ho _))). apply in_free. exists m, c. split; auto. apply in_map_iff. exists (v, n). auto.
Qed.
(** what remains of an exponent after all rounds *)
Definition remains (deg n : nat) : nat := fold_left (fun n i => subs_exp (deg - i) n) (seq 0 deg) n.
Lemma rounds_normal : forall l deg p, (forall i, In i l -> (i < deg)%nat) -> normal p -> normal (fold_left (fun f i => subs_all order (deg - i) f) l p).
Proof.
  induction l as [|i l IH]; intros deg p H N; cbn [fold_left]; auto. apply IH; [intros; apply H; right; auto|]. apply subs_all_normal; auto.
  specialize (H i (or_introl eq_refl)). lia.
Qed.
Lemma rounds_weight : forall l f deg p, weight f (fold_left (fun f i => subs_all order (deg - i) f) l p) =
  weight (fun m => f (on_exps (fun n => fold_left (fun n i => subs_exp (deg - i) n) l n) m)) p.
Proof.
  induction l as [|i l IH]; intros f deg p; cbn [fold_left].
  - apply weight_ext. intros m c _. rewrite on_exps_id. auto.
  - rewrite IH, subs_all_weight. apply weight_ext. intros m c _. rewrite on_exps_comp. auto.
Qed.
Lemma remains_0 : forall l deg, fold_left (fun n i => subs_exp (deg - i) n) l 0%nat = 0%nat.
Proof. induction l as [|i l IH]; intros deg; cbn [fold_left]; auto. rewrite subs_exp_0. auto. Qed.
Lemma remains_pos : forall l deg n, (forall i, In i l -> (i < deg)%nat) -> (0 < n)%nat -> (0 < fold_left (fun n i => subs_exp (deg - i) n) l n)%nat.
Proof.
  induction l as [|i l IH]; intros deg n H N; cbn [fold_left]; auto. apply IH; [intros; apply H; right; auto|]. apply subs_exp_pos; auto.
  specialize (H i (or_introl eq_refl)). lia.
Qed.
Lemma remains_keep : forall l deg, (forall i, In i l -> (i < deg)%nat) -> fold_left (fun n i => subs_exp (deg - i) n) l 1%nat = 1%nat.
Proof.
  induction l as [|i l IH]; intros deg H; cbn [fold_left]; auto. rewrite subs_exp_1 by (specialize (H i (or_introl eq_refl)); lia). apply IH. intros; apply H; right; auto.
Qed.
Lemma remains_skip : forall k a deg n, (0 < n)%nat -> (n + a + k <= deg)%nat -> fold_left (fun n i => subs_exp (deg - i) n) (seq a k) n = n.
Proof.
  induction k as [|k IH]; intros a deg n N H; cbn [seq fold_left]; auto. rewrite subs_exp_below by lia. apply IH; lia.
Qed.
Lemma remains_one : forall deg n, (0 < n <= deg)%nat -> remains deg n = 1%nat.
Proof.
  intros deg n H. unfold remains. replace deg with ((deg - n) + S (n - 1))%nat at 1 by lia.
  replace (seq 0 ((deg - n) + S (n - 1))) with (seq 0 (deg - n) ++ (deg - n)%nat :: seq (S (deg - n)) (n - 1)).
  2:{ rewrite seq_app. reflexivity. }
  rewrite fold_left_app. rewrite remains_skip by lia. cbn [fold_left]. replace (deg - (deg - n))%nat with n by lia. rewrite subs_exp_self by lia.
  apply remains_keep. intros i I. apply in_seq in I. lia.
Qed.

(** ** expand_qubo *)
Definition flatten (m : mono) : mono := on_exps (fun n => Nat.min n 1) m.
Lemma flatten_valid : forall m, valid m -> valid (flatten m).
Proof. intros. apply on_exps_valid; auto. lia. Qed.
Lemma expand_step : forall p q, normal p -> expand_collected order p = POk q ->
  exists deg, degree p = POk deg /\ normal q /\ forall f, weight f q = weight (fun m => f (on_exps (remains deg) m)) p.
Proof.
  intros p q N H. unfold expand_collected in H. destruct (degree p) as [deg|e] eqn:D; [|discriminate]. injection H as <-. exists deg. split; auto.
  assert (B : forall i, In i (seq 0 deg) -> (i < deg)%nat) by (intros i I; apply in_seq in I; lia).
  split; [apply rounds_normal; auto|]. intros f. rewrite rounds_weight. reflexivity.
Qed.
Lemma expand_ok : forall p deg, degree p = POk deg -> exists q, expand_collected order p = POk q.
Proof. intros p deg D. unfold expand_collected. rewrite D. eauto. Qed.

(** values on bits *)
Definition product_of (a : nat -> R) (m : mono) : R := fold_right (fun f r => a (fst f) ^ snd f * r) 1 m.
Lemma bit_power : forall a n m : nat, forall x : R, x = 0 \/ x = 1 -> (0 < n)%nat -> (0 < m)%nat -> x ^ n = x ^ m.
Proof. intros _ n m x [-> | ->] N M; [rewrite !pow_i by auto; auto|rewrite !pow1; auto]. Qed.
Lemma product_on_exps : forall a g m, binary a -> (forall n, (0 < n)%nat -> (0 < g n)%nat) -> valid m -> product_of a (on_exps g m) = product_of a m.
Proof.
  intros a g m B H [_ F]. unfold product_of, on_exps. induction m as [|[v n] r IH]; cbn; auto. inversion F as [|? ? F1 F2]; subst.
  cbn [fst snd] in *. rewrite IH by auto. f_equal. apply (bit_power 0%nat); auto.
Qed.
Lemma normal_valid : forall p m c, normal p -> In (m, c) p -> valid m.
Proof. intros p m c [_ F] I. rewrite Forall_forall in F. apply (F _ I). Qed.
Lemma value_weight : forall a p, value_of a p = weight (product_of a) p.
Proof. reflexivity. Qed.
Lemma product_times : forall a v m, product_of a (times v m) = a v * product_of a m.
Proof.
  intros a v m. unfold product_of. induction m as [|[w k] r IH]; cbn [times fold_right]; cbn [fst snd]; [cbn; ring|].
  destruct (v <? w)%nat; [cbn; ring|]. destruct (v =? w)%nat eqn:E.
  - apply Nat.eqb_eq in E. subst. cbn [fold_right fst snd]. cbn [pow]. ring.
  - cbn [fold_right fst snd]. rewrite IH. ring.
Qed.
Lemma product_mono_of : forall a l, product_of a (mono_of l) = product a l.
Proof. intros a l. induction l as [|v l IH]; auto. cbn [mono_of fold_right]. fold (mono_of l). rewrite product_times, IH. reflexivity. Qed.
Definition raw (s : list (R * list nat)) : list (mono * R) := map (fun t => (mono_of (snd t), fst t)) s.
Lemma expand_weight : forall f s, weight f (expand s) = weight f (raw s).
Proof. intros f s. apply weight_collect. Qed.
Lemma expand_normal : forall s, normal (expand s).
Proof. intros s. apply collect_normal. apply Forall_map. cbn [fst]. apply Forall_forall. intros t _. apply mono_of_valid. Qed.
Lemma value_expand : forall a s, value_of a (expand s) = value a s.
Proof.
  intros a s. rewrite value_weight, expand_weight. unfold weight, raw, value. rewrite Rsum_map. cbn [fst snd]. apply Rsum_ext. intros t _. rewrite product_mono_of. auto.
Qed.
Lemma expand_bits : forall a p q, binary a -> normal p -> expand_collected order p = POk q -> value_of a q = value_of a p.
Proof.
  intros a p q B N H. destruct (expand_step p q N H) as (deg & _ & _ & W). rewrite !value_weight, W. apply weight_ext. intros m c I.
  apply product_on_exps; auto; [|apply (normal_valid p m c N I)]. intros n Hn. apply remains_pos; auto. intros i J. apply in_seq in J. lia.
Qed.
Lemma subs_all_bits : forall a k p, (0 < k)%nat -> binary a -> normal p -> value_of a (subs_all order k p) = value_of a p.
Proof.
  intros a k p K B N. rewrite !value_weight, subs_all_weight. apply weight_ext. intros m c I. apply product_on_exps; auto; [|apply (normal_valid p m c N I)].
  intros n Hn. apply subs_exp_pos; auto.
Qed.
End Sets.
