(** Flat polynomials and the coefficients of the specification. *)
From Coq Require Import List Arith Bool Reals Lra Lia Sorted Permutation.
Import ListNotations.
From Verif Require Import Base Cplx Bits ModelWq ModelOpt ModelPoly SpecNbody SpecPoly ProofPoly ProofPolySubs.
Local Open Scope R_scope.

(** ** Products and sets *)
Lemma power_in : forall l v, In v l <-> (0 < power l v)%nat.
Proof. intros l v. unfold power. rewrite (count_occ_In Nat.eq_dec). lia. Qed.
Lemma same_product_iff : forall a b, same_product a b = true <-> mono_of a = mono_of b.
Proof.
  intros a b. unfold same_product. rewrite forallb_forall. split; intros H.
  - apply mono_ext; try apply mono_of_valid. intros v. rewrite !exponent_mono_of. destruct (in_dec Nat.eq_dec v (a ++ b)) as [I|I].
    + apply Nat.eqb_eq. auto.
    + assert (~ In v a /\ ~ In v b) as [A B] by (rewrite in_app_iff in I; tauto). unfold power.
      rewrite (proj1 (count_occ_not_In Nat.eq_dec a v) A), (proj1 (count_occ_not_In Nat.eq_dec b v) B). auto.
  - intros v _. apply Nat.eqb_eq. rewrite <- !exponent_mono_of, H. auto.
Qed.
Lemma mono_vars : forall l v, In v (map fst (mono_of l)) <-> In v l.
Proof. intros l v. rewrite (in_exponent _ v (mono_of_valid l)), exponent_mono_of, <- power_in. reflexivity. Qed.
Lemma same_set_iff : forall a b, same_set a b = true <-> forall v, In v a <-> In v b.
Proof.
  intros a b. unfold same_set. rewrite andb_true_iff, !forallb_forall. setoid_rewrite existsb_exists. split.
  - intros [A B] v. split; intros I; [destruct (A v I) as (w & J & E)|destruct (B v I) as (w & J & E)]; apply Nat.eqb_eq in E; subst; auto.
  - intros H. split; intros v I; exists v; rewrite Nat.eqb_refl; split; auto; apply H; auto.
Qed.
Lemma flatten_eq : forall m m', valid m -> valid m' -> (flatten m = flatten m' <-> forall v, In v (map fst m) <-> In v (map fst m')).
Proof.
  intros m m' V V'. split.
  - intros E v. rewrite !in_exponent by auto. assert (X : exponent (flatten m) v = exponent (flatten m') v) by (rewrite E; auto).
    unfold flatten in X. rewrite !exponent_on_exps in X by auto. lia.
  - intros H. apply mono_ext; try (apply flatten_valid; auto). intros v. unfold flatten. rewrite !exponent_on_exps by auto.
    specialize (H v). rewrite !in_exponent in H by auto. lia.
Qed.
Lemma flat_vars : forall m, map fst (flatten m) = map fst m.
Proof. intros m. unfold flatten, on_exps. rewrite map_map. reflexivity. Qed.
Lemma flat_id : forall m, Forall (fun f => snd f = 1%nat) m -> flatten m = m.
Proof.
  intros m F. unfold flatten, on_exps. rewrite <- (map_id m) at 2. apply map_ext_in. intros [v k] I. rewrite Forall_forall in F. specialize (F _ I). cbn in *. subst. auto.
Qed.
Lemma flatten_flat : forall m, valid m -> Forall (fun f => snd f = 1%nat) (flatten m).
Proof. intros m [_ F]. unfold flatten, on_exps. apply Forall_map. cbn [snd]. rewrite Forall_forall in *. intros f I. specialize (F f I). lia. Qed.
(** the product of a set *)
Definition mset (l : list nat) : mono := flatten (mono_of l).
Lemma mset_valid : forall l, valid (mset l).
Proof. intros. apply flatten_valid, mono_of_valid. Qed.
Lemma mset_eq : forall a b, mset a = mset b <-> same_set a b = true.
Proof.
  intros a b. rewrite same_set_iff. unfold mset. rewrite flatten_eq by apply mono_of_valid. setoid_rewrite mono_vars. reflexivity.
Qed.
Lemma mset_vars : forall l v, In v (map fst (mset l)) <-> In v l.
Proof. intros. unfold mset. rewrite flat_vars. apply mono_vars. Qed.
Lemma flat_mset : forall m, valid m -> flatten m = mset (map fst m).
Proof. intros m V. unfold mset. apply flatten_eq; auto; [apply mono_of_valid|]. intros v. rewrite mono_vars. reflexivity. Qed.

(** ** Coefficients *)
Lemma coefficient_weight : forall s l, coefficient s l = weight (ind (mono_of l)) (expand s).
Proof.
  intros s l. rewrite expand_weight. unfold coefficient, weight, raw. rewrite Rsum_map. cbn [fst snd]. apply Rsum_ext. intros t _.
  destruct (same_product (snd t) l) eqn:E.
  - apply same_product_iff in E. rewrite E, ind_self. lra.
  - rewrite ind_other; [lra|]. intros X. symmetry in X. apply same_product_iff in X. congruence.
Qed.
Lemma reduced_weight : forall s l, reduced s l = weight (fun m => ind (mset l) (flatten m)) (expand s).
Proof.
  intros s l. rewrite expand_weight. unfold reduced, weight, raw. rewrite Rsum_map. cbn [fst snd]. apply Rsum_ext. intros t _. fold (mset (snd t)).
  destruct (same_set (snd t) l) eqn:E.
  - apply mset_eq in E. rewrite E, ind_self. lra.
  - rewrite ind_other; [lra|]. intros X. symmetry in X. apply mset_eq in X. congruence.
Qed.
(** every product of the collected sum is the product of some list *)
Definition spread (m : mono) : list nat := flat_map (fun f => repeat (fst f) (snd f)) m.
Lemma count_repeat : forall v k w, count_occ Nat.eq_dec (repeat v k) w = if (w =? v)%nat then k else 0%nat.
Proof.
  induction k as [|k IH]; intros w; cbn; [destruct (w =? v)%nat; auto|]. rewrite IH. destruct (Nat.eq_dec v w) as [->|N]; [rewrite Nat.eqb_refl; auto|].
  destruct (w =? v)%nat eqn:E; auto. apply Nat.eqb_eq in E. congruence.
Qed.
Lemma spread_power : forall m v, valid m -> power (spread m) v = exponent m v.
Proof.
  intros m v [A F]. unfold power. induction m as [|[w k] r IH]; auto. inversion A as [|? ? A1 A2]; subst. inversion F as [|? ? F1 F2]; subst.
  cbn [spread flat_map exponent]. fold (spread r). rewrite count_occ_app, count_repeat, IH by auto. cbn [fst snd] in *. destruct (v =? w)%nat eqn:E; [|auto].
  apply Nat.eqb_eq in E. subst. rewrite exponent_out; [lia|]. intros I. rewrite Forall_forall in A2. specialize (A2 w I). lia.
Qed.
Lemma spread_mono : forall m, valid m -> mono_of (spread m) = m.
Proof. intros m V. apply mono_ext; auto; [apply mono_of_valid|]. intros v. rewrite exponent_mono_of. apply spread_power; auto. Qed.
Lemma member_present : forall s m c, In (m, c) (expand s) -> present s (spread m) /\ coefficient s (spread m) = c.
Proof.
  intros s m c I. assert (V := normal_valid _ m c (expand_normal s) I). destruct (member_weight _ m c (expand_normal s) I) as [W N].
  unfold present. rewrite coefficient_weight, spread_mono by auto. rewrite W. auto.
Qed.
Lemma present_member : forall s l, present s l -> exists c, In (mono_of l, c) (expand s).
Proof. intros s l H. unfold present in H. rewrite coefficient_weight in H. apply weight_member in H. auto. Qed.
Lemma weight_some : forall f p, weight f p <> 0 -> exists m c, In (m, c) p /\ f m <> 0.
Proof.
  intros f p H. induction p as [|[m c] r IH]; [exfalso; apply H; reflexivity|]. unfold weight in H. cbn [Rsum fst snd] in H. fold (weight f r) in H.
  destruct (Req_EM_T (f m) 0) as [E|E].
  - rewrite E in H. destruct IH as (m' & c' & I & X); [lra|]. exists m', c'. split; auto. right. auto.
  - exists m, c. split; auto. left. auto.
Qed.

(** ** Degree of the first generator *)
Lemma fold_min : forall l v, In (fold_left Nat.min l v) (v :: l) /\ forall w, In w (v :: l) -> (fold_left Nat.min l v <= w)%nat.
Proof.
  induction l as [|x l IH]; intros v; cbn [fold_left]; [cbn; split; [auto|intros w [<-|[]]; lia]|].
  destruct (IH (Nat.min v x)) as [A B]. split.
  - destruct A as [A|A]; [|right; right; auto]. rewrite <- A. destruct (Nat.min_dec v x) as [->| ->]; cbn; auto.
  - intros w [<-|[<-|I]]; [|..].
    + specialize (B _ (or_introl eq_refl)). lia.
    + specialize (B _ (or_introl eq_refl)). lia.
    + apply B. right. auto.
Qed.
Lemma fold_max : forall l x, (x <= fold_left Nat.max l x)%nat /\ (forall y, In y l -> (y <= fold_left Nat.max l x)%nat) /\
  (fold_left Nat.max l x = x \/ In (fold_left Nat.max l x) l).
Proof.
  induction l as [|y l IH]; intros x; cbn [fold_left]; [repeat split; auto; intros ? []|]. destruct (IH (Nat.max x y)) as (A & B & D). repeat split.
  - lia.
  - intros z [<-|I]; [lia|auto].
  - destruct D as [D|D]; [|right; right; auto]. destruct (Nat.max_dec x y) as [E|E]; [left|right; left]; rewrite D; lia.
Qed.
Lemma degree_led : forall s, led s -> exists deg, degree (expand s) = POk deg /\ forall m c, In (m, c) (expand s) -> Forall (fun f => (0 < snd f <= deg)%nat) m.
Proof.
  intros s (v & m0 & P0 & I0 & L & H). unfold degree, first_generator. destruct (present_member s m0 P0) as (c0 & J0).
  assert (Fv : In v (free_symbols (expand s))) by (apply in_free; exists (mono_of m0), c0; split; auto; apply mono_vars; auto).
  destruct (free_symbols (expand s)) as [|u l] eqn:E; [contradiction|]. destruct (fold_min l u) as [A B].
  assert (Ev : fold_left Nat.min l u = v).
  { apply Nat.le_antisymm; [apply B; auto|]. rewrite <- E in A. apply in_free in A as (m & c & I & K).
    apply (L (spread m)); [apply (member_present s m c I)|]. apply power_in. assert (V := normal_valid _ m c (expand_normal s) I).
    rewrite spread_power by auto. apply in_exponent; auto. }
  rewrite Ev. eexists. split; [reflexivity|]. intros m c I. assert (V := normal_valid _ m c (expand_normal s) I). apply Forall_forall. intros [w k] K. cbn [snd].
  assert (Ek : exponent m w = k).
  { clear - V K. destruct V as [A F]. induction m as [|[x n] r IH]; [contradiction|]. inversion A as [|? ? A1 A2]; subst. inversion F as [|? ? F1 F2]; subst. cbn [exponent].
    destruct K as [K|K]; [injection K as -> ->; rewrite Nat.eqb_refl; auto|]. destruct (w =? x)%nat eqn:X; [|auto]. apply Nat.eqb_eq in X. subst. exfalso.
    rewrite Forall_forall in A2. assert (x < x)%nat; [|lia]. apply A2. apply in_map_iff. exists (x, k). auto. }
  split; [destruct V as [_ F]; rewrite Forall_forall in F; apply (F _ K)|]. transitivity (power m0 v).
  - rewrite <- Ek, <- (spread_power m w V). apply H. apply (member_present s m c I).
  - apply fold_max. apply in_map_iff. exists (mono_of m0, c0). cbn [fst]. rewrite exponent_mono_of. auto.
Qed.
Lemma degree_none : forall s, (forall m, present s m -> m = []) -> degree (expand s) = PErr GeneratorsNeeded.
Proof.
  intros s H. unfold degree, first_generator. destruct (free_symbols (expand s)) as [|u l] eqn:E; auto. exfalso.
  assert (I : In u (free_symbols (expand s))) by (rewrite E; left; auto). apply in_free in I as (m & c & I & K).
  assert (V := normal_valid _ m c (expand_normal s) I). assert (X := H _ (proj1 (member_present s m c I))).
  apply in_exponent in K; auto. rewrite <- spread_power, X in K by auto. cbn in K. lia.
Qed.

(** ** What a flat polynomial is *)
(** [q] is a normal form with no powers and the coefficients of [s] on bits *)
Definition reduces (s : list (R * list nat)) (q : poly) : Prop :=
  normal q /\ flat q /\ (forall l, weight (ind (mset l)) q = reduced s l) /\ (forall a, binary a -> value_of a q = value a s) /\
  (at_most_two s -> forall m c, In (m, c) q -> exists i j, incl (map fst m) [i; j]).
Lemma reduces_of : forall s q, normal q -> (forall f, weight f q = weight (fun m => f (flatten m)) (expand s)) -> reduces s q.
Proof.
  intros s q N W. assert (M : forall m c, In (m, c) q -> exists m' c', In (m', c') (expand s) /\ flatten m' = m).
  { intros m c I. destruct (member_weight q m c N I) as [E Z]. rewrite W in E. destruct (weight_some (fun m' => ind m (flatten m')) (expand s)) as (m' & c' & I' & X).
    - rewrite E. auto.
    - exists m', c'. split; auto. destruct (mono_eq_dec m (flatten m')); auto. rewrite ind_other in X by auto. lra. }
  split; auto. split; [|split; [|split]].
  - apply Forall_forall. intros [m c] I. destruct (M m c I) as (m' & c' & I' & <-). cbn [fst]. apply flatten_flat. apply (normal_valid _ m' c' (expand_normal s) I').
  - intros l. rewrite W, reduced_weight. reflexivity.
  - intros a B. rewrite <- value_expand, !value_weight, W. apply weight_ext. intros m c I. apply product_on_exps; auto; [lia|]. apply (normal_valid _ m c (expand_normal s) I).
  - intros T m c I. destruct (M m c I) as (m' & c' & I' & <-). rewrite flat_vars. destruct (T _ (proj1 (member_present s m' c' I'))) as (i & j & X).
    exists i, j. intros v K. apply X. apply power_in. assert (V := normal_valid _ m' c' (expand_normal s) I'). rewrite spread_power by auto. apply in_exponent; auto.
Qed.
Lemma reduces_member : forall s q m c, reduces s q -> In (m, c) q -> m = mset (map fst m) /\ reduced s (map fst m) = c /\ c <> 0.
Proof.
  intros s q m c (N & F & W & _) I. assert (V := normal_valid _ m c N I). assert (E : m = mset (map fst m)).
  { rewrite <- flat_mset by auto. symmetry. apply flat_id. unfold flat in F. rewrite Forall_forall in F. apply (F _ I). }
  split; auto. rewrite <- W, <- E. apply member_weight; auto.
Qed.
Lemma reduces_free : forall s q i, reduces s q -> In i (free_symbols q) <-> uses s i.
Proof.
  intros s q i H. rewrite in_free. split.
  - intros (m & c & I & K). destruct (reduces_member s q m c H I) as (_ & E & Z). exists (map fst m). rewrite E. auto.
  - intros (l & I & Z). destruct H as (N & F & W & _). rewrite <- W in Z. destruct (weight_member q _ Z) as (c & J). exists (mset l), c. split; auto. apply mset_vars. auto.
Qed.

Section Sets.
Variable order : list nat -> list nat.
Hypothesis Ho : forall l, Permutation (order l) l.
Lemma expand_led : forall s, led s -> exists q, expand_qubo order s = POk q /\ reduces s q.
Proof.
  intros s H. destruct (degree_led s H) as (deg & D & B). destruct (expand_ok order _ _ D) as (q & E). exists q. split; auto.
  destruct (expand_step order Ho _ q (expand_normal s) E) as (deg' & D' & N & W). rewrite D in D'. injection D' as <-. apply reduces_of; auto.
  intros f. rewrite W. apply weight_ext. intros m c I. f_equal. apply on_exps_ext. specialize (B m c I). rewrite Forall_forall in *. intros g J. specialize (B g J).
  rewrite remains_one by auto. lia.
Qed.
(** a flat sum with symbols is expanded to itself *)
Lemma degree_flat : forall q, normal q -> flat q -> free_symbols q <> [] -> degree q = POk 1%nat.
Proof.
  intros q N F H. unfold degree, first_generator. destruct (free_symbols q) as [|u l] eqn:E; [congruence|]. f_equal. set (v := fold_left Nat.min l u).
  assert (Iv : In v (free_symbols q)) by (rewrite E; apply fold_min). apply in_free in Iv as (m & c & I & K).
  assert (G : forall m c, In (m, c) q -> (exponent m v <= 1)%nat).
  { intros m' c' I'. unfold flat in F. rewrite Forall_forall in F. specialize (F _ I'). cbn [fst] in F. clear - F. induction m' as [|[w k] r IH]; cbn; [lia|].
    inversion F as [|? ? F1 F2]; subst. cbn in F1. destruct (v =? w)%nat; [lia|auto]. }
  destruct (fold_max (map (fun t => exponent (fst t) v) q) 0) as (A & B & D). apply Nat.le_antisymm.
  - destruct D as [D|D]; [rewrite D; lia|]. apply in_map_iff in D as ([m' c'] & X & I'). rewrite <- X. cbn [fst]. apply (G m' c' I').
  - transitivity (exponent m v); [|apply B; apply in_map_iff; exists (m, c); auto]. apply in_exponent in K; [lia|]. apply (normal_valid _ m c N I).
Qed.
Lemma expand_flat : forall s q, reduces s q -> free_symbols q <> [] -> exists q', expand_collected order q = POk q' /\ reduces s q'.
Proof.
  intros s q H Z. assert (N := proj1 H). assert (F := proj1 (proj2 H)). destruct (expand_ok order q 1%nat (degree_flat q N F Z)) as (q' & E). exists q'. split; auto.
  destruct (expand_step order Ho q q' N E) as (deg & D & N' & W). rewrite degree_flat in D by auto. injection D as <-.
  assert (W' : forall f, weight f q' = weight f q).
  { intros f. rewrite W. apply weight_ext. intros m c I. f_equal. rewrite <- (on_exps_id m) at 2. apply on_exps_ext. unfold flat in F. rewrite Forall_forall in F.
    specialize (F _ I). cbn [fst] in F. rewrite Forall_forall in *. intros g J. rewrite (F g J). reflexivity. }
  destruct H as (_ & _ & Wq & Vq & Tq). split; auto.
  assert (M : forall m c, In (m, c) q' -> In (m, c) q).
  { intros m c I. destruct (member_weight q' m c N' I) as [X Y]. rewrite W' in X. rewrite <- X. apply normal_eq; auto. rewrite X. auto. }
  split; [|split; [|split]].
  - unfold flat in *. rewrite Forall_forall in *. intros [m c] I. apply (F (m, c)). apply M. auto.
  - intros l. rewrite W'. auto.
  - intros a B. rewrite <- Vq, !value_weight by auto. apply W'.
  - intros T m c I. apply (Tq T m c). apply M. auto.
Qed.
Lemma optx_led : forall s, squares s -> reduces s (optx order s).
Proof.
  intros s H. unfold optx. apply reduces_of; [apply subs_all_normal; auto; apply expand_normal|]. intros f. rewrite (subs_all_weight order Ho). apply weight_ext. intros m c I.
  f_equal. assert (V := normal_valid _ m c (expand_normal s) I). apply on_exps_ext. apply Forall_forall. intros [w k] J. cbn [snd].
  assert (K : (k <= 2)%nat).
  { specialize (H _ w (proj1 (member_present s m c I))). rewrite spread_power in H by auto. replace k with (exponent m w); auto.
    clear - V J. destruct V as [A F]. induction m as [|[x n] r IH]; [contradiction|]. inversion A as [|? ? A1 A2]; subst. inversion F as [|? ? F1 F2]; subst. cbn [exponent].
    destruct J as [J|J]; [injection J as -> ->; rewrite Nat.eqb_refl; auto|]. destruct (w =? x)%nat eqn:X; [|auto]. apply Nat.eqb_eq in X. subst. exfalso.
    rewrite Forall_forall in A2. assert (x < x)%nat; [|lia]. apply A2. apply in_map_iff. exists (x, k). auto. }
  destruct V as [_ F]. rewrite Forall_forall in F. specialize (F _ J). cbn in F. destruct k as [|[|[|k]]]; try lia; reflexivity.
Qed.
End Sets.
