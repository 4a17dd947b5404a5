(** Lemmas on polynomials of sympy: collecting terms, substitution of powers, coefficients. *)
From Coq Require Import List Arith Bool Reals Lra Lia Sorted Permutation.
Import ListNotations.
From Verif Require Import Base Cplx Bits ModelWq ModelOpt ModelPoly SpecNbody SpecPoly.
Local Open Scope R_scope.

(** ** Weighted sums *)
Definition weight (f : mono -> R) (p : list (mono * R)) : R := Rsum (fun t => snd t * f (fst t)) p.
Definition ind (m m' : mono) : R := if mono_eq_dec m m' then 1 else 0.
Lemma weight_add : forall f m c p, weight f (add_term m c p) = weight f p + c * f m.
Proof.
  intros f m c p. unfold weight. induction p as [|[m' c'] r IH]; cbn [add_term].
  - destruct (Reqb c 0) eqn:E; cbn [Rsum fst snd]; [apply Reqb_true in E; subst; lra|lra].
  - destruct (mono_eq_dec m m') as [->|N].
    + destruct (Reqb (c' + c) 0) eqn:E; cbn [Rsum fst snd]; [|lra]. apply Reqb_true in E. replace c' with (- c) by lra. lra.
    + cbn [Rsum fst snd]. rewrite IH. lra.
Qed.
Lemma weight_fold : forall f l p, weight f (fold_left (fun p t => add_term (fst t) (snd t) p) l p) = weight f p + weight f l.
Proof.
  induction l as [|t l IH]; intros p; cbn [fold_left]; [unfold weight at 3; cbn; lra|]. rewrite IH, weight_add. unfold weight. cbn [Rsum]. lra.
Qed.
Lemma weight_collect : forall f l, weight f (collect l) = weight f l.
Proof. intros f l. unfold collect. rewrite weight_fold. unfold weight at 1. cbn. lra. Qed.
Lemma weight_map : forall f (g : mono -> mono) p, weight f (map (fun t => (g (fst t), snd t)) p) = weight (fun m => f (g m)) p.
Proof. intros f g p. unfold weight. rewrite Rsum_map. reflexivity. Qed.
Lemma weight_ext : forall f g p, (forall m c, In (m, c) p -> f m = g m) -> weight f p = weight g p.
Proof. intros f g p H. unfold weight. apply Rsum_ext. intros [m c] I. cbn [fst snd]. rewrite (H m c I). auto. Qed.

(** ** Normal forms *)
Definition valid (m : mono) : Prop := StronglySorted lt (map fst m) /\ Forall (fun f => (0 < snd f)%nat) m.
Definition normal (p : poly) : Prop := NoDup (map fst p) /\ Forall (fun t => snd t <> 0 /\ valid (fst t)) p.
Lemma add_term_keys : forall m c p x, In x (map fst (add_term m c p)) -> x = m \/ In x (map fst p).
Proof.
  intros m c p x. induction p as [|[m' c'] r IH]; cbn [add_term].
  - destruct (Reqb c 0); cbn; intuition.
  - destruct (mono_eq_dec m m') as [->|N].
    + destruct (Reqb (c' + c) 0); cbn; intuition.
    + cbn. intuition.
Qed.
Lemma add_term_normal : forall m c p, valid m -> normal p -> normal (add_term m c p).
Proof.
  intros m c p V [N F]. induction p as [|[m' c'] r IH]; cbn [add_term].
  - destruct (Reqb c 0) eqn:E; [split; constructor|]. split; [cbn; constructor; [intros []|constructor]|]. constructor; [|constructor]. cbn.
    split; auto. intros Z. apply Reqb_true in Z. congruence.
  - cbn in N. inversion N as [|? ? N1 N2]; subst. inversion F as [|? ? F1 F2]; subst. destruct (mono_eq_dec m m') as [->|Ne].
    + destruct (Reqb (c' + c) 0) eqn:E; [split; auto|]. split; cbn; constructor; auto. cbn. split; [|apply F1].
      intros Z. apply Reqb_true in Z. congruence.
    + destruct (IH N2 F2) as [A B]. split; cbn; constructor; auto. intros I. apply add_term_keys in I as [I|I]; [congruence|contradiction].
Qed.
Lemma fold_normal : forall l p, Forall (fun t => valid (fst t)) l -> normal p -> normal (fold_left (fun p t => add_term (fst t) (snd t) p) l p).
Proof.
  induction l as [|t l IH]; intros p F N; cbn [fold_left]; auto. inversion F as [|? ? F1 F2]; subst. apply IH; auto. apply add_term_normal; auto.
Qed.
Lemma collect_normal : forall l, Forall (fun t => valid (fst t)) l -> normal (collect l).
Proof. intros l F. apply fold_normal; auto. split; constructor. Qed.
Lemma ind_self : forall m, ind m m = 1.
Proof. intros m. unfold ind. destruct (mono_eq_dec m m); congruence. Qed.
Lemma ind_other : forall m m', m <> m' -> ind m m' = 0.
Proof. intros m m' H. unfold ind. destruct (mono_eq_dec m m'); congruence. Qed.
Lemma weight_absent : forall m p, ~ In m (map fst p) -> weight (ind m) p = 0.
Proof.
  intros m p H. unfold weight. apply Rsum_0. intros [m' c] I. cbn [fst snd]. rewrite ind_other; [lra|]. intros <-. apply H. apply in_map_iff.
  exists (m, c). auto.
Qed.
Lemma member_weight : forall p m c, normal p -> In (m, c) p -> weight (ind m) p = c /\ c <> 0.
Proof.
  intros p m c [N F] I. split; [|rewrite Forall_forall in F; apply (F (m, c)); auto]. clear F. induction p as [|[m' c'] r IH]; [contradiction|].
  cbn in N. inversion N as [|? ? N1 N2]; subst. change (weight (ind m) ((m', c') :: r)) with (c' * ind m m' + weight (ind m) r).
  destruct I as [E|I].
  - injection E as -> ->. rewrite ind_self, weight_absent by auto. lra.
  - rewrite IH by auto. rewrite ind_other; [lra|]. intros ->. apply N1. apply in_map_iff. exists (m', c). auto.
Qed.
Lemma weight_member : forall p m, weight (ind m) p <> 0 -> exists c, In (m, c) p.
Proof.
  intros p m H. destruct (in_dec mono_eq_dec m (map fst p)) as [I|I].
  - apply in_map_iff in I as ([m' c] & E & I). cbn in E. subst. eauto.
  - rewrite weight_absent in H by auto. lra.
Qed.
Lemma normal_eq : forall p m, normal p -> weight (ind m) p <> 0 -> In (m, weight (ind m) p) p.
Proof. intros p m N H. destruct (weight_member p m H) as (c & I). destruct (member_weight p m c N I) as [-> _]. auto. Qed.

(** ** Products *)
Lemma times_fst : forall v m x, In x (map fst (times v m)) <-> x = v \/ In x (map fst m).
Proof.
  intros v m x. induction m as [|[w k] r IH]; cbn [times]; [cbn; intuition|].
  destruct (v <? w)%nat eqn:A; [cbn; intuition|]. destruct (v =? w)%nat eqn:B.
  - apply Nat.eqb_eq in B. subst. cbn. intuition.
  - cbn [map fst In]. rewrite IH. cbn. intuition.
Qed.
Lemma times_valid : forall v m, valid m -> valid (times v m).
Proof.
  intros v m [A F]. induction m as [|[w k] r IH]; cbn [times].
  - split; cbn; repeat constructor.
  - cbn in A. inversion A as [|? ? A1 A2]; subst. inversion F as [|? ? F1 F2]; subst. destruct (v <? w)%nat eqn:X.
    + apply Nat.ltb_lt in X. split.
      * cbn. constructor; [constructor; auto|]. constructor; auto. rewrite Forall_forall in A2. apply Forall_forall. intros y I. specialize (A2 y I). lia.
      * constructor; [cbn; lia|]. constructor; auto.
    + apply Nat.ltb_ge in X. destruct (v =? w)%nat eqn:Y.
      * split; cbn; [constructor; auto|]. constructor; auto. cbn. lia.
      * apply Nat.eqb_neq in Y. destruct (IH A1 F2) as [B G]. split; cbn.
        -- constructor; auto. apply Forall_forall. intros y I. apply times_fst in I as [->|I]; [lia|]. rewrite Forall_forall in A2. auto.
        -- constructor; auto.
Qed.
Lemma mono_of_valid : forall l, valid (mono_of l).
Proof. induction l; cbn; [split; constructor|]. apply times_valid. auto. Qed.
Lemma exponent_out : forall m v, ~ In v (map fst m) -> exponent m v = 0%nat.
Proof.
  induction m as [|[w k] r IH]; intros v H; cbn; auto. cbn in H. destruct (v =? w)%nat eqn:E; [apply Nat.eqb_eq in E; subst; tauto|]. apply IH. tauto.
Qed.
Lemma exponent_in : forall m v, valid m -> In v (map fst m) -> (0 < exponent m v)%nat.
Proof.
  induction m as [|[w k] r IH]; intros v [A F] H; cbn; [contradiction|]. inversion F as [|? ? F1 F2]; subst. inversion A as [|? ? A1 A2]; subst.
  destruct (v =? w)%nat eqn:E; [exact F1|]. apply IH; [split; auto|]. destruct H as [H|H]; auto. cbn in H. subst. rewrite Nat.eqb_refl in E. discriminate.
Qed.
Lemma in_exponent : forall m v, valid m -> In v (map fst m) <-> (0 < exponent m v)%nat.
Proof.
  intros m v V. split; [apply exponent_in; auto|]. intros H. destruct (in_dec Nat.eq_dec v (map fst m)); auto. rewrite exponent_out in H; auto; lia.
Qed.
Lemma exponent_times : forall v m x, valid m -> exponent (times v m) x = ((if x =? v then 1 else 0) + exponent m x)%nat.
Proof.
  intros v m x [A F]. induction m as [|[w k] r IH]; cbn [times exponent]; [destruct (x =? v)%nat; auto|].
  inversion A as [|? ? A1 A2]; subst. inversion F as [|? ? F1 F2]; subst. destruct (v <? w)%nat eqn:X.
  - apply Nat.ltb_lt in X. cbn [exponent]. destruct (x =? v)%nat eqn:Y; auto. apply Nat.eqb_eq in Y. subst.
    destruct (v =? w)%nat eqn:Z; [apply Nat.eqb_eq in Z; lia|]. cbn in A2. rewrite exponent_out; [lia|]. intros I. rewrite Forall_forall in A2. specialize (A2 v I). lia.
  - apply Nat.ltb_ge in X. destruct (v =? w)%nat eqn:Y.
    + apply Nat.eqb_eq in Y. subst. cbn [exponent]. destruct (x =? w)%nat; lia.
    + cbn [exponent]. rewrite IH; [|auto|auto]. apply Nat.eqb_neq in Y. destruct (x =? w)%nat eqn:Z; auto. apply Nat.eqb_eq in Z. subst.
      destruct (w =? v)%nat eqn:Q; [apply Nat.eqb_eq in Q; lia|]. lia.
Qed.
Lemma exponent_mono_of : forall l v, exponent (mono_of l) v = power l v.
Proof.
  unfold power. induction l as [|w l IH]; intros v; auto. cbn [mono_of fold_right]. fold (mono_of l). rewrite exponent_times by apply mono_of_valid. rewrite IH.
  cbn [count_occ]. destruct (Nat.eq_dec w v) as [->|N]; [rewrite Nat.eqb_refl; lia|]. destruct (v =? w)%nat eqn:E; [apply Nat.eqb_eq in E; congruence|lia].
Qed.
Lemma sorted_min : forall a (l : list nat), StronglySorted lt (a :: l) -> forall x, In x (a :: l) -> (a <= x)%nat.
Proof. intros a l S_ x [->|I]; [lia|]. inversion S_ as [|? ? _ F]; subst. rewrite Forall_forall in F. specialize (F x I). lia. Qed.
Lemma mono_ext : forall m m', valid m -> valid m' -> (forall v, exponent m v = exponent m' v) -> m = m'.
Proof.
  induction m as [|[v k] r IH]; intros m' V V' H.
  - destruct m' as [|[w k'] r']; auto. exfalso. assert (X := exponent_in _ w V' (or_introl eq_refl)). rewrite <- H in X. cbn in X. lia.
  - destruct m' as [|[w k'] r'].
    + exfalso. assert (X := exponent_in _ v V (or_introl eq_refl)). rewrite H in X. cbn in X. lia.
    + assert (Ew : In w (map fst ((v, k) :: r))) by (apply in_exponent; auto; rewrite H; apply exponent_in; auto; left; auto).
      assert (Ev : In v (map fst ((w, k') :: r'))) by (apply in_exponent; auto; rewrite <- H; apply exponent_in; auto; left; auto).
      assert (v = w).
      { destruct V as [A _], V' as [A' _]. pose proof (sorted_min _ _ A w Ew). pose proof (sorted_min _ _ A' v Ev). cbn [fst] in *. lia. }
      subst w. assert (k = k') by (specialize (H v); cbn in H; rewrite Nat.eqb_refl in H; auto). subst k'. f_equal.
      destruct V as [A F], V' as [A' F']. inversion A as [|? ? A1 A2]; inversion A' as [|? ? A1' A2']; inversion F; inversion F'; subst.
      apply IH; [split; auto|split; auto|]. intros x. destruct (Nat.eq_dec x v) as [->|N].
      * rewrite Forall_forall in A2, A2'. rewrite (exponent_out r), (exponent_out r'); auto; intros I; [specialize (A2' v I)|specialize (A2 v I)]; cbn [fst] in *; lia.
      * specialize (H x). cbn in H. apply Nat.eqb_neq in N. rewrite N in H. auto.
Qed.
