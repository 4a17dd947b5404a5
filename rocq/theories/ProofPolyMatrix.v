(** Matrices read from flat polynomials: qubo_to_matrix, add, optm. *)
From Coq Require Import List Arith Bool Reals Lra Lia Sorted Permutation.
Import ListNotations.
From Verif Require Import Base Cplx Bits ModelWq ModelOpt ModelPoly SpecWq SpecNbody SpecPoly ProofPoly ProofPolySubs ProofPolyFlat.
Local Open Scope R_scope.

(** ** coeff *)
Lemma has_factor_in : forall m f, has_factor m f = true <-> In f m.
Proof.
  intros m [v k]. unfold has_factor. rewrite existsb_exists. split.
  - intros ([w n] & I & E). cbn in E. apply andb_true_iff in E as [A B]. apply Nat.eqb_eq in A, B. subst. auto.
  - intros I. exists (v, k). cbn. rewrite !Nat.eqb_refl. auto.
Qed.
Lemma filter_sorted : forall (g : nat * nat -> bool) m, StronglySorted lt (map fst m) -> StronglySorted lt (map fst (filter g m)).
Proof.
  induction m as [|f r IH]; intros A; cbn; auto. inversion A as [|? ? A1 A2]; subst. destruct (g f); auto. cbn. constructor; auto.
  rewrite Forall_forall in *. intros x I. apply A2. apply in_map_iff in I as (h & <- & I). apply filter_In in I as [I _]. apply in_map. auto.
Qed.
Lemma without_valid : forall m fs, valid m -> valid (without m fs).
Proof.
  intros m fs [A F]. split; [apply filter_sorted; auto|]. unfold without. rewrite Forall_forall in *. intros f I. apply filter_In in I as [I _]. auto.
Qed.
Lemma coeff_normal : forall q xs, normal q -> normal (coeff q xs).
Proof.
  intros q xs [_ F]. apply collect_normal. apply Forall_map. cbn [fst]. rewrite Forall_forall in *. intros t I. apply filter_In in I as [I _]. apply without_valid. apply (F t I).
Qed.
Lemma coeff_weight : forall f q xs, weight f (coeff q xs) =
  weight (fun m => if forallb (has_factor m) (map (fun x => (x, 1%nat)) xs) then f (without m (map (fun x => (x, 1%nat)) xs)) else 0) q.
Proof.
  intros f q xs. unfold coeff. rewrite weight_collect, (weight_map f (fun m => without m (map (fun x => (x, 1%nat)) xs))). unfold weight. rewrite Rsum_filter.
  apply Rsum_ext. intros t _. destruct (forallb _ _); lra.
Qed.
Lemma coeff_keys : forall q xs m c, normal q -> In (m, c) (coeff q xs) -> exists m' c', In (m', c') q /\
  forallb (has_factor m') (map (fun x => (x, 1%nat)) xs) = true /\ m = without m' (map (fun x => (x, 1%nat)) xs).
Proof.
  intros q xs m c N I. destruct (member_weight _ m c (coeff_normal q xs N) I) as [E Z]. rewrite coeff_weight in E. rewrite <- E in Z.
  apply weight_some in Z as (m' & c' & I' & X). exists m', c'. split; auto. destruct (forallb _ _); [|lra]. split; auto.
  unfold ind in X. destruct (mono_eq_dec m (without m' (map (fun x => (x, 1%nat)) xs))); auto. lra.
Qed.
Lemma constant_weight : forall p, constant_part p = weight (ind []) p.
Proof.
  intros p. unfold constant_part. assert (G : forall p s, fold_left (fun s (t : mono * R) => match fst t with [] => s + snd t | _ => s end) p s = s + weight (ind []) p).
  { induction p0 as [|[m c] r IH]; intros s; cbn [fold_left]; [unfold weight; cbn; lra|]. rewrite IH. unfold weight. cbn [Rsum fst snd]. destruct m as [|f m].
    - rewrite ind_self. lra.
    - rewrite ind_other by discriminate. lra. }
  rewrite G. lra.
Qed.
Lemma to_float_constant : forall p, normal p -> (forall m c, In (m, c) p -> m = []) -> to_float p = Some (weight (fun _ => 1) p).
Proof.
  intros p [N F] H. destruct p as [|[m c] [|[m' c'] r]].
  - reflexivity.
  - rewrite (H m c (or_introl eq_refl)). cbn. unfold weight. cbn. f_equal. lra.
  - exfalso. assert (m = []) by (apply (H m c); left; auto). assert (m' = []) by (apply (H m' c'); right; left; auto). subst. cbn in N. inversion N as [|? ? N1 _]. apply N1. left. auto.
Qed.
Lemma to_float_other : forall p m c, In (m, c) p -> m <> [] -> to_float p = None.
Proof.
  intros p m c I H. destruct p as [|[m' c'] [|x r]]; [contradiction| |].
  - destruct I as [I|[]]. injection I as -> ->. destruct m; [congruence|]. reflexivity.
  - cbn. destruct m'; auto.
Qed.

(** ** Entries *)
Section Reads.
Variables (s : list (R * list nat)) (q : poly).
Hypothesis Hq : reduces s q.
Lemma factor_iff : forall m c v, In (m, c) q -> (has_factor m (v, 1%nat) = true <-> In v (map fst m)).
Proof.
  intros m c v I. rewrite has_factor_in. assert (F := proj1 (proj2 Hq)). unfold flat in F. rewrite Forall_forall in F. specialize (F _ I). cbn [fst] in F. split.
  - intros J. apply in_map_iff. exists (v, 1%nat). auto.
  - intros J. apply in_map_iff in J as ([w k] & E & J). cbn in E. subst. rewrite Forall_forall in F. specialize (F _ J). cbn in F. subst. auto.
Qed.
Lemma without_in : forall m c xs v k, In (m, c) q -> (In (v, k) (without m (map (fun x => (x, 1%nat)) xs)) <-> In (v, k) m /\ ~ In v xs).
Proof.
  intros m c xs v k I. unfold without. rewrite filter_In, negb_true_iff. split.
  - intros [A B]. split; auto. intros J. assert (X : has_factor (map (fun x => (x, 1%nat)) xs) (v, k) = true); [|congruence]. apply has_factor_in, in_map_iff.
    exists v. split; auto. f_equal. assert (F := proj1 (proj2 Hq)). unfold flat in F. rewrite Forall_forall in F. specialize (F _ I). cbn [fst] in F. rewrite Forall_forall in F.
    specialize (F _ A). auto.
  - intros [A B]. split; auto. destruct (has_factor _ _) eqn:E; auto. apply has_factor_in, in_map_iff in E as (x & E & J). injection E as -> _. contradiction.
Qed.
Lemma without_nil : forall m c xs, In (m, c) q -> (without m (map (fun x => (x, 1%nat)) xs) = [] <-> incl (map fst m) xs).
Proof.
  intros m c xs I. split.
  - intros E v J. destruct (in_dec Nat.eq_dec v xs); auto. apply in_map_iff in J as ([w k] & X & J). cbn in X. subst.
    assert (Y : In (v, k) (without m (map (fun x => (x, 1%nat)) xs))) by (apply (without_in m c); auto). rewrite E in Y. contradiction.
  - intros H. destruct (without m (map (fun x => (x, 1%nat)) xs)) as [|[v k] r] eqn:E; auto. exfalso.
    assert (Y : In (v, k) (without m (map (fun x => (x, 1%nat)) xs))) by (rewrite E; left; auto). apply (without_in m c) in Y as [A B]; auto. apply B, H.
    apply in_map_iff. exists (v, k). auto.
Qed.
Lemma factors_iff : forall m c xs, In (m, c) q -> (forallb (has_factor m) (map (fun x => (x, 1%nat)) xs) = true <-> incl xs (map fst m)).
Proof.
  intros m c xs I. rewrite forallb_forall. split.
  - intros H v J. apply (factor_iff m c v I). apply H. apply in_map_iff. exists v. auto.
  - intros H f J. apply in_map_iff in J as (x & <- & J). apply (factor_iff m c x I). auto.
Qed.
Lemma member_mset : forall m c l, In (m, c) q -> (mset l = m <-> incl (map fst m) l /\ incl l (map fst m)).
Proof.
  intros m c l I. destruct (reduces_member s q m c Hq I) as (E & _). rewrite E at 1. rewrite mset_eq, same_set_iff. unfold incl. split.
  - intros H. split; intros v; apply H.
  - intros [A B] v. split; auto.
Qed.
Lemma diagonal_entry : forall i, constant_part (coeff q [i]) = reduced s [i].
Proof.
  intros i. rewrite constant_weight, coeff_weight. destruct Hq as (_ & _ & W & _). rewrite <- W. apply weight_ext. intros m c I.
  destruct (forallb _ _) eqn:E.
  - apply (factors_iff m c [i] I) in E. destruct (mono_eq_dec (mset [i]) m) as [M|M].
    + rewrite M, ind_self. apply (member_mset m c [i] I) in M as [M _]. apply (without_nil m c [i] I) in M. rewrite M, ind_self. auto.
    + rewrite (ind_other _ _ M), ind_other; auto. intros Z. apply M. apply (member_mset m c [i] I). split; auto. apply (without_nil m c [i] I). auto.
  - rewrite ind_other; auto. intros M. apply (member_mset m c [i] I) in M as [_ M]. apply (factors_iff m c [i] I) in M. congruence.
Qed.
Lemma pair_entry : forall i j, at_most_two s -> i <> j -> to_float (coeff q [i; j]) = Some (reduced s [i; j]).
Proof.
  intros i j T Hij. assert (K : forall m c, In (m, c) q -> incl [i; j] (map fst m) -> incl (map fst m) [i; j]).
  { intros m c I X. destruct Hq as (_ & _ & _ & _ & Tq). destruct (Tq T m c I) as (a & b & Y). intros v J.
    assert (A := Y _ (X i (or_introl eq_refl))). assert (B := Y _ (X j (or_intror (or_introl eq_refl)))). assert (D := Y _ J). cbn in A, B, D |- *. lia. }
  rewrite to_float_constant.
  - f_equal. rewrite coeff_weight. destruct Hq as (_ & _ & W & _). rewrite <- W. apply weight_ext. intros m c I. destruct (forallb _ _) eqn:E.
    + apply (factors_iff m c [i; j] I) in E. replace (mset [i; j]) with m; [symmetry; apply ind_self|]. symmetry. apply (member_mset m c [i; j] I). split; auto. apply (K m c); auto.
    + rewrite ind_other; auto. intros M. apply (member_mset m c [i; j] I) in M as [_ M]. apply (factors_iff m c [i; j] I) in M. congruence.
  - apply coeff_normal. apply Hq.
  - intros m c I. apply coeff_keys in I as (m' & c' & I & F & ->); [|apply Hq]. apply (without_nil m' c' _ I). apply (factors_iff m' c' _ I) in F. apply (K m' c'); auto.
Qed.
Lemma triple_entry : forall i j l, i <> j -> In i l -> In j l -> (exists k, In k l /\ k <> i /\ k <> j) -> reduced s l <> 0 -> to_float (coeff q [i; j]) = None.
Proof.
  intros i j l Hij Hi Hj (k & Kl & Ki & Kj) Z. destruct Hq as (N & F & W & _). rewrite <- W in Z. destruct (weight_member q _ Z) as (c & I).
  assert (D : weight (ind (without (mset l) (map (fun x => (x, 1%nat)) [i; j]))) (coeff q [i; j]) <> 0).
  { rewrite coeff_weight. rewrite (weight_ext _ (ind (mset l))); auto. intros m c' I'. destruct (mono_eq_dec (mset l) m) as [<-|M].
    - assert (E : forallb (has_factor (mset l)) (map (fun x => (x, 1%nat)) [i; j]) = true).
      { apply (factors_iff (mset l) c _ I). intros v [<-|[<-|[]]]; apply mset_vars; auto. }
      rewrite E, !ind_self. auto.
    - rewrite (ind_other _ _ M). destruct (forallb _ _) eqn:E; auto. apply ind_other. intros X. apply M.
      assert (Vl := normal_valid _ _ _ N I). assert (Vm := normal_valid _ _ _ N I').
      assert (Fl : flatten (mset l) = mset l) by (apply flat_id; unfold flat in F; rewrite Forall_forall in F; apply (F _ I)).
      assert (Fm : flatten m = m) by (apply flat_id; unfold flat in F; rewrite Forall_forall in F; apply (F _ I')).
      rewrite <- Fl, <- Fm. apply flatten_eq; auto. intros v. apply (factors_iff m c' _ I') in E.
      destruct (in_dec Nat.eq_dec v [i; j]) as [Y|Y].
      + split; intros _; [apply E; auto|]. apply mset_vars. destruct Y as [<-|[<-|[]]]; auto.
      + split; intros A; apply in_map_iff in A as ([w n] & B & A); cbn in B; subst; apply in_map_iff; exists (v, n); split; auto.
        * apply (without_in m c' [i; j] v n I'). rewrite <- X. apply (without_in (mset l) c [i; j] v n I). auto.
        * apply (without_in (mset l) c [i; j] v n I). rewrite X. apply (without_in m c' [i; j] v n I'). auto. }
  destruct (weight_member _ _ D) as (c' & J). apply (to_float_other _ _ c' J). intros E. apply (without_nil (mset l) c [i; j] I) in E.
  assert (Y := E k (proj2 (mset_vars l k) Kl)). destruct Y as [Y|[Y|[]]]; congruence.
Qed.
(** symbols left beside a symbol *)
Lemma beside : forall i, at_most_two s -> (free_symbols (coeff q [i]) = [] <-> forall j, j <> i -> reduced s [i; j] = 0).
Proof.
  intros i T. assert (N := proj1 Hq). split.
  - intros E j H. destruct (Req_EM_T (reduced s [i; j]) 0) as [Z|Z]; auto. exfalso. destruct Hq as (_ & F & W & _). rewrite <- W in Z.
    destruct (weight_member q _ Z) as (c & I).
    assert (D : exists c', In (without (mset [i; j]) (map (fun x => (x, 1%nat)) [i]), c') (coeff q [i])).
    { apply weight_member. rewrite coeff_weight. rewrite (weight_ext _ (ind (mset [i; j]))); auto. intros m c' I'. destruct (mono_eq_dec (mset [i; j]) m) as [<-|M].
      - assert (X : forallb (has_factor (mset [i; j])) (map (fun x => (x, 1%nat)) [i]) = true).
        { apply (factors_iff _ c _ I). intros v [<-|[]]. apply mset_vars. left. auto. }
        rewrite X, !ind_self. auto.
      - rewrite (ind_other _ _ M). destruct (forallb _ _) eqn:X; auto. apply ind_other. intros Y. apply M. apply (member_mset m c' [i; j] I'). apply (factors_iff m c' _ I') in X.
        assert (Vl := normal_valid _ _ _ N I). split.
        + intros v V. destruct (Nat.eq_dec v i) as [->|Ni]; [left; auto|]. apply in_map_iff in V as ([w k] & B & V). cbn in B. subst.
          assert (Q : In (v, k) (without m (map (fun x => (x, 1%nat)) [i]))) by (apply (without_in m c' [i] v k I'); split; auto; intros [Q|[]]; congruence).
          rewrite <- Y in Q. apply (without_in _ c [i] v k I) in Q as [Q _]. apply mset_vars. apply in_map_iff. exists (v, k). auto.
        + intros v [<-|[<-|[]]]; [apply X; left; auto|]. assert (Q : In j (map fst (mset [i; j]))) by (apply mset_vars; right; left; auto).
          apply in_map_iff in Q as ([w k] & B & Q). cbn in B. subst.
          assert (P : In (j, k) (without (mset [i; j]) (map (fun x => (x, 1%nat)) [i]))) by (apply (without_in _ c [i] j k I); split; auto; intros [P|[]]; congruence).
          rewrite Y in P. apply (without_in m c' [i] j k I') in P as [P _]. apply in_map_iff. exists (j, k). auto. }
    destruct D as (c' & D). assert (Q : In j (free_symbols (coeff q [i]))); [|rewrite E in Q; contradiction]. apply in_free. eexists _, c'. split; [exact D|].
    assert (Q : In j (map fst (mset [i; j]))) by (apply mset_vars; right; left; auto). apply in_map_iff in Q as ([w k] & B & Q). cbn in B. subst.
    apply in_map_iff. exists (j, k). split; auto. apply (without_in _ c [i] j k I). split; auto. intros [P|[]]. congruence.
  - intros H. destruct (free_symbols (coeff q [i])) as [|j r] eqn:E; auto. exfalso. assert (J : In j (free_symbols (coeff q [i]))) by (rewrite E; left; auto).
    apply in_free in J as (m & c & I & K). apply coeff_keys in I as (m' & c' & I & F & ->); auto. apply (factors_iff m' c' _ I) in F.
    apply in_map_iff in K as ([w k] & B & K). cbn in B. subst. apply (without_in m' c' [i] j k I) in K as [K K'].
    assert (Hj : j <> i) by (intros ->; apply K'; left; auto). specialize (H j Hj).
    assert (M : mset [i; j] = m').
    { apply (member_mset m' c' [i; j] I). destruct Hq as (_ & _ & _ & _ & Tq). destruct (Tq T m' c' I) as (a & b & Y).
      assert (Kj : In j (map fst m')) by (apply in_map_iff; exists (j, k); auto). assert (Ki : In i (map fst m')) by (apply F; left; auto).
      split; [|intros v [<-|[<-|[]]]; auto]. intros v V. assert (P1 := Y _ V). assert (P2 := Y _ Kj). assert (P3 := Y _ Ki). cbn in *. lia. }
    destruct (member_weight q m' c' N I) as [W Z]. destruct Hq as (_ & _ & Wq & _). rewrite <- M, Wq in W. congruence.
Qed.

Lemma beside_some : forall i, at_most_two s -> free_symbols (coeff q [i]) <> [] -> exists j, j <> i /\ reduced s [i; j] <> 0.
Proof.
  intros i T H. assert (N := proj1 Hq). destruct (free_symbols (coeff q [i])) as [|j r] eqn:E; [congruence|]. assert (J : In j (free_symbols (coeff q [i]))) by (rewrite E; left; auto).
  apply in_free in J as (m & c & I & K). apply coeff_keys in I as (m' & c' & I & F & ->); auto. apply (factors_iff m' c' _ I) in F.
  apply in_map_iff in K as ([w k] & B & K). cbn in B. subst. apply (without_in m' c' [i] j k I) in K as [K K'].
  assert (Hj : j <> i) by (intros ->; apply K'; left; auto). exists j. split; auto.
  assert (M : mset [i; j] = m').
  { apply (member_mset m' c' [i; j] I). destruct Hq as (_ & _ & _ & _ & Tq). destruct (Tq T m' c' I) as (a & b & Y).
    assert (Kj : In j (map fst m')) by (apply in_map_iff; exists (j, k); auto). assert (Ki : In i (map fst m')) by (apply F; left; auto).
    split; [|intros v [<-|[<-|[]]]; auto]. intros v V. assert (P1 := Y _ V). assert (P2 := Y _ Kj). assert (P3 := Y _ Ki). cbn in *. lia. }
  destruct (member_weight q m' c' N I) as [W Z]. destruct Hq as (_ & _ & Wq & _). rewrite <- M, Wq in W. congruence.
Qed.

(** ** Energy *)
Lemma product_flat2 : forall n a m c, binary a -> at_most_two s -> In (m, c) q -> (forall v, In v (map fst m) -> (v < n)%nat) ->
  product_of a m = ind (mset []) m + total n (fun i => total n (fun j => (if (i <=? j)%nat then ind (mset [i; j]) m else 0) * a i * a j)).
Proof.
  intros n a m c B T I L. destruct (reduces_member s q m c Hq I) as (E & _). destruct Hq as (_ & F & _ & _ & Tq). destruct (Tq T m c I) as (x & y & Y).
  unfold flat in F. rewrite Forall_forall in F. specialize (F _ I). cbn [fst] in F. assert (V := normal_valid _ m c (proj1 Hq) I).
  assert (G : forall i j, ind (mset [i; j]) m = if same_set [i; j] (map fst m) then 1 else 0).
  { intros i j. destruct (same_set [i; j] (map fst m)) eqn:X.
    - apply mset_eq in X. rewrite X, <- E. apply ind_self.
    - apply ind_other. intros Z. assert (same_set [i; j] (map fst m) = true); [|congruence]. apply mset_eq. rewrite <- E. auto. }
  destruct m as [|[v1 k1] [|[v2 k2] [|[v3 k3] r]]].
  - replace (mset []) with (@nil (nat * nat)) by reflexivity. rewrite ind_self. unfold total. rewrite Rsum_0; [cbn; lra|]. intros i _. apply Rsum_0. intros j _.
    rewrite G. assert (X : same_set [i; j] (map fst (@nil (nat * nat))) = false) by reflexivity. rewrite X. destruct (i <=? j)%nat; lra.
  - inversion F as [|? ? F1 _]; subst. cbn in F1. subst. rewrite ind_other by discriminate. unfold total.
    assert (Lv : (v1 < n)%nat) by (apply L; left; auto).
    assert (Z : forall i j, same_set [i; j] (map fst [(v1, 1%nat)]) = true -> i = v1 /\ j = v1).
    { intros i j X. rewrite same_set_iff in X. assert (X1 := proj1 (X i) (or_introl eq_refl)). assert (X2 := proj1 (X j) (or_intror (or_introl eq_refl))). cbn in *. lia. }
    rewrite (Rsum_single _ _ v1); [|apply seq_NoDup|apply in_seq; lia|].
    + rewrite (Rsum_single _ _ v1); [|apply seq_NoDup|apply in_seq; lia|].
      * rewrite G, Nat.leb_refl. assert (X : same_set [v1; v1] (map fst [(v1, 1%nat)]) = true) by (apply same_set_iff; intros v; cbn; tauto). rewrite X.
        unfold product_of. cbn. destruct (B v1) as [-> | ->]; lra.
      * intros j _ H. rewrite G. destruct (same_set _ _) eqn:X; [apply Z in X; lia|]. destruct (v1 <=? j)%nat; lra.
    + intros i _ H. apply Rsum_0. intros j _. rewrite G. destruct (same_set _ _) eqn:X; [apply Z in X; lia|]. destruct (i <=? j)%nat; lra.
  - inversion F as [|? ? F1 F']; subst. inversion F' as [|? ? F2 _]; subst. cbn in F1, F2. subst. rewrite ind_other by discriminate. unfold total.
    assert (L1 : (v1 < n)%nat) by (apply L; left; auto). assert (L2 : (v2 < n)%nat) by (apply L; right; left; auto).
    assert (Lt : (v1 < v2)%nat) by (destruct V as [A _]; cbn in A; inversion A as [|? ? _ A2]; subst; inversion A2; auto).
    assert (Z : forall i j, same_set [i; j] (map fst [(v1, 1%nat); (v2, 1%nat)]) = true -> (i <= j)%nat -> i = v1 /\ j = v2).
    { intros i j X H. rewrite same_set_iff in X. assert (X1 := proj1 (X i) (or_introl eq_refl)). assert (X2 := proj1 (X j) (or_intror (or_introl eq_refl))).
      assert (X3 := proj2 (X v1) (or_introl eq_refl)). assert (X4 := proj2 (X v2) (or_intror (or_introl eq_refl))). cbn in *. lia. }
    rewrite (Rsum_single _ _ v1); [|apply seq_NoDup|apply in_seq; lia|].
    + rewrite (Rsum_single _ _ v2); [|apply seq_NoDup|apply in_seq; lia|].
      * rewrite G. replace (v1 <=? v2)%nat with true by (symmetry; apply Nat.leb_le; lia).
        assert (X : same_set [v1; v2] (map fst [(v1, 1%nat); (v2, 1%nat)]) = true) by (apply same_set_iff; intros v; cbn; tauto). rewrite X. unfold product_of. cbn. lra.
      * intros j _ H. rewrite G. destruct (v1 <=? j)%nat eqn:O; [|lra]. apply Nat.leb_le in O. destruct (same_set _ _) eqn:X; [apply Z in X; lia|lra].
    + intros i _ H. apply Rsum_0. intros j _. rewrite G. destruct (i <=? j)%nat eqn:O; [|lra]. apply Nat.leb_le in O. destruct (same_set _ _) eqn:X; [apply Z in X; lia|lra].
  - exfalso. destruct V as [A _]. cbn in A. inversion A as [|? ? A' A1]; subst. inversion A' as [|? ? A'' A2]; subst. inversion A1 as [|? ? P1 P2]; subst. inversion P2; subst.
    inversion A2; subst. assert (Y1 := Y v1 (or_introl eq_refl)). assert (Y2 := Y v2 (or_intror (or_introl eq_refl))).
    assert (Y3 := Y v3 (or_intror (or_intror (or_introl eq_refl)))). cbn in *. lia.
Qed.
Lemma weight_sum : forall n (g : nat -> mono -> R) p, weight (fun m => total n (fun i => g i m)) p = total n (fun i => weight (g i) p).
Proof.
  intros n g p. unfold weight, total. rewrite <- Rsum_swap. apply Rsum_ext. intros t _. rewrite Rsum_mul_l. auto.
Qed.
Lemma matrix_energy : forall n M a, binary a -> at_most_two s -> (forall i, uses s i -> (i < n)%nat) ->
  (forall i j, (i < n)%nat -> (j < n)%nat -> M i j = if (i <=? j)%nat then reduced s [i; j] else 0) ->
  qubo_energy n M a + reduced s [] = value a s.
Proof.
  intros n M a B T U H. destruct Hq as (N & F & W & Vq & Tq). rewrite <- Vq, value_weight by auto. rewrite (weight_ext _ (fun m => ind (mset []) m +
    total n (fun i => total n (fun j => (if (i <=? j)%nat then ind (mset [i; j]) m else 0) * a i * a j)))).
  2:{ intros m c I. apply (product_flat2 n a m c); auto. intros v J. apply U. apply (reduces_free s q v Hq). apply in_free. exists m, c. auto. }
  assert (P : forall f g : mono -> R, weight (fun m => f m + g m) q = weight f q + weight g q).
  { intros f g. unfold weight. rewrite <- Rsum_add. apply Rsum_ext. intros; ring. }
  rewrite P, W, weight_sum. unfold qubo_energy. rewrite Rplus_comm. f_equal. unfold total. apply Rsum_ext. intros i Hi.
  rewrite (weight_sum n (fun j m => (if (i <=? j)%nat then ind (mset [i; j]) m else 0) * a i * a j)). unfold total. apply Rsum_ext. intros j Hj.
  apply in_seq in Hi, Hj. rewrite H by lia. destruct (i <=? j)%nat.
  - rewrite <- W. unfold weight. rewrite <- !Rsum_mul_r. apply Rsum_ext. intros; ring.
  - unfold weight. symmetry. rewrite Rsum_0; [ring|]. intros; ring.
Qed.
End Reads.
