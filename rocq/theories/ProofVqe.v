(** expect(): the dictionary of the outcomes. *)
From Coq Require Import List Arith ZArith Bool Reals Lia Lra.
Import ListNotations.
From Verif Require Import Base Cplx Bits ModelNumpy ModelPauli ModelVqe SpecQuantum SpecVqe.
Local Open Scope nat_scope.

(** ** Dictionaries *)
Section Dict.
Context {K V : Type}.
Variable eqb : K -> K -> bool.
Variable eqb_ok : forall a b, eqb a b = true <-> a = b.
Lemma eqb_false_ne : forall a b, eqb a b = false <-> a <> b.
Proof. intros. destruct (eqb a b) eqn:E; split; intros; try congruence. - apply eqb_ok in E. congruence. - intro. apply eqb_ok in H0. congruence. Qed.
Lemma eqb_self : forall a, eqb a a = true. Proof. intros. apply eqb_ok. auto. Qed.
Lemma dget_dset : forall (d : list (K * V)) k v k', dget eqb (dset eqb d k v) k' = if eqb k' k then Some v else dget eqb d k'.
Proof.
  induction d as [|[a x] d IH]; intros; simpl.
  - destruct (eqb k' k); auto.
  - destruct (eqb k a) eqn:E; simpl.
    + apply eqb_ok in E. subst a. destruct (eqb k' k); auto.
    + destruct (eqb k' a) eqn:F.
      * apply eqb_ok in F. subst a. destruct (eqb k' k) eqn:G; auto. apply eqb_ok in G. subst k'. rewrite eqb_self in E. discriminate.
      * apply IH.
Qed.
Lemma dset_keys : forall (d : list (K * V)) k v x, In x (map fst (dset eqb d k v)) <-> x = k \/ In x (map fst d).
Proof.
  induction d as [|[a y] d IH]; intros; simpl.
  - split; intros [H|H]; auto.
  - destruct (eqb k a) eqn:E; simpl.
    + apply eqb_ok in E. subst a. split; intros H; [destruct H; auto|]. destruct H as [->|H]; auto.
    + rewrite IH. tauto.
Qed.
Lemma dset_NoDup : forall (d : list (K * V)) k v, NoDup (map fst d) -> NoDup (map fst (dset eqb d k v)).
Proof.
  induction d as [|[a y] d IH]; intros k v H; simpl.
  - constructor; [intros []|constructor].
  - inversion H; subst. destruct (eqb k a) eqn:E; simpl.
    + constructor; auto.
    + constructor; auto. rewrite dset_keys. intros [->|I]; auto. rewrite eqb_self in E. discriminate.
Qed.
Lemma dget_In : forall (d : list (K * V)) k v, NoDup (map fst d) -> (dget eqb d k = Some v <-> In (k, v) d).
Proof.
  induction d as [|[a y] d IH]; intros k v H; simpl.
  - split; [discriminate|tauto].
  - inversion H as [|? ? N D]; subst. destruct (eqb k a) eqn:E.
    + apply eqb_ok in E. subst a. split; intros I.
      * injection I as ->. auto.
      * destruct I as [I|I]; [congruence|]. exfalso. apply N. apply in_map_iff. exists (k, v). auto.
    + rewrite IH by auto. split; intros I; auto. destruct I as [I|I]; auto. injection I as -> ->. rewrite eqb_self in E. discriminate.
Qed.
Lemma dget_None : forall (d : list (K * V)) k, dget eqb d k = None <-> ~ In k (map fst d).
Proof.
  induction d as [|[a y] d IH]; intros; simpl.
  - tauto.
  - destruct (eqb k a) eqn:E.
    + apply eqb_ok in E. subst a. split; [discriminate|]. intros H. exfalso. auto.
    + rewrite IH. apply eqb_false_ne in E. split; intros H; [intros [I|I]; [congruence|auto]|auto].
Qed.
(** rebuilding a dictionary with pairwise different keys changes nothing *)
Lemma dset_new : forall (d : list (K * V)) k v, ~ In k (map fst d) -> dset eqb d k v = d ++ [(k, v)].
Proof.
  induction d as [|[a y] d IH]; intros k v H; simpl; auto.
  destruct (eqb k a) eqn:E.
  - apply eqb_ok in E. subst a. exfalso. apply H. simpl. auto.
  - rewrite IH; auto. intro I. apply H. simpl. auto.
Qed.
Lemma dset_all_new : forall A (f : A -> K) (g : A -> V) l d, NoDup (map fst d ++ map f l) ->
  fold_left (fun d x => dset eqb d (f x) (g x)) l d = d ++ map (fun x => (f x, g x)) l.
Proof.
  induction l as [|a l IH]; intros d H; simpl; [rewrite app_nil_r; auto|].
  simpl in H. assert (N : ~ In (f a) (map fst d)). { apply NoDup_remove_2 in H. intro I. apply H. apply in_or_app. auto. }
  rewrite dset_new, IH by (auto; rewrite ?map_app; simpl; rewrite <- ?app_assoc; auto). rewrite <- app_assoc. auto.
Qed.
End Dict.

(** ** Sums by key *)
Section Sums.
Variable A : Type.
Variable key : A -> nat.
Variable val : A -> R.
Definition collect (l : list A) (d : list (nat * R)) : list (nat * R) :=
  fold_left (fun d a => if Reqb (val a) 0 then d else add_prob d (key a) (val a)) l d.
Definition value (d : list (nat * R)) (k : nat) : R := match dget Nat.eqb d k with Some q => q | None => 0%R end.
Lemma collect_spec : forall l d, (forall a, In a l -> 0 <= val a)%R -> NoDup (map fst d) -> (forall k q, In (k, q) d -> 0 < q)%R ->
  NoDup (map fst (collect l d)) /\ (forall k q, In (k, q) (collect l d) -> 0 < q)%R /\
  (forall k, value (collect l d) k = (value d k + Rsum (fun a => if Nat.eq_dec (key a) k then val a else 0) l)%R) /\
  (forall k, In k (map fst (collect l d)) <-> In k (map fst d) \/ exists a, In a l /\ key a = k /\ val a <> 0%R).
Proof.
  induction l as [|a l IH]; intros d P N Q.
  - simpl. split; auto. split; auto. split; [intros; lra|]. intros. split; auto. intros [H|[x [[] _]]]; auto.
  - simpl. fold (collect l (if Reqb (val a) 0 then d else add_prob d (key a) (val a))).
    assert (Pa : (0 <= val a)%R) by (apply P; left; auto).
    assert (Pl : forall a, In a l -> (0 <= val a)%R) by (intros; apply P; right; auto).
    destruct (Reqb (val a) 0) eqn:E.
    + apply Reqb_true in E. destruct (IH d Pl N Q) as [H1 [H2 [H3 H4]]]. split; auto. split; auto. split.
      * intros k. rewrite H3. destruct (Nat.eq_dec (key a) k); rewrite ?E; lra.
      * intros k. rewrite H4. split; intros [H|[x [Ix X]]]; auto; right; exists x; [split; [right; auto|auto]|].
        destruct Ix as [->|Ix]; [destruct X; contradiction|auto].
    + assert (E' : val a <> 0%R). { intro Z. rewrite Z in E. rewrite (proj2 (Reqb_true 0 0)) in E; auto. discriminate. }
      assert (EQ : forall x y, (x =? y) = true <-> x = y) by apply Nat.eqb_eq.
      destruct (IH (add_prob d (key a) (val a)) Pl) as [H1 [H2 [H3 H4]]].
      * unfold add_prob. apply dset_NoDup; auto.
      * intros k q I. unfold add_prob in I. rewrite <- (dget_In _ EQ) in I by (apply dset_NoDup; auto). rewrite (dget_dset _ EQ) in I.
        destruct (k =? key a) eqn:F.
        -- injection I as <-. destruct (dget Nat.eqb d (key a)) as [q'|] eqn:G; [|lra].
           apply (dget_In _ EQ) in G; auto. apply Q in G. lra.
        -- apply (dget_In _ EQ) in I; auto. eapply Q; eauto.
      * split; auto. split; auto. split.
        -- intros k. rewrite H3. unfold value at 1, add_prob. rewrite (dget_dset _ EQ). destruct (Nat.eqb_spec k (key a)) as [->|F].
           ++ destruct (Nat.eq_dec (key a) (key a)); [|congruence]. unfold value. destruct (dget Nat.eqb d (key a)); lra.
           ++ destruct (Nat.eq_dec (key a) k); [congruence|]. fold (value d k). lra.
        -- intros k. rewrite H4. unfold add_prob. rewrite (dset_keys _ EQ). split.
           ++ intros [[->|H]|[x [Ix X]]]; auto; right; [exists a|exists x]; simpl; auto.
           ++ intros [H|[x [[->|Ix] [X Y]]]]; auto. right. exists x. auto.
Qed.
End Sums.

Lemma Rsum_ifs : forall (d : list (nat * R)) k, NoDup (map fst d) -> Rsum (fun kq : nat * R => if Nat.eq_dec (fst kq) k then snd kq else 0%R) d = value d k.
Proof.
  induction d as [|[a q] d IH]; intros k N; unfold value; simpl; auto.
  inversion N as [|? ? NI ND]; subst. rewrite IH by auto. unfold value. destruct (Nat.eqb_spec k a) as [->|F].
  - destruct (Nat.eq_dec a a); [|congruence]. destruct (dget Nat.eqb d a) eqn:G; [|lra].
    apply (dget_In _ Nat.eqb_eq) in G; auto. exfalso. apply NI. apply in_map_iff. exists (a, r). auto.
  - destruct (Nat.eq_dec a k); [congruence|]. lra.
Qed.

(** ** Masks and keys *)
Lemma bit_shift : forall v m, bit (Nat.shiftl 1 v) m = (m =? v).
Proof. intros. rewrite Nat.shiftl_1_l, Nat.pow2_bits_eqb. apply Nat.eqb_sym. Qed.
Lemma mask_bit : forall meas acc m, bit (fold_left (fun acc v => Nat.lor acc (Nat.shiftl 1 v)) meas acc) m = bit acc m || existsb (Nat.eqb m) meas.
Proof.
  induction meas as [|v l IH]; intros; simpl; [rewrite orb_false_r; auto|].
  rewrite IH, Nat.lor_spec, bit_shift, <- orb_assoc. auto.
Qed.
Lemma to_key_readout : forall meas x, to_key meas x = readout meas x.
Proof.
  intros. apply map_ext. intros m. rewrite Nat.shiftl_1_l, land_pow2_eqb. destruct (bit x m); auto.
Qed.
Lemma existsb_In : forall m l, existsb (Nat.eqb m) l = true <-> In m l.
Proof. intros. rewrite existsb_exists. split; [intros [x [I E]]; apply Nat.eqb_eq in E; subst; auto|intros; exists m; rewrite Nat.eqb_refl; auto]. Qed.
Lemma outcome_masked : forall meas x, readout meas (Nat.land x (meas_mask meas)) = readout meas x.
Proof.
  intros. apply map_ext_in. intros m I. rewrite Nat.land_spec. unfold meas_mask. rewrite mask_bit, Nat.bits_0. simpl.
  rewrite (proj2 (existsb_In m meas) I), andb_true_r. auto.
Qed.
Lemma outcome_bits : forall meas x y, readout meas x = readout meas y <-> (forall m, In m meas -> bit x m = bit y m).
Proof.
  intros. unfold readout. split.
  - intros E m I. induction meas as [|a l IH]; [destruct I|]. simpl in E. injection E as E1 E2. destruct I as [->|I]; auto.
    destruct (bit x m), (bit y m); congruence.
  - intros H. apply map_ext_in. intros m I. rewrite (H m I). auto.
Qed.
Lemma outcome_mask : forall meas x y, readout meas x = readout meas y <-> Nat.land x (meas_mask meas) = Nat.land y (meas_mask meas).
Proof.
  intros. split.
  - intros E. rewrite outcome_bits in E. apply Nat.bits_inj. intros m. rewrite !Nat.land_spec. unfold meas_mask.
    rewrite mask_bit, Nat.bits_0. simpl. destruct (existsb (Nat.eqb m) meas) eqn:F; rewrite ?andb_false_r; auto.
    rewrite !andb_true_r. apply E. apply existsb_In. auto.
  - intros E. rewrite <- (outcome_masked meas x), <- (outcome_masked meas y), E. auto.
Qed.

(** ** expect *)
Lemma norm_square : forall z, (Cre z ^ 2 + Cim z ^ 2)%R = Cnorm2 z.
Proof. intros. unfold Cnorm2, Cre, Cim. cbn [pow]. ring. Qed.
Definition numbered (v : list C) : list (nat * C) := combine (seq 0 (List.length v)) v.
Lemma numbered_from : forall v k, combine (seq k (List.length v)) v = map (fun x => (x, nth (x - k) v C0)) (seq k (List.length v)).
Proof.
  induction v as [|z v IH]; intros k; simpl; auto. rewrite IH. f_equal; [rewrite Nat.sub_diag; auto|].
  apply map_ext_in. intros x I. apply in_seq in I. replace (x - k) with (S (x - S k)) by lia. auto.
Qed.
Lemma numbered_seq : forall v, numbered v = map (fun x => (x, nth x v C0)) (seq 0 (List.length v)).
Proof. intros. unfold numbered. rewrite numbered_from. apply map_ext. intros. rewrite Nat.sub_0_r. auto. Qed.

Lemma count_spec : forall v meas, let d := count_probs v (meas_mask meas) in
  NoDup (map fst d) /\ (forall k q, In (k, q) d -> 0 < q)%R /\
  (forall k, value d k = Rsum (fun x => if Nat.eq_dec (Nat.land x (meas_mask meas)) k then Cnorm2 (nth x v C0) else 0%R) (seq 0 (List.length v))) /\
  (forall k, In k (map fst d) <-> exists x, x < List.length v /\ Nat.land x (meas_mask meas) = k /\ Cnorm2 (nth x v C0) <> 0%R).
Proof.
  intros v meas d.
  destruct (collect_spec (nat * C) (fun iv => Nat.land (fst iv) (meas_mask meas)) (fun iv => Cre (snd iv) ^ 2 + Cim (snd iv) ^ 2)%R (numbered v) []) as [H1 [H2 [H3 H4]]].
  - intros a _. rewrite norm_square. apply Cnorm2_pos.
  - constructor.
  - intros k q [].
  - split; [exact H1|]. split; [exact H2|]. split.
    + intros k. unfold d, count_probs. fold (numbered v). etransitivity; [apply H3|]. unfold value at 1. simpl. rewrite Rplus_0_l, numbered_seq, Rsum_map.
      apply Rsum_ext. intros x _. cbn [fst snd]. destruct (Nat.eq_dec (Nat.land x (meas_mask meas)) k); auto. apply norm_square.
    + intros k. etransitivity; [apply H4|]. split.
      * intros [[]|[a [I [E N]]]]. rewrite numbered_seq in I. apply in_map_iff in I. destruct I as [x [<- I]]. apply in_seq in I.
        cbn [fst snd] in *. exists x. rewrite norm_square in N. split; [lia|auto].
      * intros [x [L [E N]]]. right. exists (x, nth x v C0). cbn [fst snd]. rewrite norm_square. split; auto.
        rewrite numbered_seq. apply in_map_iff. exists x. split; auto. apply in_seq. lia.
Qed.
Lemma key_eqb_ok : forall a b, key_eqb a b = true <-> a = b.
Proof. intros. unfold key_eqb. destruct (list_eq_dec Nat.eq_dec a b); split; intros; congruence. Qed.

Lemma prob_masked : forall v meas k, (exists x, Nat.land x (meas_mask meas) = k) ->
  marginal v meas (to_key meas k) = value (count_probs v (meas_mask meas)) k.
Proof.
  intros v meas k [x0 E]. destruct (count_spec v meas) as [_ [_ [H _]]]. rewrite H. unfold marginal. apply Rsum_ext. intros x _.
  rewrite to_key_readout. subst k. rewrite outcome_masked.
  destruct (list_eq_dec Nat.eq_dec (readout meas x) (readout meas x0)) as [F|F], (Nat.eq_dec (Nat.land x (meas_mask meas)) (Nat.land x0 (meas_mask meas))) as [G|G]; auto; exfalso.
  - apply G. apply outcome_mask. auto.
  - apply F. apply outcome_mask. auto.
Qed.
Lemma masked_twice : forall meas k, (exists x, Nat.land x (meas_mask meas) = k) -> Nat.land k (meas_mask meas) = k.
Proof. intros meas k [x <-]. rewrite <- Nat.land_assoc, Nat.land_diag. auto. Qed.

Lemma expect_eq : forall v meas, expect v (map Z.of_nat meas) = Ok (map (fun kv => (to_key meas (fst kv), snd kv)) (count_probs v (meas_mask meas))).
Proof.
  intros. unfold expect. replace (existsb (fun v0 => (v0 <? 0)%Z) (map Z.of_nat meas)) with false.
  2:{ symmetry. apply not_true_is_false. intro H. apply existsb_exists in H. destruct H as [z [I L]]. apply in_map_iff in I. destruct I as [m [<- _]].
      apply Z.ltb_lt in L. lia. }
  cbv zeta. replace (map Z.to_nat (map Z.of_nat meas)) with meas by (rewrite map_map; rewrite <- (map_id meas) at 1; apply map_ext; intros; rewrite Nat2Z.id; auto).
  f_equal. rewrite (dset_all_new _ key_eqb_ok _ (fun kv => to_key meas (fst kv)) snd) by (
    simpl; destruct (count_spec v meas) as [N [_ [_ K]]]; rewrite <- map_map with (f := fst); apply NoDup_map_inj; auto;
    intros a b Ia Ib E; apply K in Ia; apply K in Ib; destruct Ia as [x [_ [Ex _]]]; destruct Ib as [y [_ [Ey _]]];
    rewrite !to_key_readout, outcome_mask in E; rewrite (masked_twice meas a), (masked_twice meas b) in E; eauto). reflexivity.
Qed.

Lemma expect_distribution : forall v meas, exists d, expect v (map Z.of_nat meas) = Ok d /\ distribution v meas d /\ mass d = Rsum Cnorm2 v.
Proof.
  intros v meas. exists (map (fun kv => (to_key meas (fst kv), snd kv)) (count_probs v (meas_mask meas))). split; [apply expect_eq|].
  destruct (count_spec v meas) as [N [P [S K]]]. set (cnt := count_probs v (meas_mask meas)) in *.
  assert (M : forall k q, In (k, q) cnt -> exists x, Nat.land x (meas_mask meas) = k).
  { intros k q I. assert (I' : In k (map fst cnt)) by (apply in_map_iff; exists (k, q); auto). apply K in I'. destruct I' as [x [_ [E _]]]. eauto. }
  assert (V : forall k q, In (k, q) cnt -> value cnt k = q).
  { intros k q I. unfold value. rewrite (proj2 (dget_In _ Nat.eqb_eq cnt k q N) I). auto. }
  split; [split|].
  - rewrite map_map. cbn [fst]. rewrite <- map_map with (f := fst). apply NoDup_map_inj; auto.
    intros a b Ia Ib E. apply in_map_iff in Ia. apply in_map_iff in Ib. destruct Ia as [[a' qa] [<- Ia]]. destruct Ib as [[b' qb] [<- Ib]]. cbn [fst] in *.
    rewrite !to_key_readout, outcome_mask in E. rewrite (masked_twice meas a'), (masked_twice meas b') in E; eauto.
  - intros o p. rewrite in_map_iff. split.
    + intros [[k q] [E I]]. cbn [fst snd] in E. injection E as <- <-. rewrite prob_masked by eauto. fold cnt. rewrite (V k q I). split; auto.
      apply P in I. lra.
    + intros [-> NZ]. unfold marginal in NZ.
      assert (X : exists x, x < List.length v /\ readout meas x = o /\ Cnorm2 (nth x v C0) <> 0%R).
      { destruct (Exists_dec (fun x => readout meas x = o /\ Cnorm2 (nth x v C0) <> 0%R) (seq 0 (List.length v))) as [E|E].
        - intros x. destruct (list_eq_dec Nat.eq_dec (readout meas x) o); [|right; tauto]. destruct (Req_EM_T (Cnorm2 (nth x v C0)) 0); [right; tauto|left; auto].
        - apply Exists_exists in E. destruct E as [x [I E]]. apply in_seq in I. exists x. split; [lia|auto].
        - exfalso. apply NZ. apply Rsum_0. intros x I. destruct (list_eq_dec Nat.eq_dec (readout meas x) o) as [F|F]; auto.
          destruct (Req_EM_T (Cnorm2 (nth x v C0)) 0); auto. exfalso. apply E. apply Exists_exists. exists x. auto. }
      destruct X as [x [L [Eo Nx]]]. set (k := Nat.land x (meas_mask meas)).
      assert (Ik : In k (map fst cnt)) by (apply K; exists x; auto).
      apply in_map_iff in Ik. destruct Ik as [[k' q] [Ek I]]. cbn [fst] in Ek. subst k'. exists (k, q). cbn [fst snd]. split; auto.
      assert (Ko : to_key meas k = o) by (rewrite to_key_readout; unfold k; rewrite outcome_masked; auto).
      rewrite Ko. f_equal. rewrite <- Ko, prob_masked by (exists x; auto). fold cnt. symmetry. apply V. auto.
  - unfold mass. rewrite Rsum_map. cbn [snd].
    transitivity (Rsum (fun kq : nat * R => value cnt (fst kq)) cnt); [apply Rsum_ext; intros [k q] I; cbn [fst snd]; symmetry; auto|].
    transitivity (Rsum (fun kq : nat * R => Rsum (fun x => if Nat.eq_dec (Nat.land x (meas_mask meas)) (fst kq) then Cnorm2 (nth x v C0) else 0%R) (seq 0 (List.length v))) cnt).
    { apply Rsum_ext. intros. apply S. }
    rewrite Rsum_swap. transitivity (Rsum (fun x => Cnorm2 (nth x v C0)) (seq 0 (List.length v))).
    2:{ rewrite <- Rsum_map with (f := Cnorm2) (g := fun x => nth x v C0). f_equal. clear. induction v as [|z v IH]; simpl; auto. f_equal. rewrite <- seq_shift, map_map. auto. }
    apply Rsum_ext. intros x I. apply in_seq in I.
    destruct (Req_EM_T (Cnorm2 (nth x v C0)) 0) as [Z|Z].
    + rewrite Z. apply Rsum_0. intros a _. destruct (Nat.eq_dec (Nat.land x (meas_mask meas)) (fst a)); auto.
    + assert (Ik : In (Nat.land x (meas_mask meas)) (map fst cnt)) by (apply K; exists x; split; [lia|auto]).
      set (f := fun a : nat => if Nat.eq_dec (Nat.land x (meas_mask meas)) a then Cnorm2 (nth x v C0) else 0%R).
      transitivity (Rsum f (map fst cnt)); [rewrite Rsum_map; auto|].
      rewrite (Rsum_single f (map fst cnt) (Nat.land x (meas_mask meas))); auto.
      * unfold f. destruct (Nat.eq_dec (Nat.land x (meas_mask meas)) (Nat.land x (meas_mask meas))); congruence.
      * intros y Iy Ny. unfold f. destruct (Nat.eq_dec (Nat.land x (meas_mask meas)) y); congruence.
Qed.
Lemma expect_negative : forall v meas, (exists m, In m meas /\ (m < 0)%Z) -> expect v meas = Err ValueError.
Proof.
  intros v meas [m [I L]]. unfold expect. replace (existsb (fun v0 => (v0 <? 0)%Z) meas) with true; auto.
  symmetry. apply existsb_exists. exists m. split; auto. apply Z.ltb_lt. auto.
Qed.
