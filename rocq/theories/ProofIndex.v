(** Index arithmetic of the numba kernels. *)
From Coq Require Import List Arith NArith Nnat Bool Lia Sorted Permutation.
Import ListNotations.
From Verif Require Import Base ModelNumba SpecNumba.
Local Open Scope N_scope.
Local Arguments u64 : simpl never.
Local Arguments not64 : simpl never.
Local Arguments N.pow : simpl never.
Local Arguments N.ones : simpl never.
Local Arguments shl1 : simpl never.

(** ** Bits *)
Lemma u64_bits : forall x b, N.testbit (u64 x) b = (b <? 64) && N.testbit x b.
Proof.
  intros. unfold u64. rewrite <- N.land_ones, N.land_spec. destruct (N.ltb_spec b 64).
  - rewrite N.ones_spec_low by auto. apply andb_comm.
  - rewrite N.ones_spec_high by auto. apply andb_false_r.
Qed.
Lemma ones_bits : forall t b, N.testbit (N.ones t) b = (b <? t).
Proof.
  intros. destruct (N.ltb_spec b t); [apply N.ones_spec_low|apply N.ones_spec_high]; auto.
Qed.
Lemma not64_bits : forall x b, N.testbit (not64 x) b = xorb (N.testbit x b) (b <? 64).
Proof. intros. unfold not64, N.lnot. rewrite N.lxor_spec, ones_bits. reflexivity. Qed.
Lemma pow_bits : forall t b, N.testbit (2 ^ t) b = (b =? t).
Proof. intros. rewrite N.pow2_bits_eqb, N.eqb_sym. reflexivity. Qed.
Lemma shl1_pow : forall t, t < 64 -> shl1 t = 2 ^ t.
Proof.
  intros. unfold shl1, u64. rewrite N.shiftl_1_l, N.mod_small; auto. apply N.pow_lt_mono_r; lia.
Qed.
Lemma shl1_bits : forall t b, t < 64 -> N.testbit (shl1 t) b = (b =? t).
Proof. intros. rewrite shl1_pow by auto. apply pow_bits. Qed.
Lemma low_ones : forall t, t < 64 -> (shl1 t - 1)%N = N.ones t.
Proof. intros. rewrite shl1_pow, N.ones_equiv by auto. apply N.sub_1_r. Qed.
Lemma shiftl_bits : forall x j b, N.testbit (N.shiftl x j) b = (j <=? b) && N.testbit x (b - j).
Proof.
  intros. destruct (N.leb_spec j b).
  - rewrite N.shiftl_spec_high'; auto.
  - rewrite N.shiftl_spec_low; auto.
Qed.

Lemma ltN_bits : forall n x, x < 2 ^ n <-> (forall b, n <= b -> N.testbit x b = false).
Proof.
  intros n x. split.
  - intros H b Hb. destruct (N.eq_dec x 0) as [->|E]; [apply N.bits_0|].
    apply N.bits_above_log2. apply N.log2_lt_pow2; [lia|]. eapply N.lt_le_trans; [exact H|]. apply N.pow_le_mono_r; lia.
  - intros H. destruct (N.eq_dec x 0) as [->|E]; [apply N.neq_0_lt_0, N.pow_nonzero; lia|].
    apply N.log2_lt_pow2; [lia|]. destruct (N.lt_ge_cases (N.log2 x) n) as [|G]; auto.
    specialize (H _ G). rewrite N.bit_log2 in H; [discriminate|auto].
Qed.

Lemma u64_id : forall x, x < 2 ^ 64 -> u64 x = x.
Proof. intros. apply N.mod_small. auto. Qed.

(** ** Inserting and removing a bit *)
Definition ins (t i : N) : N := N.lor (N.land i (N.ones t)) (N.shiftl (N.ldiff i (N.ones t)) 1).
Definition del (t x : N) : N := N.lor (N.land x (N.ones t)) (N.ldiff (N.shiftr x 1) (N.ones t)).

Lemma ins_bits : forall t i b, N.testbit (ins t i) b =
  if b <? t then N.testbit i b else if b =? t then false else N.testbit i (b - 1).
Proof.
  intros. unfold ins. rewrite N.lor_spec, N.land_spec, shiftl_bits, N.ldiff_spec, !ones_bits.
  destruct (N.ltb_spec b t) as [H|H], (N.ltb_spec (b - 1) t) as [H1|H1], (N.eqb_spec b t) as [H2|H2], (N.leb_spec 1 b) as [H3|H3];
    try lia; rewrite ?andb_true_r, ?andb_false_r, ?orb_false_r; auto.
Qed.
Lemma del_bits : forall t x b, N.testbit (del t x) b = if b <? t then N.testbit x b else N.testbit x (b + 1).
Proof.
  intros. unfold del. rewrite N.lor_spec, N.land_spec, N.ldiff_spec, N.shiftr_spec', ones_bits.
  destruct (b <? t); rewrite ?andb_true_r, ?andb_false_r, ?orb_false_r; auto.
Qed.
Lemma ins_del : forall t x, N.testbit x t = false -> ins t (del t x) = x.
Proof.
  intros t x H. apply N.bits_inj. intro b. rewrite ins_bits, !del_bits.
  destruct (N.ltb_spec b t); auto. destruct (N.eqb_spec b t); [subst; auto|].
  destruct (N.ltb_spec (b - 1) t); [lia|]. f_equal. lia.
Qed.
Lemma del_ins : forall t i, del t (ins t i) = i.
Proof.
  intros t i. apply N.bits_inj. intro b. rewrite del_bits, !ins_bits.
  destruct (N.ltb_spec b t); auto. destruct (N.ltb_spec (b + 1) t); [lia|]. destruct (N.eqb_spec (b + 1) t); [lia|]. f_equal. lia.
Qed.

Definition ins_all (qs : list N) (i : N) : N := fold_left (fun i q => ins q i) qs i.
Definition del_all (qs : list N) (x : N) : N := fold_right del x qs.

Definition sorted (qs : list N) : Prop := StronglySorted N.lt qs.
Definition mem (b : N) (qs : list N) : bool := existsb (N.eqb b) qs.
Definition below (qs : list N) (b : N) : N := N.of_nat (List.length (filter (fun q => q <? b) qs)).

Lemma mem_in : forall b qs, mem b qs = true <-> In b qs.
Proof.
  intros. unfold mem. rewrite existsb_exists. split.
  - intros [x [H E]]. apply N.eqb_eq in E. subst; auto.
  - intros H. exists b. split; auto. apply N.eqb_refl.
Qed.

Lemma below_cons : forall q qs b, below (q :: qs) b = (if q <? b then 1 else 0) + below qs b.
Proof. intros. unfold below. cbn [filter]. destruct (q <? b); cbn [List.length]; lia. Qed.
Lemma below_0 : forall qs b, Forall (fun q => b <= q) qs -> below qs b = 0.
Proof.
  intros qs b H. unfold below. induction H as [|y qs Hy Hq IH]; auto. simpl. destruct (N.ltb_spec y b); [lia|]. exact IH.
Qed.
Lemma below_le : forall qs lo b, sorted qs -> Forall (fun q => lo <= q) qs -> lo <= b -> below qs b + lo <= b.
Proof.
  intros qs lo b H. revert lo. induction H as [|q qs Hs IH Hq]; intros lo F Hlo; [unfold below; simpl; lia|].
  inversion F; subst. rewrite below_cons. destruct (N.ltb_spec q b).
  - assert (below qs b + (q + 1) <= b); [|lia]. apply IH; [|lia].
    apply Forall_forall. intros x Hx. rewrite Forall_forall in Hq. specialize (Hq x Hx). lia.
  - assert (below qs b = 0).
    { apply below_0. eapply Forall_impl; [|exact Hq]. simpl; intros; lia. }
    lia.
Qed.
Lemma below_all : forall qs b, Forall (fun q => q < b) qs -> below qs b = N.of_nat (List.length qs).
Proof.
  intros qs b H. unfold below. f_equal. f_equal. induction H as [|y qs Hy Hq IH]; auto. simpl. destruct (N.ltb_spec y b); [congruence|lia].
Qed.

Lemma ins_all_bits : forall qs, sorted qs -> forall i b,
  N.testbit (ins_all qs i) b = negb (mem b qs) && N.testbit i (b - below qs b).
Proof.
  induction 1 as [|q qs Hs IH Hq]; intros i b.
  - unfold below. simpl. f_equal. lia.
  - change (ins_all (q :: qs) i) with (ins_all qs (ins q i)). rewrite IH, ins_bits, below_cons.
    cbn [mem existsb]. fold (mem b qs).
    assert (F : forall c, c <= q + 1 -> Forall (fun x => c <= x) qs).
    { intros c Hc. eapply Forall_impl; [|exact Hq]. simpl. intros; lia. }
    destruct (N.ltb_spec b q) as [H|H].
    + rewrite (below_0 qs b) by (apply F; lia). destruct (N.ltb_spec (b - 0) q); [|lia].
      destruct (N.ltb_spec q b); [lia|]. destruct (N.eqb_spec b q); [lia|]. simpl. f_equal.
    + destruct (N.eqb_spec b q) as [->|Hne].
      * rewrite (below_0 qs q) by (apply F; lia). destruct (N.ltb_spec (q - 0) q); [lia|].
        destruct (N.eqb_spec (q - 0) q); [|lia]. rewrite andb_false_r. reflexivity.
      * pose proof (below_le qs (q + 1) b Hs (F (q + 1) ltac:(lia)) ltac:(lia)).
        destruct (N.ltb_spec (b - below qs b) q); [lia|]. destruct (N.eqb_spec (b - below qs b) q); [lia|].
        destruct (N.ltb_spec q b); [|lia]. cbn [orb]. f_equal. f_equal. lia.
Qed.

Lemma del_all_low : forall qs b, Forall (fun q => b < q) qs -> forall x, N.testbit (del_all qs x) b = N.testbit x b.
Proof.
  induction 1; intros y; simpl; auto. rewrite del_bits. destruct (N.ltb_spec b x); [|lia]. auto.
Qed.
Lemma ins_del_all : forall qs, sorted qs -> forall x, (forall q, In q qs -> N.testbit x q = false) -> ins_all qs (del_all qs x) = x.
Proof.
  induction 1 as [|q qs Hs IH Hq]; intros x Hx; simpl; auto.
  change (ins_all qs (ins q (del q (del_all qs x))) = x).
  rewrite ins_del.
  - apply IH. intros; apply Hx; right; auto.
  - rewrite del_all_low by auto. apply Hx. left; auto.
Qed.
Lemma ins_all_inj : forall qs i j, ins_all qs i = ins_all qs j -> i = j.
Proof.
  induction qs as [|q qs IH]; intros i j H; simpl in *; auto. apply IH in H.
  rewrite <- (del_ins q i), <- (del_ins q j). congruence.
Qed.
Lemma sorted_room : forall qs n q, sorted (q :: qs) -> Forall (fun x => x < n) (q :: qs) -> q + N.of_nat (List.length (q :: qs)) <= n.
Proof.
  induction qs as [|r qs IH]; intros n q Hs F.
  - inversion F; subst. simpl. lia.
  - inversion Hs; subst. inversion F; subst. specialize (IH n r H1 H4). inversion H2; subst. simpl List.length in *. lia.
Qed.
Lemma del_all_lt : forall qs n x, sorted qs -> Forall (fun q => q < n) qs -> x < 2 ^ n ->
  del_all qs x < 2 ^ (n - N.of_nat (List.length qs)).
Proof.
  intros qs n x Hs. induction Hs as [|q qs Hs IH Hq]; intros F Hx.
  - simpl. rewrite N.sub_0_r. auto.
  - pose proof (sorted_room qs n q ltac:(constructor; auto) F) as R.
    inversion F; subst. specialize (IH H2 Hx). cbn [del_all fold_right List.length] in *. fold (del_all qs x) in *.
    apply ltN_bits. intros b Hb. rewrite del_bits. destruct (N.ltb_spec b q); [lia|].
    rewrite ltN_bits in IH. apply IH. lia.
Qed.
Lemma ins_all_lt : forall qs n i, sorted qs -> Forall (fun q => q < n) qs -> i < 2 ^ (n - N.of_nat (List.length qs)) ->
  ins_all qs i < 2 ^ n.
Proof.
  intros qs n i Hs F Hi. apply ltN_bits. intros b Hb. rewrite ins_all_bits by auto.
  rewrite below_all by (eapply Forall_impl; [|exact F]; simpl; intros; lia).
  rewrite ltN_bits in Hi. rewrite Hi by lia. apply andb_false_r.
Qed.

Lemma in_range : forall cnt i, In i (map N.of_nat (seq 0 (N.to_nat cnt))) <-> i < cnt.
Proof.
  intros. rewrite in_map_iff. split.
  - intros [k [<- H]]. apply in_seq in H. lia.
  - intros H. exists (N.to_nat i). split; [apply N2Nat.id|]. apply in_seq. lia.
Qed.
Lemma nodup_range : forall cnt, NoDup (map N.of_nat (seq 0 (N.to_nat cnt))).
Proof. intros. apply FinFun.Injective_map_NoDup; [intros x y; apply Nat2N.inj|apply seq_NoDup]. Qed.

Lemma nodup_map_in : forall A B (f : A -> B) l, (forall x y, In x l -> In y l -> f x = f y -> x = y) -> NoDup l -> NoDup (map f l).
Proof.
  intros A B f l Hf H. induction H as [|x l Hx H IH]; simpl; constructor.
  - intros I. apply in_map_iff in I. destruct I as [y [E Hy]]. apply Hx. rewrite <- (Hf y x); auto; [right|left]; auto.
  - apply IH. intros; apply Hf; auto; right; auto.
Qed.

Lemma visits_intro : forall n qs cnt e,
  (forall i, i < cnt -> e i < 2 ^ n /\ forall q, In q qs -> N.testbit (e i) q = false) ->
  (forall i j, i < cnt -> j < cnt -> e i = e j -> i = j) ->
  (forall x, x < 2 ^ n -> (forall q, In q qs -> N.testbit x q = false) -> exists i, i < cnt /\ e i = x) ->
  visits_once n qs cnt e.
Proof.
  intros n qs cnt e H1 H2 H3. split.
  - apply nodup_map_in; [|apply nodup_range]. intros x y Hx Hy. apply in_range in Hx, Hy. auto.
  - intros x. rewrite in_map_iff. split.
    + intros [i [<- Hi]]. apply in_range in Hi. auto.
    + intros [Hx Hq]. destruct (H3 x Hx Hq) as [i [Hi E]]. exists i. split; auto. apply in_range; auto.
Qed.
Lemma visits_elim : forall n qs cnt e, visits_once n qs cnt e ->
  (forall i, i < cnt -> e i < 2 ^ n /\ forall q, In q qs -> N.testbit (e i) q = false) /\
  (forall i j, i < cnt -> j < cnt -> e i = e j -> i = j) /\
  (forall x, x < 2 ^ n -> (forall q, In q qs -> N.testbit x q = false) -> exists i, i < cnt /\ e i = x).
Proof.
  intros n qs cnt e [ND H]. split; [|split].
  - intros i Hi. apply H. apply in_map. apply in_range; auto.
  - intros i j Hi Hj E. apply in_range in Hi, Hj.
    revert ND Hi Hj. generalize (map N.of_nat (seq 0 (N.to_nat cnt))) as l. induction l as [|a l IH]; intros ND Hi Hj; [contradiction|].
    simpl in ND. inversion ND; subst. destruct Hi as [->|Hi], Hj as [->|Hj]; auto.
    + exfalso. apply H2. rewrite E. apply in_map; auto.
    + exfalso. apply H2. rewrite <- E. apply in_map; auto.
  - intros x Hx Hq. assert (I : In x (map e (map N.of_nat (seq 0 (N.to_nat cnt))))) by (apply H; auto).
    apply in_map_iff in I. destruct I as [i [E Hi]]. apply in_range in Hi. eauto.
Qed.

Lemma ins_all_visits : forall qs n, sorted qs -> Forall (fun q => q < n) qs ->
  visits_once n qs (2 ^ (n - N.of_nat (List.length qs))) (ins_all qs).
Proof.
  intros qs n Hs F. apply visits_intro.
  - intros i Hi. split; [apply ins_all_lt; auto|]. intros q Hq. rewrite ins_all_bits by auto. apply mem_in in Hq. rewrite Hq. reflexivity.
  - intros i j _ _. apply ins_all_inj.
  - intros x Hx Hq. exists (del_all qs x). split; [apply del_all_lt; auto|apply ins_del_all; auto].
Qed.

(** ** shifted *)
Lemma add_lor : forall a b, N.land a b = 0 -> a + b = N.lor a b.
Proof.
  intros a b H. rewrite N.add_nocarry_lxor by auto. apply N.bits_inj. intro k.
  assert (E : N.testbit (N.land a b) k = false) by (rewrite H; apply N.bits_0).
  rewrite N.land_spec in E. rewrite N.lxor_spec, N.lor_spec. destruct (N.testbit a k), (N.testbit b k); auto; discriminate.
Qed.

Lemma shifted_ins : forall t i, t < 64 -> i < 2 ^ 63 -> shifted (low t) i = ins t i.
Proof.
  intros t i Ht Hi. unfold shifted, low. rewrite low_ones by auto.
  assert (HB : forall b, N.testbit (u64 (N.shiftl (N.land i (not64 (N.ones t))) 1)) b =
    (1 <=? b) && (t <=? b - 1) && N.testbit i (b - 1)).
  { intros b. rewrite u64_bits, shiftl_bits, N.land_spec, not64_bits, ones_bits. rewrite ltN_bits in Hi.
    destruct (N.ltb_spec b 64), (N.leb_spec 1 b), (N.ltb_spec (b - 1) t), (N.ltb_spec (b - 1) 64), (N.leb_spec t (b - 1));
      try lia; simpl; rewrite ?andb_true_r, ?andb_false_r; auto.
    all: symmetry; apply Hi; lia. }
  rewrite add_lor.
  - apply N.bits_inj. intro b. rewrite u64_bits, N.lor_spec, HB, N.land_spec, ones_bits, ins_bits. rewrite ltN_bits in Hi.
    destruct (N.ltb_spec b 64), (N.leb_spec 1 b), (N.leb_spec t (b - 1)), (N.ltb_spec b t), (N.eqb_spec b t);
      try lia; simpl; rewrite ?andb_true_r, ?andb_false_r, ?orb_false_r; auto.
    all: symmetry; apply Hi; lia.
  - apply N.bits_inj. intro b. rewrite N.land_spec, HB, N.land_spec, ones_bits, N.bits_0.
    destruct (N.leb_spec 1 b), (N.leb_spec t (b - 1)), (N.ltb_spec b t); try lia; simpl; rewrite ?andb_false_r; auto.
Qed.

Lemma pow2_le : forall a b, a <= b -> 2 ^ a <= 2 ^ b.
Proof. intros. apply N.pow_le_mono_r; lia. Qed.

Lemma visits_ext : forall n qs cnt e e', visits_once n qs cnt e -> (forall i, i < cnt -> e' i = e i) -> visits_once n qs cnt e'.
Proof.
  intros n qs cnt e e' H E. apply visits_elim in H. destruct H as [H1 [H2 H3]]. apply visits_intro.
  - intros i Hi. rewrite E by auto. auto.
  - intros i j Hi Hj. rewrite !E by auto. auto.
  - intros x Hx Hq. destruct (H3 x Hx Hq) as [i [Hi Ei]]. exists i. rewrite E; auto.
Qed.

Lemma shifted_visits : forall n t, n <= 64 -> t < n -> visits_once n [t] (half n) (idx0 t).
Proof.
  intros n t Hn Ht. unfold half. rewrite shl1_pow by lia.
  apply visits_ext with (ins_all [t]).
  - apply (ins_all_visits [t] n); constructor; auto; constructor.
  - intros i Hi. unfold idx0. apply shifted_ins; [lia|]. eapply N.lt_le_trans; [exact Hi|]. apply pow2_le. lia.
Qed.

Lemma idx1_lor : forall n t i, n <= 64 -> t < n -> i < half n -> idx1 t i = N.lor (idx0 t i) (2 ^ t) /\ idx1 t i < 2 ^ n.
Proof.
  intros n t i Hn Ht Hi. pose proof (visits_elim _ _ _ _ (shifted_visits n t Hn Ht)) as [H1 _].
  destruct (H1 i Hi) as [L Z]. specialize (Z t (or_introl eq_refl)).
  assert (E : idx1 t i = u64 (N.lor (idx0 t i) (2 ^ t))).
  { unfold idx1. fold (idx0 t i). rewrite shl1_pow by lia. f_equal. apply add_lor. apply N.bits_inj. intro b.
    rewrite N.land_spec, pow_bits, N.bits_0. destruct (N.eqb_spec b t); [subst; rewrite Z; auto|apply andb_false_r]. }
  assert (L2 : N.lor (idx0 t i) (2 ^ t) < 2 ^ n).
  { rewrite ltN_bits in *. intros b Hb. rewrite N.lor_spec, pow_bits, L by auto. destruct (N.eqb_spec b t); [lia|auto]. }
  rewrite E, u64_id; auto. eapply N.lt_le_trans; [exact L2|]. apply pow2_le; auto.
Qed.

(** ** mult_shifted *)
Ltac dec := repeat
  match goal with
  | |- context[?a <? ?b] => first [replace (a <? b) with true by (symmetry; apply N.ltb_lt; lia)
                                  |replace (a <? b) with false by (symmetry; apply N.ltb_ge; lia)]
  | |- context[?a <=? ?b] => first [replace (a <=? b) with true by (symmetry; apply N.leb_le; lia)
                                  |replace (a <=? b) with false by (symmetry; apply N.leb_gt; lia)]
  | |- context[?a =? ?b] => first [replace (a =? b) with true by (symmetry; apply N.eqb_eq; lia)
                                  |replace (a =? b) with false by (symmetry; apply N.eqb_neq; lia)]
  end.

Lemma msf_bits : forall idx xs lo j acc raw b, sorted xs -> Forall (fun x => lo <= x /\ x < 64) xs -> j <= lo ->
  lo - j <= 64 -> raw_masks j xs = Ok raw ->
  N.testbit (mult_shifted_from j (diff_masks (N.ones (lo - j)) (raw ++ [not64 0])) idx acc) b =
  N.testbit acc b || ((b <? 64) && (lo <=? b) && negb (mem b xs) && N.testbit idx (b - j - below xs b)).
Proof.
  intros idx. induction xs as [|x xs IH]; intros lo j acc raw b Hs F Hj Hl Hr.
  - simpl in Hr. injection Hr as <-. cbn [app diff_masks mult_shifted_from mem existsb negb]. unfold below. cbn [filter List.length N.of_nat].
    rewrite N.lor_spec, u64_bits, shiftl_bits, !N.land_spec, !not64_bits, N.bits_0, ones_bits.
    rewrite N.sub_0_r. f_equal.
    destruct (N.ltb_spec b 64), (N.leb_spec j b), (N.ltb_spec (b - j) 64), (N.ltb_spec (b - j) (lo - j)), (N.leb_spec lo b);
      try lia; simpl; rewrite ?andb_true_r, ?andb_false_r; auto.
  - cbn [raw_masks] in Hr. inversion F as [|? ? [F1 F2] F3]; subst. inversion Hs as [|? ? Hs' Hq]; subst.
    destruct (N.ltb_spec x j) as [|_]; [lia|].
    destruct (raw_masks (j + 1) xs) as [raw'|] eqn:E; simpl in Hr; [|discriminate]. injection Hr as <-.
    rewrite low_ones by lia. cbn [app diff_masks mult_shifted_from].
    pose proof (fun acc => IH (x + 1) (j + 1) acc raw' b) as I.
    replace (x + 1 - (j + 1)) with (x - j) in I by lia. rewrite I; auto; try lia.
    + rewrite N.lor_spec, u64_bits, shiftl_bits, !N.land_spec, not64_bits, !ones_bits, below_cons.
      cbn [mem existsb]. fold (mem b xs). rewrite <- orb_assoc. f_equal.
      assert (F0 : b <= x -> mem b xs = false /\ below xs b = 0).
      { intros Hb. split.
        - destruct (mem b xs) eqn:M; auto. apply mem_in in M. rewrite Forall_forall in Hq. specialize (Hq b M). lia.
        - apply below_0. eapply Forall_impl; [|exact Hq]. simpl; intros; lia. }
      destruct (N.leb_spec b x) as [Hbx|Hbx].
      * destruct (F0 Hbx) as [M B0]. rewrite M, B0.
        destruct (N.lt_ge_cases b j); [|destruct (N.lt_ge_cases b lo); [|destruct (N.eq_dec b x)]];
          dec; simpl; rewrite ?andb_true_r, ?andb_false_r, ?orb_false_r, ?N.sub_0_r; auto.
      * destruct (N.ltb_spec (b - j) (x - j)); [lia|]. destruct (N.leb_spec (x + 1) b); [|lia].
        destruct (N.leb_spec lo b); [|lia]. destruct (N.eqb_spec b x); [lia|]. destruct (N.ltb_spec x b); [|lia].
        rewrite ?andb_false_r, ?andb_false_l, ?andb_false_r. cbn [orb negb andb].
        replace (b - (j + 1) - below xs b) with (b - j - (1 + below xs b)) by lia. reflexivity.
    + apply Forall_forall. intros y Hy. rewrite Forall_forall in F3, Hq. specialize (F3 y Hy). specialize (Hq y Hy). lia.
Qed.

Lemma raw_masks_ok : forall xs j, sorted xs -> Forall (fun x => j <= x) xs -> exists raw, raw_masks j xs = Ok raw.
Proof.
  induction xs as [|x xs IH]; intros j Hs F; [exists []; auto|]. simpl. inversion Hs; subst. inversion F; subst.
  destruct (N.ltb_spec x j); [lia|]. destruct (IH (j + 1)) as [raw ->]; auto.
  - apply Forall_forall. intros y Hy. rewrite Forall_forall in H2. specialize (H2 y Hy). lia.
  - simpl. eauto.
Qed.

Lemma insert_perm : forall x l, Permutation (x :: l) (insert x l).
Proof.
  induction l as [|y l IH]; simpl; auto. destruct (x <=? y)%N; auto. rewrite perm_swap. constructor. auto.
Qed.
Lemma sort_perm : forall l, Permutation l (sort l).
Proof. induction l; simpl; auto. rewrite <- insert_perm. constructor. auto. Qed.
Lemma insert_sorted : forall x l, sorted l -> ~ In x l -> sorted (insert x l).
Proof.
  intros x l H. induction H as [|y l Hs IH Hy]; intros Hx; simpl; [constructor; constructor|].
  destruct (N.leb_spec x y).
  - constructor; [constructor; auto|]. constructor; [assert (x <> y) by (intro; apply Hx; left; auto); lia|].
    eapply Forall_impl; [|exact Hy]. simpl. intros; lia.
  - constructor; [apply IH; intro; apply Hx; right; auto|]. eapply Permutation_Forall; [apply insert_perm|]. constructor; auto.
Qed.
Lemma sort_sorted : forall l, NoDup l -> sorted (sort l).
Proof.
  induction 1; simpl; [constructor|]. apply insert_sorted; auto. intros I. apply H. eapply Permutation_in; [symmetry; apply sort_perm|auto].
Qed.

Lemma create_masks_ok : forall qs, NoDup qs -> Forall (fun q => q < 64) qs -> exists masks, create_masks qs = Ok masks /\
  forall i, i < 2 ^ (64 - N.of_nat (List.length qs)) -> mult_shifted masks i = ins_all (sort qs) i.
Proof.
  intros qs ND F. pose proof (sort_sorted qs ND) as Hs.
  assert (FS : Forall (fun x => x < 64) (sort qs)) by (eapply Permutation_Forall; [apply sort_perm|auto]).
  assert (F0 : forall l, Forall (fun x => 0 <= x) l) by (intros; apply Forall_forall; intros; lia).
  destruct (raw_masks_ok (sort qs) 0 Hs (F0 _)) as [raw Er].
  unfold create_masks. rewrite Er. cbn [bind].
  assert (LenS : List.length (sort qs) = List.length qs) by (symmetry; apply Permutation_length, sort_perm).
  assert (X : forall i, i < 2 ^ (64 - N.of_nat (List.length qs)) ->
    mult_shifted_from 0 (diff_masks (N.ones (0 - 0)) (raw ++ [not64 0])) i 0 = ins_all (sort qs) i).
  { intros i Hi. apply N.bits_inj. intro b. rewrite (msf_bits i (sort qs) 0 0 0 raw b); auto; try lia.
    - rewrite N.bits_0, ins_all_bits by auto. simpl. rewrite N.sub_0_r.
      destruct (N.ltb_spec b 64) as [|Hb]; simpl; [destruct b; reflexivity|]. symmetry.
      rewrite below_all by (eapply Forall_impl; [|exact FS]; simpl; intros; lia).
      rewrite LenS. rewrite ltN_bits in Hi. rewrite Hi by lia. apply andb_false_r.
    - eapply Forall_impl; [|exact FS]. simpl. intros; lia. }
  assert (L0 : forall m, m < 2 ^ 64 -> N.land m (not64 (N.ones (0 - 0))) = m).
  { intros m Hm. apply N.bits_inj. intro b. rewrite N.land_spec, not64_bits. change (N.ones (0 - 0)) with 0. rewrite N.bits_0.
    rewrite ltN_bits in Hm. destruct (N.ltb_spec b 64); simpl; [apply andb_true_r|]. rewrite Hm by auto. reflexivity. }
  destruct (sort qs) as [|x xs] eqn:ES.
  - simpl in Er. injection Er as <-. exists [not64 0]. split; [reflexivity|]. intros i Hi. rewrite <- X by auto. unfold mult_shifted. cbn [app diff_masks].
    rewrite L0 by reflexivity. reflexivity.
  - cbn [raw_masks] in Er. destruct (N.ltb_spec x 0); [lia|]. destruct (raw_masks (0 + 1) xs) as [raw'|]; simpl in Er; [|discriminate].
    injection Er as <-. cbn [app]. eexists. split; [reflexivity|]. intros i Hi. rewrite <- X by auto. unfold mult_shifted.
    cbn [app diff_masks]. inversion FS; subst. rewrite L0; auto. rewrite N.sub_0_r, low_ones by auto.
    apply ltN_bits. intros b Hb. rewrite ones_bits. apply N.ltb_ge. lia.
Qed.

Lemma mult_visits : forall n qs, n <= 64 -> NoDup qs -> Forall (fun q => q < n) qs ->
  exists masks, create_masks qs = Ok masks /\ N.of_nat (List.length qs) <= n /\
    visits_once n qs (2 ^ (n - N.of_nat (List.length qs))) (mult_shifted masks).
Proof.
  intros n qs Hn ND F.
  assert (F64 : Forall (fun q => q < 64) qs) by (eapply Forall_impl; [|exact F]; simpl; intros; lia).
  destruct (create_masks_ok qs ND F64) as [masks [E H]]. exists masks. split; auto.
  pose proof (sort_sorted qs ND) as Hs. pose proof (sort_perm qs) as P.
  assert (FS : Forall (fun x => x < n) (sort qs)) by (eapply Permutation_Forall; [exact P|auto]).
  assert (Len : (List.length qs = List.length (sort qs))%nat) by (apply Permutation_length; auto).
  assert (R : N.of_nat (List.length qs) <= n).
  { rewrite Len. destruct (sort qs) as [|q r] eqn:ES; [simpl; lia|]. pose proof (sorted_room r n q Hs FS). lia. }
  split; auto.
  assert (V : visits_once n (sort qs) (2 ^ (n - N.of_nat (List.length qs))) (mult_shifted masks)).
  { apply visits_ext with (ins_all (sort qs)).
    - rewrite Len. apply ins_all_visits; auto.
    - intros i Hi. apply H. eapply N.lt_le_trans; [exact Hi|]. apply pow2_le. lia. }
  destruct V as [V1 V2]. split; auto. intros x. rewrite V2. split; intros [Hx Hq]; split; auto; intros q Iq; apply Hq.
  - eapply Permutation_in; [exact P|auto].
  - eapply Permutation_in; [symmetry; exact P|auto].
Qed.
