(** Proofs about Boltzmann machines and their training. *)
From Coq Require Import Ascii String List Arith ZArith Bool Reals Lia Lra FunctionalExtensionality.
Import ListNotations.
From Verif Require Import Base Cplx ModelWq ModelQasm ModelRbm SpecWq SpecRbm ProofWq ProofOpt.
Local Open Scope R_scope.

(** ** loops *)
Lemma for_nil : forall S a b (s : S) f, (b <= a)%nat -> for_range a b s f = s.
Proof. intros. unfold for_range. replace (b - a)%nat with 0%nat by lia. reflexivity. Qed.
Lemma for_last : forall S a b (s : S) f, (a <= b)%nat -> for_range a (1 + b) s f = f b (for_range a b s f).
Proof.
  intros S a b s f H. unfold for_range. replace (1 + b - a)%nat with ((b - a) + 1)%nat by lia. rewrite seq_app, fold_left_app. cbn. f_equal. lia.
Qed.
Lemma total_split : forall a b f, total (a + b) f = total a f + total b (fun k => f (a + k)%nat).
Proof.
  induction b as [|b IH]; intros f; [rewrite Nat.add_0_r, total_none; lra|]. rewrite Nat.add_succ_r, !total_S, IH. lra.
Qed.
Lemma for_sum : forall a b s f, (a <= b)%nat -> for_range a b s (fun j h => h + f j) = s + total (b - a) (fun k => f (a + k)%nat).
Proof.
  intros a b s f H. replace b with (a + (b - a))%nat at 1 by lia. generalize (b - a)%nat as k. clear. induction k as [|k IH].
  - rewrite Nat.add_0_r, for_nil, total_none by lia. lra.
  - replace (a + S k)%nat with (1 + (a + k))%nat by lia. rewrite for_last, IH, total_S by lia. lra.
Qed.

(** ** dbms *)
Section Random.
Variable rand : nat -> R.
Definition weight (w : R) (u : nat) : R := if Req_EM_T w 0 then rand u else w.
Definition used (w : R) (k : nat) : nat := if Req_EM_T w 0 then k else 0%nat.
Lemma connect_row : forall w i a k m u, let st := for_range a (a + k) (m, u) (fun j st => let (m, u) := st in if Req_EM_T w 0 then (upd m i j (rand u), S u) else (upd m i j w, u)) in
  snd st = (u + used w k)%nat /\
  forall x y, fst st x y = if ((x =? i) && ((a <=? y) && (y <? a + k)))%nat then weight w (u + (y - a)) else m x y.
Proof.
  intros w i a k m u. unfold used, weight. induction k as [|k IH].
  - rewrite for_nil by lia. cbv zeta. cbn [fst snd]. split; [destruct (Req_EM_T w 0); lia|]. intros x y.
    destruct (Nat.leb_spec a y), (Nat.ltb_spec y (a + 0)), (x =? i)%nat; cbn [andb]; auto; lia.
  - replace (a + S k)%nat with (1 + (a + k))%nat by lia. rewrite for_last by lia. cbv zeta in IH |- *. set (st := for_range a (a + k) _ _) in *. destruct st as [m1 u1]. cbn [fst snd] in IH.
    destruct IH as [I1 I2]. destruct (Req_EM_T w 0) as [W|W]; cbn [fst snd].
    + split; [lia|]. intros x y. unfold upd. rewrite I2. destruct (Nat.eqb_spec x i), (Nat.eqb_spec y (a + k)), (Nat.leb_spec a y), (Nat.ltb_spec y (a + k)), (Nat.ltb_spec y (1 + (a + k)));
        cbn [andb]; auto; try lia. f_equal. lia.
    + split; [lia|]. intros x y. unfold upd. rewrite I2. destruct (Nat.eqb_spec x i), (Nat.eqb_spec y (a + k)), (Nat.leb_spec a y), (Nat.ltb_spec y (a + k)), (Nat.ltb_spec y (1 + (a + k)));
        cbn [andb]; auto; try lia.
Qed.
Lemma connect_block : forall w cc a b m u, let st := connect rand w cc a b (m, u) in
  snd st = (u + used w (a * b))%nat /\
  forall x y, fst st x y = if (((cc <=? x) && (x <? cc + a)) && ((cc + a <=? y) && (y <? cc + a + b)))%nat then weight w (u + (x - cc) * b + (y - (cc + a))) else m x y.
Proof.
  intros w cc a b m u. unfold connect. set (E := (cc + a)%nat). cbv zeta.
  assert (G : forall k, (k <= a)%nat -> let st := for_range cc (cc + k) (m, u) (fun i st => for_range E (E + b) st (fun j st => let (m, u) := st in if Req_EM_T w 0 then (upd m i j (rand u), S u) else (upd m i j w, u))) in
    snd st = (u + used w (k * b))%nat /\
    forall x y, fst st x y = if (((cc <=? x) && (x <? cc + k)) && ((E <=? y) && (y <? E + b)))%nat then weight w (u + (x - cc) * b + (y - E)) else m x y).
  2:{ apply (G a). lia. }
  induction k as [|k IH]; intros Hk.
  - rewrite for_nil by lia. cbv zeta. cbn [fst snd]. split; [unfold used; destruct (Req_EM_T w 0); lia|]. intros x y.
    destruct (Nat.leb_spec cc x), (Nat.ltb_spec x (cc + 0)); cbn [andb]; auto; lia.
  - replace (cc + S k)%nat with (1 + (cc + k))%nat by lia. rewrite for_last by lia. specialize (IH ltac:(lia)). cbv zeta in IH |- *. set (st := for_range cc (cc + k) _ _) in *. destruct st as [m1 u1]. cbn [fst snd] in IH.
    destruct IH as [I1 I2]. destruct (connect_row w (cc + k) E b m1 u1) as [C1 C2]. split.
    + rewrite C1, I1. unfold used. destruct (Req_EM_T w 0); lia.
    + intros x y. rewrite C2, I2. destruct (Nat.eqb_spec x (cc + k)), (Nat.leb_spec cc x), (Nat.ltb_spec x (cc + k)), (Nat.ltb_spec x (1 + (cc + k))); cbn [andb]; try lia;
        destruct ((E <=? y) && (y <? E + b))%nat eqn:B; cbn [andb]; auto.
      unfold weight. destruct (Req_EM_T w 0) as [W|W]; auto. f_equal. rewrite I1. unfold used. destruct (Req_EM_T w 0); [|contradiction]. subst x.
      replace (cc + k - cc)%nat with k by lia. lia.
Qed.
Lemma layer_lt : forall arr i k, layer_of arr i = Some k -> (i < list_sum arr)%nat.
Proof.
  induction arr as [|a r IH]; intros i k H; [discriminate|]. cbn [layer_of] in H. change (list_sum (a :: r)) with (a + list_sum r)%nat. destruct (Nat.ltb_spec i a); [lia|].
  destruct (layer_of r (i - a)) as [k'|] eqn:E; [|discriminate H]. apply IH in E. lia.
Qed.
Lemma adjacent_dec : forall arr i j, adjacent arr i j \/ ~ adjacent arr i j.
Proof.
  intros. unfold adjacent. destruct (layer_of arr i) as [k|], (layer_of arr j) as [l|]; try (right; intros [? [? ?]]; discriminate).
  destruct (Nat.eq_dec l (S k)); [left; subst; eauto|right; intros [x [A B]]; congruence].
Qed.
Lemma adjacent_cons : forall a b r i j, adjacent (a :: b :: r) i j <->
  ((i < a /\ a <= j < a + b) \/ (a <= i /\ a <= j /\ adjacent (b :: r) (i - a) (j - a)))%nat.
Proof.
  intros a b r i j. unfold adjacent. cbn [layer_of]. split.
  - intros [k [A B]]. destruct (Nat.ltb_spec i a).
    + inversion A. subst k. destruct (Nat.ltb_spec j a); [discriminate|]. destruct (Nat.ltb_spec (j - a) b).
      * left. lia.
      * destruct (option_map S (layer_of r (j - a - b))) as [x|] eqn:E; [|discriminate]. destruct (layer_of r (j - a - b)); [|discriminate]. cbn in E. inversion E. subst. discriminate.
    + right. destruct (Nat.ltb_spec j a); [discriminate|]. split; auto. split; auto.
      destruct (if (i - a <? b)%nat then Some 0%nat else option_map S (layer_of r (i - a - b))) as [x|]; [|discriminate].
      destruct (if (j - a <? b)%nat then Some 0%nat else option_map S (layer_of r (j - a - b))) as [y|]; [|discriminate].
      cbn in A, B. inversion A. inversion B. subst. exists x. split; auto.
  - intros [[A B]|[A [B [k [C D]]]]].
    + exists 0%nat. destruct (Nat.ltb_spec i a), (Nat.ltb_spec j a), (Nat.ltb_spec (j - a) b); try lia. auto.
    + exists (S k). destruct (Nat.ltb_spec i a), (Nat.ltb_spec j a); try lia. cbn [layer_of] in C, D. rewrite C, D. auto.
Qed.
Lemma adjacent_short : forall a i j, ~ adjacent [a] i j.
Proof. intros a i j [k [A B]]. cbn [layer_of option_map] in A, B. destruct (i <? a)%nat; [|discriminate A]. destruct (j <? a)%nat; discriminate B. Qed.
Lemma connect_all_spec : forall w arr cc m u, let st := connect_all rand w cc arr (m, u) in
  (u <= snd st)%nat /\ exists idx,
  (forall x y, (cc <= x)%nat -> (cc <= y)%nat -> adjacent arr (x - cc) (y - cc) -> fst st x y = weight w (idx x y) /\ (w = 0 -> (u <= idx x y < snd st)%nat)) /\
  (forall x y, ~ (cc <= x /\ cc <= y /\ adjacent arr (x - cc) (y - cc))%nat -> fst st x y = m x y) /\
  (w = 0 -> forall x y x' y', (cc <= x)%nat -> (cc <= y)%nat -> (cc <= x')%nat -> (cc <= y')%nat -> adjacent arr (x - cc) (y - cc) -> adjacent arr (x' - cc) (y' - cc) ->
    idx x y = idx x' y' -> x = x' /\ y = y').
Proof.
  intros w. induction arr as [|a r IH]; intros cc m u.
  - cbn. split; [lia|]. exists (fun _ _ => 0%nat). split; [intros x y _ _ [k [A _]]; discriminate|]. split; [auto|]. intros _ x y x' y' _ _ _ _ [k [A _]]. discriminate.
  - destruct r as [|b r].
    + cbn. split; [lia|]. exists (fun _ _ => 0%nat). split; [intros x y _ _ A; apply adjacent_short in A; contradiction|]. split; [auto|].
      intros _ x y x' y' _ _ _ _ A. apply adjacent_short in A. contradiction.
    + change (connect_all rand w cc (a :: b :: r) (m, u)) with (connect_all rand w (cc + a) (b :: r) (connect rand w cc a b (m, u))). destruct (connect_block w cc a b m u) as [C1 C2]. destruct (connect rand w cc a b (m, u)) as [m1 u1] eqn:C. cbn [fst snd] in C1, C2.
      specialize (IH (cc + a)%nat m1 u1). cbv zeta in IH |- *.
      set (st := connect_all rand w (cc + a) (b :: r) (m1, u1)) in *. destruct IH as [Iu [idx [I1 [I2 I3]]]].
      split; [lia|].
      exists (fun x y => if ((x <? cc + a) && (y <? cc + a + b))%nat then (u + (x - cc) * b + (y - (cc + a)))%nat else idx x y).
      assert (Eu : w = 0 -> (u1 = u + a * b)%nat) by (intros W; rewrite C1; unfold used; destruct (Req_EM_T w 0); [auto|contradiction]).
      assert (Cases : forall x y, (cc <= x)%nat -> (cc <= y)%nat -> adjacent (a :: b :: r) (x - cc) (y - cc) ->
        (x < cc + a /\ cc + a <= y < cc + a + b)%nat \/ ((cc + a <= x)%nat /\ (cc + a <= y)%nat /\ adjacent (b :: r) (x - (cc + a)) (y - (cc + a)))).
      { intros x y Hx Hy A. apply adjacent_cons in A as [[A1 A2]|[A1 [A2 A3]]]; [left; lia|right]. split; [lia|]. split; [lia|].
        replace (x - (cc + a))%nat with (x - cc - a)%nat by lia. replace (y - (cc + a))%nat with (y - cc - a)%nat by lia. auto. }
      assert (Low : forall x y, (cc <= x < cc + a)%nat -> (cc + a <= y < cc + a + b)%nat -> fst st x y = weight w (u + (x - cc) * b + (y - (cc + a)))).
      { intros x y Hx Hy. rewrite I2 by lia. rewrite C2. destruct (Nat.leb_spec cc x), (Nat.ltb_spec x (cc + a)), (Nat.leb_spec (cc + a) y), (Nat.ltb_spec y (cc + a + b)); try lia. auto. }
      split; [|split].
      * intros x y Hx Hy A. destruct (Cases x y Hx Hy A) as [[B1 B2]|[B1 [B2 B3]]].
        -- destruct (Nat.ltb_spec x (cc + a)), (Nat.ltb_spec y (cc + a + b)); try lia. cbn [andb]. split; [apply Low; lia|]. intros W. specialize (Eu W). assert (X : ((x - cc) * b + b <= a * b)%nat) by nia.
           clear - X Eu Iu B2. generalize dependent ((x - cc) * b)%nat. generalize dependent (a * b)%nat. intros. lia.
        -- destruct (Nat.ltb_spec x (cc + a)); [lia|]. cbn [andb]. destruct (I1 x y B1 B2 B3) as [J1 J2]. split; auto. intros W. specialize (J2 W). lia.
      * intros x y N. rewrite I2.
        -- rewrite C2. destruct (Nat.leb_spec cc x), (Nat.ltb_spec x (cc + a)), (Nat.leb_spec (cc + a) y), (Nat.ltb_spec y (cc + a + b)); cbn [andb]; auto.
           exfalso. apply N. split; auto. split; [lia|]. apply adjacent_cons. left. lia.
        -- intros [B1 [B2 B3]]. apply N. split; [lia|]. split; [lia|]. apply adjacent_cons. right. split; [lia|]. split; [lia|].
           replace (x - cc - a)%nat with (x - (cc + a))%nat by lia. replace (y - cc - a)%nat with (y - (cc + a))%nat by lia. auto.
      * intros W x y x' y' Hx Hy Hx' Hy' A A'. specialize (Eu W).
        destruct (Cases x y Hx Hy A) as [[B1 B2]|[B1 [B2 B3]]], (Cases x' y' Hx' Hy' A') as [[B1' B2']|[B1' [B2' B3']]].
        -- destruct (Nat.ltb_spec x (cc + a)), (Nat.ltb_spec y (cc + a + b)), (Nat.ltb_spec x' (cc + a)), (Nat.ltb_spec y' (cc + a + b)); try lia. cbn [andb]. intros E.
           assert (x - cc = x' - cc)%nat by nia. assert (x = x') by lia. subst x'. lia.
        -- destruct (Nat.ltb_spec x (cc + a)), (Nat.ltb_spec y (cc + a + b)), (Nat.ltb_spec x' (cc + a)); try lia. cbn [andb]. intros E.
           destruct (I1 x' y' B1' B2' B3') as [_ J]. specialize (J W). assert ((x - cc) * b + b <= a * b)%nat by nia. lia.
        -- destruct (Nat.ltb_spec x' (cc + a)), (Nat.ltb_spec y' (cc + a + b)), (Nat.ltb_spec x (cc + a)); try lia. cbn [andb]. intros E.
           destruct (I1 x y B1 B2 B3) as [_ J]. specialize (J W). assert ((x' - cc) * b + b <= a * b)%nat by nia. lia.
        -- destruct (Nat.ltb_spec x (cc + a)), (Nat.ltb_spec x' (cc + a)); try lia. cbn [andb]. apply I3; auto.
Qed.
Lemma adjacent_ne : forall arr i, ~ adjacent arr i i.
Proof. intros arr i [k [A B]]. rewrite A in B. inversion B. lia. Qed.
Lemma dbms_fixed : forall arr w, w <> 0 -> (forall i, dbms rand arr w i i = 1 / 2) /\ (forall i j, adjacent arr i j -> dbms rand arr w i j = w) /\
  (forall i j, i <> j -> ~ adjacent arr i j -> dbms rand arr w i j = 0).
Proof.
  intros arr w W. unfold dbms. destruct (Req_EM_T w 0) as [E|_]; [contradiction|].
  destruct (connect_all_spec w arr 0 (diag (fun _ => 1 / 2)) 0) as [_ [idx [H1 [H2 _]]]]. split; [|split].
  - intros i. rewrite H2; [unfold diag; rewrite Nat.eqb_refl; auto|]. intros [_ [_ A]]. revert A. apply adjacent_ne.
  - intros i j A. destruct (H1 i j) as [H _]; try lia; [rewrite !Nat.sub_0_r; auto|]. rewrite H. unfold weight. destruct (Req_EM_T w 0); [contradiction|auto].
  - intros i j N A. rewrite H2; [|rewrite !Nat.sub_0_r; tauto]. unfold diag. apply Nat.eqb_neq in N. rewrite N. auto.
Qed.
Lemma dbms_random : forall arr, exists idx : nat -> nat -> nat,
  (forall i j, i = j \/ adjacent arr i j -> dbms rand arr 0 i j = rand (idx i j)) /\
  (forall i j, i <> j -> ~ adjacent arr i j -> dbms rand arr 0 i j = 0) /\
  (forall i j i' j', (i < list_sum arr)%nat -> (i' < list_sum arr)%nat -> i = j \/ adjacent arr i j -> i' = j' \/ adjacent arr i' j' -> idx i j = idx i' j' -> i = i' /\ j = j').
Proof.
  intros arr. unfold dbms. destruct (Req_EM_T 0 0) as [_|E]; [|contradiction].
  destruct (connect_all_spec 0 arr 0 (diag rand) (list_sum arr)) as [_ [idx [H1 [H2 H3]]]].
  exists (fun i j => if (i =? j)%nat then i else idx i j). split; [|split].
  - intros i j A. destruct (Nat.eqb_spec i j) as [->|N].
    + rewrite H2; [unfold diag; rewrite Nat.eqb_refl; auto|]. intros [_ [_ B]]. revert B. apply adjacent_ne.
    + destruct A as [A|A]; [contradiction|]. destruct (H1 i j) as [H _]; try lia; [rewrite !Nat.sub_0_r; auto|]. rewrite H. unfold weight. destruct (Req_EM_T 0 0); [auto|contradiction].
  - intros i j N A. rewrite H2; [|rewrite !Nat.sub_0_r; tauto]. unfold diag. apply Nat.eqb_neq in N. rewrite N. auto.
  - intros i j i' j' Hi Hi' A A'. destruct (Nat.eqb_spec i j) as [Eij|N], (Nat.eqb_spec i' j') as [E'|N'].
    + intros. subst. auto.
    + destruct A' as [A'|A']; [contradiction|]. destruct (H1 i' j') as [_ H]; try lia; [rewrite !Nat.sub_0_r; auto|]. specialize (H eq_refl). lia.
    + destruct A as [A|A]; [contradiction|]. destruct (H1 i j) as [_ H]; try lia; [rewrite !Nat.sub_0_r; auto|]. specialize (H eq_refl). lia.
    + destruct A as [A|A], A' as [A'|A']; try contradiction. intros E. apply (H3 eq_refl i j i' j'); rewrite ?Nat.sub_0_r; auto; lia.
Qed.
End Random.

Lemma set_rbm_layers : forall rand arr, (2 <= length arr)%nat <-> exists Q, set_rbm rand arr = Ok (Q, list_sum arr, nth 0 arr 0%nat, nth 1 arr 0%nat) /\ Q = dbms rand arr 0.
Proof.
  intros rand arr. split.
  - intros H. destruct arr as [|a [|b r]]; cbn [length] in H; try lia. eexists. split; reflexivity.
  - intros [Q [H _]]. destruct arr as [|a [|b r]]; cbn in H; try discriminate. cbn. lia.
Qed.
Lemma set_rbm_short : forall rand arr, (length arr < 2)%nat -> set_rbm rand arr = Err IndexError.
Proof. intros rand arr H. destruct arr as [|a [|b r]]; auto. cbn in H. lia. Qed.
Lemma layer_two : forall a b i k, layer_of [a; b] i = Some k <-> (k = 0 /\ i < a \/ k = 1 /\ a <= i < a + b)%nat.
Proof.
  intros a b i k. cbn [layer_of]. destruct (Nat.ltb_spec i a), (Nat.ltb_spec (i - a) b); cbn [option_map]; split; intros H1; try (inversion H1; subst); try lia;
    try (destruct H1 as [[-> H1]|[-> H1]]; try lia; auto).
Qed.
Lemma dbms_bipartite : forall rand a b, bipartite (a + b) a (dbms rand [a; b] 0).
Proof.
  intros rand a b. destruct (dbms_random rand [a; b]) as [idx [_ [H _]]].
  assert (A : forall i j, adjacent [a; b] i j -> (i < a /\ a <= j)%nat).
  { intros i j [k [A B]]. apply layer_two in A. apply layer_two in B. lia. }
  split; [split; [red|]|]; intros; apply H; try lia; intros C; apply A in C; lia.
Qed.

(** ** expectations *)
Lemma total_first : forall n f, total (S n) f = f 0%nat + total n (fun i => f (S i)).
Proof. intros. change (S n) with (1 + n)%nat. rewrite total_split. f_equal. unfold total. cbn. lra. Qed.
Definition mass (k : nat) (a : nat -> R) : R := Rsum (fun h => exp (total k (fun i => a i * nth i h 0))) (bit_lists k).
Lemma mass_S : forall k a, mass (S k) a = (1 + exp (a 0%nat)) * mass k (fun i => a (S i)).
Proof.
  intros k a. unfold mass. cbn [bit_lists]. rewrite Rsum_app, !Rsum_map.
  rewrite (Rsum_ext _ _ (fun h => exp (total k (fun i => a (S i) * nth i h 0)))).
  2:{ intros h _. rewrite total_first. cbn [nth]. f_equal. lra. }
  rewrite (Rsum_ext _ (fun x => exp (total (S k) _)) (fun h => exp (a 0%nat) * exp (total k (fun i => a (S i) * nth i h 0)))).
  2:{ intros h _. rewrite total_first. cbn [nth]. rewrite <- exp_plus. f_equal. lra. }
  rewrite Bits.Rsum_mul_l. lra.
Qed.
Lemma mass_pos : forall k a, 0 < mass k a.
Proof.
  induction k as [|k IH]; intros a; [unfold mass; cbn; pose proof (exp_pos (total 0 (fun i => a i * nth i [] 0))); unfold total in *; cbn in *; lra|].
  rewrite mass_S. pose proof (exp_pos (a 0%nat)). apply Rmult_lt_0_compat; auto. lra.
Qed.
Lemma sigm_exp : forall x, sigm x = exp x / (1 + exp x).
Proof. intros x. unfold sigm. rewrite exp_Ropp. pose proof (exp_pos x). field. lra. Qed.
Lemma sigm_bounds : forall x, 0 < sigm x < 1.
Proof.
  intros x. rewrite sigm_exp. pose proof (exp_pos x). split; [apply Rdiv_lt_0_compat; lra|]. apply (Rmult_lt_reg_r (1 + exp x)); [lra|].
  unfold Rdiv. rewrite Rmult_assoc, Rinv_l by lra. lra.
Qed.
Lemma mass_unit : forall k a i, (i < k)%nat -> Rsum (fun h => exp (total k (fun i => a i * nth i h 0)) * nth i h 0) (bit_lists k) = sigm (a i) * mass k a.
Proof.
  induction k as [|k IH]; intros a i H; [lia|]. rewrite mass_S. cbn [bit_lists]. rewrite Rsum_app, !Rsum_map. pose proof (exp_pos (a 0%nat)) as P. destruct i as [|i].
  - rewrite Rsum_zero by (intros; cbn [nth]; lra).
    rewrite (Rsum_ext _ _ (fun h => exp (a 0%nat) * exp (total k (fun i => a (S i) * nth i h 0)))).
    2:{ intros h _. rewrite total_first. cbn [nth]. rewrite Rmult_1_r, <- exp_plus. f_equal. lra. }
    rewrite Bits.Rsum_mul_l. unfold mass. rewrite sigm_exp. field. lra.
  - rewrite (Rsum_ext _ _ (fun h => exp (total k (fun i => a (S i) * nth i h 0)) * nth i h 0)).
    2:{ intros h _. rewrite total_first. cbn [nth]. rewrite Rmult_0_r, Rplus_0_l. reflexivity. }
    rewrite (Rsum_ext _ (fun x => exp (total (S k) _) * _) (fun h => exp (a 0%nat) * (exp (total k (fun i => a (S i) * nth i h 0)) * nth i h 0))).
    2:{ intros h _. rewrite total_first. cbn [nth]. rewrite Rmult_1_r, exp_plus. lra. }
    rewrite Bits.Rsum_mul_l, (IH (fun i => a (S i)) i) by lia. lra.
Qed.
Lemma bit_lists_binary : forall k h, In h (bit_lists k) -> length h = k /\ binary h.
Proof.
  induction k as [|k IH]; intros h H; [destruct H as [<-|[]]; split; [auto|constructor]|]. cbn [bit_lists] in H. apply in_app_or in H.
  destruct H as [H|H]; apply in_map_iff in H as [h' [<- H]]; apply IH in H as [L B]; (split; [cbn; lia|apply Forall_cons; auto]).
Qed.
Lemma state_left : forall v h i, (i < length v)%nat -> state (v ++ h) i = nth i v 0.
Proof. intros. unfold state. apply app_nth1. auto. Qed.
Lemma state_right : forall v h i, state (v ++ h) (length v + i) = nth i h 0.
Proof. intros. unfold state. rewrite app_nth2 by lia. f_equal. lia. Qed.
Lemma binary_square : forall h i, binary h -> nth i h 0 * nth i h 0 = nth i h 0.
Proof.
  intros h i B. destruct (Nat.lt_ge_cases i (length h)) as [L|L]; [|rewrite nth_overflow by auto; lra].
  assert (nth i h 0 = 0 \/ nth i h 0 = 1) as [E|E] by (unfold binary in B; rewrite Forall_forall in B; apply B, nth_In; auto); rewrite E; lra.
Qed.
Definition visible_part (V : nat) (Q : nat -> nat -> R) (v : list R) : R := total V (fun i => total V (fun j => Q i j * nth i v 0 * nth j v 0)).
Lemma hsum_total : forall v Q i, hsum v Q i = Q i i + total (length v) (fun j => Q j i * nth j v 0).
Proof. intros v Q i. unfold hsum. rewrite for_sum by lia. rewrite Nat.sub_0_r. reflexivity. Qed.
Lemma energy_split : forall n Q v h, restricted n (length v) Q -> (length v + length h)%nat = n -> binary h ->
  qubo_energy n Q (state (v ++ h)) = visible_part (length v) Q v + total (length h) (fun k => hsum v Q (length v + k) * nth k h 0).
Proof.
  intros n Q v h [U Z] L B. unfold qubo_energy. rewrite <- L. rewrite total_split.
  rewrite (total_ext (length v) _ (fun i => total (length v) (fun j => Q i j * nth i v 0 * nth j v 0) + total (length h) (fun k => Q i (length v + k)%nat * nth i v 0 * nth k h 0))).
  2:{ intros i Hi. rewrite total_split. f_equal; apply total_ext; intros j Hj; [rewrite !state_left by auto|rewrite state_left, state_right by auto]; reflexivity. }
  rewrite (total_ext (length h) _ (fun k => Q (length v + k)%nat (length v + k)%nat * nth k h 0)).
  2:{ intros k Hk. rewrite total_split. rewrite (total_ext (length v) _ (fun _ => 0)), total_zero by (intros j Hj; rewrite U by lia; lra).
      rewrite (total_ext (length h) _ (fun j => if (j =? k)%nat then Q (length v + j)%nat (length v + j)%nat * nth j h 0 else 0)).
      - rewrite total_delta by auto. lra.
      - intros j Hj. rewrite !state_right. destruct (Nat.eqb_spec j k) as [->|N]; [rewrite Rmult_assoc, binary_square by auto; reflexivity|].
        destruct (Nat.lt_ge_cases k j); [rewrite Z by lia; lra|rewrite U by lia; lra]. }
  rewrite total_plus. rewrite (total_swap (length v) (length h)). unfold visible_part. rewrite Rplus_assoc. f_equal. rewrite <- total_plus. apply total_ext. intros k Hk. rewrite hsum_total.
  rewrite Rmult_plus_distr_r. rewrite (total_ext _ _ (fun i => nth k h 0 * (Q i (length v + k)%nat * nth i v 0))) by (intros; lra). rewrite total_scal. lra.
Qed.
(** a loop that writes each entry of a block once *)
Lemma block_step : forall V m (d : mat) (g : nat -> nat -> mat -> mat) (F : R -> nat -> nat -> R), (V <= m)%nat ->
  (forall i j q a b, g i j q a b = if ((a =? i) && (b =? j))%nat then F (q i j) i j else q a b) -> forall a b,
  for_range 0 V d (fun i q => for_range V m q (fun j q => g i j q)) a b = if ((a <? V) && ((V <=? b) && (b <? m)))%nat then F (d a b) a b else d a b.
Proof.
  intros V m d g F VM HG.
  assert (G : forall k, forall a b, for_range 0 k d (fun i q => for_range V m q (fun j q => g i j q)) a b = if ((a <? k) && ((V <=? b) && (b <? m)))%nat then F (d a b) a b else d a b).
  2:{ apply G. }
  induction k as [|k IH]; intros a b; [reflexivity|]. change (S k) with (1 + k)%nat. rewrite for_last by lia.
  set (q := for_range 0 k d _) in *. clearbody q.
  assert (R : forall l a b, (V <= l)%nat -> for_range V l q (fun j q => g k j q) a b = if ((a =? k) && ((V <=? b) && (b <? l)))%nat then F (q a b) a b else q a b).
  { induction l as [|l IL]; intros x y H.
    - rewrite for_nil by lia. destruct (Nat.ltb_spec y 0); [lia|]. rewrite !andb_false_r. reflexivity.
    - destruct (Nat.eq_dec V (S l)) as [E|E].
      + rewrite for_nil by lia. destruct (Nat.leb_spec V y), (Nat.ltb_spec y (S l)); try lia; cbn [andb]; rewrite andb_false_r; reflexivity.
      + change (S l) with (1 + l)%nat. rewrite for_last by lia. rewrite HG. rewrite !IL by lia. rewrite Nat.eqb_refl, Nat.ltb_irrefl, !andb_false_r.
        destruct (Nat.eqb_spec x k), (Nat.eqb_spec y l), (Nat.leb_spec V y), (Nat.ltb_spec y l), (Nat.ltb_spec y (1 + l)); cbn [andb]; subst; auto; lia. }
  rewrite R by lia. rewrite IH. destruct (Nat.eqb_spec a k), (Nat.ltb_spec a k), (Nat.ltb_spec a (1 + k)); try lia; cbn [andb]; auto.
Qed.
Lemma block_entries : forall V m (d : mat) (f : nat -> nat -> R), (V <= m)%nat -> forall a b,
  for_range 0 V d (fun i q => for_range V m q (fun j q => upd q i j (f i j))) a b = if ((a <? V) && ((V <=? b) && (b <? m)))%nat then f a b else d a b.
Proof. intros V m d f VM. apply (block_step V m d (fun i j q => upd q i j (f i j)) (fun _ i j => f i j) VM). reflexivity. Qed.
Section Expect.
Variable n : nat.
Variable Q : nat -> nat -> R.
Variable v : list R.
Hypothesis HR : restricted n (length v) Q.
Hypothesis HV : (length v <= n)%nat.
Lemma expect_mass : forall f, expectation n (qubo_energy n Q) v f =
  Rsum (fun h => exp (total (n - length v) (fun k => hsum v Q (length v + k) * nth k h 0)) * f (state (v ++ h))) (bit_lists (n - length v)) / mass (n - length v) (fun k => hsum v Q (length v + k)).
Proof.
  intros f. unfold expectation. set (H := (n - length v)%nat). set (c := exp (visible_part (length v) Q v)). pose proof (exp_pos (visible_part (length v) Q v)) as P. fold c in P.
  assert (E : forall h, In h (bit_lists H) -> exp (qubo_energy n Q (state (v ++ h))) = c * exp (total H (fun k => hsum v Q (length v + k) * nth k h 0))).
  { intros h Hh. apply bit_lists_binary in Hh as [L B]. rewrite energy_split by (auto; rewrite L; unfold H; lia). rewrite L. apply exp_plus. }
  rewrite (Rsum_ext _ _ (fun h => c * (exp (total H (fun k => hsum v Q (length v + k) * nth k h 0)) * f (state (v ++ h))))) by (intros h Hh; rewrite E by auto; apply Rmult_assoc).
  rewrite (Rsum_ext _ (fun h => exp (qubo_energy n Q (state (v ++ h)))) (fun h => c * exp (total H (fun k => hsum v Q (length v + k) * nth k h 0)))) by (intros h Hh; apply E; auto).
  rewrite !Bits.Rsum_mul_l. fold (mass H (fun k => hsum v Q (length v + k))). pose proof (mass_pos H (fun k => hsum v Q (length v + k))). field. lra.
Qed.
Lemma expect_scal : forall c f, expectation n (qubo_energy n Q) v (fun x => c * f x) = c * expectation n (qubo_energy n Q) v f.
Proof.
  intros c f. unfold expectation. rewrite (Rsum_ext _ _ (fun h => c * (exp (qubo_energy n Q (state (v ++ h))) * f (state (v ++ h))))) by (intros; lra).
  rewrite Bits.Rsum_mul_l. unfold Rdiv. lra.
Qed.
Lemma expect_ext : forall f g, (forall h, In h (bit_lists (n - length v)) -> f (state (v ++ h)) = g (state (v ++ h))) ->
  expectation n (qubo_energy n Q) v f = expectation n (qubo_energy n Q) v g.
Proof. intros f g E. unfold expectation. f_equal. apply Rsum_ext. intros h H. rewrite E by auto. reflexivity. Qed.
Lemma expect_const : forall c, expectation n (qubo_energy n Q) v (fun _ => c) = c.
Proof.
  intros c. rewrite expect_mass. rewrite Bits.Rsum_mul_r. fold (mass (n - length v) (fun k => hsum v Q (length v + k))).
  pose proof (mass_pos (n - length v) (fun k => hsum v Q (length v + k))). field. lra.
Qed.
Lemma expect_hidden : forall k, (k < n - length v)%nat -> expectation n (qubo_energy n Q) v (fun x => x (length v + k)%nat) = sigm (hsum v Q (length v + k)).
Proof.
  intros k Hk. rewrite expect_mass. rewrite (Rsum_ext _ _ (fun h => exp (total (n - length v) (fun k => hsum v Q (length v + k) * nth k h 0)) * nth k h 0))
    by (intros; rewrite state_right; reflexivity).
  rewrite (mass_unit _ (fun k => hsum v Q (length v + k))) by auto. pose proof (mass_pos (n - length v) (fun k => hsum v Q (length v + k))). field. lra.
Qed.
Lemma hmodel_nth : forall k, (k < n - length v)%nat -> nth k (rbm_hmodel v n Q) 0 = sigm (hsum v Q (length v + k)).
Proof.
  intros k Hk. unfold rbm_hmodel. rewrite (nth_indep _ 0 (sigm (hsum v Q 0%nat))) by (rewrite map_length, seq_length; auto).
  rewrite (map_nth (fun i => sigm (hsum v Q i))). rewrite seq_nth by auto. reflexivity.
Qed.
Lemma hmodel_expect : forall k, (k < n - length v)%nat -> nth k (rbm_hmodel v n Q) 0 = expectation n (qubo_energy n Q) v (fun x => x (length v + k)%nat).
Proof. intros. rewrite hmodel_nth, expect_hidden; auto. Qed.
Lemma data_expect : binary v -> forall i j, (i < n)%nat -> (j < n)%nat ->
  rbm_data_qubo v n Q i j = if ((i =? j) || ((i <? length v) && (length v <=? j)))%nat then expectation n (qubo_energy n Q) v (fun x => x i * x j) else 0.
Proof.
  intros B i j Hi Hj. unfold rbm_data_qubo. rewrite block_entries by auto.
  assert (Hd : forall i j k, (i < length v)%nat -> j = (length v + k)%nat -> (k < n - length v)%nat -> nth i v 0 * nth k (rbm_hmodel v n Q) 0 = expectation n (qubo_energy n Q) v (fun x => x i * x j)).
  { clear i j Hi Hj. intros i j k Hi -> Hk. rewrite hmodel_expect by auto. rewrite <- expect_scal. apply expect_ext. intros h _. rewrite (state_left v h i Hi). reflexivity. }
  destruct (Nat.ltb_spec i (length v)), (Nat.leb_spec (length v) j), (Nat.ltb_spec j n); try lia; cbn [andb].
  - rewrite orb_true_r. apply Hd; lia.
  - unfold diag. rewrite orb_false_r. destruct (Nat.eqb_spec i j) as [->|]; auto. rewrite app_nth1 by auto.
    rewrite (expect_ext _ (fun _ => nth j v 0)), expect_const; auto. intros h _. rewrite !state_left by auto. apply binary_square. auto.
  - rewrite orb_false_r. unfold diag. destruct (Nat.eqb_spec i j) as [->|]; auto. rewrite app_nth2 by auto. rewrite hmodel_expect by lia. apply expect_ext. intros h Hh.
    apply bit_lists_binary in Hh as [L Bh]. replace (length v + (j - length v))%nat with j by lia. unfold state. rewrite binary_square; auto. apply Forall_app; auto.
  - rewrite orb_false_r. unfold diag. destruct (Nat.eqb_spec i j); auto; lia.
Qed.
Lemma data_bounds : binary v -> forall i j, (i < n)%nat -> (j < n)%nat -> 0 <= rbm_data_qubo v n Q i j <= 1.
Proof.
  intros B i j Hi Hj. unfold rbm_data_qubo. rewrite block_entries by auto.
  assert (Hv : forall i, 0 <= nth i v 0 <= 1).
  { intros k. destruct (Nat.lt_ge_cases k (length v)) as [L|L]; [|rewrite nth_overflow by auto; lra].
    assert (nth k v 0 = 0 \/ nth k v 0 = 1) as [E|E] by (unfold binary in B; rewrite Forall_forall in B; apply B, nth_In; auto); rewrite E; lra. }
  assert (Hh : forall k, (k < n - length v)%nat -> 0 <= nth k (rbm_hmodel v n Q) 0 <= 1).
  { intros k Hk. rewrite hmodel_nth by auto. pose proof (sigm_bounds (hsum v Q (length v + k))). lra. }
  destruct (Nat.ltb_spec i (length v)), (Nat.leb_spec (length v) j), (Nat.ltb_spec j n); try lia; cbn [andb].
  - specialize (Hv i). specialize (Hh (j - length v)%nat ltac:(lia)). nra.
  - unfold diag. destruct (Nat.eqb_spec i j); [|lra]. rewrite app_nth1 by auto. apply Hv.
  - unfold diag. destruct (Nat.eqb_spec i j); [|lra]. rewrite app_nth2 by auto. apply Hh. lia.
  - unfold diag. destruct (Nat.eqb_spec i j); [|lra]. lia.
Qed.
End Expect.

(** ** samples *)
Definition zbits (row : list Z) : Prop := Forall (fun z => z = 0%Z \/ z = 1%Z) row.
Lemma entry_bit : forall row i, zbits row -> entry row i = 0 \/ entry row i = 1.
Proof.
  intros row i B. unfold entry. destruct (Nat.lt_ge_cases i (length row)) as [L|L]; [|rewrite nth_overflow by auto; auto].
  unfold zbits in B. rewrite Forall_forall in B. destruct (B _ (nth_In row 0%Z L)) as [E|E]; rewrite E; auto.
Qed.
Lemma fold_upd : forall (result : list (list Z)) f i j (w : mat) a b,
  fold_left (fun w row => upd w i j (w i j + f row)) result w a b = if ((a =? i) && (b =? j))%nat then w i j + Rsum f result else w a b.
Proof.
  induction result as [|row l IH]; intros f i j w a b; cbn [fold_left Rsum].
  - destruct (Nat.eqb_spec a i), (Nat.eqb_spec b j); cbn [andb]; auto. subst. unfold Rsum. cbn. lra.
  - rewrite IH. unfold upd. rewrite !Nat.eqb_refl. cbn [andb]. destruct ((a =? i) && (b =? j))%nat; auto. unfold Rsum. cbn. lra.
Qed.
Lemma Rsum_bounds : forall A (f : A -> R) l, (forall x, In x l -> 0 <= f x <= 1) -> 0 <= Rsum f l <= INR (length l).
Proof.
  induction l as [|x l IH]; intros H; [unfold Rsum; cbn; lra|]. change (Rsum f (x :: l)) with (f x + Rsum f l). change (length (x :: l)) with (S (length l)). rewrite S_INR.
  specialize (IH (fun y Hy => H y (or_intror Hy))). specialize (H x (or_introl eq_refl)). lra.
Qed.
Lemma mean_bounds : forall result i j, result <> [] -> Forall zbits result -> 0 <= sample_mean result (fun x => x i * x j) <= 1.
Proof.
  intros result i j N B. unfold sample_mean. assert (P : 0 < INR (length result)) by (apply lt_0_INR; destruct result; [contradiction|cbn; lia]).
  assert (H : 0 <= Rsum (fun row => entry row i * entry row j) result <= INR (length result)).
  { apply Rsum_bounds. intros row Hr. rewrite Forall_forall in B. specialize (B row Hr). destruct (entry_bit row i B) as [->| ->], (entry_bit row j B) as [->| ->]; lra. }
  change (Rsum (fun row => entry row i * entry row j) result) with (Rsum (fun row => IZR (nth i row 0%Z) * IZR (nth j row 0%Z)) result) in H. cbv beta.
  set (t := Rsum _ _) in *. split; [apply Rmult_le_pos; [lra|apply Rlt_le, Rinv_0_lt_compat; auto]|]. apply (Rmult_le_reg_r (INR (length result))); auto.
  unfold Rdiv. rewrite Rmult_assoc, Rinv_l by lra. lra.
Qed.
Lemma model_means : forall V H result, Forall zbits result -> forall i j, (i < V + H)%nat -> (j < V + H)%nat ->
  model_qubo V H (length result) result i j = if ((i =? j) || ((i <? V) && (V <=? j)))%nat then sample_mean result (fun x => x i * x j) else 0.
Proof.
  intros V H result B i j Hi Hj. unfold model_qubo, madd, mtimes.
  rewrite (block_step V (V + H) zeros (fun i j w => fold_left (fun w row => upd w i j (w i j + entry row i * entry row j)) result w)
    (fun q i j => q + Rsum (fun row => entry row i * entry row j) result)); [|lia|intros; apply (fold_upd result (fun row => entry row i0 * entry row j0))].
  unfold diag, zeros. destruct (Nat.eqb_spec i j) as [->|N].
  - cbn [orb]. destruct (Nat.ltb_spec j V), (Nat.leb_spec V j); try lia; cbn [andb]; rewrite Rmult_0_r, Rplus_0_r; unfold sample_mean; f_equal; apply Rsum_ext;
      intros row Hr; rewrite Forall_forall in B; destruct (entry_bit row j (B row Hr)) as [E|E]; unfold entry in *; rewrite E; lra.
  - cbn [orb]. destruct (Nat.ltb_spec i V), (Nat.leb_spec V j), (Nat.ltb_spec j (V + H)); try lia; cbn [andb]; try lra.
    rewrite !Rplus_0_l. unfold sample_mean, Rdiv. rewrite Rmult_comm. reflexivity.
Qed.

(** ** training *)
Section Fit.
Variable rows : nat -> nat.
Variable choices : nat -> nat -> bool.
Variable sites : nat -> nat -> nat.
Variable draws : nat -> nat -> R.
Variables fuel n V H ite shots : nat.
Variables Ts r target alpha epsilon : R.
Variable data : list (list Z).
Hypothesis HN : n = (V + H)%nat.
Hypothesis HS : forall e k, (sites e k < n)%nat.
Hypothesis HRow : forall e, (rows e < length data)%nat.
Hypothesis HD : Forall (fun row => length row = V /\ zbits row) data.
Definition annealed (e : nat) (Q : nat -> nat -> R) (samples : list (list Z)) : Prop :=
  exists l, anneals n (objective n Q) (draws e) (sites e) (choices e) Ts target (3 / 4) 100 shots 0 0 0 l /\ samples = map snd l.
Definition run_fit (k e : nat) (Q : mat) : option (res mat) := fit rows choices sites draws k e fuel n V H Ts r ite data shots target alpha epsilon Q.
Lemma model_run : forall e Q o, rbm_model_qubo choices sites draws e fuel n V H Q Ts r ite shots target = Some o ->
  (2 <= shots)%nat /\ (exists samples, annealed e Q samples /\ Forall zbits samples /\ length samples = shots /\ o = Ok (model_qubo V H shots samples)) \/ (shots < 2)%nat /\ o = Err ValueError.
Proof.
  intros e Q o E. unfold rbm_model_qubo in E. destruct (opt_run _ _ _ _ _ _ _ _ _ _ _ _) as [out|] eqn:O; [|discriminate].
  apply run_anneals in O as [l [A M]]; [|apply HS]. pose proof (anneals_length _ _ _ _ _ _ _ _ _ _ _ _ _ _ A) as L. pose proof (anneals_last _ _ _ _ _ _ _ _ _ _ _ _ _ _ A) as F.
  destruct out as [E1 b|Es bs]; [destruct M as [-> M]; inversion E; right; split; auto; lia|]. destruct M as [N [_ ->]]. destruct l as [|p l].
  - cbn in *. inversion E. right. split; auto. lia.
  - left. cbn [map] in E. inversion E. subst o. split; [cbn [length] in L; lia|]. exists (map snd (p :: l)). split; [exists (p :: l); auto|]. split; [|split; [rewrite map_length; auto|reflexivity]].
    rewrite Forall_map. eapply Forall_impl; [|exact F]. cbv beta. tauto.
Qed.
Definition inverted (e : nat) : list R := map (fun i => IZR ((i - 1) * (-1))) (nth (rows e) data []).
Lemma inverted_ok : forall e, exchanged (nth (rows e) data []) (inverted e) /\ length (inverted e) = V /\ binary (inverted e).
Proof.
  intros e. unfold inverted. assert (I : In (nth (rows e) data []) data) by (apply nth_In, HRow). rewrite Forall_forall in HD. apply HD in I as [L B].
  set (row := nth (rows e) data []) in *. clearbody row. split; [|split].
  - clear. induction row as [|z l IH]; cbn [map]; constructor; auto. rewrite mult_IZR, minus_IZR. lra.
  - rewrite map_length. auto.
  - clear L. induction B as [|z l Hz B IH]; cbn [map]; constructor; auto. destruct Hz as [->| ->]; cbn; auto.
Qed.
Definition next_weights (Q : mat) (e : nat) (samples : list (list Z)) : mat :=
  madd (mtimes alpha Q) (mtimes epsilon (msub (rbm_data_qubo (inverted e) n Q) (model_qubo V H shots samples))).
Lemma fit_step : forall k e Q Q', run_fit (S k) e Q = Some (Ok Q') ->
  exists samples, annealed e Q samples /\ Forall zbits samples /\ length samples = shots /\ (2 <= shots)%nat /\ run_fit k (S e) (next_weights Q e samples) = Some (Ok Q').
Proof.
  intros k e Q Q' E. unfold run_fit in E. cbn [fit] in E. destruct data as [|row0 rest] eqn:D; [discriminate|]. rewrite <- D in *.
  destruct (rbm_model_qubo _ _ _ _ _ _ _ _ _ _ _ _ _ _) as [[model|x]|] eqn:M; try discriminate.
  apply model_run in M as [[S2 [samples [A [B [L M]]]]]|[_ M]]; [|discriminate]. inversion M. subst model.
  destruct (n <? _)%nat; [discriminate|]. exists samples. auto 6.
Qed.
Lemma next_entries : forall Q e samples, restricted n V Q -> Forall zbits samples -> length samples = shots ->
  learned n V alpha epsilon Q (inverted e) samples (next_weights Q e samples).
Proof.
  intros Q e samples R B L i j Hi Hj. destruct (inverted_ok e) as [_ [LI BI]]. unfold next_weights, madd, mtimes, msub. rewrite <- L.
  rewrite model_means by (auto; lia). rewrite (data_expect n Q (inverted e)) by (rewrite ?LI; auto; lia). rewrite LI.
  destruct ((i =? j) || ((i <? V) && (V <=? j)))%nat; lra.
Qed.
Lemma learned_restricted : forall Q v samples Q', restricted n V Q -> learned n V alpha epsilon Q v samples Q' -> restricted n V Q'.
Proof.
  intros Q v samples Q' [U Z] G. split; [intros i j Hij|intros i j Vi Hij Hj]; rewrite G by lia.
  - rewrite U by auto. destruct (Nat.eqb_spec i j), (Nat.ltb_spec i V), (Nat.leb_spec V j); try lia; cbn [orb andb]; lra.
  - rewrite Z by auto. destruct (Nat.eqb_spec i j), (Nat.ltb_spec i V), (Nat.leb_spec V j); try lia; cbn [orb andb]; lra.
Qed.
Lemma learned_bipartite : forall Q v samples Q', bipartite n V Q -> learned n V alpha epsilon Q v samples Q' -> bipartite n V Q'.
Proof.
  intros Q v samples Q' [R B] G. split; [eapply learned_restricted; eauto|]. intros i j Hij Hj. rewrite G by lia. rewrite B by auto.
  destruct (Nat.eqb_spec i j), (Nat.ltb_spec i V), (Nat.leb_spec V j); try lia; cbn [orb andb]; lra.
Qed.
Lemma fit_trained : forall k e Q Q', restricted n V Q -> run_fit k e Q = Some (Ok Q') -> trained n V alpha epsilon data rows annealed k e Q Q'.
Proof.
  induction k as [|k IH]; intros e Q Q' R E; [inversion E; constructor|]. apply fit_step in E as [samples [A [B [L [_ E]]]]].
  pose proof (next_entries Q e samples R B L) as G. destruct (inverted_ok e) as [X _]. econstructor; eauto. apply IH; auto. eapply learned_restricted; eauto.
Qed.
Lemma fit_bipartite : forall k e Q Q', bipartite n V Q -> run_fit k e Q = Some (Ok Q') -> bipartite n V Q'.
Proof.
  induction k as [|k IH]; intros e Q Q' R E; [inversion E; subst; auto|]. apply fit_step in E as [samples [A [B [L [_ E]]]]].
  eapply IH; [|exact E]. eapply learned_bipartite; eauto. apply next_entries; auto. apply R.
Qed.
Lemma fit_bounded : forall bound k e Q Q', 0 <= alpha -> 0 <= epsilon -> alpha * bound + epsilon <= bound -> restricted n V Q ->
  (forall i j, (i < n)%nat -> (j < n)%nat -> Rabs (Q i j) <= bound) -> run_fit k e Q = Some (Ok Q') ->
  forall i j, (i < n)%nat -> (j < n)%nat -> Rabs (Q' i j) <= bound.
Proof.
  intros bound k. induction k as [|k IH]; intros e Q Q' HA HE HB R HQ E i j Hi Hj; [inversion E; subst; auto|]. apply fit_step in E as [samples [A [B [L [S2 E]]]]].
  pose proof (next_entries Q e samples R B L) as G.
  eapply IH; [exact HA|exact HE|exact HB|eapply learned_restricted; eauto| |exact E|exact Hi|exact Hj]. clear i j Hi Hj. intros i j Hi Hj.
  destruct (inverted_ok e) as [_ [LI BI]]. unfold next_weights, madd, mtimes, msub.
  assert (D : 0 <= rbm_data_qubo (inverted e) n Q i j <= 1) by (apply data_bounds; rewrite ?LI; auto; lia).
  assert (M : 0 <= model_qubo V H shots samples i j <= 1).
  { rewrite <- L. rewrite model_means by (auto; lia). destruct ((i =? j) || _)%bool; [|lra]. apply mean_bounds; auto. intros ->. cbn in L. lia. }
  specialize (HQ i j Hi Hj). apply Rabs_le. assert (- bound <= Q i j <= bound) by (revert HQ; unfold Rabs; destruct (Rcase_abs (Q i j)); lra).
  assert (alpha * Q i j <= alpha * bound) by (apply Rmult_le_compat_l; lra). assert (alpha * (- bound) <= alpha * Q i j) by (apply Rmult_le_compat_l; lra).
  assert (epsilon * (rbm_data_qubo (inverted e) n Q i j - model_qubo V H shots samples i j) <= epsilon * 1) by (apply Rmult_le_compat_l; lra).
  assert (epsilon * (-1) <= epsilon * (rbm_data_qubo (inverted e) n Q i j - model_qubo V H shots samples i j)) by (apply Rmult_le_compat_l; lra). lra.
Qed.
Lemma fit_few : forall k e Q o, (shots < 2)%nat -> run_fit (S k) e Q = Some o -> o = Err ValueError.
Proof.
  clear HRow HD. intros k e Q o S2 E. unfold run_fit in E. cbn [fit] in E. destruct data as [|row0 rest]; [inversion E; auto|].
  destruct (rbm_model_qubo _ _ _ _ _ _ _ _ _ _ _ _ _ _) as [[model|x]|] eqn:M; try discriminate; apply model_run in M as [[M _]|[_ M]]; try lia; try discriminate.
  inversion M. subst. inversion E. auto.
Qed.
End Fit.
Lemma fit_empty : forall rows choices sites draws k e fuel n V H Ts r ite shots target alpha epsilon Q,
  fit rows choices sites draws (S k) e fuel n V H Ts r ite [] shots target alpha epsilon Q = Some (Err ValueError).
Proof. reflexivity. Qed.
Lemma fit_ends : forall Ts target, 0 < target -> exists fuel, forall rows choices sites draws k e n V H r ite data shots alpha epsilon Q,
  n = (V + H)%nat -> (forall e k, (sites e k < n)%nat) -> (forall e, (rows e < length data)%nat) -> Forall (fun row => length row = V /\ zbits row) data -> (2 <= shots)%nat ->
  exists Q', fit rows choices sites draws k e fuel n V H Ts r ite data shots target alpha epsilon Q = Some (Ok Q').
Proof.
  intros Ts target HT. destruct (runs_end Ts (3 / 4) true target HT ltac:(lra)) as [fuel F]. exists fuel. intros rows choices sites draws k.
  induction k as [|k IH]; intros e n V H r ite data shots alpha epsilon Q HN HS HRow HD S2; [exists Q; reflexivity|].
  cbn [fit]. destruct data as [|row0 rest] eqn:D; [specialize (HRow 0%nat); cbn in HRow; lia|]. rewrite <- D in *.
  destruct (rbm_model_qubo choices sites draws e fuel n V H Q Ts r ite shots target) as [o|] eqn:M.
  - apply (model_run choices sites draws fuel n V H ite shots Ts r target HN HS) in M as [[_ [samples [A [B [L M]]]]]|[M _]]; [|lia]. subst o.
    assert (I : In (nth (rows e) data []) data) by (apply nth_In, HRow). rewrite Forall_forall in HD. pose proof (HD _ I) as [LR _]. rewrite LR.
    destruct (Nat.ltb_spec n V); [lia|]. apply IH; auto. rewrite Forall_forall. auto.
  - exfalso. unfold rbm_model_qubo in M. specialize (F (choices e) (sites e) (draws e) n Q ite shots).
    assert (X : opt_run (choices e) (sites e) (draws e) fuel n Q Ts r ite shots true target <> None) by exact F.
    destruct (opt_run _ _ _ _ _ _ _ _ _ _ _ _) as [[E1 b|Es [|b bs]]|]; try discriminate. apply X. reflexivity.
Qed.

(** ** counting *)
Lemma dec_digit : forall z, (0 <= z <= 9)%Z -> dec z = String (ascii_of_nat (48 + Z.to_nat z)) EmptyString.
Proof.
  intros z H. assert (z = 0 \/ z = 1 \/ z = 2 \/ z = 3 \/ z = 4 \/ z = 5 \/ z = 6 \/ z = 7 \/ z = 8 \/ z = 9)%Z as C by lia.
  repeat (destruct C as [->|C]; [reflexivity|]). subst. reflexivity.
Qed.
Lemma concat_cons : forall s l, String.concat "" (s :: l) = (s ++ String.concat "" l)%string.
Proof.
  intros s l. destruct l as [|t l]; [|reflexivity]. cbn. induction s as [|c s IH]; cbn; [auto|]. rewrite <- IH at 1. reflexivity.
Qed.
Lemma row_text : forall row, digits row -> row_key row = text row.
Proof.
  intros row. unfold row_key. induction 1 as [|z row Hz D IH]; [reflexivity|]. cbn [map]. rewrite concat_cons, IH, dec_digit by auto. reflexivity.
Qed.
Lemma text_inj : forall a b, digits a -> digits b -> text a = text b -> a = b.
Proof.
  intros a b Da. revert b. induction Da as [|z a Hz Da IH]; intros b Db E; destruct Db as [|z' b Hz' Db]; cbn [text] in E; try discriminate; auto.
  inversion E as [[E1 E2]]. f_equal; [|apply IH; auto].
  apply (f_equal nat_of_ascii) in E1. rewrite !nat_ascii_embedding in E1 by lia. lia.
Qed.
Lemma count_key_of : forall s t c, count_of s (count_key t c) = if string_dec s t then S (count_of s c) else count_of s c.
Proof.
  intros s t c. induction c as [|[u k] c IH]; cbn [count_key count_of]; [destruct (string_dec s t); auto|].
  destruct (String.eqb_spec t u) as [->|N]; cbn [count_of]; [destruct (string_dec s u); auto|].
  rewrite IH. destruct (string_dec s u), (string_dec s t); auto. congruence.
Qed.
Lemma count_key_in : forall s t c, In s (map fst (count_key t c)) <-> s = t \/ In s (map fst c).
Proof.
  intros s t c. induction c as [|[u k] c IH]; cbn [count_key map fst In]; [intuition|].
  destruct (String.eqb_spec t u) as [->|N]; cbn [map fst In]; [intuition|]. rewrite IH. intuition.
Qed.
Lemma count_key_nodup : forall t c, NoDup (map fst c) -> NoDup (map fst (count_key t c)).
Proof.
  intros t c. induction c as [|[u k] c IH]; cbn [count_key map fst]; intros N; [constructor; [intros []|constructor]|].
  inversion N. destruct (String.eqb_spec t u) as [->|E]; cbn [map fst]; constructor; auto. rewrite count_key_in. intros [->|I]; auto.
Qed.
Lemma counter_of : forall l s, digits s -> Forall digits l -> count_of (text s) (counter l) = occurrences l s.
Proof.
  intros l s Ds Dl. unfold counter, occurrences. rewrite <- (Nat.add_0_l (length _)). change 0%nat with (count_of (text s) []) at 1. generalize (@nil (string * nat)) as c.
  induction Dl as [|row l Dr Dl IH]; intros c; cbn [fold_left filter]; [cbn; lia|]. rewrite IH, count_key_of, row_text by auto.
  destruct (list_eq_dec Z.eq_dec row s) as [->|N]; destruct (string_dec (text s) (text _)) as [E|E]; cbn [length]; try lia; try congruence.
  apply text_inj in E; auto. congruence.
Qed.
Lemma counter_keys : forall l, NoDup (map fst (counter l)) /\ (Forall digits l -> forall s, In s (map fst (counter l)) <-> exists row, In row l /\ s = text row).
Proof.
  intros l. unfold counter.
  assert (G : forall l c, NoDup (map fst c) -> NoDup (map fst (fold_left (fun c row => count_key (row_key row) c) l c)) /\
    forall s, In s (map fst (fold_left (fun c row => count_key (row_key row) c) l c)) <-> In s (map fst c) \/ exists row, In row l /\ s = row_key row).
  { clear l. induction l as [|row l IH]; intros c N; cbn [fold_left]; [split; auto; intros s; split; [auto|intros [H|[r [[] _]]]; auto]|].
    destruct (IH (count_key (row_key row) c) (count_key_nodup _ _ N)) as [I1 I2]. split; auto. intros s. rewrite I2, count_key_in. split.
    - intros [[->|H]|[r [H E]]]; [right; exists row; cbn; auto|auto|right; exists r; cbn; auto].
    - intros [H|[r [[->|H] E]]]; [auto|subst; auto|right; eauto]. }
  destruct (G l [] ltac:(constructor)) as [G1 G2]. split; auto. intros D s. rewrite G2. rewrite Forall_forall in D. split.
  - intros [[]|[row [H ->]]]. exists row. split; auto. apply row_text. auto.
  - intros [row [H ->]]. right. exists row. split; auto. symmetry. apply row_text. auto.
Qed.
Lemma counter_total : forall l, list_sum (map snd (counter l)) = length l.
Proof.
  intros l. unfold counter. rewrite <- (Nat.add_0_l (length l)). change 0%nat with (list_sum (map snd (@nil (string * nat)))) at 1. generalize (@nil (string * nat)) as c.
  induction l as [|row l IH]; intros c; cbn [fold_left length]; [lia|]. rewrite IH.
  assert (E : list_sum (map snd (count_key (row_key row) c)) = S (list_sum (map snd c))); [|lia]. clear. induction c as [|[u k] c IH]; cbn [count_key map snd]; [reflexivity|].
  destruct (String.eqb (row_key row) u); cbn [map snd]; [reflexivity|]. change (list_sum (k :: map snd (count_key (row_key row) c))) with (k + list_sum (map snd (count_key (row_key row) c)))%nat.
  rewrite IH. change (list_sum (k :: map snd c)) with (k + list_sum (map snd c))%nat. lia.
Qed.
Lemma counter_digits : counter [[1; 11]; [11; 1]]%Z = [("111"%string, 2%nat)].
Proof. reflexivity. Qed.
