(** What the functions on polynomials return. *)
From Coq Require Import List Arith Bool Reals Lra Lia Sorted Permutation.
Import ListNotations.
From Verif Require Import Base Cplx Bits ModelWq ModelOpt ModelPoly SpecWq SpecNbody SpecPoly ProofPoly ProofPolySubs ProofPolyFlat ProofPolyMatrix.
Local Open Scope R_scope.

Lemma reduced_ext : forall s a b, (forall v, In v a <-> In v b) -> reduced s a = reduced s b.
Proof.
  intros s a b H. rewrite !reduced_weight. replace (mset b) with (mset a); auto. apply mset_eq. apply same_set_iff. auto.
Qed.
Lemma reduced_pair : forall s i j, reduced s [i; j] = reduced s [j; i].
Proof. intros. apply reduced_ext. intros v. cbn. tauto. Qed.
Lemma reduced_twice : forall s i, reduced s [i; i] = reduced s [i].
Proof. intros. apply reduced_ext. intros v. cbn. tauto. Qed.
Lemma entry_ok : forall s q i j, reduces s q -> at_most_two s -> entry q i j = Some (reduced s [i; j]).
Proof.
  intros s q i j H T. unfold entry. destruct (i =? j)%nat eqn:E.
  - apply Nat.eqb_eq in E. subst. rewrite (diagonal_entry s q H), reduced_twice. auto.
  - apply Nat.eqb_neq in E. apply pair_entry; auto.
Qed.
(** ** Writing a matrix *)
Lemma put_err : forall n q l e, fold_left (put n q) l (PErr e) = PErr e.
Proof. induction l as [|x l IH]; intros e; cbn; auto. Qed.
Lemma put_ok : forall n q (val : nat -> nat -> R) l m, (forall i j, In (i, j) l -> (i < n)%nat /\ (j < n)%nat /\ entry q i j = Some (val i j)) ->
  exists m', fold_left (put n q) l (POk m) = POk m' /\ forall i j, m' i j = if in_dec (fun a b : nat * nat => ltac:(decide equality; apply Nat.eq_dec)) (i, j) l then val i j else m i j.
Proof.
  intros n q val l. induction l as [|[a b] l IH]; intros m H; [exists m; split; auto|]. cbn [fold_left put].
  destruct (H a b (or_introl eq_refl)) as (A & B & E). cbn [fst snd]. apply Nat.ltb_lt in A, B. rewrite A, B. cbn [andb]. rewrite E.
  destruct (IH (upd m a b (val a b))) as (m' & X & Y); [intros i j I; apply H; right; auto|]. exists m'. split; auto. intros i j. rewrite Y.
  destruct (in_dec _ (i, j) l) as [I|I]; destruct (in_dec _ (i, j) ((a, b) :: l)) as [J|J]; auto.
  - exfalso. apply J. right. auto.
  - destruct J as [J|J]; [|contradiction]. injection J as -> ->. unfold upd. rewrite !Nat.eqb_refl. auto.
  - unfold upd. destruct ((i =? a) && (j =? b))%nat eqn:K; auto. apply andb_true_iff in K as [K1 K2]. apply Nat.eqb_eq in K1, K2. subst. exfalso. apply J. left. auto.
Qed.
Lemma put_index : forall n q l m, (forall i j, In (i, j) l -> entry q i j <> None) -> (exists i j, In (i, j) l /\ ~ ((i < n)%nat /\ (j < n)%nat)) ->
  fold_left (put n q) l (POk m) = PErr (Raised IndexError).
Proof.
  intros n q l. induction l as [|[a b] l IH]; intros m H (i & j & I & K); [contradiction|]. cbn [fold_left put fst snd].
  destruct ((a <? n) && (b <? n))%nat eqn:E; [|apply put_err]. destruct (entry q a b) as [v|] eqn:V; [|exfalso; apply (H a b); [left; auto|auto]].
  apply IH; [intros; apply H; right; auto|]. exists i, j. split; auto. destruct I as [I|I]; auto. injection I as -> ->. exfalso. apply K.
  apply andb_true_iff in E as [E1 E2]. apply Nat.ltb_lt in E1, E2. auto.
Qed.
Lemma put_type : forall n q l m, (forall i j, In (i, j) l -> (i < n)%nat /\ (j < n)%nat) -> (exists i j, In (i, j) l /\ entry q i j = None) ->
  fold_left (put n q) l (POk m) = PErr (Raised TypeError).
Proof.
  intros n q l. induction l as [|[a b] l IH]; intros m H (i & j & I & K); [contradiction|]. cbn [fold_left put fst snd].
  destruct (H a b (or_introl eq_refl)) as [A B]. apply Nat.ltb_lt in A, B. rewrite A, B. cbn [andb]. destruct (entry q a b) as [v|] eqn:V; [|apply put_err].
  apply IH; [intros; apply H; right; auto|]. exists i, j. split; auto. destruct I as [I|I]; auto. injection I as -> ->. congruence.
Qed.
(** ** Numbered symbols *)
Lemma below_length : forall l : list nat, NoDup l -> (forall i, In i l -> (i < length l)%nat) -> forall i, (i < length l)%nat -> In i l.
Proof.
  intros l N H i Hi. assert (I : incl (seq 0 (length l)) l); [|apply I, in_seq; lia]. apply NoDup_length_incl; auto.
  - rewrite seq_length. lia.
  - intros x X. apply in_seq. specialize (H x X). lia.
Qed.
Lemma numbered_length : forall l n, NoDup l -> (forall i, In i l <-> (i < n)%nat) -> length l = n.
Proof.
  intros l n N H. assert (P : Permutation l (seq 0 n)).
  { apply NoDup_Permutation; auto; [apply seq_NoDup|]. intros x. rewrite H, in_seq. lia. }
  rewrite (Permutation_length P). apply seq_length.
Qed.

Section Sets.
Variable order : list nat -> list nat.
Hypothesis Ho : forall l, Permutation (order l) l.
Lemma in_order : forall l x, In x (order l) <-> In x l.
Proof. intros l x. split; apply Permutation_in; [apply Ho|apply Permutation_sym, Ho]. Qed.
Lemma in_pairs_order : forall l i j, In (i, j) (list_prod (order l) (order l)) <-> In i l /\ In j l.
Proof. intros. rewrite in_prod_iff, !in_order. reflexivity. Qed.

(** the loops of qubo_to_matrix after the expansion *)
Definition fill (q : poly) : pres (nat * mat) :=
  let n := length (free_symbols q) in
  match fold_left (put n q) (list_prod (order (free_symbols q)) (order (free_symbols q))) (POk zeros) with PErr e => PErr e | POk m => POk (n, triu 0 m) end.
Lemma matrix_fill : forall f q, expand_collected order f = POk q -> matrix_of order f = fill q.
Proof. intros f q E. unfold matrix_of. rewrite E. reflexivity. Qed.
Lemma fill_ok : forall s q n, reduces s q -> at_most_two s -> numbered s n -> exists M, fill q = POk (n, M) /\ right_matrix s n M.
Proof.
  intros s q n H T U. assert (Fi : forall i, In i (free_symbols q) <-> (i < n)%nat) by (intros i; rewrite (reduces_free s q i H); apply U).
  assert (L : length (free_symbols q) = n) by (apply numbered_length; auto; apply nodup_free). unfold fill. rewrite L.
  destruct (put_ok n q (fun i j => reduced s [i; j]) (list_prod (order (free_symbols q)) (order (free_symbols q))) zeros) as (m & E & Y).
  - intros i j I. apply in_pairs_order in I as [I J]. apply Fi in I, J. repeat split; auto. apply entry_ok; auto.
  - rewrite E. exists (triu 0 m). split; auto.
    assert (Z : forall i j, (i < n)%nat -> (j < n)%nat -> triu 0 m i j = if (i <=? j)%nat then reduced s [i; j] else 0).
    { intros i j I J. unfold triu. rewrite Nat.add_0_r. destruct (i <=? j)%nat; auto. rewrite Y. destruct (in_dec _ _ _) as [K|K]; auto. exfalso. apply K.
      apply in_pairs_order. rewrite !Fi. auto. }
    split; [|split].
    + intros i j I. rewrite Z by lia. replace (i <=? j)%nat with true by (symmetry; apply Nat.leb_le; lia). auto.
    + intros i j I. rewrite Z by lia. replace (i <=? j)%nat with false by (symmetry; apply Nat.leb_gt; lia). auto.
    + intros a B. apply (matrix_energy s q H); auto. intros i K. apply U. auto.
Qed.
Lemma fill_index : forall s q, reduces s q -> at_most_two s -> (~ exists n, numbered s n) -> fill q = PErr (Raised IndexError).
Proof.
  intros s q H T U. unfold fill. rewrite put_index; auto.
  - intros i j _. rewrite (entry_ok s q) by auto. discriminate.
  - assert (X : ~ forall i, In i (free_symbols q) -> (i < length (free_symbols q))%nat).
    { intros X. apply U. exists (length (free_symbols q)). intros i. rewrite <- (reduces_free s q i H). split; auto. apply below_length; auto. apply nodup_free. }
    assert (D : Forall (fun i => (i < length (free_symbols q))%nat) (free_symbols q) \/ Exists (fun i => ~ (i < length (free_symbols q))%nat) (free_symbols q)).
    { destruct (Forall_Exists_dec (fun i => (i < length (free_symbols q))%nat) (fun i => lt_dec i _) (free_symbols q)); auto. }
    destruct D as [D|D]; [rewrite Forall_forall in D; contradiction|]. apply Exists_exists in D as (i & I & K). exists i, i. split; [apply in_pairs_order; auto|]. tauto.
Qed.
Lemma fill_type : forall s q n l i j k, reduces s q -> numbered s n -> reduced s l <> 0 -> In i l -> In j l -> In k l -> i <> j -> i <> k -> j <> k ->
  fill q = PErr (Raised TypeError).
Proof.
  intros s q n l i j k H U Z Hi Hj Hk Ij Ik Jk. assert (Fi : forall i, In i (free_symbols q) <-> (i < n)%nat) by (intros x; rewrite (reduces_free s q x H); apply U).
  assert (L : length (free_symbols q) = n) by (apply numbered_length; auto; apply nodup_free). unfold fill. rewrite L. rewrite put_type; auto.
  - intros a b I. apply in_pairs_order in I as [I J]. apply Fi in I, J. auto.
  - exists i, j. split; [apply in_pairs_order; split; apply (reduces_free s q _ H); exists l; auto|]. unfold entry.
    destruct (i =? j)%nat eqn:E; [apply Nat.eqb_eq in E; congruence|]. apply (triple_entry s q H i j l); auto. exists k. auto.
Qed.
Lemma matrix_ok : forall s n, led s -> at_most_two s -> numbered s n -> exists M, qubo_to_matrix order s = POk (n, M) /\ right_matrix s n M.
Proof.
  intros s n H T U. destruct (expand_led order Ho s H) as (q & E & Rq). destruct (fill_ok s q n Rq T U) as (M & F & G). exists M. split; auto.
  unfold qubo_to_matrix. rewrite (matrix_fill _ q); auto.
Qed.
Lemma matrix_index : forall s, led s -> at_most_two s -> (~ exists n, numbered s n) -> qubo_to_matrix order s = PErr (Raised IndexError).
Proof.
  intros s H T U. destruct (expand_led order Ho s H) as (q & E & Rq). unfold qubo_to_matrix. rewrite (matrix_fill _ q) by auto. apply (fill_index s); auto.
Qed.
Lemma matrix_type : forall s n l i j k, led s -> numbered s n -> reduced s l <> 0 -> In i l -> In j l -> In k l -> i <> j -> i <> k -> j <> k ->
  qubo_to_matrix order s = PErr (Raised TypeError).
Proof.
  intros s n l i j k H U Z Hi Hj Hk Ij Ik Jk. destruct (expand_led order Ho s H) as (q & E & Rq). unfold qubo_to_matrix. rewrite (matrix_fill _ q) by auto.
  apply (fill_type s q n l i j k); auto.
Qed.
Lemma constant_refused : forall s, (forall m, present s m -> m = []) -> expand_qubo order s = PErr GeneratorsNeeded /\ qubo_to_matrix order s = PErr GeneratorsNeeded.
Proof.
  intros s H. assert (D := degree_none s H). assert (E : expand_qubo order s = PErr GeneratorsNeeded) by (unfold expand_qubo, expand_collected; rewrite D; auto).
  split; auto. unfold qubo_to_matrix, matrix_of. unfold expand_qubo in E. rewrite E. auto.
Qed.
Lemma sorted_nodup : forall l : list nat, StronglySorted lt l -> NoDup l.
Proof. intros l A. induction A as [|x l A IH B]; constructor; auto. intros I. rewrite Forall_forall in B. specialize (B x I). lia. Qed.
Lemma normal_collected : forall q, normal q -> collected q.
Proof.
  intros q [N F]. split; auto. rewrite Forall_forall in *. intros t I. destruct (F t I) as [Z [A P]]. split; auto. split; auto.
  apply sorted_nodup. auto.
Qed.
Lemma of_set_reduced : forall s q l, reduces s q -> of_set q l = reduced s l.
Proof.
  intros s q l H. destruct H as (N & F & W & X) eqn:E. clear E. rewrite <- W. unfold of_set, weight. apply Rsum_ext. intros [m c] I. cbn [fst snd].
  destruct (reduces_member s q m c (conj N (conj F (conj W X))) I) as (M & _). destruct (same_set (map fst m) l) eqn:Q.
  - apply mset_eq in Q. rewrite <- M in Q. rewrite Q, ind_self. lra.
  - rewrite ind_other; [lra|]. intros Y. rewrite M in Y. symmetry in Y. apply mset_eq in Y. congruence.
Qed.
Lemma expand_value : forall s q, expand_qubo order s = POk q -> collected q /\ forall a, binary a -> value_of a q = value a s.
Proof.
  intros s q E. split.
  - apply normal_collected. destruct (expand_step order Ho _ q (expand_normal s) E) as (deg & _ & N & _). auto.
  - intros a B. rewrite <- value_expand. apply (expand_bits order Ho); auto. apply expand_normal.
Qed.
Lemma expand_reduced : forall s, led s -> exists q, expand_qubo order s = POk q /\ collected q /\ flat q /\ forall l, of_set q l = reduced s l.
Proof.
  intros s H. destruct (expand_led order Ho s H) as (q & E & Rq). exists q. split; auto. split; [apply normal_collected, Rq|]. split; [apply Rq|]. intros l. apply of_set_reduced. auto.
Qed.
Lemma optx_value : forall s, collected (optx order s) /\ forall a, binary a -> value_of a (optx order s) = value a s.
Proof.
  intros s. split; [apply normal_collected, subs_all_normal; auto; apply expand_normal|]. intros a B. rewrite <- value_expand. apply subs_all_bits; auto. apply expand_normal.
Qed.
Lemma optx_reduced : forall s, squares s -> flat (optx order s) /\ forall l, of_set (optx order s) l = reduced s l.
Proof. intros s H. assert (Rq := optx_led order Ho s H). split; [apply Rq|]. intros l. apply of_set_reduced. auto. Qed.

(** ** add *)
Lemma add_text_ok : forall s n k o, led s -> at_most_two s -> numbered s n -> (0 < n)%nat -> exists M, right_matrix s n M /\ add_text order o s k = POk (opt_add o n M k).
Proof.
  intros s n k o H T U P. destruct (expand_led order Ho s H) as (q & E & Rq).
  assert (F : free_symbols q <> []).
  { intros Z. assert (I : In 0%nat (free_symbols q)) by (apply (reduces_free s q _ Rq), U; auto). rewrite Z in I. contradiction. }
  destruct (expand_flat order Ho s q Rq F) as (q' & E' & Rq'). destruct (fill_ok s q' n Rq' T U) as (M & G & X). exists M. split; auto.
  unfold add_text. rewrite E, (matrix_fill q q' E'), G. auto.
Qed.

(** ** optm *)
Lemma row_err : forall n q l e, fold_left (optm_row n q) l (PErr e) = PErr e.
Proof.
  intros n q l. assert (G : forall i js e, fold_left (fun (r : pres mat) j => match r with PErr e => PErr e | POk m =>
    match to_float (coeff q [i; j]) with Some v => POk (upd m i j v) | None => PErr (Raised TypeError) end end) js (PErr e) = PErr e).
  { intros i js. induction js; intros; cbn; auto. }
  induction l as [|i l IH]; intros e; cbn [fold_left]; auto. unfold optm_row at 2. rewrite G. apply IH.
Qed.
Lemma row_inner : forall s q i js m, reduces s q -> at_most_two s -> (forall j, In j js -> (i < j)%nat) ->
  exists m', fold_left (fun (r : pres mat) j => match r with PErr e => PErr e | POk m =>
    match to_float (coeff q [i; j]) with Some v => POk (upd m i j v) | None => PErr (Raised TypeError) end end) js (POk m) = POk m' /\
    forall a b, m' a b = if ((a =? i) && (if in_dec Nat.eq_dec b js then true else false))%nat then reduced s [a; b] else m a b.
Proof.
  intros s q i js. induction js as [|j js IH]; intros m H T L.
  - exists m. split; auto. intros a b. cbn. rewrite andb_false_r. auto.
  - cbn [fold_left]. rewrite (pair_entry s q H i j T) by (specialize (L j (or_introl eq_refl)); lia).
    destruct (IH (upd m i j (reduced s [i; j])) H T) as (m' & E & Y); [intros; apply L; right; auto|]. exists m'. split; auto. intros a b. rewrite Y.
    destruct (a =? i)%nat eqn:A; cbn [andb].
    + apply Nat.eqb_eq in A. subst. destruct (in_dec Nat.eq_dec b js) as [I|I]; destruct (in_dec Nat.eq_dec b (j :: js)) as [J|J]; auto.
      * exfalso. apply J. right. auto.
      * destruct J as [->|J]; [|contradiction]. unfold upd. rewrite !Nat.eqb_refl. auto.
      * unfold upd. destruct (b =? j)%nat eqn:B; [apply Nat.eqb_eq in B; subst; exfalso; apply J; left; auto|]. rewrite andb_false_r. auto.
    + unfold upd. rewrite A. auto.
Qed.
Lemma row_ok : forall s q n i m, reduces s q -> at_most_two s -> (i < n)%nat ->
  ((exists j, j <> i /\ reduced s [i; j] <> 0) -> exists m', optm_row n q (POk m) i = POk m' /\
    forall a b, m' a b = if ((a =? i) && (i <=? b) && (b <? n))%nat then reduced s [a; b] else m a b) /\
  ((forall j, j <> i -> reduced s [i; j] = 0) -> optm_row n q (POk m) i = PErr GeneratorsNeeded).
Proof.
  intros s q n i m H T L. unfold optm_row. destruct (row_inner s q i (seq (i + 1) (n - (i + 1))) m H T) as (m1 & E & Y); [intros j J; apply in_seq in J; lia|].
  rewrite E. split.
  - intros (j & Hj & Z). destruct (free_symbols (coeff q [i])) as [|x r] eqn:F.
    + exfalso. apply Z. apply (proj1 (beside s q H i T) F j Hj).
    + eexists. split; [reflexivity|]. intros a b. rewrite (diagonal_entry s q H). unfold upd. rewrite Y. destruct (a =? i)%nat eqn:A; cbn [andb]; auto.
      apply Nat.eqb_eq in A. subst. destruct (b =? i)%nat eqn:B.
      * apply Nat.eqb_eq in B. subst. rewrite Nat.leb_refl. replace (i <? n)%nat with true by (symmetry; apply Nat.ltb_lt; lia). cbn. symmetry. apply reduced_twice.
      * apply Nat.eqb_neq in B. destruct (in_dec Nat.eq_dec b _) as [I|I].
        -- apply in_seq in I. replace (i <=? b)%nat with true by (symmetry; apply Nat.leb_le; lia). replace (b <? n)%nat with true by (symmetry; apply Nat.ltb_lt; lia). auto.
        -- destruct ((i <=? b) && (b <? n))%nat eqn:Q; auto. exfalso. apply I. apply andb_true_iff in Q as [Q1 Q2]. apply Nat.leb_le in Q1. apply Nat.ltb_lt in Q2.
           apply in_seq. lia.
  - intros Z. apply (beside s q H i T) in Z. rewrite Z. auto.
Qed.
Lemma rows_ok : forall s q n l m, reduces s q -> at_most_two s -> (forall i, In i l -> (i < n)%nat /\ exists j, j <> i /\ reduced s [i; j] <> 0) ->
  exists m', fold_left (optm_row n q) l (POk m) = POk m' /\
    forall a b, m' a b = if ((if in_dec Nat.eq_dec a l then true else false) && (a <=? b) && (b <? n))%nat then reduced s [a; b] else m a b.
Proof.
  intros s q n l. induction l as [|i l IH]; intros m H T L; [exists m; split; auto|]. cbn [fold_left].
  destruct (L i (or_introl eq_refl)) as [Li Ex]. destruct (proj1 (row_ok s q n i m H T Li) Ex) as (m1 & E & Y). rewrite E.
  destruct (IH m1 H T) as (m' & E' & Y'); [intros; apply L; right; auto|]. exists m'. split; auto. intros a b. rewrite Y', Y.
  destruct (in_dec Nat.eq_dec a l) as [I|I]; destruct (in_dec Nat.eq_dec a (i :: l)) as [J|J]; cbn [andb].
  - destruct (a =? i)%nat eqn:A; auto. apply Nat.eqb_eq in A. subst. cbn [andb]. destruct ((i <=? b) && (b <? n))%nat; auto.
  - exfalso. apply J. right. auto.
  - destruct J as [->|J]; [|contradiction]. rewrite Nat.eqb_refl. auto.
  - destruct (a =? i)%nat eqn:A; auto. apply Nat.eqb_eq in A. subst. exfalso. apply J. left. auto.
Qed.
Lemma optm_ok : forall s n, squares s -> at_most_two s -> (forall i, uses s i -> (i < n)%nat) -> (forall i, (i < n)%nat -> exists j, j <> i /\ reduced s [i; j] <> 0) ->
  exists M, optm order s n = POk M /\ right_matrix s n M.
Proof.
  intros s n Q T U X. assert (Rq := optx_led order Ho s Q). unfold optm.
  destruct (rows_ok s (optx order s) n (seq 0 n) zeros Rq T) as (M & E & Y); [intros i I; apply in_seq in I; split; [lia|apply X; lia]|]. exists M. split; auto.
  assert (Z : forall i j, (i < n)%nat -> (j < n)%nat -> M i j = if (i <=? j)%nat then reduced s [i; j] else 0).
  { intros i j I J. rewrite Y. destruct (in_dec Nat.eq_dec i (seq 0 n)) as [K|K]; [|exfalso; apply K, in_seq; lia]. apply Nat.ltb_lt in J. rewrite J, andb_true_r. cbn [andb].
    destruct (i <=? j)%nat; auto. }
  split; [|split].
  - intros i j I. rewrite Z by lia. replace (i <=? j)%nat with true by (symmetry; apply Nat.leb_le; lia). auto.
  - intros i j I. rewrite Z by lia. replace (i <=? j)%nat with false by (symmetry; apply Nat.leb_gt; lia). auto.
  - intros a B. apply (matrix_energy s (optx order s) Rq); auto.
Qed.
Lemma optm_alone : forall s n i, squares s -> at_most_two s -> (i < n)%nat -> (forall j, j <> i -> reduced s [i; j] = 0) -> optm order s n = PErr GeneratorsNeeded.
Proof.
  intros s n i Q T L Z. assert (Rq := optx_led order Ho s Q). unfold optm.
  assert (G : forall l m, In i l -> (forall x, In x l -> (x < n)%nat) -> fold_left (optm_row n (optx order s)) l (POk m) = PErr GeneratorsNeeded).
  { induction l as [|x l IH]; intros m I B; [contradiction|]. cbn [fold_left].
    assert (Lx := B x (or_introl eq_refl)). destruct (row_ok s (optx order s) n x m Rq T Lx) as [A1 A2].
    destruct (free_symbols (coeff (optx order s) [x])) as [|y r] eqn:F.
    - rewrite A2; [apply row_err|]. apply (beside s _ Rq x T). auto.
    - destruct A1 as (m' & E & _).
      + assert (In y (free_symbols (coeff (optx order s) [x]))) by (rewrite F; left; auto).
        destruct (Nat.eq_dec x x); [|congruence]. apply (beside_some s _ Rq x T). rewrite F. discriminate.
      + rewrite E. apply IH; [|intros; apply B; right; auto]. destruct I as [->|I]; auto. exfalso. specialize (A2 Z). rewrite E in A2. discriminate. }
  apply G; [apply in_seq; lia|]. intros x I. apply in_seq in I. lia.
Qed.
End Sets.
