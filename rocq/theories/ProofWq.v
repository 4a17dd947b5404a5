(** Proofs for wq.py: energies, conversion to Ising form, annealing. *)
From Coq Require Import List Arith ZArith Bool Reals Lra Lia FunctionalExtensionality.
Import ListNotations.
From Verif Require Import Base Cplx Bits SpecQuantum ModelGate ModelPauli SpecPauli ProofPauliExpr ProofPauliArith ModelWq SpecWq.
Local Open Scope R_scope.

(** ** Sums *)
Lemma Rsum_app : forall A (f : A -> R) a b, Rsum f (a ++ b) = Rsum f a + Rsum f b.
Proof. induction a; intros; cbn; [lra|rewrite IHa; lra]. Qed.
Lemma total_none : forall f, total 0 f = 0. Proof. reflexivity. Qed.
Lemma total_S : forall n f, total (S n) f = total n f + f n.
Proof. intros. unfold total. rewrite seq_S, Rsum_app. cbn. lra. Qed.
Lemma total_ext : forall n f g, (forall i, (i < n)%nat -> f i = g i) -> total n f = total n g.
Proof. induction n; intros f g H; [reflexivity|]. rewrite !total_S. rewrite (IHn f g), H by (intros; try apply H; lia). reflexivity. Qed.
Lemma total_plus : forall n f g, total n (fun i => f i + g i) = total n f + total n g.
Proof. induction n; intros; [unfold total; cbn; lra|]. rewrite !total_S, IHn. lra. Qed.
Lemma total_scal : forall n k f, total n (fun i => k * f i) = k * total n f.
Proof. induction n; intros; [unfold total; cbn; lra|]. rewrite !total_S, IHn. lra. Qed.
Lemma total_zero : forall n, total n (fun _ => 0) = 0.
Proof. induction n; [reflexivity|]. rewrite total_S, IHn. lra. Qed.
Lemma total_minus : forall n f g, total n (fun i => f i - g i) = total n f - total n g.
Proof. induction n; intros; [unfold total; cbn; lra|]. rewrite !total_S, IHn. lra. Qed.
Lemma total_swap : forall n m (f : nat -> nat -> R), total n (fun i => total m (fun j => f i j)) = total m (fun j => total n (fun i => f i j)).
Proof.
  induction n; intros m f; [rewrite total_none; symmetry; rewrite (total_ext m _ (fun _ => 0)); [apply total_zero|reflexivity]|].
  rewrite total_S, IHn. rewrite <- total_plus. apply total_ext. intros. rewrite total_S. reflexivity.
Qed.
Lemma total_delta : forall n x f, (x < n)%nat -> total n (fun i => if (i =? x)%nat then f i else 0) = f x.
Proof.
  induction n; intros x f H; [lia|]. rewrite total_S. destruct (Nat.eqb_spec n x) as [->|N].
  - rewrite (total_ext x _ (fun _ => 0)); [rewrite total_zero; lra|]. intros i L. destruct (Nat.eqb_spec i x); [lia|reflexivity].
  - rewrite IHn by lia. lra.
Qed.
Definition pairs (n : nat) (f : nat -> nat -> R) : R := total n (fun i => total n (fun j => if (i <? j)%nat then f i j else 0)).
Lemma pairs_ext : forall n f g, (forall i j, (i < j < n)%nat -> f i j = g i j) -> pairs n f = pairs n g.
Proof. intros n f g H. unfold pairs. apply total_ext. intros i Hi. apply total_ext. intros j Hj. destruct (Nat.ltb_spec i j); auto. Qed.
Lemma pairs_plus : forall n f g, pairs n (fun i j => f i j + g i j) = pairs n f + pairs n g.
Proof. intros. unfold pairs. rewrite <- total_plus. apply total_ext. intros. rewrite <- total_plus. apply total_ext. intros. destruct (i <? i0)%nat; lra. Qed.
Lemma pairs_scal : forall n k f, pairs n (fun i j => k * f i j) = k * pairs n f.
Proof. intros. unfold pairs. rewrite <- total_scal. apply total_ext. intros. rewrite <- total_scal. apply total_ext. intros. destruct (i <? i0)%nat; lra. Qed.
Lemma pairs_minus : forall n f g, pairs n (fun i j => f i j - g i j) = pairs n f - pairs n g.
Proof. intros. unfold pairs. rewrite <- total_minus. apply total_ext. intros. rewrite <- total_minus. apply total_ext. intros. destruct (i <? i0)%nat; lra. Qed.
(** pairs with j < i *)
Lemma pairs_below : forall n f, total n (fun i => total n (fun j => if (j <? i)%nat then f i j else 0)) = pairs n (fun i j => f j i).
Proof. intros. rewrite total_swap. reflexivity. Qed.
Lemma total_pairs : forall n f, total n (fun i => total n (fun j => f i j)) = total n (fun i => f i i) + pairs n (fun i j => f i j + f j i).
Proof.
  intros. rewrite pairs_plus, <- (pairs_below n f). unfold pairs. rewrite <- !total_plus. apply total_ext. intros i Hi. rewrite <- total_plus.
  rewrite <- (total_delta n i (fun j => f i j)) by auto. rewrite <- total_plus. apply total_ext. intros j Hj. cbv beta.
  destruct (Nat.eqb_spec j i) as [->|N]; [rewrite Nat.ltb_irrefl; lra|]. destruct (Nat.ltb_spec i j), (Nat.ltb_spec j i); try lia; lra.
Qed.
Lemma others_pairs : forall n f, total n (fun i => total n (fun j => if (i =? j)%nat then 0 else f i j)) = pairs n (fun i j => f i j + f j i).
Proof.
  intros. rewrite total_pairs. rewrite (total_ext n _ (fun _ => 0)) by (intros; rewrite Nat.eqb_refl; auto). rewrite total_zero, Rplus_0_l.
  apply pairs_ext. intros i j H. destruct (Nat.eqb_spec i j), (Nat.eqb_spec j i); try lia. reflexivity.
Qed.

(** ** Loops *)
Lemma fold_sum : forall A (f : A -> R) l s, fold_left (fun s i => s + f i) l s = s + Rsum f l.
Proof. induction l; intros; cbn; [lra|rewrite IHl; lra]. Qed.
Lemma fold_plus : forall l s, fold_left Rplus l s = s + Rsum (fun x => x) l.
Proof. induction l; intros; cbn; [lra|rewrite IHl; lra]. Qed.
Lemma Rsum_map : forall A B (f : B -> R) (g : A -> B) l, Rsum f (map g l) = Rsum (fun x => f (g x)) l.
Proof. induction l; cbn; [auto|rewrite IHl; auto]. Qed.
Lemma fold_ext : forall A S (f g : S -> A -> S) l s, (forall s x, In x l -> f s x = g s x) -> fold_left f l s = fold_left g l s.
Proof. induction l; intros; cbn; [auto|]. rewrite H by (left; auto). apply IHl. intros. apply H. right. auto. Qed.
Lemma sum_range_total : forall n f, sum_range 0 n f = total n f.
Proof. intros. unfold sum_range, total. rewrite fold_plus, Rsum_map, Nat.sub_0_r, Rplus_0_l. reflexivity. Qed.
Lemma Rsum_zero : forall A (f : A -> R) l, (forall x, In x l -> f x = 0) -> Rsum f l = 0.
Proof. induction l; intros H; cbn; [auto|]. rewrite H, IHl by (try (intros; apply H; right; auto); left; auto). lra. Qed.
Lemma Rsum_ext : forall A (f g : A -> R) l, (forall x, In x l -> f x = g x) -> Rsum f l = Rsum g l.
Proof. induction l; intros H; cbn; [auto|]. rewrite H by (left; auto). rewrite IHl; auto. intros. apply H. right. auto. Qed.
(** a sum over i+1 .. n-1 *)
Lemma tail_total : forall n i f, (i < n)%nat -> Rsum f (seq (i + 1) (n - (i + 1))) = total n (fun j => if (i <? j)%nat then f j else 0).
Proof.
  intros n i f H. unfold total. replace n with ((i + 1) + (n - (i + 1)))%nat at 2 by lia. rewrite seq_app, Rsum_app, Nat.add_0_l.
  rewrite (Rsum_zero _ _ (seq 0 (i + 1))).
  - rewrite Rplus_0_l. apply Rsum_ext. intros x I. apply in_seq in I. destruct (Nat.ltb_spec i x); [auto|lia].
  - intros x I. apply in_seq in I. destruct (Nat.ltb_spec i x); [lia|auto].
Qed.

Lemma Ei_energy : forall n q J, Ei n q J = ising_energy n J q.
Proof.
  intros. unfold Ei, for_range, ising_energy. rewrite Nat.sub_0_r.
  rewrite (fold_ext _ _ _ (fun s i => s + (J i i * q i + total n (fun j => if (i <? j)%nat then J i j * q i * q j else 0)))).
  - rewrite fold_sum. fold (total n (fun i => J i i * q i + total n (fun j => if (i <? j)%nat then J i j * q i * q j else 0))). rewrite total_plus. lra.
  - intros s x I. apply in_seq in I. unfold sum_range. rewrite fold_plus, Rsum_map, tail_total by lia.
    rewrite (total_ext n (fun j => if (x <? j)%nat then q x * q j * J x j else 0) (fun j => if (x <? j)%nat then J x j * q x * q j else 0)); [lra|].
    intros j Hj. destruct (x <? j)%nat; lra.
Qed.

(** ** qi *)
Lemma leb0 : forall i, (0 <=? i)%nat = true. Proof. reflexivity. Qed.
Lemma upd_at : forall m i j v, upd m i j v i j = v. Proof. intros. unfold upd. rewrite !Nat.eqb_refl. reflexivity. Qed.
Lemma row_loop : forall k a i (v : nat -> R) J x y,
  fold_left (fun J j => upd J i j (v j)) (seq a k) J x y = if (x =? i)%nat && (a <=? y)%nat && (y <? a + k)%nat then v y else J x y.
Proof.
  induction k; intros; cbn [seq fold_left].
  - destruct (Nat.eqb_spec x i); cbn [andb]; auto. destruct (Nat.leb_spec a y); cbn [andb]; auto. destruct (Nat.ltb_spec y (a + 0)); auto; lia.
  - rewrite IHk. unfold upd. destruct (Nat.eqb_spec x i); cbn [andb]; auto.
    destruct (Nat.leb_spec (S a) y), (Nat.leb_spec a y), (Nat.ltb_spec y (S a + k)), (Nat.ltb_spec y (a + S k)), (Nat.eqb_spec y a); cbn [andb]; subst; auto; lia.
Qed.
Lemma upper_loop : forall n (v : nat -> nat -> R) k a J x y, (a + k <= n)%nat ->
  fold_left (fun J i => for_range (i + 1) n J (fun j J => upd J i j (v i j))) (seq a k) J x y =
  if (a <=? x)%nat && (x <? a + k)%nat && (x <? y)%nat && (y <? n)%nat then v x y else J x y.
Proof.
  intros n v. induction k; intros a J x y H; cbn [seq fold_left].
  - destruct (Nat.leb_spec a x); cbn [andb]; auto. destruct (Nat.ltb_spec x (a + 0)); cbn [andb]; auto; lia.
  - rewrite IHk by lia. unfold for_range at 1. rewrite row_loop.
    destruct (Nat.leb_spec (S a) x), (Nat.leb_spec a x), (Nat.ltb_spec x (S a + k)), (Nat.ltb_spec x (a + S k)), (Nat.ltb_spec x y), (Nat.ltb_spec y n), (Nat.eqb_spec x a),
      (Nat.leb_spec (a + 1) y), (Nat.ltb_spec y (a + 1 + (n - (a + 1)))); cbn [andb]; subst; auto; lia.
Qed.
Lemma diag_loop : forall n (Q : mat) k a J x y,
  (fold_left (fun J i => upd J i i (for_range 0 n 0 (fun j sum => if (i =? j)%nat then sum + Q i i * (1 / 2) else sum + J i j))) (seq a k) J) x y =
  if (x =? y)%nat && (a <=? x)%nat && (x <? a + k)%nat then total n (fun j => if (x =? j)%nat then Q x x * (1 / 2) else J x j) else J x y.
Proof.
  intros n Q. induction k; intros a J x y; cbn [seq fold_left].
  - destruct (Nat.eqb_spec x y); cbn [andb]; auto. destruct (Nat.leb_spec a x); cbn [andb]; auto. destruct (Nat.ltb_spec x (a + 0)); auto; lia.
  - rewrite IHk. set (v := for_range 0 n 0 _). assert (V : v = total n (fun j => if (a =? j)%nat then Q a a * (1 / 2) else J a j)).
    { subst v. unfold for_range. rewrite Nat.sub_0_r. rewrite (fold_ext _ _ _ (fun s j => s + (if (a =? j)%nat then Q a a * (1 / 2) else J a j))).
      - rewrite fold_sum. unfold total. lra.
      - intros. destruct (a =? x0)%nat; reflexivity. }
    assert (T : total n (fun j => if (x =? j)%nat then Q x x * (1 / 2) else upd J a a v x j) = total n (fun j => if (x =? j)%nat then Q x x * (1 / 2) else J x j)).
    { apply total_ext. intros j Hj. destruct (Nat.eqb_spec x j); auto. unfold upd. destruct (Nat.eqb_spec x a), (Nat.eqb_spec j a); cbn [andb]; auto; lia. }
    rewrite T. unfold upd.
    destruct (Nat.eqb_spec x y), (Nat.leb_spec (S a) x), (Nat.leb_spec a x), (Nat.ltb_spec x (S a + k)), (Nat.ltb_spec x (a + S k)), (Nat.eqb_spec x a), (Nat.eqb_spec y a);
      cbn [andb]; subst; auto; try lia.
Qed.
(** coefficients of pairs *)
Definition coupling (Q : mat) (i j : nat) : R := if (i <? j)%nat then Q i j / 4 else Q j i / 4.
Lemma coupling_sym : forall Q i j, i <> j -> coupling Q i j = coupling Q j i.
Proof. intros. unfold coupling. destruct (Nat.ltb_spec i j), (Nat.ltb_spec j i); auto; lia. Qed.
Definition field_of (n : nat) (Q : mat) (i : nat) : R := Q i i / 2 + total n (fun j => if (i =? j)%nat then 0 else coupling Q i j).
Definition ising_J (n : nat) (Q : mat) : mat := fun i j => if (i =? j)%nat then field_of n Q i else coupling Q i j.
Lemma qi_result : forall n Q, (forall i j, (i < n)%nat -> (j < n)%nat -> fst (qi n Q) i j = if (i <=? j)%nat then ising_J n Q i j else 0) /\
  snd (qi n Q) = total n (field_of n Q) - pairs n (coupling Q).
Proof.
  intros n Q. unfold qi. set (J1 := for_range 0 n (fun _ _ => 1) _). set (J2 := madd _ _). set (J3 := for_range 0 n J2 _).
  assert (H2 : forall i j, (i < n)%nat -> (j < n)%nat -> i <> j -> J2 i j = coupling Q i j).
  { intros i j Hi Hj N. subst J2. unfold madd, transpose, triu, coupling. subst J1. unfold for_range at 1 3. rewrite !Nat.sub_0_r, !upper_loop by lia. rewrite !leb0, Nat.add_0_l.
    destruct (Nat.leb_spec (i + 0) j), (Nat.leb_spec (j + 1) i), (Nat.ltb_spec i j), (Nat.ltb_spec j i), (Nat.ltb_spec i n), (Nat.ltb_spec j n); cbn [andb]; try lia; lra. }
  assert (H3 : forall i j, (i < n)%nat -> (j < n)%nat -> J3 i j = ising_J n Q i j).
  { intros i j Hi Hj. subst J3. unfold for_range at 1. rewrite Nat.sub_0_r, diag_loop. unfold ising_J. destruct (Nat.eqb_spec i j) as [<-|N]; cbn [andb].
    - rewrite leb0, Nat.add_0_l. destruct (Nat.ltb_spec i n); [|lia]. cbn [andb]. unfold field_of.
      rewrite <- (total_delta n i (fun j => Q i i / 2)) by auto. rewrite <- total_plus. apply total_ext. intros j Hj'. rewrite (Nat.eqb_sym j i).
      destruct (Nat.eqb_spec i j); [lra|]. rewrite H2 by auto. lra.
    - rewrite H2; auto. }
  cbn [fst snd]. split.
  - intros i j Hi Hj. unfold triu. rewrite Nat.add_0_r. destruct (i <=? j)%nat; auto.
  - unfold for_range at 1. rewrite Nat.sub_0_r.
    rewrite (fold_ext _ _ _ (fun s i => s + (field_of n Q i - total n (fun j => if (i <? j)%nat then coupling Q i j else 0)))).
    + rewrite fold_sum. unfold pairs. rewrite <- total_minus. unfold total. lra.
    + intros s i I. apply in_seq in I. unfold for_range.
      rewrite (fold_ext _ _ _ (fun s j => s + (- 1) * J3 i j)) by (intros; lra). rewrite fold_sum, H3 by lia. unfold ising_J at 1. rewrite Nat.eqb_refl.
      rewrite tail_total by lia. rewrite (total_ext n _ (fun j => (- 1) * (if (i <? j)%nat then coupling Q i j else 0))).
      * rewrite total_scal. lra.
      * intros j Hj. destruct (Nat.ltb_spec i j); [|lra]. rewrite H3 by lia. unfold ising_J. destruct (Nat.eqb_spec i j); [lia|lra].
Qed.
(** only the upper triangle counts *)
Definition upper_energy (n : nat) (Q : mat) (x : vec) : R := total n (fun i => Q i i * x i * x i) + pairs n (fun i j => Q i j * x i * x j).
Lemma upper_energy_eq : forall n Q x, upper_triangular n Q -> upper_energy n Q x = qubo_energy n Q x.
Proof.
  intros n Q x U. unfold upper_energy, qubo_energy. rewrite total_pairs. f_equal. apply pairs_ext. intros i j H. rewrite (U j i) by lia. lra.
Qed.
Lemma spin_square : forall q, q = -1 \/ q = 1 -> bit_of q * bit_of q = bit_of q.
Proof. intros q [->| ->]; unfold bit_of; lra. Qed.
Lemma ising_cond : forall n J K q, (forall i j, (i <= j < n)%nat -> J i j = K i j) -> ising_energy n J q = ising_energy n K q.
Proof.
  intros n J K q H. unfold ising_energy. f_equal; [apply total_ext; intros; rewrite H by lia; auto|]. apply total_ext. intros i Hi. apply total_ext. intros j Hj.
  destruct (Nat.ltb_spec i j); auto. rewrite H by lia. auto.
Qed.
Lemma qi_upper : forall n Q q, spins n q -> ising_energy n (fst (qi n Q)) q + snd (qi n Q) = upper_energy n Q (fun i => bit_of (q i)).
Proof.
  intros n Q q S. destruct (qi_result n Q) as [HJ HE]. rewrite HE.
  rewrite (ising_cond n _ (ising_J n Q)) by (intros i j H; rewrite HJ by lia; destruct (Nat.leb_spec i j); [auto|lia]).
  unfold ising_energy. fold (pairs n (fun i j => ising_J n Q i j * q i * q j)).
  rewrite (pairs_ext n _ (fun i j => coupling Q i j * q i * q j)) by (intros i j H; unfold ising_J; destruct (Nat.eqb_spec i j); [lia|auto]).
  rewrite (total_ext n _ (fun i => field_of n Q i * q i)) by (intros; unfold ising_J; rewrite Nat.eqb_refl; auto).
  assert (F : total n (fun i => field_of n Q i * q i) + total n (field_of n Q) =
              total n (fun i => Q i i * bit_of (q i)) + pairs n (fun i j => coupling Q i j * (q i + q j + 2))).
  { rewrite <- total_plus. rewrite (total_ext n _ (fun i => Q i i * bit_of (q i) + total n (fun j => if (i =? j)%nat then 0 else coupling Q i j * (q i + 1)))).
    - rewrite total_plus. f_equal. rewrite others_pairs. apply pairs_ext. intros i j H. rewrite (coupling_sym Q j i) by lia. lra.
    - intros i Hi. rewrite (total_ext n (fun j => if (i =? j)%nat then 0 else coupling Q i j * (q i + 1)) (fun j => (q i + 1) * (if (i =? j)%nat then 0 else coupling Q i j))).
      + rewrite total_scal. unfold field_of, bit_of. lra.
      + intros j Hj. destruct (i =? j)%nat; lra. }
  unfold upper_energy. rewrite (total_ext n (fun i => Q i i * bit_of (q i) * bit_of (q i)) (fun i => Q i i * bit_of (q i))) by (intros; rewrite Rmult_assoc, spin_square; auto).
  rewrite (pairs_ext n (fun i j => Q i j * bit_of (q i) * bit_of (q j)) (fun i j => coupling Q i j * q i * q j + coupling Q i j * (q i + q j + 2) - coupling Q i j)).
  - rewrite pairs_minus, pairs_plus. lra.
  - intros i j H. unfold coupling, bit_of. destruct (Nat.ltb_spec i j); [|lia]. lra.
Qed.
Lemma qi_energy : forall n Q q, upper_triangular n Q -> spins n q ->
  Ei n q (fst (qi n Q)) + snd (qi n Q) = qubo_energy n Q (fun i => bit_of (q i)).
Proof. intros. rewrite Ei_energy, qi_upper, upper_energy_eq; auto. Qed.

(** ** Annealing *)
Lemma change_difference : forall n J q x, (x < n)%nat ->
  change n (reJ J) q x = ising_energy n J (flipped (real_spins q) x) - ising_energy n J (real_spins q).
Proof.
  intros n J q x H. unfold change. rewrite sum_range_total. set (p := real_spins q).
  unfold ising_energy. fold (pairs n (fun i j => J i j * p i * p j)). fold (pairs n (fun i j => J i j * flipped p x i * flipped p x j)).
  assert (D : total n (fun i => J i i * flipped p x i) - total n (fun i => J i i * p i) = - 2 * (J x x * p x)).
  { rewrite <- total_minus. rewrite (total_ext n _ (fun i => - 2 * (if (i =? x)%nat then J i i * p i else 0))).
    - rewrite total_scal, (total_delta n x (fun i => J i i * p i)) by auto. auto.
    - intros i Hi. unfold flipped. destruct (i =? x)%nat; lra. }
  assert (P : pairs n (fun i j => J i j * flipped p x i * flipped p x j) - pairs n (fun i j => J i j * p i * p j) =
    - 2 * (total n (fun i => if (i <? x)%nat then J i x * p i * p x else 0) + total n (fun j => if (x <? j)%nat then J x j * p x * p j else 0))).
  { rewrite <- pairs_minus. rewrite (pairs_ext n _ (fun i j => - 2 * ((if (j =? x)%nat then J i j * p i * p j else 0) + (if (i =? x)%nat then J i j * p i * p j else 0)))).
    - rewrite pairs_scal, pairs_plus. f_equal. f_equal.
      + unfold pairs. apply total_ext. intros i Hi.
        rewrite <- (total_delta n x (fun j => if (i <? j)%nat then J i j * p i * p j else 0)) by auto. apply total_ext. intros j Hj.
        destruct (i <? j)%nat, (j =? x)%nat; auto.
      + unfold pairs. rewrite total_swap. apply total_ext. intros j Hj.
        rewrite <- (total_delta n x (fun i => if (i <? j)%nat then J i j * p i * p j else 0)) by auto. apply total_ext. intros i Hi.
        destruct (i <? j)%nat, (i =? x)%nat; auto.
    - intros i j Hij. unfold flipped. destruct (Nat.eqb_spec i x), (Nat.eqb_spec j x); try lia; lra. }
  assert (G : total n (fun i => IZR (q i) * (if (i =? x)%nat then 1 else IZR (q x)) * reJ J i x) =
    J x x * p x + (total n (fun i => if (i <? x)%nat then J i x * p i * p x else 0) + total n (fun j => if (x <? j)%nat then J x j * p x * p j else 0))).
  { rewrite <- (total_delta n x (fun i => J i i * p i)) by auto. rewrite <- !total_plus. apply total_ext. intros i Hi.
    unfold reJ, madd, transpose, triu. change (IZR (q i)) with (p i). change (IZR (q x)) with (p x).
    destruct (Nat.eqb_spec i x) as [Ex|N], (Nat.leb_spec (i + 0) x), (Nat.leb_spec (x + 1) i), (Nat.ltb_spec i x), (Nat.ltb_spec x i);
      try lia; try subst i; try lra. }
  rewrite G. lra.
Qed.

Lemma turn_flipped : forall q x, real_spins (turn q x) = flipped (real_spins q) x.
Proof. intros. apply functional_extensionality. intros i. unfold real_spins, turn, flipped. destruct (i =? x)%nat; [apply opp_IZR|auto]. Qed.
Lemma flipped_spins : forall n q x, spins n q -> spins n (flipped q x).
Proof. intros n q x H i Hi. unfold flipped. destruct (H i Hi) as [-> | ->]; destruct (i =? x)%nat; lra. Qed.
Lemma upper_part_upper : forall n Q, upper_triangular n (upper_part Q).
Proof. intros n Q i j H. unfold upper_part. destruct (Nat.leb_spec i j); [lia|auto]. Qed.
Lemma upper_energy_part : forall n Q x, upper_energy n Q x = qubo_energy n (upper_part Q) x.
Proof.
  intros. rewrite <- upper_energy_eq by apply upper_part_upper. unfold upper_energy, upper_part. f_equal.
  - apply total_ext. intros. rewrite Nat.leb_refl. auto.
  - apply pairs_ext. intros i j H. destruct (Nat.leb_spec i j); [auto|lia].
Qed.
Lemma upper_part_id : forall n Q x, upper_triangular n Q -> qubo_energy n (upper_part Q) x = qubo_energy n Q x.
Proof. intros. rewrite <- upper_energy_part. apply upper_energy_eq. auto. Qed.
Lemma objective_energy : forall n Q q, spins n q -> Ei n q (fst (qi n Q)) + snd (qi n Q) = objective n Q q.
Proof. intros. rewrite Ei_energy, qi_upper by auto. apply upper_energy_part. Qed.
Lemma objective_change : forall n Q q x, spins n (real_spins q) -> (x < n)%nat ->
  change n (reJ (fst (qi n Q))) q x = difference (objective n Q) (real_spins q) x.
Proof.
  intros n Q q x S H. rewrite change_difference by auto. unfold difference. rewrite <- !objective_energy, !Ei_energy by (auto; apply flipped_spins; auto). lra.
Qed.
Section Runs.
Variables (choices : nat -> bool) (sites : nat -> nat) (draws : nat -> R) (n : nat) (Q : mat).
Hypothesis HS : forall k, (sites k < n)%nat.
Lemma proposals_sweep : forall T xs q d q' d', spins n (real_spins q) -> (forall x, In x xs -> (x < n)%nat) ->
  proposals draws n (reJ (fst (qi n Q))) T xs q d = (q', d') ->
  sweep n (objective n Q) draws T xs (real_spins q) d (real_spins q') d' /\ spins n (real_spins q').
Proof.
  induction xs as [|x xs IH]; intros q d q' d' S H E; cbn [proposals] in E.
  - inversion E. subst. split; [constructor|auto].
  - assert (Hx : (x < n)%nat) by (apply H; left; auto). assert (Hs : forall y, In y xs -> (y < n)%nat) by (intros; apply H; right; auto).
    assert (St : spins n (real_spins (turn q x))) by (rewrite turn_flipped; apply flipped_spins; auto).
    rewrite objective_change in E by auto. destruct (Rlt_dec (difference (objective n Q) (real_spins q) x) 0) as [L|L].
    + apply IH in E as [E1 E2]; auto. rewrite turn_flipped in E1. split; auto. eapply sw_step; eauto. apply falls. auto.
    + destruct (Rlt_dec (draws d) _) as [L'|L']; apply IH in E as [E1 E2]; auto; split; auto; eapply sw_step; eauto.
      * rewrite turn_flipped. apply lucky; auto.
      * apply rejected; auto.
Qed.
Lemma cooling_schedule : forall fuel target r ite T q s d EE q' s' d' EE', spins n (real_spins q) ->
  cooling sites draws fuel n (fst (qi n Q)) (snd (qi n Q)) target r ite T q s d EE = Some (q', s', d', EE') ->
  exists l, schedule n (objective n Q) draws sites target r ite T (real_spins q) s d l s' d' /\ EE' = EE ++ map (objective n Q) l /\
    real_spins q' = last l (real_spins q) /\ spins n (real_spins q').
Proof.
  induction fuel as [|fuel IH]; intros target r ite T q s d EE q' s' d' EE' S H; cbn [cooling] in H; [discriminate|].
  destruct (Rlt_dec target T) as [L|L].
  - destruct (proposals _ _ _ _ _ _ _) as [q1 d1] eqn:P. apply proposals_sweep in P as [P1 P2]; auto.
    + apply IH in H as [l [H1 [H2 [H3 H4]]]]; auto. exists (real_spins q1 :: l). split; [eapply sc_round; eauto|]. split; [|split; auto].
      * rewrite H2, objective_energy, <- app_assoc by auto. reflexivity.
      * rewrite H3. destruct l; [reflexivity|]. cbn [last]. destruct l; auto.
        clear. change (last (r1 :: l) (real_spins q1) = last (r1 :: l) (real_spins q)). revert r1. induction l; intros; [reflexivity|]. apply IHl.
    + intros x I. apply in_map_iff in I as [k [<- _]]. apply HS.
  - inversion H. subst. exists []. split; [constructor; lra|]. split; [rewrite app_nil_r; auto|]. split; auto.
Qed.
Lemma to_bits_are : forall q, spins n (real_spins q) -> bits_are n (real_spins q) (to_bits n q).
Proof.
  intros q S. unfold bits_are, to_bits. split; [rewrite map_length, seq_length; auto|]. intros i H.
  rewrite (nth_indep _ 0%Z (Z.quot (q 0%nat + 1) 2)) by (rewrite map_length, seq_length; auto).
  rewrite (map_nth (fun i => Z.quot (q i + 1) 2)), seq_nth, Nat.add_0_l by auto. unfold bit_of. specialize (S i H). unfold real_spins in *.
  destruct S as [S | S]; apply eq_IZR in S || (replace 1 with (IZR 1) in S by auto; apply eq_IZR in S); rewrite S; cbn; lra.
Qed.
Lemma shots_anneal : forall fuel start target r ite shots c s d l,
  shots_loop choices sites draws fuel n (fst (qi n Q)) (snd (qi n Q)) start target r ite shots c s d = Some l ->
  anneals n (objective n Q) draws sites choices start target r ite shots c s d l.
Proof.
  induction shots as [|m IH]; intros c s d l H; cbn [shots_loop] in H; [inversion H; constructor|].
  set (q := fun i => if choices (c + i)%nat then 1%Z else (-1)%Z) in *.
  assert (Eq : real_spins q = chosen choices c) by (apply functional_extensionality; intros i; unfold real_spins, chosen, q; destruct (choices _); auto).
  assert (Sq : spins n (real_spins q)) by (rewrite Eq; intros i _; unfold chosen; destruct (choices _); auto).
  destruct (cooling _ _ _ _ _ _ _ _ _ _ _ _ _ _) as [[[[q' s'] d'] EE]|] eqn:C; [|discriminate].
  destruct (shots_loop _ _ _ _ _ _ _ _ _ _ _ _ _ _ _) as [r'|] eqn:R; [|discriminate]. inversion H. subst l.
  apply cooling_schedule in C as [l [C1 [C2 [C3 C4]]]]; auto. rewrite Eq in *. rewrite C2.
  rewrite <- Eq in *. rewrite objective_energy by auto. rewrite Eq in *.
  change ([objective n Q (chosen choices c)] ++ map (objective n Q) l) with (map (objective n Q) (chosen choices c :: l)).
  eapply an_shot; eauto. rewrite <- C3. apply to_bits_are. auto.
Qed.
End Runs.
Lemma anneals_length : forall n energy draws sites choices start target r k m c s d l,
  anneals n energy draws sites choices start target r k m c s d l -> length l = m.
Proof. intros until l. induction 1; cbn; auto. Qed.
Lemma run_anneals : forall choices sites draws fuel n Q Ts r ite shots fast target o, (forall k, (sites k < n)%nat) ->
  opt_run choices sites draws fuel n Q Ts r ite shots fast target = Some o ->
  exists l, anneals n (objective n Q) draws sites choices Ts target (if fast then 3 / 4 else r) (if fast then 100%nat else ite) shots 0 0 0 l /\
    match o with Single E b => shots = 1%nat /\ l = [(E, b)] | Several Es bs => shots <> 1%nat /\ Es = map fst l /\ bs = map snd l end.
Proof.
  intros choices sites draws fuel n Q Ts r ite shots fast target o HS H. unfold opt_run in H. destruct (qi n Q) as [J ep] eqn:E.
  replace J with (fst (qi n Q)) in H by (rewrite E; auto). replace ep with (snd (qi n Q)) in H by (rewrite E; auto).
  destruct (shots_loop _ _ _ _ _ _ _ _ _ _ _ _ _ _ _) as [l|] eqn:L; [|discriminate]. apply shots_anneal in L; auto. exists l. split; auto.
  apply anneals_length in L. destruct l as [|[E1 b] [|]]; inversion H; cbn in L; subst; (split; [lia|]); auto.
Qed.
(** ends when the temperature falls *)
Lemma cooling_ends : forall sites draws n J ep target r ite k T q s d EE, T * r ^ k <= target ->
  cooling sites draws (S k) n J ep target r ite T q s d EE <> None.
Proof.
  induction k as [|k IH]; intros T q s d EE H; cbn [cooling].
  - destruct (Rlt_dec target T); [cbn in H; lra|discriminate].
  - destruct (Rlt_dec target T); [|discriminate]. destruct (proposals _ _ _ _ _ _ _) as [q1 d1]. apply IH. rewrite Rmult_assoc. exact H.
Qed.
Lemma runs_end : forall Ts r fast target, 0 < target -> 0 <= r < 1 ->
  exists fuel, forall choices sites draws n Q ite shots, opt_run choices sites draws fuel n Q Ts r ite shots fast target <> None.
Proof.
  intros Ts r fast target HT HR. set (r' := if fast then 3 / 4 else r).
  assert (HR' : 0 <= r' < 1) by (subst r'; destruct fast; lra).
  assert (K : exists k, Ts * r' ^ k <= target).
  { destruct (Rle_dec Ts 0) as [L|L]; [exists 0%nat; cbn; lra|].
    destruct (pow_lt_1_zero r') with (y := target / Ts) as [k Hk]; [rewrite Rabs_right; lra|apply Rdiv_lt_0_compat; lra|].
    exists k. specialize (Hk k (Nat.le_refl k)). apply Rabs_def2 in Hk as [Hk _]. apply Rlt_le. apply (Rmult_lt_compat_l Ts) in Hk; [|lra]. unfold Rdiv in Hk.
    rewrite (Rmult_comm target), <- Rmult_assoc, Rinv_r, Rmult_1_l in Hk by lra. exact Hk. }
  destruct K as [k Hk]. exists (S k). intros choices sites draws n Q ite shots. unfold opt_run. destruct (qi n Q) as [J ep]. fold r'.
  assert (N : forall m c s d, shots_loop choices sites draws (S k) n J ep Ts target r' (if fast then 100%nat else ite) m c s d <> None).
  { induction m as [|m IH]; intros c s d; cbn [shots_loop]; [discriminate|]. set (q := fun i => _).
    destruct (cooling _ _ _ _ _ _ _ _ _ _ _ _ _ _) as [[[[q' s'] d'] EE]|] eqn:C; [|exfalso; revert C; apply cooling_ends; exact Hk].
    destruct (shots_loop _ _ _ _ _ _ _ _ _ _ _ _ _ _ _) eqn:L; [discriminate|]. exfalso. revert L. apply IH. }
  specialize (N shots 0%nat 0%nat 0%nat). destruct (shots_loop _ _ _ _ _ _ _ _ _ _ _ _ _ _ _) as [l|]; [|contradiction].
  destruct l as [|[E1 b] [|]]; discriminate.
Qed.
Lemma run_ends : forall choices sites draws n Q Ts r ite shots fast target, 0 < target -> 0 <= r < 1 ->
  exists fuel, opt_run choices sites draws fuel n Q Ts r ite shots fast target <> None.
Proof. intros choices sites draws n Q Ts r ite shots fast target HT HR. destruct (runs_end Ts r fast target HT HR) as [f H]. exists f. apply H. Qed.
Lemma last_map : forall A B (f : A -> B) l a b, last (map f (a :: l)) b = f (last l a).
Proof.
  induction l as [|x l IH]; intros; [reflexivity|]. cbn [map]. change (last (map f (x :: l)) b = f (last (x :: l) a)). rewrite IH.
  destruct l; [reflexivity|]. f_equal. change (last (a0 :: l) x = last (a0 :: l) a). clear. revert a0. induction l; intros; [reflexivity|apply IHl].
Qed.
Lemma energy_bits : forall n Q q b, bits_are n q b -> objective n Q q = qubo_energy n (upper_part Q) (fun i => IZR (nth i b 0%Z)).
Proof.
  intros n Q q b [_ H]. unfold objective, qubo_energy. apply total_ext. intros i Hi. apply total_ext. intros j Hj. rewrite !H by auto. reflexivity.
Qed.
Lemma bits_are_01 : forall n q b, spins n q -> bits_are n q b -> Forall (fun z => z = 0%Z \/ z = 1%Z) b.
Proof.
  intros n q b S [L H]. apply Forall_forall. intros z I. apply (In_nth _ _ 0%Z) in I as [i [I <-]]. rewrite L in I. specialize (H i I). unfold bit_of in H.
  destruct (S i I) as [E|E]; rewrite E in H; [left|right]; apply eq_IZR; rewrite H; lra.
Qed.

Lemma sweep_spins : forall n energy draws T xs q d q' d', sweep n energy draws T xs q d q' d' -> spins n q -> spins n q'.
Proof. intros until d'. induction 1 as [|x xs q d q1 d1 q2 d2 Hx P W IH]; intros S; auto. apply IH. destruct P; auto; apply flipped_spins; auto. Qed.
Lemma schedule_spins : forall n energy draws sites target r k T q s d l s' d', schedule n energy draws sites target r k T q s d l s' d' -> spins n q -> spins n (last l q).
Proof.
  intros until d'. induction 1 as [|T q s d q' d1 l s' d' HT W C IH]; intros S; auto. specialize (IH (sweep_spins _ _ _ _ _ _ _ _ _ W S)).
  destruct l as [|y l]; auto. change (spins n (last (y :: l) q)). replace (last (y :: l) q) with (last (y :: l) q'); auto.
  clear. revert y. induction l; intros; [reflexivity|apply IHl].
Qed.
Lemma anneals_last : forall n Q draws sites choices start target r k m c s d l,
  anneals n (objective n Q) draws sites choices start target r k m c s d l ->
  Forall (fun p => length (snd p) = n /\ Forall (fun z => z = 0%Z \/ z = 1%Z) (snd p) /\
                   last (fst p) 0 = qubo_energy n (upper_part Q) (fun i => IZR (nth i (snd p) 0%Z))) l.
Proof.
  intros until l. induction 1 as [|m c s d l s' d' b res C B A IH]; [constructor|]. constructor; auto. cbn [fst snd].
  assert (S : spins n (last l (chosen choices c))) by (eapply schedule_spins; eauto; intros i _; unfold chosen; destruct (choices _); auto).
  split; [apply B|]. split; [eapply bits_are_01; eauto|]. rewrite last_map. apply energy_bits. auto.
Qed.

(** ** sel, mul, sqr, net *)
Lemma array_index_position : forall n z i, array_index n z = Ok i -> in_range n z /\ i = position n z.
Proof.
  unfold array_index, in_range, position. intros n z i H. destruct (_ && _)%bool eqn:E; inversion H. apply andb_true_iff in E as [E1 E2].
  apply Z.leb_le in E1. apply Z.ltb_lt in E2. split; [lia|]. destruct (z <? 0)%Z; auto. f_equal. lia.
Qed.
Lemma array_index_ok : forall n z, in_range n z -> array_index n z = Ok (position n z).
Proof.
  unfold array_index, in_range, position. intros n z [H1 H2]. apply Z.leb_le in H1. apply Z.ltb_lt in H2. rewrite H1, H2. cbn [andb].
  destruct (z <? 0)%Z; auto. rewrite Z.add_comm. auto.
Qed.
Lemma array_index_err : forall n z, ~ in_range n z -> array_index n z = Err IndexError.
Proof.
  unfold array_index, in_range. intros n z H. destruct (_ && _)%bool eqn:E; auto. apply andb_true_iff in E as [E1 E2].
  apply Z.leb_le in E1. apply Z.ltb_lt in E2. lia.
Qed.
Lemma in_range_dec : forall n z, in_range n z \/ ~ in_range n z. Proof. unfold in_range. intros. lia. Qed.
Lemma position_lt : forall n z, in_range n z -> (position n z < n)%nat.
Proof. unfold in_range, position. intros. destruct (Z.ltb_spec z 0); lia. Qed.
Definition multiplicity (n : nat) (arr : list Z) (i : nat) : R := Rsum (fun z => if (i =? position n z)%nat then 1 else 0) arr.
Lemma count_positions_ok : forall n arr m, Forall (in_range n) arr -> exists m', count_positions n arr m = Ok m' /\ forall i, m' i = m i + multiplicity n arr i.
Proof.
  induction arr as [|z arr IH]; intros m H; cbn [count_positions]; [exists m; split; auto; intros; unfold multiplicity; cbn; lra|].
  inversion H as [|? ? H1 H2]. subst. rewrite array_index_ok by auto. cbn [bind].
  destruct (IH (fun k => if (k =? position n z)%nat then m k + 1 else m k) H2) as [m' [E1 E2]]. exists m'. split; auto.
  intros i. rewrite E2. unfold multiplicity. cbn [Rsum]. destruct (i =? position n z)%nat; lra.
Qed.
Lemma count_positions_err : forall n arr m, ~ Forall (in_range n) arr -> count_positions n arr m = Err IndexError.
Proof.
  induction arr as [|z arr IH]; intros m H; cbn [count_positions]; [exfalso; apply H; constructor|].
  destruct (in_range_dec n z) as [R|R].
  - rewrite array_index_ok by auto. cbn [bind]. apply IH. intros F. apply H. constructor; auto.
  - rewrite array_index_err by auto. reflexivity.
Qed.
Lemma multiplicity_sum : forall n arr x, Forall (in_range n) arr -> total n (fun i => multiplicity n arr i * x i) = chosen_ones n arr x.
Proof.
  intros n arr x. induction 1 as [|z arr H1 H2 IH]; cbn [chosen_ones Rsum multiplicity].
  - rewrite (total_ext n _ (fun _ => 0)) by (intros; unfold multiplicity; cbn; lra). apply total_zero.
  - rewrite (total_ext n _ (fun i => (if (i =? position n z)%nat then x i else 0) + multiplicity n arr i * x i)).
    + rewrite total_plus, (total_delta n (position n z) x) by (apply position_lt; auto). unfold chosen_ones in *. cbn [Rsum]. rewrite IH. lra.
    + intros i Hi. unfold multiplicity. cbn [Rsum]. destruct (i =? position n z)%nat; lra.
Qed.
Lemma square_sum : forall n a, total n a * total n a = total n (fun i => a i * a i) + pairs n (fun i j => 2 * (a i * a j)).
Proof.
  intros. rewrite <- (total_scal n (total n a) a). rewrite (total_ext n _ (fun i => total n (fun j => a i * a j))).
  - rewrite total_pairs. f_equal. apply pairs_ext. intros. lra.
  - intros i Hi. rewrite total_scal. lra.
Qed.
Lemma sel_energy : forall n k arr m x, bits n x -> sel n k arr = Ok m ->
  qubo_energy n m x = (ones n x - IZR k) * (ones n x - IZR k) - IZR k * IZR k - / 2 * chosen_ones n arr x.
Proof.
  intros n k arr m x B H. unfold sel in H. destruct (count_positions n arr (fun _ => 0)) as [s|e] eqn:C; cbn [bind] in H; [|discriminate].
  inversion H. subst m. clear H.
  assert (F : Forall (in_range n) arr).
  { apply Forall_forall. intros z I. destruct (in_range_dec n z) as [R|R]; auto. rewrite count_positions_err in C; [discriminate|].
    intros F. rewrite Forall_forall in F. exact (R (F z I)). }
  destruct (count_positions_ok n arr (fun _ => 0) F) as [s' [C1 C2]]. rewrite C in C1. inversion C1. subst s'. clear C1.
  unfold qubo_energy, msub, madd, mtimes, diag, triu. rewrite total_pairs.
  rewrite (total_ext n _ (fun i => (1 - 2 * IZR k) * x i - / 2 * (multiplicity n arr i * x i))).
  - rewrite total_minus, !total_scal, multiplicity_sum by auto.
    rewrite (pairs_ext n _ (fun i j => 2 * (x i * x j))).
    + pose proof (square_sum n x) as SQ. rewrite (total_ext n (fun i => x i * x i) x) in SQ by (intros i Hi; destruct (B i Hi) as [-> | ->]; lra).
      unfold ones. lra.
    + intros i j Hij. destruct (Nat.eqb_spec i j), (Nat.eqb_spec j i), (Nat.leb_spec (i + 1) j), (Nat.leb_spec (j + 1) i); try lia. lra.
  - intros i Hi. rewrite Nat.eqb_refl, C2. destruct (Nat.leb_spec (i + 1) i); [lia|]. destruct (B i Hi) as [-> | ->]; lra.
Qed.
Lemma sel_ok : forall n k arr, Forall (in_range n) arr -> exists m, sel n k arr = Ok m.
Proof. intros n k arr F. unfold sel. destruct (count_positions_ok n arr (fun _ => 0) F) as [s [-> _]]. cbn [bind]. eauto. Qed.
Lemma sel_err : forall n k arr, ~ Forall (in_range n) arr -> sel n k arr = Err IndexError.
Proof. intros n k arr F. unfold sel. rewrite count_positions_err by auto. reflexivity. Qed.

(** numbers of ones are whole *)
Lemma total_nat : forall n x, bits n x -> exists k : nat, (k <= n)%nat /\ total n x = INR k.
Proof.
  induction n as [|n IH]; intros x B; [exists 0%nat; split; auto|]. destruct (IH x) as [k [H1 H2]]; [intros i Hi; apply B; lia|].
  rewrite total_S, H2. destruct (B n) as [-> | ->]; [lia|exists k|exists (S k)]; (split; [lia|]); rewrite ?S_INR; lra.
Qed.
Definition put_at (x : nat -> R) (i : nat) (v : R) : nat -> R := fun j => if (j =? i)%nat then v else x j.
Lemma put_at_bits : forall n x i v, bits n x -> v = 0 \/ v = 1 -> bits n (put_at x i v).
Proof. intros n x i v B V j Hj. unfold put_at. destruct (j =? i)%nat; auto. Qed.
Lemma put_at_total : forall n x i v, (i < n)%nat -> total n (put_at x i v) = total n x + (v - x i).
Proof.
  intros n x i v H. rewrite <- (total_delta n i (fun j => v - x j)) by auto. rewrite <- total_plus. apply total_ext. intros j Hj. unfold put_at.
  destruct (j =? i)%nat; lra.
Qed.
Lemma some_one : forall n x, bits n x -> 0 < total n x -> exists i, (i < n)%nat /\ x i = 1.
Proof.
  induction n as [|n IH]; intros x B H; [unfold total in H; cbn in H; lra|]. rewrite total_S in H. destruct (B n) as [E|E]; [lia| |exists n; auto].
  destruct (IH x) as [i [H1 H2]]; [intros i Hi; apply B; lia|lra|]. exists i. auto.
Qed.
Lemma some_zero : forall n x, bits n x -> total n x < INR n -> exists i, (i < n)%nat /\ x i = 0.
Proof.
  induction n as [|n IH]; intros x B H; [unfold total in H; cbn in H; lra|]. rewrite total_S, S_INR in H. destruct (B n) as [E|E]; [lia|exists n; auto|].
  destruct (IH x) as [i [H1 H2]]; [intros i Hi; apply B; lia|lra|]. exists i. auto.
Qed.
Lemma chosen_put : forall n arr x i v, NoDup (map (position n) arr) -> 0 <= x i <= 1 -> 0 <= v <= 1 ->
  chosen_ones n arr x - (if Rlt_dec v (x i) then 1 else 0) <= chosen_ones n arr (put_at x i v).
Proof.
  intros n arr x i v D Hx Hv. set (t := if Rlt_dec v (x i) then 1 else 0).
  assert (N : forall arr, ~ In i (map (position n) arr) -> chosen_ones n arr (put_at x i v) = chosen_ones n arr x).
  { induction arr0 as [|z a IH]; intros H; [reflexivity|]. unfold chosen_ones in *. cbn [Rsum]. cbn [map] in H. rewrite IH by (intros I; apply H; right; auto). f_equal.
    unfold put_at. destruct (Nat.eqb_spec (position n z) i); auto. exfalso. apply H. left. auto. }
  assert (T : 0 <= t) by (subst t; destruct (Rlt_dec _ _); lra).
  induction arr as [|z a IH]; [unfold chosen_ones; cbn; lra|]. cbn [map] in D. inversion D as [|? ? D1 D2]. subst. unfold chosen_ones. cbn [Rsum].
  fold (chosen_ones n a x). fold (chosen_ones n a (put_at x i v)).
  unfold put_at at 1. destruct (Nat.eqb_spec (position n z) i) as [E|E].
  - subst i. rewrite N by auto. subst t. destruct (Rlt_dec v _); lra.
  - specialize (IH D2). lra.
Qed.
(** one step towards k ones does not cost *)
Lemma sel_step : forall n k arr m x, (0 <= k <= Z.of_nat n)%Z -> NoDup (map (position n) arr) -> sel n k arr = Ok m -> bits n x -> ones n x <> IZR k ->
  exists y, bits n y /\ qubo_energy n m y < qubo_energy n m x /\ Rabs (ones n y - IZR k) = Rabs (ones n x - IZR k) - 1.
Proof.
  intros n k arr m x K D H B N. destruct (total_nat n x B) as [c [C1 C2]]. fold (ones n x) in C2.
  assert (Ci : ones n x = IZR (Z.of_nat c)) by (rewrite C2; apply INR_IZR_INZ). rewrite Ci in N.
  assert (Cc : (Z.of_nat c < k \/ k < Z.of_nat c)%Z) by (destruct (Z.lt_trichotomy (Z.of_nat c) k) as [|[E|]]; auto; exfalso; apply N; rewrite E; auto).
  destruct Cc as [Cc|Cc].
  - assert (L : IZR (Z.of_nat c) + 1 <= IZR k) by (rewrite <- plus_IZR; apply IZR_le; lia).
    destruct (some_zero n x B) as [i [I1 I2]]; [fold (ones n x); rewrite Ci, INR_IZR_INZ; apply IZR_lt; lia|].
    exists (put_at x i 1). assert (BY : bits n (put_at x i 1)) by (apply put_at_bits; auto). split; auto.
    assert (O : ones n (put_at x i 1) = ones n x + 1) by (unfold ones; rewrite put_at_total by auto; lra).
    rewrite !(sel_energy n k arr m) by auto. rewrite O, Ci. pose proof (chosen_put n arr x i 1 D ltac:(lra) ltac:(lra)) as P.
    destruct (Rlt_dec 1 (x i)); [lra|]. split; [nra|]. rewrite !Rabs_left1; lra.
  - assert (L : IZR k + 1 <= IZR (Z.of_nat c)) by (rewrite <- plus_IZR; apply IZR_le; lia).
    assert (K0 : 0 <= IZR k) by (apply IZR_le; lia).
    destruct (some_one n x B) as [i [I1 I2]]; [fold (ones n x); lra|].
    exists (put_at x i 0). assert (BY : bits n (put_at x i 0)) by (apply put_at_bits; auto). split; auto.
    assert (O : ones n (put_at x i 0) = ones n x - 1) by (unfold ones; rewrite put_at_total by auto; lra).
    rewrite !(sel_energy n k arr m) by auto. rewrite O, Ci. pose proof (chosen_put n arr x i 0 D ltac:(lra) ltac:(lra)) as P.
    assert (P' : chosen_ones n arr x - 1 <= chosen_ones n arr (put_at x i 0)) by (destruct (Rlt_dec 0 (x i)); lra).
    split; [nra|]. rewrite !Rabs_right; lra.
Qed.
Lemma sel_reach : forall n k arr m, (0 <= k <= Z.of_nat n)%Z -> NoDup (map (position n) arr) -> sel n k arr = Ok m ->
  forall c x, bits n x -> Rabs (ones n x - IZR k) <= INR c -> exists y, bits n y /\ ones n y = IZR k /\ qubo_energy n m y <= qubo_energy n m x.
Proof.
  intros n k arr m K D H. induction c as [|c IH]; intros x B L.
  - exists x. split; auto. cbn in L. split; [|lra]. pose proof (Rabs_pos (ones n x - IZR k)). assert (E : Rabs (ones n x - IZR k) = 0) by lra.
    destruct (Req_dec (ones n x - IZR k) 0); [lra|]. apply Rabs_no_R0 in H1. lra.
  - destruct (Req_dec (ones n x) (IZR k)) as [E|E]; [exists x; split; auto; split; auto; lra|].
    destruct (sel_step n k arr m x K D H B E) as [y [Y1 [Y2 Y3]]]. destruct (IH y Y1) as [z [Z1 [Z2 Z3]]]; [rewrite S_INR in L; lra|].
    exists z. split; auto. split; auto. lra.
Qed.
Lemma sel_minimal : forall n k arr m, (0 <= k <= Z.of_nat n)%Z -> NoDup (map (position n) arr) -> sel n k arr = Ok m ->
  forall x, bits n x -> (minimal n (qubo_energy n m) x <-> ones n x = IZR k /\ forall y, bits n y -> ones n y = IZR k -> chosen_ones n arr y <= chosen_ones n arr x).
Proof.
  intros n k arr m K D H x B. split.
  - intros [_ M]. assert (E : ones n x = IZR k).
    { destruct (Req_dec (ones n x) (IZR k)) as [E|E]; auto. destruct (sel_step n k arr m x K D H B E) as [y [Y1 [Y2 Y3]]]. specialize (M y Y1). lra. }
    split; auto. intros y BY OY. specialize (M y BY). rewrite !(sel_energy n k arr m) in M by auto. rewrite E, OY in M. lra.
  - intros [E M]. split; auto. intros y BY. 
    assert (Hc : Rabs (ones n y - IZR k) <= INR n).
    { destruct (total_nat n y BY) as [c [C1 C2]]. unfold ones. rewrite C2, !INR_IZR_INZ. rewrite <- minus_IZR, <- abs_IZR. apply IZR_le. lia. }
    destruct (sel_reach n k arr m K D H n y BY Hc) as [z [Z1 [Z2 Z3]]]. apply Rle_trans with (qubo_energy n m z); auto.
    specialize (M z Z1 Z2). rewrite !(sel_energy n k arr m) by auto. rewrite E, Z2. lra.
Qed.
Lemma sel_minimal_plain : forall n k m, (0 <= k <= Z.of_nat n)%Z -> sel n k [] = Ok m ->
  forall x, bits n x -> (minimal n (qubo_energy n m) x <-> ones n x = IZR k).
Proof.
  intros n k m K H x B. rewrite (sel_minimal n k [] m K (NoDup_nil _) H x B). split; [intros [E _]; auto|]. intros E. split; auto. intros. unfold chosen_ones. cbn. lra.
Qed.
Lemma mul_energy : forall n a b x, qubo_energy n (mul a b) x + pairs n (fun i j => (a j * b i - a i * b j) * x i * x j) = dot n a x * dot n b x.
Proof.
  intros. unfold qubo_energy, mul, madd, triu, outer, dot. rewrite total_pairs.
  rewrite <- (total_scal n (total n (fun i => a i * x i))). rewrite (total_ext n (fun i => total n (fun i0 => a i0 * x i0) * (b i * x i)) (fun i => total n (fun j => (a j * x j) * (b i * x i)))).
  2: { intros i Hi. rewrite Rmult_comm, <- total_scal. apply total_ext. intros. lra. }
  rewrite total_pairs. rewrite Rplus_assoc, <- pairs_plus. f_equal.
  - apply total_ext. intros i Hi. destruct (Nat.leb_spec (i + 0) i), (Nat.leb_spec (i + 1) i); try lia. lra.
  - apply pairs_ext. intros i j Hij. destruct (Nat.leb_spec (i + 0) j), (Nat.leb_spec (i + 1) j), (Nat.leb_spec (j + 0) i), (Nat.leb_spec (j + 1) i); try lia. lra.
Qed.
Lemma mul_proportional : forall n a b x, (forall i j, (i < j < n)%nat -> a i * b j = a j * b i) -> qubo_energy n (mul a b) x = dot n a x * dot n b x.
Proof.
  intros n a b x H. rewrite <- mul_energy. rewrite (pairs_ext n _ (fun _ _ => 0 * 0)) by (intros i j Hij; rewrite (H i j Hij); lra).
  rewrite pairs_scal. lra.
Qed.
Lemma sqr_energy : forall n a x, qubo_energy n (sqr a) x = dot n a x * dot n a x.
Proof. intros. apply (mul_proportional n a a). intros. lra. Qed.

(** net *)
Definition place (p : Z * Z) : nat * nat := (Z.to_nat (fst (sort_pair p)), Z.to_nat (snd (sort_pair p))).
Lemma sort_pair_cases : forall p, sort_pair p = p \/ sort_pair p = (snd p, fst p).
Proof. intros p. unfold sort_pair. destruct (_ <=? _)%Z; auto. Qed.
Lemma natural_sort : forall n p, natural n p -> natural n (sort_pair p).
Proof. intros n p [H1 H2]. destruct (sort_pair_cases p) as [-> | ->]; split; auto. Qed.
Lemma natural_index : forall n z, (0 <= z < Z.of_nat n)%Z -> array_index n z = Ok (Z.to_nat z).
Proof.
  intros n z H. rewrite array_index_ok by (unfold in_range; lia). unfold position. destruct (Z.ltb_spec z 0); [lia|]. auto.
Qed.
Lemma net_loop_ok : forall n l m, Forall (natural n) l -> NoDup (map place l) ->
  exists m', net_loop n l m = Ok m' /\
    forall i j, m' i j = if existsb (fun p => (fst (place p) =? i)%nat && (snd (place p) =? j)%nat) l then 1 else m i j.
Proof.
  intros n. induction l as [|p l IH]; intros m F D; cbn [net_loop]; [exists m; split; auto|].
  inversion F as [|? ? F1 F2]. inversion D as [|? ? D1 D2]. subst. apply natural_sort in F1 as [N1 N2]. rewrite !natural_index by auto. cbn [bind].
  destruct (IH (upd m (Z.to_nat (fst (sort_pair p))) (Z.to_nat (snd (sort_pair p))) 1) F2 D2) as [m' [E1 E2]].
  exists m'. split; auto. intros i j. rewrite E2. cbn [existsb]. unfold upd. unfold place at 2 3. cbn [fst snd].
  rewrite (Nat.eqb_sym i), (Nat.eqb_sym j). destruct (existsb _ l); rewrite ?orb_true_r, ?orb_false_r; auto.
Qed.
Lemma delta2 : forall n a b x, (a < n)%nat -> (b < n)%nat ->
  total n (fun i => total n (fun j => (if (a =? i)%nat && (b =? j)%nat then 1 else 0) * x i * x j)) = x a * x b.
Proof.
  intros n a b x Ha Hb. rewrite <- (total_delta n a (fun i => x i * x b)) by auto. apply total_ext. intros i Hi. rewrite (Nat.eqb_sym a i).
  destruct (i =? a)%nat; cbn [andb].
  - rewrite <- (total_delta n b (fun j => x i * x j)) by auto. apply total_ext. intros j Hj. rewrite (Nat.eqb_sym b j). destruct (j =? b)%nat; lra.
  - rewrite (total_ext n _ (fun _ => 0)); [apply total_zero|]. intros. lra.
Qed.
Lemma net_sum : forall n l x, Forall (natural n) l -> NoDup (map place l) ->
  qubo_energy n (fun i j => if existsb (fun p => (fst (place p) =? i)%nat && (snd (place p) =? j)%nat) l then 1 else 0) x = connected l x.
Proof.
  intros n. induction l as [|p l IH]; intros x F D; cbn [connected existsb].
  - unfold qubo_energy. rewrite (total_ext n _ (fun _ => 0)); [rewrite total_zero; reflexivity|]. intros. rewrite (total_ext n _ (fun _ => 0)); [apply total_zero|]. intros. lra.
  - inversion F as [|? ? F1 F2]. inversion D as [|? ? D1 D2]. subst. unfold connected. cbn [Rsum]. fold (connected l x). rewrite <- IH by auto.
    pose proof (natural_sort n p F1) as [N1 N2].
    replace (x (Z.to_nat (fst p)) * x (Z.to_nat (snd p))) with (x (fst (place p)) * x (snd (place p))).
    2: { unfold place. cbn [fst snd]. destruct (sort_pair_cases p) as [-> | ->]; cbn [fst snd]; lra. }
    rewrite <- (delta2 n (fst (place p)) (snd (place p)) x) by (unfold place; cbn [fst snd]; lia).
    unfold qubo_energy. rewrite <- total_plus. apply total_ext. intros i Hi. rewrite <- total_plus. apply total_ext. intros j Hj.
    destruct ((fst (place p) =? i)%nat && (snd (place p) =? j)%nat) eqn:P; cbn [orb]; [|lra].
    destruct (existsb _ l) eqn:X; [|lra]. exfalso. apply D1. apply existsb_exists in X as [q [I X]]. apply in_map_iff. exists q. split; auto.
    apply andb_true_iff in P as [P1 P2]. apply andb_true_iff in X as [X1 X2]. apply Nat.eqb_eq in P1, P2, X1, X2.
    destruct (place p), (place q). cbn [fst snd] in *. subst. auto.
Qed.
Lemma place_same : forall n p q, natural n p -> natural n q -> place p = place q -> same_pair p q.
Proof.
  intros n [a b] [c d] [Ha Hb] [Hc Hd] H. unfold place, sort_pair, same_pair in *. cbn [fst snd] in *.
  destruct (Z.leb_spec a b), (Z.leb_spec c d); cbn [fst snd] in *; inversion H as [[E1 E2]]; apply Z2Nat.inj in E1, E2; try lia; subst; auto.
Qed.
Lemma net_energy : forall n l, Forall (natural n) l -> ForallOrdPairs (fun p q => ~ same_pair p q) l ->
  exists m, net n l = Ok (m, map sort_pair l) /\ forall x, qubo_energy n m x = connected l x.
Proof.
  intros n l F O.
  assert (D : NoDup (map place l)).
  { induction O as [|p l Hp O IH]; [constructor|]. inversion F as [|? ? F1 F2]. subst. cbn [map]. constructor; auto.
    intros I. apply in_map_iff in I as [q [E I]]. rewrite Forall_forall in Hp, F2. apply (Hp q I). apply (place_same n); auto. }
  destruct (net_loop_ok n l zeros F D) as [m [E1 E2]]. exists m. unfold net. rewrite E1. cbn [bind]. split; auto. intros x.
  rewrite <- (net_sum n l x F D). unfold qubo_energy. apply total_ext. intros i Hi. apply total_ext. intros j Hj. rewrite E2. reflexivity.
Qed.
Lemma net_err : forall n l, ~ Forall (fun p => in_range n (fst p) /\ in_range n (snd p)) l -> net n l = Err IndexError.
Proof.
  intros n l H. unfold net. assert (E : forall m, net_loop n l m = Err IndexError); [|rewrite E; reflexivity].
  induction l as [|p l IH]; intros m; [exfalso; apply H; constructor|]. cbn [net_loop].
  assert (W : (in_range n (fst p) /\ in_range n (snd p)) <-> (in_range n (fst (sort_pair p)) /\ in_range n (snd (sort_pair p)))) by (destruct (sort_pair_cases p) as [-> | ->]; cbn [fst snd]; tauto).
  destruct (in_range_dec n (fst (sort_pair p))) as [R1|R1]; [|rewrite array_index_err by auto; auto]. rewrite array_index_ok by auto. cbn [bind].
  destruct (in_range_dec n (snd (sort_pair p))) as [R2|R2]; [|rewrite array_index_err by auto; auto]. rewrite array_index_ok by auto. cbn [bind].
  apply IH. intros F. apply H. constructor; auto. apply W. auto.
Qed.

(** ** pauli *)
Lemma v_add_distinct : forall u v, distinct (v_expr (v_add u v)).
Proof.
  assert (N : forall x, distinct (from_number x)) by (intros x; apply NoDup_distinct; exact (proj1 (neat_expr_of (VNum (NumC x)) I))).
  intros u v. destruct u, v; cbn [v_add v_expr]; try apply NoDup_distinct, expr_add_NoDup. apply N.
Qed.
Lemma num_distinct : forall x, distinct (v_expr (VNum x)).
Proof. intros x. apply NoDup_distinct. exact (proj1 (neat_expr_of (VNum x) I)). Qed.
Lemma qubo_bit_op : forall i, same_op (val_op (qubo_bit i)) (diag_op (fun x => bit_value x i)).
Proof.
  intros i psi x. unfold qubo_bit. rewrite v_sub_op by apply num_distinct. unfold op_sub. rewrite v_mul_op. unfold op_mul, diag_op, bit_value.
  cbn [val_op nval lmat]. unfold op_scl, op_one, ap1, mZ, mk2. destruct (bit x i) eqn:B.
  - replace (setb x i true) with x by (symmetry; apply setb_same; auto). ceq; field.
  - replace (setb x i false) with x by (symmetry; apply setb_same; auto). ceq; field.
Qed.
Lemma diag_mul : forall d e, op_mul (diag_op d) (diag_op e) = diag_op (fun x => d x * e x).
Proof. intros. apply op_eq. intros psi x. unfold op_mul, diag_op. rewrite RtoC_mul. ring. Qed.
Lemma diag_add : forall d e, op_add (diag_op d) (diag_op e) = diag_op (fun x => d x + e x).
Proof. intros. apply op_eq. intros psi x. unfold op_add, diag_op. rewrite RtoC_add. ring. Qed.
Lemma num_diag : forall r, val_op (VNum (NumR r)) = diag_op (fun _ => r).
Proof. reflexivity. Qed.
Lemma pauli_inner : forall Q i k a h d, distinct (v_expr h) -> val_op h = diag_op d ->
  let h' := fold_left (fun h j => v_add h (v_mul (v_mul (qubo_bit i) (qubo_bit j)) (VNum (NumR (Q i j + Q j i))))) (seq a k) h in
  distinct (v_expr h') /\ val_op h' = diag_op (fun x => d x + Rsum (fun j => (Q i j + Q j i) * bit_value x i * bit_value x j) (seq a k)).
Proof.
  intros Q i. induction k as [|k IH]; intros a h d D V; cbn [seq fold_left].
  - split; auto. rewrite V. f_equal. apply functional_extensionality. intros x. cbn. lra.
  - cbv zeta. destruct (IH (S a) (v_add h (v_mul (v_mul (qubo_bit i) (qubo_bit a)) (VNum (NumR (Q i a + Q a i)))))
      (fun x => d x + bit_value x i * bit_value x a * (Q i a + Q a i)) (v_add_distinct _ _)) as [H1 H2].
    + rewrite (op_eq _ _ (v_add_op _ _ D)), V, (op_eq _ _ (v_mul_op _ _)), (op_eq _ _ (v_mul_op _ _)), !(op_eq _ _ (qubo_bit_op _)), num_diag, !diag_mul, diag_add. reflexivity.
    + split; auto. rewrite H2. f_equal. apply functional_extensionality. intros x. cbn [Rsum]. lra.
Qed.
Lemma pauli_outer : forall n Q k a h d, (a + k <= n)%nat -> distinct (v_expr h) -> val_op h = diag_op d ->
  val_op (fold_left (fun h i => for_range (i + 1) n (v_add h (v_mul (qubo_bit i) (VNum (NumR (Q i i))))) (fun j h =>
      v_add h (v_mul (v_mul (qubo_bit i) (qubo_bit j)) (VNum (NumR (Q i j + Q j i)))))) (seq a k) h) =
  diag_op (fun x => d x + Rsum (fun i => Q i i * bit_value x i + total n (fun j => if (i <? j)%nat then (Q i j + Q j i) * bit_value x i * bit_value x j else 0)) (seq a k)).
Proof.
  intros n Q. induction k as [|k IH]; intros a h d L D V; cbn [seq fold_left].
  - rewrite V. f_equal. apply functional_extensionality. intros x. cbn. lra.
  - destruct (pauli_inner Q a (n - (a + 1)) (a + 1) (v_add h (v_mul (qubo_bit a) (VNum (NumR (Q a a))))) (fun x => d x + bit_value x a * Q a a) (v_add_distinct _ _)) as [H1 H2].
    + rewrite (op_eq _ _ (v_add_op _ _ D)), V, (op_eq _ _ (v_mul_op _ _)), (op_eq _ _ (qubo_bit_op _)), num_diag, diag_mul, diag_add. reflexivity.
    + unfold for_range at 2. erewrite IH; [|lia|exact H1|exact H2]. f_equal. apply functional_extensionality. intros x. cbn [Rsum].
      rewrite (tail_total n a) by lia. lra.
Qed.
Lemma pauli_energy : forall n Q, same_op (val_op (wq_pauli n Q)) (diag_op (fun x => qubo_energy n Q (bit_value x))).
Proof.
  intros n Q psi x. unfold wq_pauli. unfold for_range at 1. rewrite Nat.sub_0_r.
  rewrite (pauli_outer n Q n 0 _ (fun _ => 0)); [|lia|apply num_distinct|apply num_diag]. unfold diag_op. f_equal. f_equal.
  rewrite Rplus_0_l. unfold qubo_energy. rewrite total_pairs. unfold pairs. rewrite <- total_plus. apply total_ext. intros i Hi. f_equal.
  - unfold bit_value. destruct (bit x i); lra.
  - apply total_ext. intros j Hj. destruct (i <? j)%nat; lra.
Qed.

(** ** Counterexamples and cases *)
Definition below : mat := fun i j => if (i =? 1)%nat && (j =? 0)%nat then 1 else 0.
Lemma lower_ignored : exists n Q q, spins n q /\ Ei n q (fst (qi n Q)) + snd (qi n Q) <> qubo_energy n Q (fun i => bit_of (q i)).
Proof.
  exists 2%nat, below, (fun _ => 1). assert (S : spins 2 (fun _ => 1)) by (intros i _; auto). split; auto.
  rewrite objective_energy by auto. unfold objective, qubo_energy, total, upper_part, below, bit_of. cbn. lra.
Qed.
Lemma run_lower : forall choices sites draws, (forall k, choices k = true) ->
  exists E, opt_run choices sites draws 1 2 below 0 1 0 1 false 1 = Some (Single [E] [1%Z; 1%Z]) /\
    E <> qubo_energy 2 below (fun i => IZR (nth i [1%Z; 1%Z] 0%Z)).
Proof.
  intros choices sites draws H. unfold opt_run. destruct (qi 2 below) as [J ep] eqn:E. cbn [shots_loop cooling].
  destruct (Rlt_dec 1 0) as [L|_]; [lra|]. set (q := fun i => if choices (0 + i)%nat then 1%Z else (-1)%Z).
  exists (Ei 2 (real_spins q) J + ep). split.
  - do 2 f_equal. unfold to_bits, q. cbn [seq map]. rewrite !H. reflexivity.
  - assert (S : spins 2 (real_spins q)) by (intros i _; unfold real_spins, q; rewrite H; auto).
    pose proof (objective_energy 2 below (real_spins q) S) as O. rewrite E in O. cbn [fst snd] in O. rewrite O.
    unfold objective, qubo_energy, total, upper_part, below, bit_of, real_spins, q. cbn. rewrite !H. cbn. lra.
Qed.
Lemma mul_refuted : exists n a b x, bits n x /\ qubo_energy n (mul a b) x <> dot n a x * dot n b x.
Proof.
  exists 2%nat, (fun i => if (i =? 0)%nat then 1 else 0), (fun i => if (i =? 1)%nat then 1 else 0), (fun _ => 1). split; [intros i _; auto|].
  unfold qubo_energy, dot, total, mul, madd, triu, outer. cbn. lra.
Qed.
Lemma sel_duplicates : exists n k arr m x, (0 <= k <= Z.of_nat n)%Z /\ Forall (in_range n) arr /\ sel n k arr = Ok m /\
  minimal n (qubo_energy n m) x /\ ones n x <> IZR k.
Proof.
  exists 2%nat, 1%Z, [0;0;0;1;1;1]%Z. assert (F : Forall (in_range 2) [0;0;0;1;1;1]%Z) by (repeat (apply Forall_cons; [unfold in_range; lia|]); constructor).
  destruct (sel_ok 2 1 _ F) as [m E]. exists m, (fun _ => 1). split; [lia|]. split; auto. split; auto.
  assert (B : bits 2 (fun _ => 1)) by (intros i _; auto). split; [|unfold ones, total; cbn; lra]. split; auto.
  intros y BY. rewrite !(sel_energy 2 1 _ m) by eauto.
  assert (P : forall z, chosen_ones 2 [0;0;0;1;1;1]%Z z = 3 * z 0%nat + 3 * z 1%nat).
  { intros z. unfold chosen_ones. cbn [Rsum]. change (position 2 0) with 0%nat. change (position 2 1) with 1%nat. lra. }
  rewrite !P. unfold ones, total. cbn [seq Rsum]. destruct (BY 0%nat ltac:(lia)) as [-> | ->], (BY 1%nat ltac:(lia)) as [-> | ->]; lra.
Qed.
Lemma sel_too_many : exists n k m x, (Z.of_nat n < k)%Z /\ sel n k [] = Ok m /\ minimal n (qubo_energy n m) x /\ ones n x <> IZR k.
Proof.
  exists 1%nat, 2%Z. destruct (sel_ok 1 2 []) as [m E]; [constructor|]. exists m, (fun _ => 1). split; [lia|]. split; auto.
  assert (B : bits 1 (fun _ => 1)) by (intros i _; auto). split; [|unfold ones, total; cbn; lra]. split; auto.
  intros y BY. rewrite !(sel_energy 1 2 _ m) by eauto. unfold ones, total, chosen_ones. cbn. destruct (BY 0%nat) as [-> | ->]; try lia; lra.
Qed.
Lemma net_duplicates : exists n l m l' x, Forall (natural n) l /\ bits n x /\ net n l = Ok (m, l') /\ qubo_energy n m x <> connected l x /\ l' <> l.
Proof.
  exists 2%nat, [(0, 1); (1, 0)]%Z, (upd (upd zeros 0 1 1) 0 1 1), [(0, 1); (0, 1)]%Z, (fun _ => 1). split; [repeat (apply Forall_cons; [unfold natural; cbn [fst snd]; lia|]); constructor|].
  split; [intros i _; auto|]. split; [reflexivity|]. split; [|discriminate].
  unfold qubo_energy, connected, total, upd, zeros. cbn [seq Rsum Nat.eqb andb]. lra.
Qed.
Lemma pauli_case : qubo_energy 2 (fun i j => INR (2 * i + j + 1)) (bit_value 3) = 10 /\ qubo_energy 2 (fun i j => INR (2 * i + j + 1)) (bit_value 2) = 4.
Proof. unfold qubo_energy, total, bit_value. cbn. lra. Qed.
Lemma upper_case : upper_triangular 3 (upper_part (fun i j => INR (i + j))) /\ spins 3 (fun i => if Nat.even i then 1 else -1).
Proof. split; [apply upper_part_upper|]. intros i _. destruct (Nat.even i); auto. Qed.
Lemma run_last : forall choices sites draws fuel n Q Ts r ite shots fast target o, (forall k, (sites k < n)%nat) -> upper_triangular n Q ->
  opt_run choices sites draws fuel n Q Ts r ite shots fast target = Some o ->
  let good := fun E b => length b = n /\ Forall (fun z => z = 0%Z \/ z = 1%Z) b /\ last E 0 = qubo_energy n Q (fun i => IZR (nth i b 0%Z)) in
  match o with
  | Single E b => shots = 1%nat /\ good E b
  | Several Es bs => shots <> 1%nat /\ length Es = shots /\ Forall2 good Es bs
  end.
Proof.
  intros choices sites draws fuel n Q Ts r ite shots fast target o HS U H good. apply run_anneals in H as [l [A M]]; auto.
  pose proof (anneals_length _ _ _ _ _ _ _ _ _ _ _ _ _ _ A) as L. apply anneals_last in A.
  assert (G : Forall (fun p => good (fst p) (snd p)) l).
  { eapply Forall_impl; [|exact A]. intros p [H1 [H2 H3]]. unfold good. split; auto. split; auto. rewrite H3. apply upper_part_id. auto. }
  destruct o as [E b|Es bs].
  - destruct M as [-> ->]. split; auto. inversion G. auto.
  - destruct M as [N [-> ->]]. split; auto. split; [rewrite map_length; auto|]. clear - G. induction G; cbn; constructor; auto.
Qed.
Lemma run_lower_ex : forall choices sites draws, (forall k, choices k = true) ->
  exists Q E, opt_run choices sites draws 1 2 Q 0 1 0 1 false 1 = Some (Single [E] [1%Z; 1%Z]) /\
    E <> qubo_energy 2 Q (fun i => IZR (nth i [1%Z; 1%Z] 0%Z)).
Proof. intros. exists below. apply run_lower. auto. Qed.
Lemma run_case : exists fuel o, opt_run Nat.even (fun k => k mod 3)%nat (fun k => / INR (k + 2)) fuel 3 (upper_part (fun i j => INR (i + j))) 5 (19 / 20) 1000 2 false (2 / 100) = Some o.
Proof.
  destruct (run_ends Nat.even (fun k => k mod 3)%nat (fun k => / INR (k + 2)) 3 (upper_part (fun i j => INR (i + j))) 5 (19 / 20) 1000 2 false (2 / 100)) as [f H]; [lra|lra|].
  exists f. destruct (opt_run _ _ _ _ _ _ _ _ _ _ _ _) as [o|]; [exists o; auto|contradiction].
Qed.
Lemma sel_answers : forall n k arr, (Forall (in_range n) arr -> exists m, sel n k arr = Ok m) /\ (~ Forall (in_range n) arr -> sel n k arr = Err IndexError).
Proof. intros. split; [apply sel_ok|apply sel_err]. Qed.
Lemma mul_energy_eq : forall n a b x,
  qubo_energy n (mul a b) x = dot n a x * dot n b x - total n (fun i => total n (fun j => if (i <? j)%nat then (a j * b i - a i * b j) * x i * x j else 0)).
Proof. intros. rewrite <- mul_energy. unfold pairs. lra. Qed.
Lemma net_counts : forall n l, Forall (natural n) l -> ForallOrdPairs (fun p q => ~ same_pair p q) l ->
  exists m l', net n l = Ok (m, l') /\ Forall2 (fun p q => same_pair p q /\ (fst q <= snd q)%Z) l l' /\ forall x, qubo_energy n m x = connected l x.
Proof.
  intros n l F O. destruct (net_energy n l F O) as [m [E1 E2]]. exists m, (map sort_pair l). split; auto. split; auto.
  clear. induction l as [|p l IH]; cbn [map]; constructor; auto. unfold same_pair, sort_pair. destruct p as [a b]. cbn [fst snd].
  destruct (Z.leb_spec a b); cbn [fst snd]; split; auto; lia.
Qed.
Lemma builders_case : NoDup (map (position 5) [0; -3]%Z) /\ Forall (in_range 5) [0; -3]%Z /\
  Forall (natural 4) [(0, 1); (2, 1)]%Z /\ ForallOrdPairs (fun p q => ~ same_pair p q) [(0, 1); (2, 1)]%Z.
Proof.
  split; [cbn [map]; change (position 5 0) with 0%nat; change (position 5 (-3)) with 2%nat; repeat constructor; cbn; intuition lia|].
  split; [repeat (apply Forall_cons; [unfold in_range; lia|]); constructor|]. split; [repeat (apply Forall_cons; [unfold natural; cbn [fst snd]; lia|]); constructor|].
  repeat constructor. unfold same_pair. cbn. intros [H|H]; discriminate.
Qed.
