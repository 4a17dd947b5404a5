(** Kronecker products of arrays and the data of terms. *)
From Coq Require Import List Arith ZArith Bool Reals Lia Lra FunctionalExtensionality Permutation.
Import ListNotations.
From Verif Require Import Base Cplx Bits SpecQuantum ModelPauli SpecPauli ProofPauli ProofPauliTrace ProofEvolution ModelPauliMatrix SpecPauliMatrix.
Local Open Scope nat_scope.

(** ** Kronecker products *)
Arguments kron_1d : simpl never.
Definition cscale (c : C) (l : list C) : list C := map (fun z => (z * c)%C) l.
Definition krons (l : list (list C)) : list C := fold_right kron_1d [C1] l.
Lemma kron_one_l : forall b, kron_1d [C1] b = b.
Proof.
  intros. unfold kron_1d. simpl. rewrite app_nil_r. transitivity (map (fun y : C => y) b); [|apply map_id]. apply map_ext. intros. ring.
Qed.
Lemma kron_one_r : forall a, kron_1d a [C1] = a.
Proof. induction a as [|x a IH]; auto. change (kron_1d (x :: a) [C1]) with ((x * C1)%C :: kron_1d a [C1]). rewrite IH. f_equal. ring. Qed.
Lemma kron_cons : forall x a b, kron_1d (x :: a) b = map (fun y => (x * y)%C) b ++ kron_1d a b. Proof. auto. Qed.
Lemma kron_app : forall a b c, kron_1d (a ++ b) c = kron_1d a c ++ kron_1d b c. Proof. intros. apply flat_map_app. Qed.
Lemma kron_left : forall x b c, kron_1d (map (fun y => (x * y)%C) b) c = map (fun y => (x * y)%C) (kron_1d b c).
Proof.
  induction b as [|y b IH]; intros c; auto. cbn [map]. rewrite !kron_cons, IH, map_app, map_map. f_equal. apply map_ext. intros. ring.
Qed.
Lemma kron_assoc : forall a b c, kron_1d (kron_1d a b) c = kron_1d a (kron_1d b c).
Proof.
  induction a as [|x a IH]; intros b c; auto. change (kron_1d (x :: a) b) with (map (fun y => (x * y)%C) b ++ kron_1d a b).
  rewrite kron_app, kron_left, IH. auto.
Qed.
Lemma krons_app : forall a b, krons (a ++ b) = kron_1d (krons a) (krons b).
Proof. induction a as [|x a IH]; intros b; simpl; [rewrite kron_one_l; auto|]. rewrite IH, kron_assoc. auto. Qed.
Lemma krons_one : forall a, krons [a] = a. Proof. intros. apply kron_one_r. Qed.
Lemma kron_length : forall a b, length (kron_1d a b) = length a * length b.
Proof. induction a; intros; auto. rewrite kron_cons, app_length, map_length, IHa. auto. Qed.
Lemma cscale_kron_l : forall c a b, kron_1d (cscale c a) b = cscale c (kron_1d a b).
Proof.
  induction a as [|x a IH]; intros b; auto. unfold cscale in *. cbn [map]. rewrite !kron_cons, IH, map_app, map_map. f_equal. apply map_ext. intros. ring.
Qed.
Lemma cscale_kron_r : forall c a b, kron_1d a (cscale c b) = cscale c (kron_1d a b).
Proof.
  induction a as [|x a IH]; intros b; auto. unfold cscale in *. rewrite !kron_cons, IH, map_app, !map_map. f_equal. apply map_ext. intros. ring.
Qed.

(** ** The recursion *)
Lemma bisect_spec : forall fuel a x lo hi, hi - lo <= fuel -> lo <= hi -> hi <= length a ->
  exists m, bisect_left fuel a x lo hi = Ok m /\ lo <= m <= hi /\ (m = hi -> hi = lo \/ nth (hi - 1) a 0 < x).
Proof.
  induction fuel as [|f IH]; intros a x lo hi F L A; simpl; destruct (Nat.ltb_spec lo hi) as [H|H].
  - lia.
  - exists lo. repeat split; auto; lia.
  - assert (M : lo <= (lo + hi) / 2 < hi).
    { split; [apply Nat.div_le_lower_bound; lia|apply Nat.div_lt_upper_bound; lia]. }
    change (fst (Nat.divmod (lo + hi) 1 0 1)) with ((lo + hi) / 2).
    destruct (nth_error a ((lo + hi) / 2)) as [v|] eqn:E; [|apply nth_error_None in E; lia].
    destruct (Nat.ltb_spec v x) as [V|V].
    + destruct (IH a x (S ((lo + hi) / 2)) hi) as [m [R [B K]]]; try lia. exists m. split; auto. split; [lia|]. intros ->.
      destruct (K eq_refl) as [K'|K']; auto. right. replace (hi - 1) with ((lo + hi) / 2) by lia. erewrite nth_error_nth by eauto. auto.
    + destruct (IH a x lo ((lo + hi) / 2)) as [m [R [B K]]]; try lia. exists m. split; auto. split; lia.
  - exists lo. repeat split; auto; lia.
Qed.
Lemma cumsum_length : forall l s, length (cumsum_from s l) = length l. Proof. induction l; simpl; auto. Qed.
Lemma cumsum_nth : forall l s i, i < length l -> nth i (cumsum_from s l) 0 = s + list_sum (firstn (S i) l).
Proof.
  induction l as [|a l IH]; intros s i H; simpl in H; [lia|]. destruct i; [simpl; lia|]. cbn [cumsum_from nth]. rewrite IH by lia. simpl. lia.
Qed.
Lemma sum_firstn : forall l i j, i <= j -> list_sum (firstn i l) <= list_sum (firstn j l).
Proof. induction l as [|a l IH]; intros [|i] [|j] H; simpl; try lia. specialize (IH i j). lia. Qed.
Definition slice {A} (l : list A) (lo hi : nat) : list A := firstn (hi - lo) (skipn lo l).
Lemma skipn_add : forall A (l : list A) a b, skipn a (skipn b l) = skipn (b + a) l.
Proof. induction l as [|x l IH]; intros a [|b]; simpl; auto. apply skipn_nil. Qed.
Lemma firstn_split : forall A (l : list A) a b, firstn (a + b) l = firstn a l ++ firstn b (skipn a l).
Proof. induction l as [|x l IH]; intros [|a] b; simpl; auto. - rewrite firstn_nil. auto. - rewrite IH. auto. Qed.
Lemma slice_split : forall A (l : list A) lo mid hi, lo <= mid <= hi -> slice l lo hi = slice l lo mid ++ slice l mid hi.
Proof.
  intros A l lo mid hi H. unfold slice. replace (hi - lo) with ((mid - lo) + (hi - mid)) by lia. rewrite firstn_split, skipn_add.
  replace (lo + (mid - lo)) with mid by lia. auto.
Qed.
Lemma slice_one : forall A (l : list A) i x, nth_error l i = Some x -> slice l i (i + 1) = [x].
Proof.
  intros A l i x H. unfold slice. replace (i + 1 - i) with 1 by lia. revert i H. induction l as [|y l IH]; intros [|i] H; simpl in *; try discriminate.
  - injection H as ->. auto. - apply IH. auto.
Qed.
Lemma get_some : forall A (l : list A) i, i < length l -> exists x, nth_error l i = Some x /\ get l i = Ok x.
Proof. intros A l i H. unfold get. destruct (nth_error l i) eqn:E; eauto. apply nth_error_None in E. lia. Qed.
Lemma kron_rec_spec : forall fuel ks lo hi, hi - lo <= fuel -> lo < hi -> hi <= length ks ->
  kron_rec fuel ks (cumsum_from 0 (map (@length C) ks)) lo hi = Ok (krons (slice ks lo hi)).
Proof.
  induction fuel as [|f IH]; intros ks lo hi F L H; [lia|]. cbn [kron_rec]. destruct (Nat.leb_spec hi lo); [lia|].
  destruct (get_some _ ks lo) as [a [Na Ga]]; [lia|].
  destruct (Nat.eqb_spec (hi - lo) 1) as [E|E1].
  { replace hi with (lo + 1) by lia. rewrite (slice_one _ _ _ _ Na), krons_one. auto. }
  assert (S1 : slice ks lo hi = a :: slice ks (lo + 1) hi).
  { rewrite (slice_split _ ks lo (lo + 1) hi) by lia. rewrite (slice_one _ _ _ _ Na). auto. }
  destruct (Nat.eqb_spec (hi - lo) 2) as [E|E2].
  { destruct (get_some _ ks (lo + 1)) as [b [Nb Gb]]; [lia|]. rewrite Ga, Gb. cbn [bind]. rewrite S1. replace hi with (lo + 1 + 1) by lia.
    rewrite (slice_one _ _ _ _ Nb). simpl. rewrite kron_one_r. auto. }
  set (cs := cumsum_from 0 (map (@length C) ks)). assert (Lc : length cs = length ks) by (unfold cs; rewrite cumsum_length, map_length; auto).
  destruct (get_some _ cs lo) as [cl [Nl Gl]]; [lia|]. destruct (get_some _ cs (hi - 1)) as [ch [Nh Gh]]; [lia|]. rewrite Gl, Gh. cbn [bind].
  assert (M : cl <= ch).
  { apply nth_error_nth with (d := 0) in Nl, Nh. rewrite <- Nl, <- Nh. unfold cs. rewrite !cumsum_nth by (rewrite map_length; lia).
    apply Nat.add_le_mono_l, sum_firstn. lia. }
  destruct (bisect_spec (hi - lo) cs ((cl + ch) / 2) lo hi) as [m [R [B K]]]; try lia. rewrite R. cbn [bind].
  assert (m <> hi).
  { intros ->. destruct (K eq_refl) as [K'|K']; [lia|]. apply nth_error_nth with (d := 0) in Nh. rewrite Nh in K'.
    assert ((cl + ch) / 2 <= ch) by (apply Nat.div_le_upper_bound; lia). lia. }
  destruct (Nat.eqb_spec m lo) as [->|Nm].
  - rewrite Ga. cbn [bind]. unfold cs. rewrite IH by lia. cbn [bind]. rewrite S1. auto.
  - unfold cs. rewrite IH by lia. cbn [bind]. rewrite IH by lia. cbn [bind]. rewrite (slice_split _ ks lo m hi) by lia. rewrite krons_app. auto.
Qed.
Lemma kron_rec_all : forall ks, ks <> [] -> kron_rec (length ks) ks (cumsum_from 0 (map (@length C) ks)) 0 (length ks) = Ok (krons ks).
Proof.
  intros ks H. rewrite kron_rec_spec; try lia.
  - unfold slice. rewrite Nat.sub_0_r. simpl skipn. rewrite firstn_all. auto.
  - destruct ks; [congruence|]. simpl. lia.
Qed.

(** ** Runs *)
Definition dphase (rm : bool) (p : option letter) (b : bool) : C :=
  match p with
  | Some LY => if Bool.eqb rm b then Ci else (- Ci)%C
  | Some LZ => if b then (- C1)%C else C1
  | _ => C1
  end.
Definition dv (rm : bool) (p : option letter) : list C := [dphase rm p false; dphase rm p true].
Definition dk (l : list (list C)) : list C := krons (rev l).
Lemma dk_app : forall a b, dk (a ++ b) = kron_1d (dk b) (dk a).
Proof. intros. unfold dk. rewrite rev_app_distr. apply krons_app. Qed.
Lemma dk_cons : forall a l, dk (a :: l) = kron_1d (dk l) a.
Proof. intros. change (a :: l) with ([a] ++ l). rewrite dk_app. unfold dk at 2. simpl rev. rewrite krons_one. auto. Qed.
Lemma same_letter_eq : forall a b, same_letter a b = true <-> a = b.
Proof. intros [[]|] [[]|]; simpl; split; intros; try discriminate; auto. Qed.
Definition expand (l : list (option letter * nat)) : list (option letter) := flat_map (fun r => repeat (fst r) (snd r)) l.
Lemma runs_expand : forall l, expand (runs l) = l.
Proof.
  induction l as [|a l IH]; auto. simpl. destruct (runs l) as [|[b n] rs]; [rewrite <- IH; auto|]. destruct (same_letter a b) eqn:E.
  - apply same_letter_eq in E. subst b. rewrite <- IH. auto.
  - rewrite <- IH. auto.
Qed.
Lemma ones_kron : forall a b, kron_1d (repeat C1 a) (repeat C1 b) = repeat C1 (a * b).
Proof.
  induction a as [|a IH]; intros b; auto. cbn [repeat]. rewrite kron_cons, IH. simpl. rewrite repeat_app. f_equal.
  induction b; simpl; auto. rewrite IHb. f_equal. ring.
Qed.
Lemma ones_power : forall n, dk (repeat [C1; C1] n) = repeat C1 (2 ^ n).
Proof.
  induction n; auto. cbn [repeat]. rewrite dk_cons, IHn. change [C1; C1] with (repeat C1 2). rewrite ones_kron. f_equal. simpl. lia.
Qed.
Lemma run_dk : forall rm a n, dk (run_data rm (a, n)) = dk (repeat (dv rm a) n).
Proof.
  intros rm a n. unfold run_data. cbn [fst snd]. destruct a as [[]|].
  - change (dv rm (Some LX)) with [C1; C1]. rewrite ones_power. unfold dk. simpl rev. apply krons_one.
  - destruct rm; reflexivity.
  - reflexivity.
  - change (dv rm None) with [C1; C1]. rewrite ones_power. unfold dk. simpl rev. apply krons_one.
Qed.
Lemma runs_dk : forall rm l, dk (flat_map (run_data rm) l) = dk (map (dv rm) (expand l)).
Proof.
  induction l as [|[a n] l IH]; auto. simpl. rewrite map_app, !dk_app, IH. f_equal. rewrite run_dk. f_equal.
  clear. induction n; simpl; congruence.
Qed.
(** scaling one of the factors *)
Lemma scale_from_skip : forall c k l s, k < s ->
  map (fun iv => if fst iv =? k then map (fun z => (z * c)%C) (snd iv) else snd iv) (combine (seq s (length l)) l) = l.
Proof.
  induction l as [|a l IH]; intros s H; auto. cbn [length seq combine map fst snd]. destruct (Nat.eqb_spec s k); [lia|]. rewrite IH by lia. auto.
Qed.
Lemma scale_from_dk : forall c k l s, s <= k < s + length l ->
  dk (map (fun iv => if fst iv =? k then map (fun z => (z * c)%C) (snd iv) else snd iv) (combine (seq s (length l)) l)) = cscale c (dk l).
Proof.
  induction l as [|a l IH]; intros s H; simpl in H; [lia|]. cbn [length seq combine map fst snd]. rewrite !dk_cons. destruct (Nat.eqb_spec s k) as [->|N].
  - rewrite scale_from_skip by lia. apply cscale_kron_r.
  - rewrite IH by lia. apply cscale_kron_l.
Qed.
Lemma argmin_lt : forall l, l <> [] -> argmin l < length l.
Proof.
  induction l as [|a l IH]; intros H; [congruence|]. destruct l as [|b l]; [simpl; lia|]. change (argmin (a :: b :: l)) with
    (let k := argmin (b :: l) in if nth k (b :: l) 0 <? a then S k else 0). cbv zeta. specialize (IH ltac:(discriminate)).
  destruct (_ <? a); simpl in *; lia.
Qed.
Lemma scale_length : forall k c l, length (scale_at k c l) = length l.
Proof. intros. unfold scale_at. rewrite map_length, combine_length, seq_length. lia. Qed.
Lemma term_data_eq : forall t n rm ps, term_paulis (t_ops t) n = Ok ps -> ps <> [] -> term_data t n rm = Ok (cscale (t_coeff t) (dk (map (dv rm) ps))).
Proof.
  intros t n rm ps E N. unfold term_data. rewrite E. cbn [bind]. pose proof (runs_dk rm (runs ps)) as D. rewrite runs_expand in D.
  destruct (flat_map (run_data rm) (runs ps)) as [|d ds] eqn:F.
  - exfalso. destruct ps as [|p ps]; [congruence|]. simpl in F. destruct (runs ps) as [|[b m] rs].
    + simpl in F. rewrite app_nil_r in F. destruct p as [[]|]; discriminate.
    + destruct (same_letter p b); simpl in F; [destruct b as [[]|]|destruct p as [[]|]]; discriminate.
  - set (data := d :: ds) in *. rewrite kron_rec_all.
    + f_equal. rewrite <- D. apply scale_from_dk. split; [lia|]. rewrite Nat.add_0_l. apply Nat.lt_le_trans with (length (map (@length C) data)); [apply argmin_lt; discriminate|rewrite map_length; auto].
    + intros X. apply (f_equal (@length _)) in X. rewrite rev_length, scale_length in X. discriminate.
Qed.

(** ** Elements *)
Lemma kron_pair : forall a d0 d1 i, i < 2 * length a -> nth i (kron_1d a [d0; d1]) C0 = (nth (i / 2) a C0 * (if Nat.odd i then d1 else d0))%C.
Proof.
  induction a as [|x a IH]; intros d0 d1 i H; simpl in H; [lia|]. rewrite kron_cons. cbn [map app]. destruct i as [|[|i]]; auto.
  cbn [nth]. rewrite IH by lia. replace (S (S i) / 2) with (S (i / 2)) by (replace (S (S i)) with (i + 1 * 2) by lia; rewrite Nat.div_add by lia; lia).
  auto.
Qed.
Fixpoint prodp (rm : bool) (l : list (option letter)) (k x : nat) : C :=
  match l with [] => C1 | p :: r => (dphase rm p (bit x k) * prodp rm r (S k) x)%C end.
Lemma dk_length : forall rm l, length (dk (map (dv rm) l)) = 2 ^ length l.
Proof. induction l; auto. simpl map. rewrite dk_cons, kron_length, IHl. simpl. lia. Qed.
Lemma prodp_half : forall rm l k x, prodp rm l (S k) x = prodp rm l k (x / 2).
Proof.
  induction l as [|p l IH]; intros k x; auto. cbn [prodp]. rewrite IH. f_equal. f_equal. rewrite <- Nat.div2_div. reflexivity.
Qed.
Lemma dk_nth : forall rm l x, x < 2 ^ length l -> nth x (dk (map (dv rm) l)) C0 = prodp rm l 0 x.
Proof.
  induction l as [|p l IH]; intros x H; simpl in H.
  - replace x with 0 by lia. reflexivity.
  - simpl map. rewrite dk_cons. unfold dv at 2. rewrite kron_pair by (rewrite dk_length; lia). cbn [prodp]. rewrite prodp_half.
    rewrite IH by (apply Nat.div_lt_upper_bound; lia). change (bit x 0) with (Nat.odd x). destruct (Nat.odd x); ring.
Qed.

(** ** The letters of a term *)
Definition wordp (rm : bool) (w : list pop) (x : nat) : C := fold_right (fun o z => (dphase rm (Some (fst o)) (bit x (snd o)) * z)%C) C1 w.
Lemma put_ok : forall A (l : list A) i v, i < length l -> exists l', put l i v = Ok l' /\ length l' = length l /\
  forall j, nth_error l' j = if j =? i then Some v else nth_error l j.
Proof.
  induction l as [|a l IH]; intros i v H; simpl in H; [lia|]. destruct i as [|i].
  - exists (v :: l). split; auto. split; auto. intros [|j]; auto.
  - destruct (IH i v) as [l' [E [L N]]]; [lia|]. exists (a :: l'). simpl. rewrite E. split; auto. split; [simpl; lia|]. intros [|j]; auto. simpl. apply N.
Qed.
Lemma put_err : forall A (l : list A) i v, length l <= i -> put l i v = Err IndexError.
Proof. induction l as [|a l IH]; intros [|i] v H; simpl in *; auto; try lia. rewrite IH by lia. auto. Qed.
Lemma put_prodp : forall rm l i a l' k x, put l i (Some a) = Ok l' -> nth_error l i = Some None ->
  prodp rm l' k x = (dphase rm (Some a) (bit x (k + i)) * prodp rm l k x)%C.
Proof.
  induction l as [|p l IH]; intros i a l' k x E N; [discriminate|]. destruct i as [|i]; simpl in E, N.
  - injection N as ->. injection E as <-. rewrite Nat.add_0_r. cbn [prodp]. change (dphase rm None (bit x k)) with C1. ring.
  - destruct (put l i (Some a)) as [r|] eqn:F; [|discriminate]. injection E as <-. cbn [prodp]. rewrite (IH _ _ _ (S k) x F N).
    replace (S k + i) with (k + S i) by lia. ring.
Qed.
Lemma paulis_from : forall w l, NoDup (map snd w) -> (forall o, In o w -> nth_error l (snd o) = Some None) -> exists l',
  for_list w (fun o l => put l (snd o) (Some (fst o))) l = Ok l' /\ length l' = length l /\
  forall rm x, prodp rm l' 0 x = (wordp rm w x * prodp rm l 0 x)%C.
Proof.
  induction w as [|[a q] w IH]; intros l N H.
  - exists l. split; auto. split; auto. intros. simpl. ring.
  - inversion N; subst. assert (Hq : nth_error l q = Some None) by (apply (H (a, q)); left; auto).
    destruct (put_ok _ l q (Some a)) as [l1 [E [L K]]]; [apply nth_error_Some; rewrite Hq; discriminate|].
    destruct (IH l1) as [l' [F [L' P]]]; auto.
    { intros o I. rewrite K. destruct (Nat.eqb_spec (snd o) q) as [X|X]; [|apply H; right; auto]. exfalso. apply H2. rewrite <- X. apply in_map. auto. }
    exists l'. simpl. rewrite E. split; auto. split; [lia|]. intros rm x. rewrite P. rewrite (put_prodp rm _ _ _ _ 0 x E Hq). simpl. ring.
Qed.
Lemma term_paulis_ok : forall w n, NoDup (map snd w) -> fits n w -> exists ps, term_paulis w n = Ok ps /\ length ps = n /\ forall rm x, prodp rm ps 0 x = wordp rm w x.
Proof.
  intros w n N F. destruct (paulis_from w (repeat None n) N) as [l' [E [L P]]].
  - intros o I. rewrite nth_error_repeat; auto. 
  - exists l'. split; auto. rewrite repeat_length in L. split; auto. intros rm x. rewrite P.
    assert (R : forall m k, prodp rm (repeat None m) k x = C1) by (induction m; intros k; auto; cbn [repeat prodp]; rewrite IHm; change (dphase rm None (bit x k)) with C1; ring).
    rewrite R. ring.
Qed.
Lemma term_data_ok : forall t n rm, NoDup (map snd (t_ops t)) -> fits n (t_ops t) -> 0 < n -> exists d, term_data t n rm = Ok d /\ length d = 2 ^ n /\
  forall x, x < 2 ^ n -> nth x d C0 = (wordp rm (t_ops t) x * t_coeff t)%C.
Proof.
  intros t n rm N F P. destruct (term_paulis_ok _ _ N F) as [ps [E [L Q]]]. exists (cscale (t_coeff t) (dk (map (dv rm) ps))).
  split; [apply (term_data_eq _ _ _ _ E); intros ->; simpl in L; lia|]. unfold cscale. rewrite map_length, dk_length, L. split; auto.
  intros x H. rewrite <- (Cmul_0_l (t_coeff t)) at 1. rewrite map_nth with (f := fun z => (z * t_coeff t)%C). rewrite dk_nth by (rewrite L; auto). rewrite Q. auto.
Qed.

(** ** Masks *)
Definition isxy (o : pop) : bool := match fst o with LZ => false | _ => true end.
Fixpoint maskr (w : list pop) : nat := match w with [] => 0 | o :: r => if isxy o then flip (maskr r) (snd o) else maskr r end.
Lemma maskr_bit : forall w q, ~ In q (map snd w) -> bit (maskr w) q = false.
Proof.
  induction w as [|[l p] w IH]; intros q H; [apply Nat.bits_0|]. cbn [map snd In] in H. cbn [maskr fst snd]. unfold isxy. cbn [fst].
  assert (I : bit (maskr w) q = false) by (apply IH; intros Y; apply H; right; auto).
  assert (p <> q) by (intros Y; apply H; left; auto). destruct l; auto; rewrite testbit_flip, I; destruct (Nat.eqb_spec p q); auto; contradiction.
Qed.
Lemma mask_eq : forall w, NoDup (map snd w) -> xy_mask w = maskr w.
Proof.
  intros w H. assert (G : forall s, fold_left (fun s o => match fst o with LZ => s | _ => s + 2 ^ snd o end) w s = s + maskr w).
  { induction w as [|[l q] w IH]; intros s; [simpl; lia|]. inversion H; subst. cbn [fold_left fst snd maskr]. unfold isxy. cbn [fst]. rewrite IH by auto.
    destruct l; cbv iota; try lia; rewrite flip_add by (apply maskr_bit; auto); lia. }
  apply (G 0).
Qed.
Lemma lxor_flip : forall x m q, Nat.lxor x (flip m q) = flip (Nat.lxor x m) q. Proof. intros. unfold flip. apply Nat.lxor_assoc || (rewrite Nat.lxor_assoc; auto). Qed.
Lemma mask_lt : forall n w x, fits n w -> x < 2 ^ n -> Nat.lxor x (maskr w) < 2 ^ n.
Proof.
  induction w as [|o w IH]; intros x F H; simpl; [rewrite Nat.lxor_0_r; auto|]. assert (F' : fits n w) by (intros p I; apply F; right; auto).
  destruct (isxy o); auto. rewrite lxor_flip. apply flip_lt; auto. apply F. left. auto.
Qed.
Lemma mask_involutive : forall x m, Nat.lxor (Nat.lxor x m) m = x.
Proof. intros. rewrite Nat.lxor_assoc, Nat.lxor_nilpotent, Nat.lxor_0_r. auto. Qed.
Lemma wordp_flip : forall rm w x q, ~ In q (map snd w) -> wordp rm w (flip x q) = wordp rm w x.
Proof.
  induction w as [|[l p] w IH]; intros x q H; auto. cbn [map snd In] in H. cbn [wordp fold_right fst snd]. fold (wordp rm w (flip x q)) (wordp rm w x).
  rewrite IH by (intros Y; apply H; right; auto). rewrite testbit_flip. destruct (Nat.eqb_spec q p); auto. exfalso. apply H. left. auto.
Qed.
Lemma flip_lxor_l : forall x m q, Nat.lxor (flip x q) m = flip (Nat.lxor x m) q.
Proof. intros. unfold flip. rewrite !Nat.lxor_assoc. f_equal. apply Nat.lxor_comm. Qed.
Lemma word_row : forall w psi x, NoDup (map snd w) -> word_op w psi x = (wordp true w x * psi (Nat.lxor x (maskr w)))%C.
Proof.
  induction w as [|[l q] w IH]; intros psi x N; [cbn [word_op wordp fold_right maskr]; rewrite Nat.lxor_0_r; unfold op_one; ring|]. inversion N; subst.
  cbn [word_op wordp fold_right maskr fst snd]. unfold op_mul, ap1, isxy. cbn [fst]. fold (wordp true w x).
  assert (D : word_op w psi (setb x q (bit x q)) = (wordp true w x * psi (Nat.lxor x (maskr w)))%C) by (rewrite setb_same by auto; apply IH; auto).
  assert (U : word_op w psi (setb x q (negb (bit x q))) = (wordp true w x * psi (flip (Nat.lxor x (maskr w)) q))%C).
  { rewrite <- flip_setb, IH by auto. rewrite wordp_flip by auto. rewrite flip_lxor_l. auto. }
  destruct l, (bit x q) eqn:E; cbn [negb] in D, U; cbv iota; rewrite ?lxor_flip, D, U; cbn [lmat]; unfold mX, mY, mZ, mk2, dphase, Bool.eqb; ring.
Qed.
Lemma word_col : forall w x, NoDup (map snd w) -> wordp false w (Nat.lxor x (maskr w)) = wordp true w x.
Proof.
  induction w as [|[l q] w IH]; intros x N; auto. inversion N; subst. cbn [wordp fold_right maskr fst snd]. unfold isxy. cbn [fst].
  fold (wordp true w x). assert (B : bit (Nat.lxor x (maskr w)) q = bit x q) by (rewrite Nat.lxor_spec, maskr_bit by auto; apply xorb_false_r).
  destruct l; cbv iota; rewrite ?lxor_flip.
  - fold (wordp false w (flip (Nat.lxor x (maskr w)) q)). rewrite wordp_flip, IH by auto. auto.
  - fold (wordp false w (flip (Nat.lxor x (maskr w)) q)). rewrite wordp_flip, IH by auto. rewrite testbit_flip, Nat.eqb_refl, B. destruct (bit x q); auto.
  - fold (wordp false w (Nat.lxor x (maskr w))). rewrite IH by auto. rewrite B. auto.
Qed.
