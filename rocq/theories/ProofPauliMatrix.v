(** The matrices of terms and expressions. *)
From Coq Require Import List Arith ZArith Bool Reals Lia Lra Permutation.
Import ListNotations.
From Verif Require Import Base Cplx Bits SpecQuantum ModelPauli SpecPauli ProofPauli ProofPauliTrace ProofPauliExpr ProofEvolution
  ModelPauliMatrix SpecPauliMatrix ProofKron.
Local Open Scope nat_scope.

Lemma nth_map_seq : forall A (f : nat -> A) n i d, i < n -> nth i (map f (seq 0 n)) d = f i.
Proof. intros A f n i d H. rewrite (nth_indep _ d (f 0)) by (rewrite map_length, seq_length; auto). rewrite map_nth, seq_nth; auto. Qed.
Lemma indices_at : forall dim m i, i < dim -> at0 (indices dim m) i = Nat.lxor i m.
Proof. intros. unfold at0, indices. rewrite nth_map_seq; auto. Qed.
Lemma seq_at : forall n i, i < n -> at0 (seq 0 n) i = i. Proof. intros. unfold at0. rewrite seq_nth; auto. Qed.
Lemma indices_length : forall dim m, length (indices dim m) = dim. Proof. intros. unfold indices. rewrite map_length, seq_length. auto. Qed.
Lemma indices_lt : forall n w, fits n w -> Forall (fun i => i < 2 ^ n) (indices (2 ^ n) (maskr w)).
Proof. intros n w F. apply Forall_forall. intros i I. apply in_map_iff in I. destruct I as [j [<- J]]. apply in_seq in J. apply mask_lt; auto; lia. Qed.
Lemma seq_lt : forall n, Forall (fun i => i < n) (seq 0 n). Proof. intros. apply Forall_forall. intros i I. apply in_seq in I. lia. Qed.

(** The entry of a canonical term *)
Lemma term_entry : forall t r c, NoDup (map snd (t_ops t)) -> term_op t (ket c) r =
  if Nat.lxor r (maskr (t_ops t)) =? c then (wordp true (t_ops t) r * t_coeff t)%C else C0.
Proof. intros t r c N. unfold term_op, op_scl. rewrite word_row by auto. unfold ket. destruct (_ =? c); ring. Qed.
Lemma lxor_swap : forall r c m, (Nat.lxor c m =? r) = (Nat.lxor r m =? c).
Proof.
  intros. destruct (Nat.eqb_spec (Nat.lxor c m) r) as [<-|N]; [rewrite mask_involutive, Nat.eqb_refl; auto|].
  destruct (Nat.eqb_spec (Nat.lxor r m) c) as [<-|M]; auto. rewrite mask_involutive in N. congruence.
Qed.
(** value of a term in row or column [k] of the compressed layouts *)
Definition tval (rm : bool) (t : term) (k : nat) : C := (wordp rm (t_ops t) k * t_coeff t)%C.
Lemma term_entry_any : forall (rm : bool) t r c, NoDup (map snd (t_ops t)) ->
  (if Nat.lxor (if rm then r else c) (maskr (t_ops t)) =? (if rm then c else r) then tval rm t (if rm then r else c) else C0) = term_op t (ket c) r.
Proof.
  intros rm t r c N. rewrite term_entry by auto. destruct rm; auto. rewrite lxor_swap. destruct (Nat.eqb_spec (Nat.lxor r (maskr (t_ops t))) c) as [<-|]; auto.
  unfold tval. rewrite word_col by auto. auto.
Qed.

(** ** Terms *)
Lemma qubits0 : forall t, term_qubits t <= 0 -> t_ops t = [].
Proof. intros t H. pose proof (qubits_fit t 0 H) as F. destruct (t_ops t) as [|o w]; auto. specialize (F o (or_introl eq_refl)). lia. Qed.
Lemma one_by_one : forall U k, (forall r c, r < 1 -> c < 1 -> U (ket c) r = k) -> matrix_of 0 U (SDense 1 [[k]]).
Proof.
  intros U k H. split; auto. split; [split; auto|]. intros r c R K. simpl in R, K. rewrite H by lia. replace r with 0 by lia. replace c with 0 by lia. auto.
Qed.
Lemma compressed_one : forall n w data, fits n w -> length data = 2 ^ n ->
  compressed_ok (2 ^ n) data (indices (2 ^ n) (maskr w)) (seq 0 (2 ^ n + 1)).
Proof.
  intros n w data F L. unfold compressed_ok. rewrite indices_length, seq_length, L. pose proof (pow2_pos n). repeat split; auto; try lia.
  - rewrite seq_at by lia. auto. - rewrite seq_at by lia. auto.
  - intros k K. rewrite !seq_at by lia. lia. - apply indices_lt. auto.
Qed.
Lemma row_range : forall n k, k < n -> seq (at0 (seq 0 (n + 1)) k) (at0 (seq 0 (n + 1)) (S k) - at0 (seq 0 (n + 1)) k) = [k].
Proof. intros. rewrite !seq_at by lia. replace (S k - k) with 1 by lia. auto. Qed.
Lemma same_matrix : forall n U V m, same_op U V -> matrix_of n U m -> matrix_of n V m.
Proof. intros n U V m S [A [B H]]. split; auto. split; auto. intros r c R K. rewrite H by auto. apply S. Qed.
Lemma term_matrix_ok : forall t n sp, 0 < n -> fits n (t_ops (simplify t)) -> exists m, term_matrix t (Some n) sp = Ok (sp, m) /\ matrix_of n (term_op t) m.
Proof.
  intros t n sp P F. unfold term_matrix. destruct (Nat.eqb_spec n 0); [lia|]. cbv zeta.
  pose proof (canonical_NoDup _ (simplify_canonical t)) as N. set (s := simplify t) in *.
  destruct (term_data_ok s n (layout_is sp Lcsr) N F P) as [d [E [L D]]]. rewrite E. cbn [bind]. rewrite (mask_eq _ N).
  assert (G : forall m, matrix_of n (term_op s) m -> matrix_of n (term_op t) m) by (intros m; apply same_matrix, simplify_op).
  destruct (layout_is sp Lcsc) eqn:Ec; [|destruct (layout_is sp Lcsr) eqn:Er].
  - eexists. split; [reflexivity|]. apply G. split; auto. split; [apply compressed_one; auto|]. intros r c R K. cbn [entry]. rewrite row_range by auto.
    cbn [Csum fold_right]. rewrite indices_at, D by auto. assert (layout_is sp Lcsr = false) as -> by (destruct sp as [[]|]; simpl in *; auto; discriminate).
    rewrite <- (term_entry_any false) by auto. unfold tval. simpl. destruct (_ =? r); ring.
  - eexists. split; [reflexivity|]. apply G. split; auto. split; [apply compressed_one; auto|]. intros r c R K. cbn [entry]. rewrite row_range by auto.
    cbn [Csum fold_right]. rewrite indices_at, D by auto.
    rewrite <- (term_entry_any true) by auto. unfold tval. simpl. destruct (_ =? c); ring.
  - eexists. split; [reflexivity|]. apply G. split; auto. split.
    + cbn [stored_ok]. rewrite indices_length, seq_length, L. repeat split; auto. apply indices_lt; auto. apply seq_lt.
    + intros r c R K. cbn [entry]. rewrite L. rewrite (Csum_single _ _ c).
      * rewrite indices_at, seq_at, D, Nat.eqb_refl, andb_true_r by auto. rewrite <- (term_entry_any false) by auto. auto.
      * apply seq_NoDup.
      * apply in_seq. lia.
      * intros y I Y. apply in_seq in I. rewrite seq_at by lia. destruct (Nat.eqb_spec y c); [congruence|]. rewrite andb_false_r. auto.
Qed.
Lemma simplify_fits : forall t n, fits n (t_ops t) -> fits n (t_ops (simplify t)).
Proof. intros t n F. rewrite simplify_eq. apply simple_fits. auto. Qed.
Lemma term_matrix_qubits : forall t n sp, term_qubits t <= n -> exists m, term_matrix t (Some n) sp = Ok (sp, m) /\ matrix_of n (term_op t) m.
Proof.
  intros t n sp H. destruct n as [|n]; [|apply term_matrix_ok; [lia|apply simplify_fits, qubits_fit; auto]].
  eexists. split; [reflexivity|]. apply one_by_one. intros r c R K. unfold term_op, op_scl. rewrite (qubits0 _ H). simpl. unfold op_one, ket.
  replace c with 0 by lia. replace r with 0 by lia. simpl. ring.
Qed.
Lemma term_matrix_default : forall t sp, exists m, term_matrix t None sp = Ok (sp, m) /\ matrix_of (term_qubits t) (term_op t) m.
Proof. intros t sp. destruct (term_matrix_qubits t (term_qubits t) sp) as [m H]; auto. exists m. exact H. Qed.
Lemma paulis_err : forall w (l : list (option letter)), ~ fits (length l) w -> for_list w (fun o l => put l (snd o) (Some (fst o))) l = Err IndexError.
Proof.
  induction w as [|[a q] w IH]; intros l H; [exfalso; apply H; intros o []|]. simpl. destruct (le_lt_dec (length l) q) as [G|G]; [rewrite put_err; auto|].
  destruct (put_ok _ l q (Some a) G) as [l' [E [L K]]]. rewrite E. cbn [bind]. apply IH. rewrite L. intros F. apply H. intros o [<-|I]; auto.
Qed.
Lemma term_data_err : forall t n rm, ~ fits n (t_ops t) -> term_data t n rm = Err IndexError.
Proof. intros t n rm H. unfold term_data, term_paulis. rewrite paulis_err; auto. rewrite repeat_length. auto. Qed.
Lemma term_matrix_err : forall t n sp, 0 < n -> ~ fits n (t_ops (simplify t)) -> term_matrix t (Some n) sp = Err IndexError.
Proof. intros t n sp P H. unfold term_matrix. destruct (Nat.eqb_spec n 0); [lia|]. cbv zeta. rewrite term_data_err; auto. Qed.

(** ** Groups *)
Definition same_mask (g : list term) : Prop := g <> [] /\ forall a b, In a g -> In b g -> xy_mask (t_ops a) = xy_mask (t_ops b).
Lemma groups_spec : forall l, Forall same_mask (groups l) /\ concat (groups l) = l.
Proof.
  induction l as [|a l [F E]]; [split; [constructor|auto]|]. simpl. assert (A : same_mask [a]).
  { split; [discriminate|]. intros x y [<-|[]] [<-|[]]. auto. }
  destruct (groups l) as [|[|b g] gs] eqn:G.
  - split; [constructor; auto|]. simpl in *. congruence.
  - inversion F as [|x y [X _] Y]. congruence.
  - destruct (Nat.eqb_spec (xy_mask (t_ops a)) (xy_mask (t_ops b))) as [M|M].
    + inversion F as [|x y [X Z] Y]; subst. split; auto. constructor; auto. split; [discriminate|].
      assert (K : forall u, In u (a :: b :: g) -> xy_mask (t_ops u) = xy_mask (t_ops b)).
      { intros u [<-|I]; auto. apply Z; auto. left. auto. }
      intros u v I J. rewrite (K u I), (K v J). auto.
    + split; [constructor; auto|]. simpl in *. congruence.
Qed.
Lemma expr_op_sum : forall e psi x, expr_op e psi x = Csum (fun t => term_op t psi x) e.
Proof. induction e as [|t e IH]; intros; auto. simpl. unfold op_add. rewrite IH. auto. Qed.
Lemma Csum_concat : forall A (f : A -> C) l, Csum f (concat l) = Csum (fun g => Csum f g) l.
Proof. induction l; simpl; auto. rewrite Csum_app, IHl. auto. Qed.
Lemma vadd_nth : forall a b i, length a = length b -> nth i (vadd a b) C0 = (nth i a C0 + nth i b C0)%C.
Proof.
  induction a as [|x a IH]; intros [|y b] i H; simpl in H; try discriminate.
  - destruct i; simpl; ring. - destruct i; auto. simpl. apply IH. lia.
Qed.
Lemma vadd_length : forall a b, length a = length b -> length (vadd a b) = length a.
Proof. intros. unfold vadd. rewrite map_length, combine_length. lia. Qed.
Definition good (n : nat) (t : term) : Prop := NoDup (map snd (t_ops t)) /\ fits n (t_ops t).
Lemma group_data_ok : forall g n rm, 0 < n -> g <> [] -> Forall (good n) g -> exists d, group_data g n rm = Ok d /\ length d = 2 ^ n /\
  forall k, k < 2 ^ n -> nth k d C0 = Csum (fun t => tval rm t k) g.
Proof.
  intros [|t r] n rm P N F; [congruence|]. inversion F as [|x y [N1 F1] F2]; subst. unfold group_data.
  destruct (term_data_ok t n rm N1 F1 P) as [d [E [L D]]]. rewrite E. cbn [bind].
  assert (G : forall r acc (v : nat -> C), Forall (good n) r -> length acc = 2 ^ n -> (forall k, k < 2 ^ n -> nth k acc C0 = v k) -> exists d',
    for_list r (fun s acc => let* d := term_data s n rm in Ok (vadd acc d)) acc = Ok d' /\ length d' = 2 ^ n /\
    forall k, k < 2 ^ n -> nth k d' C0 = (v k + Csum (fun t => tval rm t k) r)%C).
  { clear - P. induction r as [|s r IH]; intros acc v F L V.
    - exists acc. split; auto. split; auto. intros k K. rewrite V by auto. simpl. ring.
    - inversion F as [|x y [N1 F1] F2]; subst. destruct (term_data_ok s n rm N1 F1 P) as [d [E [L' D]]]. simpl. rewrite E. cbn [bind].
      destruct (IH (vadd acc d) (fun k => (v k + tval rm s k)%C)) as [d' [E' [L2 D']]]; auto.
      + rewrite vadd_length; lia. + intros k K. rewrite vadd_nth, V, D by (auto; lia). auto.
      + exists d'. split; auto. split; auto. intros k K. rewrite D' by auto. ring. }
  destruct (G r d (tval rm t) F2 L) as [d' [E' [L' D']]]; auto. exists d'. split; auto.
Qed.

(** ** Arrays filled by slices *)
Lemma put_slice_ok : forall A (vs : list A) (l : list (option A)) start step d, 0 < step -> (vs <> [] -> start + (length vs - 1) * step < length l) -> exists l',
  put_slice l start step vs = Ok l' /\ length l' = length l /\
  (forall k, k < length vs -> nth_error l' (start + k * step) = Some (Some (nth k vs d))) /\
  (forall j, (forall k, k < length vs -> j <> start + k * step) -> nth_error l' j = nth_error l j).
Proof.
  induction vs as [|v vs IH]; intros l start step d Hs H.
  - exists l. split; auto. split; auto. split; auto. simpl. lia.
  - specialize (H ltac:(discriminate)). simpl length in H. simpl Nat.sub in H. rewrite Nat.sub_0_r in H.
    destruct (put_ok _ l start (Some v)) as [l1 [E [L K]]]; [lia|].
    destruct (IH l1 (start + step) step d Hs) as [l' [E' [L' [K1 K2]]]].
    { intros N. destruct vs; [congruence|]. simpl in *. rewrite Nat.sub_0_r. lia. }
    exists l'. simpl. rewrite E. split; auto. split; [lia|]. split.
    + intros k Hk. destruct k as [|k].
      * rewrite Nat.add_0_r, K2. { rewrite K, Nat.eqb_refl. auto. } intros k _. lia.
      * replace (start + S k * step) with (start + step + k * step) by lia. rewrite K1 by lia. auto.
    + intros j Hj. rewrite K2. { rewrite K. destruct (Nat.eqb_spec j start) as [->|]; auto. exfalso. apply (Hj 0); lia. }
      intros k Hk. specialize (Hj (S k)). lia.
Qed.
Lemma filled_ok : forall A (l : list (option A)) d, (forall i, i < length l -> exists a, nth_error l i = Some (Some a)) -> exists r,
  filled l = Ok r /\ length r = length l /\ forall i a, nth_error l i = Some (Some a) -> nth i r d = a.
Proof.
  induction l as [|o l IH]; intros d H.
  - exists []. split; auto. split; auto. intros [|i] a; discriminate.
  - destruct (H 0) as [a E]; [simpl; lia|]. simpl in E. injection E as ->. destruct (IH d) as [r [E [L N]]].
    { intros i I. apply (H (S i)). simpl. lia. }
    exists (a :: r). unfold filled in *. simpl. rewrite E. split; auto. split; [simpl; auto|]. intros [|i] b X; simpl in *; [congruence|]. auto.
Qed.
Lemma pos_inj : forall g g' k k' G, g < G -> g' < G -> g + k * G = g' + k' * G -> g = g' /\ k = k'.
Proof.
  intros g g' k k' G A B E. assert (k = k').
  { transitivity ((g + k * G) / G); [apply Nat.div_unique with g; lia|symmetry; apply Nat.div_unique with g'; lia]. }
  subst. split; lia.
Qed.
Definition gmask (g : list term) : nat := match g with t :: _ => xy_mask (t_ops t) | [] => 0 end.
Definition step_of (n : nat) (rm : bool) (G : nat) (ig : nat * list term) (st : list (option C) * list (option nat)) : res (list (option C) * list (option nat)) :=
  let* acc := group_data (snd ig) n rm in
  let* inds := put_slice (snd st) (fst ig) G (indices (2 ^ n) (gmask (snd ig))) in
  let* vals := put_slice (fst st) (fst ig) G acc in
  Ok (vals, inds).
Lemma fill_loop : forall n rm G gs s (st : list (option C) * list (option nat)), 0 < n -> s + length gs = G ->
  length (fst st) = G * 2 ^ n -> length (snd st) = G * 2 ^ n -> Forall (fun g => g <> [] /\ Forall (good n) g) gs -> exists st',
  for_list (combine (seq s (length gs)) gs) (step_of n rm G) st = Ok st' /\ length (fst st') = G * 2 ^ n /\ length (snd st') = G * 2 ^ n /\
  (forall j k, j < s -> k < 2 ^ n -> nth_error (fst st') (j + k * G) = nth_error (fst st) (j + k * G) /\ nth_error (snd st') (j + k * G) = nth_error (snd st) (j + k * G)) /\
  (forall j g k, nth_error gs j = Some g -> k < 2 ^ n ->
    nth_error (fst st') (s + j + k * G) = Some (Some (Csum (fun t => tval rm t k) g)) /\
    nth_error (snd st') (s + j + k * G) = Some (Some (Nat.lxor k (gmask g)))).
Proof.
  induction gs as [|g gs IH]; intros s st P E L1 L2 F.
  - exists st. split; auto. split; auto. split; auto. split; auto. intros [|j] g k; discriminate.
  - inversion F as [|x y [N1 F1] F2]; subst x y. simpl in E. cbn [length seq combine for_list]. unfold step_of at 1. cbn [fst snd].
    pose proof (pow2_pos n) as P2. destruct (group_data_ok g n rm P N1 F1) as [d [Eg [Lg D]]]. rewrite Eg. cbn [bind].
    assert (Hn : s + (2 ^ n - 1) * G < G * 2 ^ n) by (replace (G * 2 ^ n) with (G + (2 ^ n - 1) * G) by nia; lia).
    destruct (put_slice_ok _ (indices (2 ^ n) (gmask g)) (snd st) s G 0) as [i' [Ei [Li [Ki Ki']]]]; [lia|rewrite indices_length; lia|]. rewrite Ei. cbn [bind].
    destruct (put_slice_ok _ d (fst st) s G C0) as [v' [Ev [Lv [Kv Kv']]]]; [lia|rewrite Lg; lia|]. rewrite Ev. cbn [bind].
    rewrite indices_length in Ki, Ki'. rewrite Lg in Kv, Kv'.
    destruct (IH (S s) (v', i') P) as [st' [Es [M1 [M2 [O1 O2]]]]]; cbn [fst snd]; auto; try lia.
    exists st'. split; auto. split; auto. split; auto. split.
    + intros j k J K. destruct (O1 j k) as [A B]; auto. cbn [fst snd] in A, B. rewrite A, B. split; [apply Kv'|apply Ki'];
        intros k' K' X; apply pos_inj in X; lia.
    + intros [|j] g' k J K; cbn [nth_error] in J.
      * injection J as <-. rewrite Nat.add_0_r. destruct (O1 s k) as [A B]; auto. cbn [fst snd] in A, B. rewrite A, B. rewrite Kv, Ki by auto.
        rewrite D by auto. rewrite <- (indices_at (2 ^ n)) by auto. auto.
      * replace (s + S j) with (S s + j) by lia. apply O2; auto.
Qed.

(** ** Expressions *)
Definition grouped (e : expr) : list (list term) := groups (sort_by (fun a b => xy_mask (t_ops a) <=? xy_mask (t_ops b)) (expr_simplify e)).
Lemma grouped_sum : forall e psi x, expr_op e psi x = Csum (fun g => Csum (fun t => term_op t psi x) g) (grouped e).
Proof.
  intros e psi x. rewrite <- (expr_simplify_op e psi x), expr_op_sum, <- Csum_concat. unfold grouped. rewrite (proj2 (groups_spec _)).
  apply Csum_perm. symmetry. apply sort_perm.
Qed.
Lemma grouped_in : forall e g t, In g (grouped e) -> In t g -> In t (expr_simplify e).
Proof.
  intros e g t G T. apply (Permutation_in _ (sort_perm (fun a b => xy_mask (t_ops a) <=? xy_mask (t_ops b)) _)). rewrite <- (proj2 (groups_spec _)).
  apply in_concat. exists g. auto.
Qed.
Lemma grouped_nil : forall e, grouped e = [] -> expr_simplify e = [].
Proof.
  intros e H. pose proof (proj2 (groups_spec (sort_by (fun a b => xy_mask (t_ops a) <=? xy_mask (t_ops b)) (expr_simplify e)))) as G.
  fold (grouped e) in G. rewrite H in G. simpl in G.
  pose proof (sort_perm (fun a b => xy_mask (t_ops a) <=? xy_mask (t_ops b)) (expr_simplify e)) as Q. rewrite <- G in Q. apply Permutation_nil. auto.
Qed.
Lemma Csum_seq_shift : forall (f : nat -> C) s n, Csum f (seq s n) = Csum (fun j => f (s + j)) (seq 0 n).
Proof.
  intros f s n. rewrite <- (Csum_map _ _ f (fun j => s + j)). f_equal. revert s. induction n; intros s; auto. cbn [seq map]. rewrite Nat.add_0_r. f_equal.
  rewrite IHn, <- seq_shift, map_map. apply map_ext. intros. lia.
Qed.
Lemma Csum_index : forall A (f : A -> C) l (h : nat -> C), (forall j a, nth_error l j = Some a -> h j = f a) -> Csum h (seq 0 (length l)) = Csum f l.
Proof.
  induction l as [|a l IH]; intros h H; auto. cbn [length seq]. rewrite <- seq_shift.
  change (Csum h (0 :: map S (seq 0 (length l)))) with (h 0 + Csum h (map S (seq 0 (length l))))%C. change (Csum f (a :: l)) with (f a + Csum f l)%C.
  rewrite Csum_map. f_equal; [apply (H 0); auto|]. apply IH. intros j b J. apply (H (S j)). auto.
Qed.
Lemma same_mask_sum : forall (rm : bool) g r c n, Forall (good n) g -> same_mask g ->
  (if Nat.lxor (if rm then r else c) (gmask g) =? (if rm then c else r) then Csum (fun t => tval rm t (if rm then r else c)) g else C0) =
  Csum (fun t => term_op t (ket c) r) g.
Proof.
  intros rm g r c n F [N M]. destruct g as [|t g]; [congruence|]. cbn [gmask].
  transitivity (Csum (fun s => if Nat.lxor (if rm then r else c) (xy_mask (t_ops t)) =? (if rm then c else r) then tval rm s (if rm then r else c) else C0) (t :: g)).
  - destruct (_ =? _); auto. symmetry. apply Csum_0. auto.
  - apply Csum_ext. intros s I. rewrite (M t s) by (auto; left; auto). rewrite Forall_forall in F. destruct (F s I) as [Ns Fs].
    rewrite mask_eq by auto. apply term_entry_any. auto.
Qed.
Lemma mult_at : forall G n k, k <= n -> at0 (map (fun k => k * G) (seq 0 (n + 1))) k = k * G.
Proof. intros. unfold at0. rewrite nth_map_seq; auto. lia. Qed.
Lemma expr_matrix_ok : forall e n sp, 0 < n -> expr_simplify e <> [] -> Forall (fun t => fits n (t_ops t)) (expr_simplify e) ->
  exists m, expr_matrix e (Some n) sp = Ok (sp, m) /\ matrix_of n (expr_op e) m.
Proof.
  intros e n sp P N F. unfold expr_matrix. destruct (Nat.eqb_spec n 0); [lia|]. cbv zeta. fold (grouped e).
  set (gs := grouped e) in *. set (G := length gs). set (rm := layout_is sp Lcsr).
  assert (Fg : Forall (fun g => g <> [] /\ Forall (good n) g) gs).
  { apply Forall_forall. intros g I. split.
    - pose proof (proj1 (groups_spec (sort_by (fun a b => xy_mask (t_ops a) <=? xy_mask (t_ops b)) (expr_simplify e)))) as S. rewrite Forall_forall in S. apply (S g I).
    - apply Forall_forall. intros t T. pose proof (grouped_in _ _ _ I T) as J. rewrite Forall_forall in F. split; [|auto].
      pose proof (expr_simplify_canonical e) as K. rewrite Forall_forall in K. apply canonical_NoDup. auto. }
  pose proof (pow2_pos n) as P2.
  assert (PG : 0 < G).
  { destruct (Nat.eq_dec G 0) as [Z|Z]; [|lia]. exfalso. apply N, grouped_nil. unfold G in Z. fold gs. destruct gs; auto; discriminate. }
  destruct (fill_loop n rm G gs 0 (repeat None (G * 2 ^ n), repeat None (G * 2 ^ n)) P eq_refl) as [st [E [L1 [L2 [_ K]]]]]; cbn [fst snd]; try apply repeat_length; auto.
  match goal with |- context [for_list ?a ?b ?c] => change (for_list a b c) with (for_list a (step_of n rm G) c) end.
  fold G in E. rewrite E. cbn [bind]. destruct (Nat.eqb_spec G 0); [lia|].
  assert (Ix : forall i, i < G * 2 ^ n -> exists g k, nth_error gs (i mod G) = Some g /\ k < 2 ^ n /\ i = 0 + i mod G + k * G).
  { intros i I. pose proof (Nat.mod_upper_bound i G ltac:(lia)) as B. destruct (nth_error gs (i mod G)) as [g|] eqn:X; [|apply nth_error_None in X; unfold G in *; lia].
    exists g, (i / G). split; auto. split; [apply Nat.div_lt_upper_bound; lia|]. pose proof (Nat.div_mod i G). lia. }
  destruct (filled_ok _ (fst st) C0) as [vals [Ev [Lv Kv]]].
  { intros i I. rewrite L1 in I. destruct (Ix i I) as [g [k [X [Y Z]]]]. rewrite Z. eexists. apply (K _ _ _ X Y). }
  destruct (filled_ok _ (snd st) 0) as [inds [Ei [Li Ki]]].
  { intros i I. rewrite L2 in I. destruct (Ix i I) as [g [k [X [Y Z]]]]. rewrite Z. eexists. apply (K _ _ _ X Y). }
  rewrite Ev, Ei. cbn [bind]. rewrite L1 in Lv. rewrite L2 in Li.
  assert (O : compressed_ok (2 ^ n) vals inds (map (fun k => k * G) (seq 0 (2 ^ n + 1)))).
  { split; [lia|]. split; [rewrite map_length, seq_length; lia|]. split; [rewrite mult_at by lia; auto|]. split; [rewrite mult_at by lia; lia|]. split.
    - intros k B. rewrite !mult_at by lia. lia.
    - apply Forall_forall. intros i I. apply In_nth with (d := 0) in I. destruct I as [p [Q <-]]. rewrite Li in Q. destruct (Ix p Q) as [g [k [X [Y Z]]]].
      rewrite Z. rewrite (Ki _ _ (proj2 (K _ _ _ X Y))). apply nth_error_In in X. rewrite Forall_forall in Fg. destruct (Fg g X) as [A B].
      destruct g as [|t g]; [congruence|]. inversion B as [|u v [Nt Ft] _]; subst. cbn [gmask]. rewrite mask_eq by auto. apply mask_lt; auto. }
  assert (S : forall r c, r < 2 ^ n -> c < 2 ^ n -> Csum (fun k => if at0 inds k =? (if rm then c else r) then nth k vals C0 else C0)
    (seq (at0 (map (fun k => k * G) (seq 0 (2 ^ n + 1))) (if rm then r else c))
         (at0 (map (fun k => k * G) (seq 0 (2 ^ n + 1))) (S (if rm then r else c)) - at0 (map (fun k => k * G) (seq 0 (2 ^ n + 1))) (if rm then r else c))) = expr_op e (ket c) r).
  { intros r c R Cc. assert (B : (if rm then r else c) < 2 ^ n) by (destruct rm; auto). rewrite !mult_at by lia.
    replace (S (if rm then r else c) * G - (if rm then r else c) * G) with G by lia. rewrite Csum_seq_shift. rewrite grouped_sum. fold gs. unfold G at 2.
    apply Csum_index. intros j g J. destruct (K _ _ _ J B) as [K1 K2]. cbv beta. fold G. replace ((if rm then r else c) * G + j) with (0 + j + (if rm then r else c) * G) by lia. unfold at0.
    rewrite (Kv _ _ K1), (Ki _ _ K2). apply nth_error_In in J. rewrite Forall_forall in Fg. destruct (Fg g J) as [A D].
    apply same_mask_sum with n; auto. pose proof (proj1 (groups_spec (sort_by (fun a b => xy_mask (t_ops a) <=? xy_mask (t_ops b)) (expr_simplify e)))) as SM.
    rewrite Forall_forall in SM. apply SM. exact J. }
  destruct rm; eexists; (split; [reflexivity|]); (split; [reflexivity|]); (split; [exact O|]); exact S.
Qed.
Lemma simplify_source : forall e t, In t (expr_simplify e) -> exists s, In s e /\ t_ops t = t_ops (simplify s).
Proof.
  intros e t I. rewrite simplify_expr_eq in I. apply in_map_iff in I. destruct I as [k [<- I]]. apply skeys_In in I. rewrite sdict_val in I. cbn [t_ops].
  destruct (in_dec ops_dec k (map t_ops (map simplify e))) as [J|J].
  - rewrite map_map in J. apply in_map_iff in J. destruct J as [s [E J]]. exists s. auto.
  - exfalso. apply I. apply wcoef_absent. auto.
Qed.
Lemma max_le : forall l m a, In a l -> a <= fold_left Nat.max l m.
Proof.
  assert (G : forall l m, m <= fold_left Nat.max l m) by (induction l as [|a l IH]; intros m; simpl; auto; specialize (IH (Nat.max m a)); lia).
  induction l as [|b l IH]; intros m a I; simpl in I; [destruct I|]. destruct I as [->|I]; simpl; auto. specialize (G l (Nat.max m a)). lia.
Qed.
Lemma expr_fit : forall e n, expr_qubits e <= n -> Forall (fun t => fits n (t_ops t)) e.
Proof.
  intros e n H. apply Forall_forall. intros t I. destruct (term_is_identity t) eqn:E.
  - unfold term_is_identity in E. destruct (t_ops t); [intros o []|discriminate].
  - apply qubits_fit. apply Nat.le_trans with (expr_qubits e); auto. apply max_le. apply in_map. apply filter_In. rewrite E. auto.
Qed.
Lemma expr_simplify_fit : forall e n, expr_qubits e <= n -> Forall (fun t => fits n (t_ops t)) (expr_simplify e).
Proof.
  intros e n H. apply Forall_forall. intros t I. destruct (simplify_source _ _ I) as [s [J ->]]. apply simplify_fits.
  pose proof (expr_fit e n H) as F. rewrite Forall_forall in F. auto.
Qed.
Lemma expr_matrix_qubits : forall e n sp, expr_qubits e <= n -> n = 0 \/ expr_simplify e <> [] ->
  exists m, expr_matrix e (Some n) sp = Ok (sp, m) /\ matrix_of n (expr_op e) m.
Proof.
  intros e n sp H K. destruct n as [|n].
  - eexists. split; [reflexivity|]. apply one_by_one. intros r c R Q. replace c with 0 by lia. replace r with 0 by lia. clear K. pose proof (expr_fit e 0 H) as F. clear H.
    assert (X : forall s, (s + expr_op e (ket 0) 0)%C = fold_left (fun s t => (s + t_coeff t)%C) e s).
    { induction F as [|t e Ft F IH]; intros s; simpl; [ring|]. rewrite <- IH. unfold op_add, term_op, op_scl. destruct (t_ops t) as [|o w]; [|specialize (Ft o (or_introl eq_refl)); lia].
      simpl. unfold op_one. change (ket 0 0) with C1. ring. }
    rewrite <- X. ring.
  - destruct K as [K|K]; [discriminate|]. apply expr_matrix_ok; auto; [lia|]. apply expr_simplify_fit. auto.
Qed.
Lemma expr_matrix_default : forall e sp, expr_qubits e = 0 \/ expr_simplify e <> [] ->
  exists m, expr_matrix e None sp = Ok (sp, m) /\ matrix_of (expr_qubits e) (expr_op e) m.
Proof. intros e sp H. destruct (expr_matrix_qubits e (expr_qubits e) sp) as [m K]; auto. exists m. exact K. Qed.
(** the zero operator has no matrix *)
Lemma expr_matrix_zero : forall e n sp, 0 < n -> expr_simplify e = [] -> expr_matrix e (Some n) sp = Err ZeroDivisionError.
Proof. intros e n sp P H. unfold expr_matrix. destruct (Nat.eqb_spec n 0); [lia|]. rewrite H. reflexivity. Qed.
