(** Matrices of the sympy backend. *)
From Coq Require Import String List Arith ZArith Bool Reals Lra Lia FunctionalExtensionality.
Import ListNotations.
From Verif Require Import Base Cplx Bits ModelTargets ModelGate ModelNumpy ModelBackend ModelSympy SpecTargets SpecQuantum SpecCircuit SpecSympy
  ProofTargets ProofFallback ProofRun ProofCache ProofWhole ProofBackend.
Local Open Scope nat_scope.

(** ** Operators given by their matrix *)
Definition determined (n : nat) (V : oper) : Prop :=
  forall psi r, r < 2 ^ n -> V psi r = Csum (fun k => (V (ket k) r * psi k)%C) (seq 0 (2 ^ n)).
Lemma sum_ket : forall N (f : nat -> C) x, x < N -> Csum (fun k => (ket k x * f k)%C) (seq 0 N) = f x.
Proof.
  intros N f x H. rewrite (Csum_single _ _ x); [| apply seq_NoDup | apply in_seq; lia |].
  - unfold ket. rewrite Nat.eqb_refl. ring.
  - intros y _ N'. unfold ket. destruct (Nat.eqb_spec x y); [congruence|]. ring.
Qed.
Lemma det_ap1 : forall n M t, t < n -> determined n (ap1 M t).
Proof.
  intros n M t H psi r Hr. unfold ap1.
  rewrite (Csum_ext _ _ (fun k => (M (bit r t) false * (ket k (setb r t false) * psi k) + M (bit r t) true * (ket k (setb r t true) * psi k))%C)) by (intros; ring).
  rewrite Csum_add, !Csum_mul_l, !sum_ket by (apply setb_lt; auto). auto.
Qed.
Lemma det_id : forall n, determined n (fun psi => psi).
Proof. intros n psi r H. symmetry. apply sum_ket. auto. Qed.
Lemma det_comp : forall n U V, determined n U -> determined n V -> determined n (fun psi => V (U psi)).
Proof.
  intros n U V DU DV psi r H. rewrite DV by auto.
  rewrite (Csum_ext _ _ (fun k => Csum (fun j => (V (ket k) r * (U (ket j) k * psi j))%C) (seq 0 (2 ^ n)))).
  2:{ intros k Hk. apply in_seq in Hk. rewrite (DU psi k) by lia. rewrite Csum_mul_l. auto. }
  rewrite Csum_swap. apply Csum_ext. intros j _. rewrite (DV (U (ket j)) r) by auto. rewrite <- Csum_mul_r. apply Csum_ext. intros. ring.
Qed.
Lemma det_ctl : forall n c U, determined n U -> determined n (ctl c U).
Proof.
  intros n c U D psi r H. unfold ctl. destruct (bit r c).
  - apply D. auto.
  - symmetry. apply sum_ket. auto.
Qed.
Lemma det_add : forall n U V, determined n U -> determined n V -> determined n (fun psi x => (U psi x + V psi x)%C).
Proof. intros n U V DU DV psi r H. rewrite DU, DV by auto. rewrite <- Csum_add. apply Csum_ext. intros. ring. Qed.
Lemma det_all : forall n ops, Forall (determined n) ops -> determined n (apply_all ops).
Proof.
  induction ops as [|U ops IH]; intros F; [apply det_id|]. inversion F; subst. intros psi r H. apply (det_comp n U (apply_all ops)); auto.
Qed.

(** ** Products *)
Lemma nth_map_seq : forall A (f : nat -> A) n i d, i < n -> nth i (map f (seq 0 n)) d = f i.
Proof. intros A f n i d H. rewrite (nth_indep _ d (f 0)) by (rewrite map_length, seq_length; auto). rewrite map_nth, seq_nth; auto. Qed.
Lemma row_length : forall n U m r, is_matrix n U m -> r < 2 ^ n -> length (nth r m []) = 2 ^ n.
Proof.
  intros n U m r [L [F _]] H. rewrite Forall_forall in F. apply F. apply nth_In. lia.
Qed.
Lemma mul_matrix : forall n U V g m, is_matrix n V g -> determined n V -> is_matrix n U m -> is_matrix n (fun psi => V (U psi)) (mat_mul g m).
Proof.
  intros n U V g m G D M. pose proof G as [Lg [Fg Eg]]. destruct M as [Lm [Fm Em]]. unfold mat_mul. rewrite Lm. split; [rewrite map_length; auto|]. split.
  - apply Forall_forall. intros row I. apply in_map_iff in I. destruct I as [r [<- _]]. rewrite map_length, seq_length. auto.
  - intros r c Hr Hc.
    rewrite (nth_indep _ [] (map (fun j => Csum (fun k => (nth k (nth r g []) C0 * mat_at m k j)%C) (seq 0 (length (nth r g [])))) (seq 0 (2 ^ n)))) by (rewrite map_length; lia).
    rewrite (map_nth (fun row => map (fun j => Csum (fun k => (nth k row C0 * mat_at m k j)%C) (seq 0 (length row))) (seq 0 (2 ^ n))) g (nth r g []) r).
    rewrite nth_map_seq by auto. rewrite (nth_indep g _ []) by lia. rewrite (row_length n V) by auto. rewrite (D (U (ket c)) r) by auto.
    apply Csum_ext. intros k Hk. apply in_seq in Hk. unfold mat_at. rewrite Eg, Em by lia. auto.
Qed.
Lemma nth_combine2 : forall A B (l : list A) (m : list B) i a b, length l = length m -> nth i (combine l m) (a, b) = (nth i l a, nth i m b).
Proof. intros. apply combine_nth. auto. Qed.
Lemma add_matrix : forall n U V a b, is_matrix n U a -> is_matrix n V b -> is_matrix n (fun psi x => (U psi x + V psi x)%C) (mat_add a b).
Proof.
  intros n U V a b A B. pose proof A as [La [Fa Ea]]. pose proof B as [Lb [Fb Eb]]. unfold mat_add. split; [rewrite map_length, combine_length; lia|]. split.
  - apply Forall_forall. intros row I. apply in_map_iff in I. destruct I as [[x y] [<- I]]. rewrite map_length, combine_length. cbn [fst snd].
    rewrite Forall_forall in Fa, Fb. rewrite (Fa x), (Fb y); [lia| |]; [eapply in_combine_r; eauto|eapply in_combine_l; eauto].
  - intros r c Hr Hc. set (f := fun p : list C * list C => map (fun q : C * C => (fst q + snd q)%C) (combine (fst p) (snd p))).
    change ([] : list C) with (f ([], [])). rewrite map_nth, combine_nth by lia. unfold f. cbn [fst snd].
    set (h := fun q : C * C => (fst q + snd q)%C).
    rewrite (nth_indep _ C0 (h (C0, C0))).
    2:{ rewrite map_length, combine_length, (row_length n U), (row_length n V); auto. lia. }
    rewrite (map_nth h), combine_nth by (rewrite (row_length n U), (row_length n V); auto). unfold h. cbn [fst snd]. rewrite Ea, Eb by auto. auto.
Qed.
Lemma scale_matrix : forall n U m s, is_matrix n U m -> is_matrix n (fun psi x => (U psi x * s)%C) (mat_scale m s).
Proof.
  intros n U m s M. pose proof M as [L [F E]]. unfold mat_scale. split; [rewrite map_length; auto|]. split.
  - apply Forall_forall. intros row I. apply in_map_iff in I. destruct I as [x [<- I]]. rewrite map_length. rewrite Forall_forall in F. auto.
  - intros r c Hr Hc. change ([] : list C) with (map (fun z => (z * s)%C) []). rewrite map_nth.
    rewrite (nth_indep _ C0 ((fun z => (z * s)%C) C0)) by (rewrite map_length, (row_length n U); auto). rewrite (map_nth (fun z => (z * s)%C)). rewrite E by auto. auto.
Qed.
Lemma eye_at : forall d r c, r < d -> c < d -> nth c (nth r (eye d) []) C0 = ket c r.
Proof. intros d r c Hr Hc. unfold eye. rewrite nth_map_seq by auto. rewrite nth_map_seq by auto. reflexivity. Qed.
Lemma eye_matrix : forall n, is_matrix n (fun psi => psi) (eye (2 ^ n)).
Proof.
  intros n. unfold is_matrix. split; [unfold eye; rewrite map_length, seq_length; auto|]. split.
  - apply Forall_forall. intros row I. apply in_map_iff in I. destruct I as [x [<- _]]. rewrite map_length, seq_length. auto.
  - intros. apply eye_at; auto.
Qed.

(** ** Tensor products of 2x2 matrices *)
Definition small2 (m : matrix) (M : mat2) : Prop := m = [[M false false; M false true]; [M true false; M true true]].
Definition of2 (M : mat2) : matrix := [[M false false; M false true]; [M true false; M true true]].
Lemma tensor_length : forall a b, length (tensor a b) = length a * length b.
Proof. intros. unfold tensor. induction a as [|r a IH]; auto. simpl. rewrite app_length, map_length, IH. auto. Qed.
Definition kr (x : list C) (y : list C) : list C := flat_map (fun u => map (fun v => (u * v)%C) y) x.
Lemma kr_length : forall x y, length (kr x y) = length x * length y.
Proof. intros. unfold kr. induction x as [|u x IH]; auto. simpl. rewrite app_length, map_length, IH. auto. Qed.
Lemma kr_nth : forall x p q j, j < 2 * length x -> nth j (kr x [p; q]) C0 = (nth (j / 2) x C0 * (if Nat.odd j then q else p))%C.
Proof.
  induction x as [|u x IH]; intros p q j H; simpl in H; [lia|]. change (kr (u :: x) [p; q]) with ((u * p)%C :: (u * q)%C :: kr x [p; q]).
  destruct j as [|[|j]]; auto. cbn [nth]. rewrite IH by lia. replace (S (S j) / 2) with (S (j / 2)) by (replace (S (S j)) with (j + 1 * 2) by lia; rewrite Nat.div_add by lia; lia).
  rewrite Nat.odd_succ_succ. auto.
Qed.
Lemma tensor_at : forall a M i j d, Forall (fun row => length row = d) a -> i < 2 * length a -> j < 2 * d ->
  nth j (nth i (tensor a (of2 M)) []) C0 = (nth (j / 2) (nth (i / 2) a []) C0 * M (Nat.odd i) (Nat.odd j))%C.
Proof.
  induction a as [|r a IH]; intros M i j d F Hi Hj; simpl in Hi; [lia|]. inversion F; subst.
  change (tensor (r :: a) (of2 M)) with (kr r [M false false; M false true] :: kr r [M true false; M true true] :: tensor a (of2 M)).
  destruct i as [|[|i]].
  - cbn [nth]. rewrite kr_nth by lia. change (0 / 2) with 0. cbn [nth]. change (Nat.odd 0) with false. destruct (Nat.odd j); auto.
  - cbn [nth]. rewrite kr_nth by lia. change (1 / 2) with 0. cbn [nth]. change (Nat.odd 1) with true. destruct (Nat.odd j); auto.
  - cbn [nth]. rewrite (IH M i j (length r)) by (auto; lia).
    replace (S (S i) / 2) with (S (i / 2)) by (replace (S (S i)) with (i + 1 * 2) by lia; rewrite Nat.div_add by lia; lia). rewrite Nat.odd_succ_succ. auto.
Qed.
Lemma tensor_rows : forall a b d e, Forall (fun row => length row = d) a -> Forall (fun row => length row = e) b ->
  Forall (fun row => length row = d * e) (tensor a b).
Proof.
  intros a b d e Fa Fb. unfold tensor. rewrite Forall_forall in *. intros row I. apply in_flat_map in I. destruct I as [ra [Ia I]].
  apply in_map_iff in I. destruct I as [rb [<- Ib]]. change (length (kr ra rb) = d * e). rewrite kr_length, (Fa ra), (Fb rb); auto.
Qed.

(** factor of each qubit *)
Fixpoint cprod {A} (f : A -> C) (l : list A) : C := match l with [] => C1 | a :: r => (f a * cprod f r)%C end.
Lemma cprod_ext : forall A (f g : A -> C) l, (forall a, In a l -> f a = g a) -> cprod f l = cprod g l.
Proof. induction l; intros H; simpl; auto. rewrite H by (left; auto). rewrite IHl; auto. intros. apply H. right. auto. Qed.
Lemma cprod_map : forall A B (f : B -> C) (g : A -> B) l, cprod f (map g l) = cprod (fun a => f (g a)) l.
Proof. induction l; simpl; auto. rewrite IHl. auto. Qed.
Lemma cprod_split : forall (f : nat -> C) l t, NoDup l -> In t l -> cprod f l = (f t * cprod (fun k => if k =? t then C1 else f k) l)%C.
Proof.
  induction l as [|a l IH]; intros t N I; [contradiction|]. inversion N; subst. simpl. destruct I as [->|I].
  - rewrite Nat.eqb_refl. rewrite (cprod_ext _ (fun k => if k =? t then C1 else f k) f); [ring|]. intros k Hk. destruct (Nat.eqb_spec k t); auto. subst. contradiction.
  - destruct (Nat.eqb_spec a t); [subst; contradiction|]. rewrite (IH t) by auto. ring.
Qed.

Lemma reduce_app : forall (l : list matrix) a b, l <> [] -> reduce tensor l = Ok a -> reduce tensor (l ++ [b]) = Ok (tensor a b).
Proof.
  intros l a b N E. destruct l as [|x l]; [congruence|]. cbn [reduce app] in *. injection E as <-. rewrite fold_left_app. auto.
Qed.
Lemma tensor_all : forall (f : nat -> mat2) n s, 0 < n -> exists m, reduce tensor (rev (map (fun k => of2 (f k)) (seq s n))) = Ok m /\
  length m = 2 ^ n /\ Forall (fun row => length row = 2 ^ n) m /\
  forall r c, r < 2 ^ n -> c < 2 ^ n -> nth c (nth r m []) C0 = cprod (fun k => f (s + k) (bit r k) (bit c k)) (seq 0 n).
Proof.
  intros f. induction n as [|n IH]; intros s H; [lia|]. destruct n as [|n].
  - exists (of2 (f s)). cbn [seq map rev app reduce fold_left]. split; auto. split; auto. split.
    + apply Forall_cons; [|apply Forall_cons; [|constructor]]; auto.
    + intros r c Hr Hc. cbn [seq cprod]. rewrite Nat.add_0_r. assert (r = 0 \/ r = 1) as [->| ->] by (simpl in Hr; lia); assert (c = 0 \/ c = 1) as [->| ->] by (simpl in Hc; lia); cbn; ring.
  - destruct (IH (S s)) as [m [E [L [F A]]]]; [lia|]. exists (tensor m (of2 (f s))). change (seq s (S (S n))) with (s :: seq (S s) (S n)). cbn [map rev].
    split; [apply reduce_app; auto; intros X; apply (f_equal (@length matrix)) in X; rewrite rev_length, map_length, seq_length in X; discriminate|].
    assert (P : 2 ^ S (S n) = 2 * 2 ^ S n) by (simpl; lia). rewrite P.
    split; [rewrite tensor_length, L; cbn [of2 length]; lia|]. split.
    + replace (2 * 2 ^ S n) with (2 ^ S n * 2) by lia. apply tensor_rows; auto. apply Forall_cons; [|apply Forall_cons; [|constructor]]; auto.
    + intros r c Hr Hc. rewrite (tensor_at m (f s) r c (2 ^ S n)) by (auto; lia). rewrite A by (apply Nat.div_lt_upper_bound; lia).
      change (seq 0 (S (S n))) with (0 :: seq 1 (S n)). rewrite <- seq_shift. cbn [cprod]. rewrite cprod_map. rewrite Nat.add_0_r.
      replace (bit r 0) with (Nat.odd r) by auto. replace (bit c 0) with (Nat.odd c) by auto.
      rewrite (cprod_ext _ (fun a => f (s + S a) (bit r (S a)) (bit c (S a))) (fun k => f (S s + k) (bit (r / 2) k) (bit (c / 2) k))); [ring|].
      intros k _. replace (s + S k) with (S s + k) by lia. f_equal; rewrite <- Nat.div2_div; reflexivity.
Qed.

(** ** One qubit matrices *)
Definition delta (a b : bool) : C := if Bool.eqb a b then C1 else C0.
Lemma ket_prod : forall n r c, r < 2 ^ n -> c < 2 ^ n -> ket c r = cprod (fun k => delta (bit r k) (bit c k)) (seq 0 n).
Proof.
  intros n r c Hr Hc. unfold ket. destruct (Nat.eqb_spec r c) as [->|N].
  - symmetry. rewrite (cprod_ext _ _ (fun _ => C1)); [induction (seq 0 n); simpl; auto; rewrite IHl; ring|]. intros. unfold delta. rewrite Bool.eqb_reflx. auto.
  - assert (X : exists k, k < n /\ bit r k <> bit c k).
    { destruct (existsb (fun k => negb (Bool.eqb (bit r k) (bit c k))) (seq 0 n)) eqn:B.
      - apply existsb_exists in B. destruct B as [k [I B]]. apply in_seq in I. exists k. split; [lia|]. intros Q. rewrite Q, Bool.eqb_reflx in B. discriminate.
      - exfalso. apply N. apply Nat.bits_inj. intros k. destruct (Nat.lt_ge_cases k n) as [H|H].
        + destruct (Bool.eqb (bit r k) (bit c k)) eqn:Q; [apply Bool.eqb_prop; auto|]. assert (existsb (fun k => negb (Bool.eqb (bit r k) (bit c k))) (seq 0 n) = true); [|congruence].
          apply existsb_exists. exists k. split; [apply in_seq; lia|]. rewrite Q. auto.
        + rewrite (proj1 (lt_pow2_bits n r) Hr k H), (proj1 (lt_pow2_bits n c) Hc k H). auto. }
    destruct X as [k [Hk Q]]. rewrite (cprod_split _ _ k); [|apply seq_NoDup|apply in_seq; lia]. unfold delta at 1.
    destruct (Bool.eqb (bit r k) (bit c k)) eqn:B; [apply Bool.eqb_prop in B; contradiction|]. ring.
Qed.
Definition chosen (M : mat2) (ts : list nat) (k : nat) : mat2 := if existsb (Nat.eqb k) ts then M else delta.
Lemma chosen_ops : forall n M ts r c, NoDup ts -> Forall (fun t => t < n) ts -> r < 2 ^ n -> c < 2 ^ n ->
  apply_all (map (ap1 M) (rev ts)) (ket c) r = cprod (fun k => chosen M ts k (bit r k) (bit c k)) (seq 0 n).
Proof.
  intros n M. induction ts as [|t ts IH]; intros r c N F Hr Hc.
  - apply ket_prod; auto.
  - inversion N; subst. inversion F; subst. cbn [rev]. rewrite map_app, apply_all_app. cbn [map]. unfold apply_all at 1. cbn [fold_left]. unfold ap1.
    rewrite !IH by (auto; apply setb_lt; auto).
    rewrite (cprod_split (fun k => chosen M (t :: ts) k (bit r k) (bit c k)) _ t); [|apply seq_NoDup|apply in_seq; lia].
    rewrite (cprod_split (fun k => chosen M ts k (bit (setb r t false) k) (bit c k)) _ t); [|apply seq_NoDup|apply in_seq; lia].
    rewrite (cprod_split (fun k => chosen M ts k (bit (setb r t true) k) (bit c k)) _ t); [|apply seq_NoDup|apply in_seq; lia].
    assert (E : forall b, cprod (fun k => if k =? t then C1 else chosen M ts k (bit (setb r t b) k) (bit c k)) (seq 0 n) =
                cprod (fun k => if k =? t then C1 else chosen M (t :: ts) k (bit r k) (bit c k)) (seq 0 n)).
    { intros b. apply cprod_ext. intros k _. destruct (Nat.eqb_spec k t); auto. rewrite testbit_setb_neq by auto. unfold chosen. cbn [existsb].
      destruct (Nat.eqb_spec k t); [contradiction|]. auto. }
    rewrite !E, !testbit_setb_eq.
    assert (T : chosen M ts t = delta).
    { unfold chosen. destruct (existsb (Nat.eqb t) ts) eqn:X; auto. apply existsb_exists in X. destruct X as [y [I X]]. apply Nat.eqb_eq in X. subst. contradiction. }
    assert (T1 : chosen M (t :: ts) t = M) by (unfold chosen; cbn [existsb]; rewrite Nat.eqb_refl; auto).
    rewrite !T, T1. unfold delta. destruct (bit r t), (bit c t); cbn [Bool.eqb]; ring.
Qed.
Lemma eye2 : eye 2 = of2 delta. Proof. reflexivity. Qed.
Lemma det_ops : forall n M ts, Forall (fun t => t < n) ts -> determined n (apply_all (map (ap1 M) ts)).
Proof. intros n M ts F. apply det_all. apply Forall_forall. intros U I. apply in_map_iff in I. destruct I as [t [<- I]]. rewrite Forall_forall in F. apply det_ap1. auto. Qed.

(** targets given as integers, [l'] the same without repetitions *)
Lemma one_matrix : forall n l l' M, 0 < n -> Forall (inside n) l -> without_repetitions l l' ->
  exists m, one_qubit_matrix n l (of2 M) = Ok m /\ is_matrix n (apply_all (map (ap1 M) (map Z.to_nat l'))) m.
Proof.
  intros n l l' M P F [N S]. unfold one_qubit_matrix.
  assert (Fi : forall z, In z l' -> inside n z) by (intros z I; rewrite Forall_forall in F; apply F, S; auto).
  assert (E : map (fun idx => if existsb (Z.eqb (Z.of_nat idx)) l then of2 M else eye 2) (seq 0 n) =
              map (fun k => of2 (chosen M (rev (map Z.to_nat l')) k)) (seq 0 n)).
  { apply map_ext_in. intros k Hk. apply in_seq in Hk. unfold chosen.
    assert (B : existsb (Z.eqb (Z.of_nat k)) l = existsb (Nat.eqb k) (rev (map Z.to_nat l'))).
    { apply Bool.eq_iff_eq_true. rewrite !existsb_exists. split.
      - intros [z [I Q]]. apply Z.eqb_eq in Q. subst z. exists k. rewrite Nat.eqb_refl. split; auto. rewrite <- in_rev. apply in_map_iff. exists (Z.of_nat k).
        rewrite Nat2Z.id. split; auto. apply S. auto.
      - intros [j [I Q]]. apply Nat.eqb_eq in Q. subst j. rewrite <- in_rev in I. apply in_map_iff in I. destruct I as [z [Q I]]. exists z.
        pose proof (Fi z I) as [A _]. split; [apply S; auto|]. apply Z.eqb_eq. lia. }
    rewrite B. clear B. destruct (existsb (Nat.eqb k) (rev (map Z.to_nat l'))); [reflexivity|exact eye2]. }
  rewrite E. destruct (tensor_all (chosen M (rev (map Z.to_nat l'))) n 0 P) as [m [R [L [Fm A]]]]. exists m. split; auto.
  split; auto. split; auto. intros r c Hr Hc. rewrite A by auto. cbn [Nat.add].
  rewrite <- (chosen_ops n); auto; [rewrite rev_involutive; auto| |].
  - apply NoDup_rev. apply NoDup_map_inj; auto. intros x y Ix Iy Q. pose proof (Fi x Ix). pose proof (Fi y Iy). unfold inside in *. lia.
  - apply Forall_rev. apply Forall_forall. intros t I. apply in_map_iff in I. destruct I as [z [<- I]]. pose proof (Fi z I). unfold inside in *. lia.
Qed.

(** ** Actions *)
Lemma of2_eq : forall a b c d M, M false false = a -> M false true = b -> M true false = c -> M true true = d -> two a b c d = of2 M.
Proof. intros. subst. reflexivity. Qed.
Lemma sqrt2_neq : sqrt 2 <> 0%R. Proof. apply Rgt_not_eq, sqrt_lt_R0. lra. Qed.
Lemma inv_sqrt2 : (/ RtoC (sqrt 2))%C = RtoC (/ sqrt 2).
Proof. pose proof sqrt2_neq. ceq; field; auto. Qed.
Lemma cis_mul : forall a b, (cis a * cis b)%C = cis (a + b).
Proof. intros. unfold cis. rewrite cos_plus, sin_plus. ceq. Qed.
Lemma cis_split : forall a b c, c = (a + b)%R -> cis c = (cis a * cis b)%C. Proof. intros. subst. symmetry. apply cis_mul. Qed.
Lemma u3_two : forall th p l, sy_u3 th p l = of2 (mU3 th p l).
Proof.
  intros th p l. unfold sy_u3. apply of2_eq; unfold mU3, mmul, mRZ, mRY, mk2.
  - rewrite (cis_split (- (p / 2)) (- (l / 2)) (- (p + l) / 2)) by field. ring.
  - rewrite (cis_split (- (p / 2)) (l / 2) (- (p - l) / 2)) by field. replace (RtoC (- sin (th / 2))) with (- RtoC (sin (th / 2)))%C by ceq. ring.
  - rewrite (cis_split (p / 2) (- (l / 2)) ((p - l) / 2)) by field. ring.
  - rewrite (cis_split (p / 2) (l / 2) ((p + l) / 2)) by field. ring.
Qed.
Lemma u2_u3 : forall p l, sy_u2 p l = sy_u3 (PI / 2) p l.
Proof.
  intros p l. unfold sy_u2, sy_u3. replace (PI / 2 / 2)%R with (PI / 4)%R by field. rewrite cos_PI4, sin_PI4. unfold Cdiv. rewrite inv_sqrt2.
  replace (1 / sqrt 2)%R with (/ sqrt 2)%R by (field; apply sqrt2_neq). reflexivity.
Qed.
Lemma sy_gate_mat : forall k m, sy_gate k = Some m -> m = of2 (mat1 k).
Proof.
  intros k m E. destruct k; try discriminate E; injection E as <-; cbn [mat1]; try (apply of2_eq; auto; fail).
  - unfold sy_h. rewrite inv_sqrt2. unfold mat_scale, two, of2, mH, mscale, mk2. cbn [map]. assert (X : forall z, (z * RtoC (/ sqrt 2))%C = (RtoC (/ sqrt 2) * z)%C) by (intros; ring). rewrite !X. reflexivity.
  - apply of2_eq; auto. unfold mRY, mk2. ceq.
  - apply of2_eq; auto. unfold mRZ, mk2. f_equal. field.
  - apply of2_eq; auto. unfold mRZ, mk2. f_equal. field.
  - rewrite u2_u3. apply u3_two.
  - apply u3_two.
Qed.
Lemma is_matrix_ext : forall n U V m, (forall psi, U psi = V psi) -> is_matrix n U m -> is_matrix n V m.
Proof. intros n U V m E [L [F A]]. split; auto. split; auto. intros. rewrite A by auto. rewrite E. auto. Qed.
Lemma slicing_list : forall n tg l, denotes (Z.of_nat n) tg l -> gen_list (slicing tg (Z.of_nat n)) = Ok l.
Proof. intros n tg l D. apply slicing_iff in D; [|lia]. rewrite D. auto. Qed.
Lemma one_action : forall n k tg l l' U m a, 0 < n -> sy_gate k = Some a -> denotes (Z.of_nat n) tg l -> Forall (inside n) l -> without_repetitions l l' ->
  is_matrix n U m -> exists m', one_qubit_circuit n tg a m = Ok m' /\ is_matrix n (fun psi => apply_all (map (fun t => sem1 k (Z.to_nat t)) l') (U psi)) m'.
Proof.
  intros n k tg l l' U m a P E D F W M. unfold one_qubit_circuit. rewrite (slicing_list _ _ _ D). cbn [bind]. rewrite (sy_gate_mat _ _ E).
  destruct (one_matrix n l l' (mat1 k) P F W) as [g [G Mg]]. rewrite G. cbn [bind]. eexists. split; [reflexivity|].
  replace (map (fun t => sem1 k (Z.to_nat t)) l') with (map (ap1 (mat1 k)) (map Z.to_nat l')) by (rewrite map_map; auto).
  apply mul_matrix; auto. apply det_ops. apply Forall_forall. intros t I. apply in_map_iff in I. destruct I as [z [<- I]].
  destruct W as [_ W]. rewrite Forall_forall in F. assert (inside n z) by (apply F, W; auto). unfold inside in *. lia.
Qed.
Lemma controlled : forall c t M psi, c <> t -> (fun x => ap1 (mk2 C1 C0 C0 C0) c psi x + ap1 M t (ap1 (mk2 C0 C0 C0 C1) c psi) x)%C = ctl c (ap1 M t) psi.
Proof.
  intros c t M psi N. extensionality x. unfold ctl, ap1. rewrite !(testbit_setb_neq _ t _ c) by auto. destruct (bit x c) eqn:B; cbn [mk2].
  - replace (setb (setb x t false) c true) with (setb x t false) by (symmetry; apply setb_same; rewrite testbit_setb_neq; auto).
    replace (setb (setb x t true) c true) with (setb x t true) by (symmetry; apply setb_same; rewrite testbit_setb_neq; auto). ring.
  - rewrite (setb_same x c false) by auto. ring.
Qed.
Lemma two_matrix : forall n c t M, inside n c -> inside n t -> c <> t ->
  exists m, two_qubit_matrix n (of2 M) c t = Ok m /\ is_matrix n (ctl (Z.to_nat c) (ap1 M (Z.to_nat t))) m.
Proof.
  intros n c t M Hc Ht N. assert (P : 0 < n) by (unfold inside in *; lia). unfold two_qubit_matrix.
  assert (W : forall z, without_repetitions [z] [z]) by (intros z; split; [apply NoDup_cons; [intros []|constructor]|tauto]).
  assert (F : forall z, inside n z -> Forall (inside n) [z]) by (intros; apply Forall_cons; auto).
  destruct (one_matrix n [c] [c] (mk2 C1 C0 C0 C0) P (F c Hc) (W c)) as [a [Ea Ma]]. destruct (one_matrix n [c] [c] (mk2 C0 C0 C0 C1) P (F c Hc) (W c)) as [b [Eb Mb]].
  destruct (one_matrix n [t] [t] M P (F t Ht) (W t)) as [d [Ed Md]].
  change (of2 (mk2 C1 C0 C0 C0)) with sy_c0 in Ea. change (of2 (mk2 C0 C0 C0 C1)) with sy_c1 in Eb. rewrite Ea, Eb, Ed. cbn [bind]. eexists. split; [reflexivity|].
  eapply is_matrix_ext; [intros psi; apply controlled; unfold inside in *; lia|].
  apply (add_matrix n (ap1 (mk2 C1 C0 C0 C0) (Z.to_nat c)) (fun psi => ap1 M (Z.to_nat t) (ap1 (mk2 C0 C0 C0 C1) (Z.to_nat c) psi))); auto.
  apply (mul_matrix n (ap1 (mk2 C0 C0 C0 C1) (Z.to_nat c)) (ap1 M (Z.to_nat t))); auto. apply det_ap1. unfold inside in *. lia.
Qed.
Lemma two_action : forall n M ps U m, Forall (fun p => inside n (fst p) /\ inside n (snd p)) ps -> Forall (fun p => fst p <> snd p) ps -> is_matrix n U m ->
  exists m', for_list ps (fun ct m => let* g := two_qubit_matrix n (of2 M) (fst ct) (snd ct) in Ok (mat_mul g m)) m = Ok m' /\
    is_matrix n (fun psi => apply_all (map (fun p => ctl (Z.to_nat (fst p)) (ap1 M (Z.to_nat (snd p)))) ps) (U psi)) m'.
Proof.
  intros n M. induction ps as [|[c t] ps IH]; intros U m F D Hm; [exists m; auto|]. inversion F as [|? ? [Hc Ht] F']; subst. inversion D as [|? ? N D']; subst. cbn [fst snd] in *.
  destruct (two_matrix n c t M Hc Ht N) as [g [G Mg]]. cbn [for_list fst snd]. rewrite G. cbn [bind].
  destruct (IH (fun psi => ctl (Z.to_nat c) (ap1 M (Z.to_nat t)) (U psi)) (mat_mul g m) F' D') as [m' [E M']].
  - apply (mul_matrix n U (ctl (Z.to_nat c) (ap1 M (Z.to_nat t)))); auto. apply det_ctl, det_ap1. unfold inside in *. lia.
  - exists m'. split; auto.
Qed.
Lemma action_once : forall n g o U m, 0 < n -> gate_ops_once n g o -> has_action sympy_names g = true -> is_matrix n U m ->
  exists m', sy_action n g m = Ok m' /\ is_matrix n (fun psi => apply_all o (U psi)) m'.
Proof.
  intros n g o U m P G A M. destruct G as [k tg l l' Dk D F W|g o G ND].
  - cbn [sy_action]. destruct (sy_gate k) as [a|] eqn:E; [eapply one_action; eauto|]. destruct k; discriminate.
  - destruct G as [k tg l D F|k tg ps D F|k a b c].
    + specialize (ND k tg eq_refl). destruct k; try discriminate ND; discriminate A.
    + destruct k; try discriminate A; cbn [sy_action]; unfold two_qubit_circuit; rewrite (proj2 (pairs_iff (Z.of_nat n) tg ps ltac:(lia)) D); cbn [bind].
      * apply (two_action n mX); auto. destruct D as [? [? [? [? [_ [_ [_ [_ [_ D]]]]]]]]]. auto.
      * apply (two_action n mZ); auto. destruct D as [? [? [? [? [_ [_ [_ [_ [_ D]]]]]]]]]. auto.
    + destruct k; discriminate A.
Qed.

(** ** Fallbacks *)
Definition plain (g : gate) : Prop := match g with GOne _ (TInt _) | GTwo _ _ => True | GThree _ (TTuple [TInt _; TInt _; TInt _]) => True | _ => False end.
Lemma plain_once : forall n g o, plain g -> gate_ops n g o -> gate_ops_once n g o.
Proof.
  intros n g o P G. destruct G as [k tg l D F|k tg ps D F|k a b c]; try (apply goo_other; [constructor; auto|intros; discriminate]).
  destruct (direct k) eqn:E.
  - apply (goo_one n k tg l l); auto. split; [|tauto]. destruct tg; try contradiction. inversion D as [? ? D1|]; subst. inversion D1; subst.
    apply NoDup_cons; [intros []|constructor].
  - apply goo_other; [constructor; auto|]. intros k' tg' X. injection X as <- <-. auto.
Qed.
Lemma fallback_plain : forall g gs n o, fallback g (Z.of_nat n) = Ok gs -> gate_ops n g o -> Forall plain gs.
Proof.
  intros g gs n o Hf G.
  assert (FM : forall A (f : A -> list gate) l, (forall a, Forall plain (f a)) -> Forall plain (flat_map f l)).
  { induction l; intros; simpl; auto. apply Forall_app; auto. }
  destruct G as [k tg l D F|k tg ps D F|k a b c].
  - destruct k; simpl in Hf; try discriminate; try (injection Hf as <-; constructor);
      destruct (gen_list _) as [l0|e]; simpl in Hf; try discriminate; injection Hf as <-; apply FM; intros; repeat (apply Forall_cons; [exact I|]); constructor.
  - destruct k; simpl in Hf; try discriminate;
      destruct (qubit_pairs tg _) as [l0|e]; simpl in Hf; try discriminate; injection Hf as <-; apply FM; intros; repeat (apply Forall_cons; [exact I|]); constructor.
  - destruct k; try discriminate Hf; simpl in Hf; injection Hf as <-; repeat (apply Forall_cons; [exact I|]); constructor.
Qed.
Lemma phase_action : forall th tg, has_action sympy_names (GOne (KPhase th) tg) = true. Proof. reflexivity. Qed.
Lemma run_once : forall fuel n g o U m, 0 < n -> gate_ops_once n g o -> no_ccz g -> depth g <= fuel -> is_matrix n U m ->
  exists m', run_gate sympy_names (sy_action n) fuel g (Z.of_nat n) m = Ok m' /\ is_matrix n (fun psi => apply_all o (U psi)) m'.
Proof.
  induction fuel as [|f IH]; intros n g o U m P G NC D M; cbn [run_gate]; destruct (has_action sympy_names g) eqn:A; try (eapply action_once; eauto; fail).
  - exfalso. assert (X : exists o', gate_ops n g o').
    { destruct G as [k tg l l' Dk D' F W|g o G _]; [|eauto]. eexists. constructor; eauto. }
    destruct X as [o' G']. assert (In (lowername g) sympy_names) by (apply has_base_sympy; eapply depth0_base; eauto; lia). apply has_action_in in H. congruence.
  - assert (G' : gate_ops n g o).
    { destruct G as [k tg l l' Dk D' F W|g o G _]; auto. destruct k; try discriminate Dk; discriminate A. }
    destruct (fallback_ok sympy_names n g o has_base_sympy G' NC A) as [gs Hgs]. rewrite Hgs. cbn [bind].
    assert (Hp : is_phase g = false) by (destruct g as [[]| | | |]; auto; discriminate A).
    destruct (fallback_sound n g gs o Hgs G' Hp) as [o2 [C E]].
    pose proof (depth_decreases g gs _ Hgs Hp) as DD. pose proof (no_ccz_fallback g gs _ Hgs) as NC2. pose proof (fallback_plain g gs n o Hgs G') as PL.
    assert (R : forall gs o2 U m, circuit_ops n gs o2 -> Forall (fun g' => depth g' < depth g) gs -> Forall no_ccz gs -> Forall plain gs -> is_matrix n U m ->
      exists m', for_list gs (fun g' => run_gate sympy_names (sy_action n) f g' (Z.of_nat n)) m = Ok m' /\ is_matrix n (fun psi => apply_all o2 (U psi)) m').
    { clear - IH P D. intros gs o2 U m C. revert U m. induction C as [|g0 gs o os G C IHc]; intros U m F1 F2 F3 M; [exists m; auto|].
      inversion F1; subst. inversion F2; subst. inversion F3; subst. cbn [for_list].
      destruct (IH n g0 o U m P) as [m1 [E1 M1]]; auto; [apply plain_once; auto|lia|]. rewrite E1. cbn [bind].
      destruct (IHc (fun psi => apply_all o (U psi)) m1) as [m2 [E2 M2]]; auto. exists m2. split; auto.
      eapply is_matrix_ext; [|exact M2]. intros psi. cbv beta. rewrite apply_all_app. auto. }
    destruct (R gs o2 U m C DD NC2 PL M) as [m' [E' M']]. exists m'. split; auto. eapply is_matrix_ext; [|exact M']. intros psi. cbv beta. apply E.
Qed.
Lemma run_all_once : forall n gs ops U m, 0 < n -> circuit_ops_once n gs ops -> Forall no_ccz gs -> is_matrix n U m ->
  exists m', run_gates sympy_names (sy_action n) recursion_limit gs (Z.of_nat n) m = Ok m' /\ is_matrix n (fun psi => apply_all ops (U psi)) m'.
Proof.
  intros n gs ops U m P C. revert U m. unfold run_gates. induction C as [|g gs o os G C IH|g gs os X C IH]; intros U m F M; [exists m; auto| |]; inversion F; subst; cbn [for_list].
  - destruct (run_once recursion_limit n g o U m P G) as [m1 [E1 M1]]; auto; [pose proof (depth_le_3 g); unfold recursion_limit; lia|]. rewrite E1. cbn [bind].
    destruct (IH (fun psi => apply_all o (U psi)) m1) as [m2 [E2 M2]]; auto. exists m2. split; auto.
    eapply is_matrix_ext; [|exact M2]. intros psi. cbv beta. rewrite apply_all_app. auto.
  - replace (run_gate sympy_names (sy_action n) recursion_limit g (Z.of_nat n) m) with (Ok m) by (destruct X as [tg [-> | ->]]; reflexivity). cbn [bind]. apply IH; auto.
Qed.
Lemma sympy_once : forall n gs ops, 0 < n -> circuit_ops_once n gs ops -> Forall is_method gs ->
  exists m, sympy_run gs n false = Ok m /\ is_matrix n (apply_all ops) m.
Proof.
  intros n gs ops P C F. unfold sympy_run. destruct (run_all_once n gs ops (fun psi => psi) (eye (2 ^ n)) P C) as [m [E M]]; [| apply eye_matrix |].
  - eapply Forall_impl; [|exact F]. intros g. apply method_no_ccz.
  - rewrite E. exists m. auto.
Qed.
Lemma ops_once : forall n gs ops, circuit_ops n gs ops -> Forall (unrepeated n) gs -> circuit_ops_once n gs ops.
Proof.
  intros n gs ops C. induction C as [|g gs o os G C IH]; intros F; [constructor|]. inversion F as [|? ? Hu F']; subst. constructor; auto.
  destruct G as [k tg l D F0|k tg ps D F0|k a b c]; try (apply goo_other; [constructor; auto|intros; discriminate]).
  destruct (direct k) eqn:E.
  - apply (goo_one n k tg l l); auto. split; [|tauto]. eapply Hu; eauto.
  - apply goo_other; [constructor; auto|]. intros k' tg' X. injection X as <- <-. auto.
Qed.
Lemma sympy_unrepeated : forall n gs ops, 0 < n -> circuit_ops n gs ops -> Forall is_method gs -> Forall (unrepeated n) gs ->
  exists m, sympy_run gs n false = Ok m /\ is_matrix n (apply_all ops) m.
Proof. intros. apply sympy_once; auto. apply ops_once; auto. Qed.

(** ** Ignoring the global phase *)
Lemma first_diagonal_some : forall m l d, first_diagonal m l = Some d -> d <> C0.
Proof.
  induction l as [|i l IH]; intros d E; cbn [first_diagonal] in E; [discriminate|]. destruct (Req_EM_T _ _) as [H|H]; auto. injection E as <-. intros X.
  apply H. rewrite X. unfold Cnorm2, C0. simpl. ring.
Qed.
Lemma unit_ratio : forall d, d <> C0 -> Cnorm2 (RtoC (Cabs d) / d)%C = 1%R.
Proof.
  intros d N. pose proof (Cnorm2_neq0 d N) as H. pose proof (Cnorm2_pos d) as P. unfold Cdiv. rewrite Cnorm2_mul.
  assert (A : Cnorm2 (RtoC (Cabs d)) = Cnorm2 d). { unfold Cabs. unfold Cnorm2 at 1, RtoC. cbn [fst snd]. rewrite sqrt_sqrt by auto. ring. }
  rewrite A. destruct d as [a b]. unfold Cinv, Cnorm2 in *. cbn [fst snd] in *. field. auto.
Qed.
Lemma sympy_ignore : forall n gs m, sympy_run gs n false = Ok m -> forall U, is_matrix n U m ->
  exists m' k, sympy_run gs n true = Ok m' /\ Cnorm2 k = 1%R /\ is_matrix n (fun psi => scl k (U psi)) m' /\
    ((exists i, i < 2 ^ n /\ U (ket i) i <> C0 /\ (forall j, j < i -> U (ket j) j = C0) /\ Cim (k * U (ket i) i) = 0%R /\ (0 < Cre (k * U (ket i) i))%R) \/
     (forall i, i < 2 ^ n -> U (ket i) i = C0) /\ k = C1).
Proof.
  intros n gs m E U M. unfold sympy_run in *. destruct (run_gates _ _ _ _ _ _) as [m0|e]; [|discriminate]. cbn [bind] in *. injection E as ->.
  unfold sy_postprocess. pose proof M as [_ [_ A]].
  assert (G : forall l, (forall i, In i l -> i < 2 ^ n) -> match first_diagonal m l with
    | Some d => exists l1 i l2, l = l1 ++ i :: l2 /\ d = U (ket i) i /\ d <> C0 /\ forall j, In j l1 -> U (ket j) j = C0
    | None => forall i, In i l -> U (ket i) i = C0 end).
  { induction l as [|i l IH]; intros F; [intros i []|]. cbn [first_diagonal]. unfold mat_at. rewrite A by (apply F; left; auto). destruct (Req_EM_T _ _) as [Z|Z].
    - apply Cnorm2_eq0 in Z. specialize (IH (fun i I => F i (or_intror I))). destruct (first_diagonal m l).
      + destruct IH as [l1 [i' [l2 [-> [-> [D J]]]]]]. exists (i :: l1), i', l2. repeat split; auto. intros j [<-|I]; auto.
      + intros j [<-|I]; auto.
    - exists [], i, l. repeat split; auto; [|intros j []]. intros X. apply Z. rewrite X. unfold Cnorm2, C0. simpl. ring. }
  specialize (G (seq 0 (2 ^ n))). specialize (G ltac:(intros i I; apply in_seq in I; lia)). destruct (first_diagonal m _) as [d|].
  - destruct G as [l1 [i [l2 [El [Ed [D J]]]]]].
    assert (Hi : i = length l1 /\ i < 2 ^ n /\ l1 = seq 0 i).
    { assert (L : length (seq 0 (2 ^ n)) = length (l1 ++ i :: l2)) by congruence. rewrite seq_length, app_length in L. cbn [length] in L.
      assert (X : nth (length l1) (seq 0 (2 ^ n)) 0 = i) by (rewrite El, app_nth2, Nat.sub_diag; auto). rewrite seq_nth in X by lia.
      split; [lia|]. split; [lia|]. assert (Y : firstn (length l1) (seq 0 (2 ^ n)) = l1) by (rewrite El, firstn_app, Nat.sub_diag, firstn_all; simpl; apply app_nil_r).
      rewrite <- Y. replace (2 ^ n) with (i + (2 ^ n - i)) by lia. rewrite seq_app, firstn_app, seq_length. replace (length l1 - i) with 0 by lia. simpl firstn at 2.
      rewrite app_nil_r. replace (length l1) with i by lia. rewrite <- (seq_length i 0) at 1. apply firstn_all. }
    destruct Hi as [_ [Hi El1]]. exists (mat_scale m (RtoC (Cabs d) / d)%C), (RtoC (Cabs d) / d)%C. split; auto. split; [apply unit_ratio; auto|]. split.
    + eapply is_matrix_ext; [|apply (scale_matrix n U); auto]. intros psi. unfold scl. extensionality x. ring.
    + left. exists i. split; auto. rewrite <- Ed. split; auto. split; [intros j Hj; apply J; rewrite El1; apply in_seq; lia|].
      assert (X : (RtoC (Cabs d) / d * d)%C = RtoC (Cabs d)) by (unfold Cdiv; transitivity (RtoC (Cabs d) * (Cinv d * d))%C; [ring|rewrite Cinv_l by auto; ring]).
      rewrite X. unfold RtoC. cbn [Cre Cim fst snd]. split; auto. unfold Cabs. apply sqrt_lt_R0. pose proof (Cnorm2_pos d). pose proof (Cnorm2_neq0 d D). lra.
  - exists m, C1. split; auto. split; [unfold Cnorm2, C1; simpl; ring|]. split.
    + eapply is_matrix_ext; [|exact M]. intros psi. extensionality x. unfold scl. ring.
    + right. split; auto. intros i Hi. apply G. apply in_seq. lia.
Qed.

(** ** Agreement with the simulator *)
Lemma column_arr : forall n U m, is_matrix n U m -> map (fun row => nth 0 row C0) m = arr n (U (ket 0)).
Proof.
  intros n U m [L [F A]]. apply (nth_ext _ _ C0 C0).
  - rewrite map_length. unfold arr. rewrite map_length, seq_length. auto.
  - intros i H. rewrite map_length, L in H. rewrite (nth_indep _ C0 ((fun row => nth 0 row C0) [])) by (rewrite map_length; lia).
    rewrite (map_nth (fun row => nth 0 row C0)). unfold arr. rewrite nth_map_seq by auto. apply A; auto. apply pow2_pos.
Qed.
Lemma sympy_numpy : forall rng n gs ops pos, 0 < n -> circuit_ops n gs ops -> Forall is_method gs -> Forall (unrepeated n) gs ->
  exists m v b, sympy_run gs n false = Ok m /\ np_run rng new_backend gs n no_args pos = (Ok (RState v), b, pos) /\
    is_matrix n (apply_all ops) m /\ map (fun row => nth 0 row C0) m = v.
Proof.
  intros rng n gs ops pos P C F R. destruct (sympy_unrepeated n gs ops P C F R) as [m [E M]]. destruct (run_unitary_new rng n gs ops pos C) as [b B].
  exists m, (arr n (apply_all ops (ket 0))), b. split; auto. split; auto. split; auto. apply column_arr. auto.
Qed.

(** ** Examples *)
Definition twice : gate := GOne KX (TTuple [TInt 0; TInt 0]).
Lemma nth_head : forall (v w : list C), v = w -> nth 0 v C0 = nth 0 w C0. Proof. intros. subst. auto. Qed.
Lemma twice_refuted : forall rng pos, exists m v b, circuit_ops 1 [twice] [sem1 KX 0; sem1 KX 0] /\ sympy_run [twice] 1 false = Ok m /\
  np_run rng new_backend [twice] 1 no_args pos = (Ok (RState v), b, pos) /\ map (fun row => nth 0 row C0) m <> v.
Proof.
  intros rng pos. assert (D : denotes (Z.of_nat 1) (TTuple [TInt 0; TInt 0]) [0%Z; 0%Z]).
  { apply (den_tuple _ [TInt 0; TInt 0] [[0%Z]; [0%Z]]). apply Forall2_cons; [apply den_int|]. apply Forall2_cons; [apply den_int|]. constructor. }
  assert (F : Forall (inside 1) [0%Z; 0%Z]) by (repeat (apply Forall_cons; [unfold inside; lia|]); constructor).
  assert (C : circuit_ops 1 [twice] [sem1 KX 0; sem1 KX 0]).
  { change [sem1 KX 0; sem1 KX 0] with ((map (fun t => sem1 KX (Z.to_nat t)) [0%Z; 0%Z]) ++ []). apply co_cons; [|constructor]. apply go_one; auto. }
  assert (O : circuit_ops_once 1 [twice] [sem1 KX 0]).
  { change [sem1 KX 0] with ((map (fun t => sem1 KX (Z.to_nat t)) [0%Z]) ++ []). apply coo_cons; [|constructor]. apply (goo_one 1 KX _ [0%Z; 0%Z] [0%Z]); auto. split.
    - apply NoDup_cons; [intros []|constructor].
    - intros z. simpl. tauto. }
  destruct (sympy_once 1 [twice] _ ltac:(lia) O) as [m [E M]].
  { apply Forall_cons; [|constructor]. apply method_no_ccz. exact I. }
  destruct (run_unitary_new rng 1 [twice] _ pos C) as [b B]. exists m, (arr 1 (apply_all [sem1 KX 0; sem1 KX 0] (ket 0))), b. split; auto. split; auto. split; auto.
  rewrite (column_arr 1 _ m M). intros X. apply nth_head in X. cbn in X. unfold ap1, mk2 in X. cbn in X. unfold ket in X. cbn in X. unfold Cmul, Cadd, C0, C1 in X. simpl in X.
  injection X. intros. lra.
Qed.
Lemma width0_refuted : forall rng pos, let g := GOne KX (TSlice None None None) in exists v b, circuit_ops 0 [g] [] /\ sympy_run [g] 0 false = Err TypeError /\
  np_run rng new_backend [g] 0 no_args pos = (Ok (RState v), b, pos).
Proof.
  intros rng pos g. assert (C : circuit_ops 0 [g] []).
  { change (@nil oper) with ((map (fun t => sem1 KX (Z.to_nat t)) []) ++ []). apply co_cons; [|constructor]. apply go_one; [|constructor].
    apply slicing_iff; [lia|reflexivity]. }
  destruct (run_unitary_new rng 0 [g] _ pos C) as [b B]. eexists. exists b. split; [exact C|]. split; [reflexivity|exact B].
Qed.
Lemma outside_ignored : forall rng pos, let g := GOne KX (TInt (-2)) in exists m b, sympy_run [g] 1 false = Ok m /\ is_matrix 1 (fun psi => psi) m /\
  np_run rng new_backend [g] 1 no_args pos = (Err ValueError, b, pos).
Proof.
  intros rng pos g. exists (mat_mul (eye 2) (eye 2)), (clear_cache_if_invalid new_backend 1). split; [reflexivity|]. split.
  - apply (mul_matrix 1 (fun psi => psi) (fun psi => psi)); [apply (eye_matrix 1)|apply det_id|apply (eye_matrix 1)].
  - reflexivity.
Qed.
Definition bell_gates : list gate := [GOne KH (TInt 0); GTwo (KCPhase 1) (TTuple [TInt 0; TInt 1])].
Lemma bell_case : exists ops, circuit_ops 2 bell_gates ops /\ Forall is_method bell_gates /\ Forall (unrepeated 2) bell_gates.
Proof.
  exists ([sem1 KH 0] ++ [sem2 (KCPhase 1) 0 1] ++ []). split; [|split].
  - apply co_cons; [|apply co_cons; [|constructor]].
    + apply (go_one 2 KH (TInt 0) [0%Z]); [apply denotes_int; unfold inside; lia|apply Forall_cons; [unfold inside; lia|constructor]].
    + apply (go_two 2 (KCPhase 1) _ [(0%Z, 1%Z)]).
      * apply pairs_iff; [lia|reflexivity].
      * apply Forall_cons; [unfold inside; simpl; lia|constructor].
  - repeat (apply Forall_cons; [apply method_no_ccz; exact I|]). constructor.
  - repeat (apply Forall_cons; [|]); [| |constructor].
    + intros k tg l X _ D. injection X as <- <-. inversion D as [? ? D1|]; subst. inversion D1; subst. apply NoDup_cons; [intros []|constructor].
    + intros k tg l X. discriminate.
Qed.
