(** Setting, reading and flipping single bits of indices; sums over indices. *)
From Coq Require Import List Arith Bool Lia Permutation Reals Lra Sorted Setoid Morphisms.
Import ListNotations.
From Verif Require Import Cplx.

Notation bit := Nat.testbit.

(** index [x] with bit [t] set to [b] *)
Definition setb (x t : nat) (b : bool) : nat :=
  if b then Nat.lor x (2 ^ t) else Nat.ldiff x (2 ^ t).
(** index [x] with bit [t] inverted *)
Definition flip (x t : nat) : nat := Nat.lxor x (2 ^ t).
Arguments setb : simpl never.
Arguments flip : simpl never.

Lemma testbit_setb : forall x t b u, bit (setb x t b) u = if t =? u then b else bit x u.
Proof.
  intros. unfold setb. destruct b.
  - rewrite Nat.lor_spec, Nat.pow2_bits_eqb. destruct (t =? u); rewrite ?orb_true_r, ?orb_false_r; auto.
  - rewrite Nat.ldiff_spec, Nat.pow2_bits_eqb. destruct (t =? u); simpl; rewrite ?andb_false_r, ?andb_true_r; auto.
Qed.
Lemma testbit_setb_eq : forall x t b, bit (setb x t b) t = b.
Proof. intros. rewrite testbit_setb, Nat.eqb_refl. auto. Qed.
Lemma testbit_setb_neq : forall x t b u, t <> u -> bit (setb x t b) u = bit x u.
Proof. intros. rewrite testbit_setb. apply Nat.eqb_neq in H. rewrite H. auto. Qed.

Lemma testbit_flip : forall x t u, bit (flip x t) u = if t =? u then negb (bit x u) else bit x u.
Proof.
  intros. unfold flip. rewrite Nat.lxor_spec, Nat.pow2_bits_eqb.
  destruct (t =? u); destruct (bit x u); auto.
Qed.

Lemma setb_setb : forall x t a b, setb (setb x t a) t b = setb x t b.
Proof. intros. apply Nat.bits_inj. intro u. rewrite !testbit_setb. destruct (t =? u); auto. Qed.
Lemma setb_comm : forall x t u a b, t <> u -> setb (setb x t a) u b = setb (setb x u b) t a.
Proof.
  intros. apply Nat.bits_inj. intro v. rewrite !testbit_setb.
  destruct (Nat.eqb_spec t v), (Nat.eqb_spec u v); subst; auto; congruence.
Qed.
Lemma setb_id : forall x t, setb x t (bit x t) = x.
Proof. intros. apply Nat.bits_inj. intro v. rewrite testbit_setb. destruct (Nat.eqb_spec t v); subst; auto. Qed.
Lemma setb_same : forall x t b, bit x t = b -> setb x t b = x.
Proof. intros; subst; apply setb_id. Qed.
Lemma flip_setb : forall x t, flip x t = setb x t (negb (bit x t)).
Proof.
  intros. apply Nat.bits_inj. intro v. rewrite testbit_flip, testbit_setb.
  destruct (Nat.eqb_spec t v); subst; auto.
Qed.
Lemma flip_flip : forall x t, flip (flip x t) t = x.
Proof. intros. apply Nat.bits_inj. intro v. rewrite !testbit_flip. destruct (t =? v); auto. apply negb_involutive. Qed.
Lemma flip_comm : forall x t u, flip (flip x t) u = flip (flip x u) t.
Proof. intros. apply Nat.bits_inj. intro v. rewrite !testbit_flip. destruct (t =? v), (u =? v); auto. Qed.

Lemma lt_pow2_bits : forall n x, x < 2 ^ n <-> (forall t, n <= t -> bit x t = false).
Proof.
  intros n x. split.
  - intros H t Ht. destruct (Nat.eq_dec x 0) as [->|E]. { apply Nat.bits_0. }
    apply Nat.bits_above_log2.
    apply Nat.log2_lt_pow2; [lia|]. eapply Nat.lt_le_trans; [exact H|].
    apply Nat.pow_le_mono_r; lia.
  - intros H. destruct (Nat.eq_dec x 0) as [->|E]. { apply Nat.neq_0_lt_0, Nat.pow_nonzero; lia. }
    apply Nat.log2_lt_pow2; [lia|].
    destruct (Nat.lt_ge_cases (Nat.log2 x) n) as [|G]; auto.
    specialize (H _ G). rewrite Nat.bit_log2 in H; [discriminate|auto].
Qed.

Lemma setb_lt : forall n x t b, t < n -> x < 2 ^ n -> setb x t b < 2 ^ n.
Proof.
  intros n x t b Ht Hx. rewrite lt_pow2_bits in *. intros u Hu.
  rewrite testbit_setb. destruct (Nat.eqb_spec t u); [lia|auto].
Qed.
Lemma flip_lt : forall n x t, t < n -> x < 2 ^ n -> flip x t < 2 ^ n.
Proof. intros. rewrite flip_setb. apply setb_lt; auto. Qed.
Lemma setb_ge : forall n x t b, t < n -> 2 ^ n <= x -> 2 ^ n <= setb x t b.
Proof.
  intros n x t b Ht Hx. destruct (Nat.le_gt_cases (2^n) (setb x t b)); auto.
  exfalso. assert (setb (setb x t b) t (bit x t) < 2 ^ n) by (apply setb_lt; auto).
  rewrite setb_setb, setb_id in H0. lia.
Qed.

Lemma pow2_pos : forall n, 0 < 2 ^ n.
Proof. intros. apply Nat.neq_0_lt_0, Nat.pow_nonzero; lia. Qed.

(** arithmetic meaning of setting and clearing a bit *)
Lemma setb_true_add : forall x t, bit x t = false -> setb x t true = x + 2 ^ t.
Proof.
  intros. unfold setb. rewrite Nat.add_nocarry_lxor.
  - apply Nat.bits_inj. intro u. rewrite Nat.lor_spec, Nat.lxor_spec, Nat.pow2_bits_eqb.
    destruct (Nat.eqb_spec t u); subst; [rewrite H|]; destruct (bit x u); auto.
  - apply Nat.bits_inj. intro u. rewrite Nat.land_spec, Nat.pow2_bits_eqb, Nat.bits_0.
    destruct (Nat.eqb_spec t u); subst; [rewrite H|]; auto using andb_false_r.
Qed.
Lemma flip_add : forall x t, bit x t = false -> flip x t = x + 2 ^ t.
Proof. intros. rewrite flip_setb, H. apply setb_true_add; auto. Qed.

(** [i & (1 << t)] as the Python code writes it *)
Lemma land_pow2 : forall x t, Nat.land x (2 ^ t) = if bit x t then 2 ^ t else 0.
Proof.
  intros. apply Nat.bits_inj. intro u. rewrite Nat.land_spec, Nat.pow2_bits_eqb.
  destruct (Nat.eqb_spec t u); subst.
  - destruct (bit x u) eqn:E; simpl; [rewrite Nat.pow2_bits_eqb, Nat.eqb_refl|rewrite Nat.bits_0]; auto.
  - rewrite andb_false_r. destruct (bit x t); [rewrite Nat.pow2_bits_eqb|rewrite Nat.bits_0]; auto.
    symmetry. apply Nat.eqb_neq. auto.
Qed.
Lemma land_pow2_eqb : forall x t, (Nat.land x (2 ^ t) =? 0) = negb (bit x t).
Proof.
  intros. rewrite land_pow2. destruct (bit x t); simpl; auto.
  apply Nat.eqb_neq. apply Nat.pow_nonzero. lia.
Qed.

(** ** Sums *)
Section Sums.
Local Open Scope C_scope.
Lemma Csum_app : forall A (f : A -> C) l1 l2, Csum f (l1 ++ l2) = (Csum f l1 + Csum f l2)%C.
Proof. induction l1; intros; simpl; [ring|rewrite IHl1; ring]. Qed.
Lemma Csum_ext : forall A (f g : A -> C) l, (forall a, In a l -> f a = g a) -> Csum f l = Csum g l.
Proof. induction l; intros; simpl; auto. rewrite H by (left; auto). f_equal. apply IHl. intros; apply H; right; auto. Qed.
Lemma Csum_perm : forall A (f : A -> C) l1 l2, Permutation l1 l2 -> Csum f l1 = Csum f l2.
Proof. induction 1; simpl; auto; try congruence. - ring. Qed.
Lemma Csum_map : forall A B (f : B -> C) (g : A -> B) l, Csum f (map g l) = Csum (fun a => f (g a)) l.
Proof. induction l; simpl; congruence. Qed.
Lemma Csum_add : forall A (f g : A -> C) l, Csum (fun a => f a + g a) l = Csum f l + Csum g l.
Proof. induction l; simpl; [ring|rewrite IHl; ring]. Qed.
Lemma Csum_sub : forall A (f g : A -> C) l, Csum (fun a => f a - g a) l = Csum f l - Csum g l.
Proof. induction l; simpl; [ring|rewrite IHl; ring]. Qed.
Lemma Csum_mul_l : forall A k (f : A -> C) l, Csum (fun a => k * f a) l = k * Csum f l.
Proof. induction l; simpl; [ring|rewrite IHl; ring]. Qed.
Lemma Csum_mul_r : forall A k (f : A -> C) l, Csum (fun a => f a * k) l = Csum f l * k.
Proof. induction l; simpl; [ring|rewrite IHl; ring]. Qed.
Lemma Csum_0 : forall A (f : A -> C) l, (forall a, In a l -> f a = C0) -> Csum f l = C0.
Proof. induction l; intros; simpl; auto. rewrite H by (left; auto). rewrite IHl; [ring|]. intros; apply H; right; auto. Qed.
Lemma Csum_opp : forall A (f : A -> C) l, Csum (fun a => - f a) l = - Csum f l.
Proof. induction l; simpl; [ring|rewrite IHl; ring]. Qed.
Lemma Csum_swap : forall A B (f : A -> B -> C) l m,
  Csum (fun a => Csum (fun b => f a b) m) l = Csum (fun b => Csum (fun a => f a b) l) m.
Proof.
  induction l; intros; simpl.
  - symmetry. apply Csum_0. auto.
  - rewrite IHl, <- Csum_add. auto.
Qed.
Lemma Csum_single : forall (f : nat -> C) l x, NoDup l -> In x l ->
  (forall y, In y l -> y <> x -> f y = C0) -> Csum f l = f x.
Proof.
  induction l; intros x ND I H; [contradiction|].
  inversion ND; subst. simpl. destruct I as [->|I].
  - rewrite Csum_0; [ring|]. intros b Hb. apply H; [right; auto|]. intro; subst; contradiction.
  - rewrite (H a); [|left; auto|intro; subst; contradiction].
    rewrite (IHl x); auto. ring. intros; apply H; auto. right; auto.
Qed.
Lemma Csum_RtoC : forall A (f : A -> R) l, Csum (fun a => RtoC (f a)) l = RtoC (Rsum f l).
Proof. induction l; simpl; auto. rewrite IHl, RtoC_add. auto. Qed.
Lemma Csum_conj : forall A (f : A -> C) l, Cconj (Csum f l) = Csum (fun a => Cconj (f a)) l.
Proof. induction l; simpl. - ceq. - rewrite Cconj_add, IHl. auto. Qed.
End Sums.

Section RSums.
Local Open Scope R_scope.
Lemma Rsum_app : forall A (f : A -> R) l1 l2, Rsum f (l1 ++ l2) = Rsum f l1 + Rsum f l2.
Proof. induction l1; intros; simpl; [ring|rewrite IHl1; ring]. Qed.
Lemma Rsum_ext : forall A (f g : A -> R) l, (forall a, In a l -> f a = g a) -> Rsum f l = Rsum g l.
Proof. induction l; intros; simpl; auto. rewrite H by (left; auto). f_equal. apply IHl. intros; apply H; right; auto. Qed.
Lemma Rsum_perm : forall A (f : A -> R) l1 l2, Permutation l1 l2 -> Rsum f l1 = Rsum f l2.
Proof. induction 1; simpl; auto; try congruence. - ring. Qed.
Lemma Rsum_map : forall A B (f : B -> R) (g : A -> B) l, Rsum f (map g l) = Rsum (fun a => f (g a)) l.
Proof. induction l; simpl; congruence. Qed.
Lemma Rsum_add : forall A (f g : A -> R) l, Rsum (fun a => f a + g a) l = Rsum f l + Rsum g l.
Proof. induction l; simpl; [ring|rewrite IHl; ring]. Qed.
Lemma Rsum_sub : forall A (f g : A -> R) l, Rsum (fun a => f a - g a) l = Rsum f l - Rsum g l.
Proof. induction l; simpl; [ring|rewrite IHl; ring]. Qed.
Lemma Rsum_mul_l : forall A k (f : A -> R) l, Rsum (fun a => k * f a) l = k * Rsum f l.
Proof. induction l; simpl; [ring|rewrite IHl; ring]. Qed.
Lemma Rsum_mul_r : forall A k (f : A -> R) l, Rsum (fun a => f a * k) l = Rsum f l * k.
Proof. induction l; simpl; [ring|rewrite IHl; ring]. Qed.
Lemma Rsum_0 : forall A (f : A -> R) l, (forall a, In a l -> f a = 0) -> Rsum f l = 0.
Proof. induction l; intros; simpl; auto. rewrite H by (left; auto). rewrite IHl; [ring|]. intros; apply H; right; auto. Qed.
Lemma Rsum_nonneg : forall A (f : A -> R) l, (forall a, In a l -> 0 <= f a) -> 0 <= Rsum f l.
Proof. induction l; intros; simpl; [lra|]. assert (0 <= f a) by (apply H; left; auto). assert (0 <= Rsum f l) by (apply IHl; intros; apply H; right; auto). lra. Qed.
Lemma Rsum_0_inv : forall A (f : A -> R) l, (forall a, In a l -> 0 <= f a) -> Rsum f l = 0 ->
  forall a, In a l -> f a = 0.
Proof.
  induction l; intros H E b Hb; [contradiction|]. simpl in E.
  assert (0 <= f a) by (apply H; left; auto).
  assert (0 <= Rsum f l) by (apply Rsum_nonneg; intros; apply H; right; auto).
  destruct Hb as [<-|Hb]; [lra|]. apply IHl; auto. intros; apply H; right; auto. lra.
Qed.
Lemma Rsum_filter : forall A (f : A -> R) p l,
  Rsum f (filter p l) = Rsum (fun a => if p a then f a else 0) l.
Proof. induction l; simpl; auto. destruct (p a); simpl; rewrite IHl; auto. ring. Qed.
Lemma Rsum_swap : forall A B (f : A -> B -> R) l m,
  Rsum (fun a => Rsum (fun b => f a b) m) l = Rsum (fun b => Rsum (fun a => f a b) l) m.
Proof.
  induction l; intros; simpl.
  - symmetry. apply Rsum_0. auto.
  - rewrite IHl, <- Rsum_add. auto.
Qed.
Lemma Rsum_single : forall (f : nat -> R) l x, NoDup l -> In x l ->
  (forall y, In y l -> y <> x -> f y = 0) -> Rsum f l = f x.
Proof.
  induction l; intros x ND I H; [contradiction|].
  inversion ND; subst. simpl. destruct I as [->|I].
  - rewrite Rsum_0; [ring|]. intros b Hb. apply H; [right; auto|]. intro; subst; contradiction.
  - rewrite (H a); [|left; auto|intro; subst; contradiction].
    rewrite (IHl x); auto. ring. intros; apply H; auto. right; auto.
Qed.
End RSums.

Lemma NoDup_map_inj : forall A B (f : A -> B) l, NoDup l ->
  (forall x y, In x l -> In y l -> f x = f y -> x = y) -> NoDup (map f l).
Proof.
  induction l; intros ND H; simpl; constructor; inversion ND; subst.
  - intro I. apply in_map_iff in I. destruct I as [y [E I]].
    assert (y = a) by (apply H; [right|left|]; auto). subst. contradiction.
  - apply IHl; auto. intros; apply H; auto; right; auto.
Qed.

(** an injective map of [0..N-1] into itself permutes it *)
Lemma perm_seq_inj : forall N (f : nat -> nat),
  (forall x, x < N -> f x < N) -> (forall x y, x < N -> y < N -> f x = f y -> x = y) ->
  Permutation (map f (seq 0 N)) (seq 0 N).
Proof.
  intros N f Hr Hi.
  apply NoDup_Permutation_bis.
  - apply NoDup_map_inj.
    + apply seq_NoDup.
    + intros x y Hx Hy. apply in_seq in Hx, Hy. apply Hi; lia.
  - rewrite map_length. auto.
  - intros y Hy. apply in_map_iff in Hy. destruct Hy as [x [<- Hx]]. apply in_seq in Hx.
    apply in_seq. specialize (Hr x). lia.
Qed.

Lemma perm_seq_flip : forall n t, t < n ->
  Permutation (map (fun x => flip x t) (seq 0 (2 ^ n))) (seq 0 (2 ^ n)).
Proof.
  intros. apply perm_seq_inj.
  - intros; apply flip_lt; auto.
  - intros x y _ _ E. rewrite <- (flip_flip x t), <- (flip_flip y t), E. auto.
Qed.

Lemma Rsum_flip : forall n t (f : nat -> R), t < n ->
  Rsum (fun x => f (flip x t)) (seq 0 (2 ^ n)) = Rsum f (seq 0 (2 ^ n)).
Proof. intros. rewrite <- (Rsum_map _ _ f (fun x => flip x t)). apply Rsum_perm, perm_seq_flip; auto. Qed.
Lemma Csum_flip : forall n t (f : nat -> C), t < n ->
  Csum (fun x => f (flip x t)) (seq 0 (2 ^ n)) = Csum f (seq 0 (2 ^ n)).
Proof. intros. rewrite <- (Csum_map _ _ f (fun x => flip x t)). apply Csum_perm, perm_seq_flip; auto. Qed.
