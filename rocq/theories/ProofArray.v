(** Arrays indexed by basis states, and the effect of mask reads and writes on them. *)
From Coq Require Import List Arith ZArith Bool Reals Lia Lra Sorting.
Import ListNotations.
From Verif Require Import Base Cplx Bits SpecQuantum ModelNumpy.



Lemma arr_length : forall n psi, List.length (arr n psi) = 2 ^ n.
Proof. intros. unfold arr. rewrite map_length, seq_length. auto. Qed.

Lemma arr_ext : forall n a b, (forall x, x < 2 ^ n -> a x = b x) -> arr n a = arr n b.
Proof. intros. apply map_ext_in. intros x Hx. apply in_seq in Hx. apply H. lia. Qed.

Lemma arr_nth : forall n psi x, x < 2 ^ n -> nth x (arr n psi) C0 = psi x.
Proof.
  intros. unfold arr. rewrite nth_indep with (d' := psi 0) by (rewrite map_length, seq_length; auto).
  rewrite map_nth. f_equal. rewrite seq_nth; auto.
Qed.

Lemma arr_inj : forall n a b, arr n a = arr n b -> forall x, x < 2 ^ n -> a x = b x.
Proof. intros. rewrite <- (arr_nth n a), <- (arr_nth n b) by auto. congruence. Qed.

Lemma map_nth_seq : forall A (l : list A) d, map (fun x => nth x l d) (seq 0 (List.length l)) = l.
Proof.
  intros A l d. apply nth_ext with (d := d) (d' := d).
  - rewrite map_length, seq_length. auto.
  - intros k Hk. rewrite map_length, seq_length in Hk.
    rewrite nth_indep with (d' := nth 0 l d) by (rewrite map_length, seq_length; auto).
    rewrite (map_nth (fun x => nth x l d)). f_equal. rewrite seq_nth; auto.
Qed.

Lemma arr_of_list : forall n l, List.length l = 2 ^ n -> l = arr n (fun x => nth x l C0).
Proof. intros. unfold arr. rewrite <- H. symmetry. apply map_nth_seq. Qed.

Lemma arr_exists : forall n l, List.length l = 2 ^ n -> exists psi, l = arr n psi.
Proof. intros. eexists. apply arr_of_list; auto. Qed.

Lemma np_get_map : forall A (a : nat -> A) f S, np_get (map a S) (map f S) = map a (filter f S).
Proof. induction S; simpl; auto. destruct (f a0); simpl; congruence. Qed.

Lemma count_true_map : forall (f : nat -> bool) S, count_true (map f S) = List.length (filter f S).
Proof. induction S; simpl; auto. destruct (f a); simpl; congruence. Qed.

Lemma np_scatter_map : forall A (a b : nat -> A) f S,
  np_scatter (map a S) (map f S) (map b (filter f S)) = map (fun i => if f i then b i else a i) S.
Proof. induction S; simpl; auto. destruct (f a0); simpl; congruence. Qed.

Lemma np_put_map : forall (a b : nat -> C) f S,
  np_put (map a S) (map f S) (map b (filter f S)) = Ok (map (fun i => if f i then b i else a i) S).
Proof.
  intros. unfold np_put. rewrite map_length, count_true_map, Nat.eqb_refl, np_scatter_map. reflexivity.
Qed.

Lemma np_put_scalar_map : forall (a : nat -> C) s f S,
  np_put_scalar (map a S) (map f S) s = Ok (map (fun i => if f i then s else a i) S).
Proof.
  intros. unfold np_put_scalar. rewrite count_true_map.
  replace (repeat s (List.length (filter f S))) with (map (fun _ : nat => s) (filter f S)).
  - apply np_put_map.
  - induction (filter f S); simpl; congruence.
Qed.

Lemma np_scale_map : forall s (a : nat -> C) S, np_scale s (map a S) = map (fun i => (s * a i)%C) S.
Proof. intros. unfold np_scale. rewrite map_map. reflexivity. Qed.

Lemma np_zip_map : forall g (a b : nat -> C) S, np_zip g (map a S) (map b S) = Ok (map (fun i => g (a i) (b i)) S).
Proof.
  intros. unfold np_zip. rewrite !map_length, Nat.eqb_refl. f_equal.
  induction S; simpl; congruence.
Qed.
Lemma np_add_map : forall (a b : nat -> C) S, np_add (map a S) (map b S) = Ok (map (fun i => a i + b i)%C S).
Proof. intros. apply np_zip_map. Qed.
Lemma np_sub_map : forall (a b : nat -> C) S, np_sub (map a S) (map b S) = Ok (map (fun i => a i - b i)%C S).
Proof. intros. apply np_zip_map. Qed.

Lemma mask_and_map : forall f g (S : list nat), mask_and (map f S) (map g S) = map (fun i => f i && g i) S.
Proof. intros. unfold mask_and. induction S; simpl; congruence. Qed.

Lemma np_imul_map : forall (a : nat -> C) f s S,
  np_imul (map a S) (map f S) s = Ok (map (fun i => if f i then (s * a i)%C else a i) S).
Proof. intros. unfold np_imul. rewrite np_get_map, np_scale_map. apply np_put_map. Qed.

Definition b0 (t i : nat) : bool := negb (bit i t).
Definition b1 (t i : nat) : bool := bit i t.

Lemma mask_eq0_ok : forall n t, (0 <= t)%Z -> mask_eq0 n t = Ok (map (b0 (Z.to_nat t)) (seq 0 (2 ^ n))).
Proof.
  intros. unfold mask_eq0. destruct (Z.ltb_spec t 0); [lia|]. f_equal. apply map_ext. intros.
  rewrite Nat.shiftl_1_l. apply land_pow2_eqb.
Qed.
Lemma mask_ne0_ok : forall n t, (0 <= t)%Z -> mask_ne0 n t = Ok (map (b1 (Z.to_nat t)) (seq 0 (2 ^ n))).
Proof.
  intros. unfold mask_ne0. destruct (Z.ltb_spec t 0); [lia|]. f_equal. apply map_ext. intros.
  rewrite Nat.shiftl_1_l, land_pow2_eqb, negb_involutive. reflexivity.
Qed.
Lemma mask_eq0_neg : forall n t, (t < 0)%Z -> mask_eq0 n t = Err ValueError.
Proof. intros. unfold mask_eq0. destruct (Z.ltb_spec t 0); [auto|lia]. Qed.
Lemma mask_ne0_neg : forall n t, (t < 0)%Z -> mask_ne0 n t = Err ValueError.
Proof. intros. unfold mask_ne0. destruct (Z.ltb_spec t 0); [auto|lia]. Qed.

(** strictly sorted lists of naturals are determined by their elements *)
Lemma sorted_nat_unique : forall l1 l2, StronglySorted lt l1 -> StronglySorted lt l2 ->
  (forall x, In x l1 <-> In x l2) -> l1 = l2.
Proof.
  induction l1 as [|a l1 IH]; intros [|b l2] H1 H2 H; auto.
  - exfalso. apply (H b). left; auto.
  - exfalso. apply (H a). left; auto.
  - inversion H1 as [|? ? S1 F1]; inversion H2 as [|? ? S2 F2]; subst.
    rewrite Forall_forall in F1, F2.
    assert (a = b).
    { destruct (proj1 (H a) (or_introl eq_refl)) as [|Ha]; auto.
      destruct (proj2 (H b) (or_introl eq_refl)) as [|Hb]; auto.
      apply F1 in Hb. apply F2 in Ha. lia. }
    subst b. f_equal. apply IH; auto.
    intros x. specialize (H x). simpl in H. split; intros Hx.
    + destruct (proj1 H (or_intror Hx)); auto. subst x. apply F1 in Hx. lia.
    + destruct (proj2 H (or_intror Hx)); auto. subst x. apply F2 in Hx. lia.
Qed.

Lemma seq_sorted : forall k s, StronglySorted lt (seq s k).
Proof.
  induction k; intros; simpl; constructor; auto.
  apply Forall_forall. intros x Hx. apply in_seq in Hx. lia.
Qed.

Lemma filter_sorted : forall f l, StronglySorted lt l -> StronglySorted lt (filter f l).
Proof.
  induction 1; simpl; [constructor|]. destruct (f a); auto.
  constructor; auto. rewrite Forall_forall in *. intros x Hx. apply filter_In in Hx. apply H0; tauto.
Qed.

Lemma map_sorted : forall g l, StronglySorted lt l ->
  (forall x y, In x l -> In y l -> x < y -> g x < g y) -> StronglySorted lt (map g l).
Proof.
  induction 1 as [|a l S IH F]; intros H; simpl; [constructor|].
  constructor.
  - apply IH. intros; apply H; auto; right; auto.
  - rewrite Forall_forall in *. intros y Hy. apply in_map_iff in Hy. destruct Hy as [x [<- Hx]].
    apply H; auto; [left; auto|right; auto].
Qed.

(** The indices with bit [t] set are, in order, those with bit [t] clear, each with the bit set. *)
Lemma filter_flip : forall n t g, t < n -> (forall i, g (flip i t) = g i) ->
  filter (fun i => b1 t i && g i) (seq 0 (2 ^ n)) =
  map (fun i => flip i t) (filter (fun i => b0 t i && g i) (seq 0 (2 ^ n))).
Proof.
  intros n t g Ht Hg. apply sorted_nat_unique.
  - apply filter_sorted, seq_sorted.
  - apply map_sorted. { apply filter_sorted, seq_sorted. }
    intros x y Hx Hy Hxy. apply filter_In in Hx, Hy. destruct Hx as [_ Hx], Hy as [_ Hy].
    apply andb_true_iff in Hx, Hy. unfold b0 in *.
    rewrite !flip_add by (apply negb_true_iff; tauto). lia.
  - intros x. rewrite in_map_iff. rewrite filter_In. split.
    + intros [Hx Hb]. exists (flip x t). rewrite flip_flip. split; auto.
      apply filter_In. apply andb_true_iff in Hb. apply in_seq in Hx. split.
      * apply in_seq. split; [lia|]. apply flip_lt; auto; lia.
      * unfold b0, b1 in *. rewrite testbit_flip, Nat.eqb_refl, Hg. destruct Hb as [-> ->]. reflexivity.
    + intros [y [<- Hy]]. apply filter_In in Hy. destruct Hy as [Hy Hb].
      apply andb_true_iff in Hb. apply in_seq in Hy. split.
      * apply in_seq. split; [lia|]. apply flip_lt; auto; lia.
      * unfold b0, b1 in *. rewrite testbit_flip, Nat.eqb_refl, Hg. destruct Hb as [-> ->]. reflexivity.
Qed.

Lemma filter_flip' : forall n t g, t < n -> (forall i, g (flip i t) = g i) ->
  filter (fun i => b0 t i && g i) (seq 0 (2 ^ n)) =
  map (fun i => flip i t) (filter (fun i => b1 t i && g i) (seq 0 (2 ^ n))).
Proof.
  intros. rewrite filter_flip, map_map by auto.
  rewrite <- (map_id (filter _ _)) at 1. apply map_ext. intros. symmetry. apply flip_flip.
Qed.

Lemma filter_flip1 : forall n t, t < n ->
  filter (b1 t) (seq 0 (2 ^ n)) = map (fun i => flip i t) (filter (b0 t) (seq 0 (2 ^ n))).
Proof.
  intros. pose proof (filter_flip n t (fun _ => true) H (fun _ => eq_refl)) as E.
  rewrite (filter_ext (fun i => b1 t i && true) (b1 t)) in E by (intros; apply andb_true_r).
  rewrite (filter_ext (fun i => b0 t i && true) (b0 t)) in E by (intros; apply andb_true_r). exact E.
Qed.
Lemma filter_flip1' : forall n t, t < n ->
  filter (b0 t) (seq 0 (2 ^ n)) = map (fun i => flip i t) (filter (b1 t) (seq 0 (2 ^ n))).
Proof.
  intros. rewrite filter_flip1, map_map by auto.
  rewrite <- (map_id (filter _ _)) at 1. apply map_ext. intros. symmetry. apply flip_flip.
Qed.
