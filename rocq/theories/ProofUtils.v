(** Proofs for to_inttuple. *)
From Coq Require Import List Arith NArith Bool Lia.
Import ListNotations.
From Verif Require Import Base ModelUtils SpecUtils.

Section Proofs.
Variable digit : N -> option nat.
Variable value : Type.
Hypothesis D : python_digits digit.
Notation strings := (strings value).
Notation tuples := (tuples value).

Lemma digit_bit : forall b, digit (bit_char b) = Some (bit_int b).
Proof. intros b. rewrite D by (destruct b; reflexivity). destruct b; reflexivity. Qed.
Lemma string_bits : forall l, int_tuple digit (bit_string l) = Ok (bit_tuple l).
Proof.
  induction l as [|b l IH]; [reflexivity|]. unfold int_tuple, bit_string, bit_tuple in *. cbn [map map_res]. rewrite digit_bit. cbn [bind]. rewrite IH. reflexivity.
Qed.
Lemma tuple_eqb_true : forall a b, tuple_eqb a b = true -> a = b.
Proof.
  induction a as [|x a IH]; destruct b as [|y b]; cbn [tuple_eqb]; intros H; try discriminate; auto. apply andb_true_iff in H as [H1 H2].
  apply Nat.eqb_eq in H1. subst. f_equal. auto.
Qed.
Lemma bit_tuple_inj : forall a b, bit_tuple a = bit_tuple b -> a = b.
Proof.
  induction a as [|x a IH]; destruct b as [|y b]; cbn; intros H; try discriminate; auto. injection H as H1 H2. f_equal; auto. destruct x, y; auto; discriminate.
Qed.
Lemma set_new : forall (d : list (list nat * value)) k v, ~ In k (map fst d) -> set_item value d k v = d ++ [(k, v)].
Proof.
  induction d as [|[a b] d IH]; intros k v N; cbn [set_item List.app]; [auto|]. destruct (tuple_eqb a k) eqn:E.
  - apply tuple_eqb_true in E. subst. exfalso. apply N. left. auto.
  - f_equal. apply IH. intros I. apply N. right. auto.
Qed.
Lemma tuples_in : forall l e, In (bit_tuple l) (map fst (tuples e)) -> In l (map fst e).
Proof.
  intros l e I. unfold tuples in I. rewrite map_map in I. cbn [fst] in I. rewrite in_map_iff in I. destruct I as [x [E I]]. apply bit_tuple_inj in E. subst. apply in_map. auto.
Qed.
Lemma comprehension_app : forall e a, NoDup (map fst (a ++ e)) -> comprehension digit value (tuples a) (strings e) = Ok (tuples (a ++ e)).
Proof.
  induction e as [|[l v] e IH]; intros a N; [rewrite app_nil_r; reflexivity|]. cbn [strings map fst snd comprehension]. rewrite string_bits. cbn [bind].
  rewrite set_new.
  - replace (tuples a ++ [(bit_tuple l, v)]) with (tuples (a ++ [(l, v)])) by (unfold tuples; rewrite map_app; reflexivity).
    change (map (fun x => (bit_string (fst x), snd x)) e) with (strings e). rewrite IH by (rewrite <- app_assoc; exact N). rewrite <- app_assoc. reflexivity.
  - intros I. apply tuples_in in I. rewrite map_app in N. cbn [map fst] in N. apply NoDup_remove_2 in N. apply N. apply in_or_app. auto.
Qed.
Lemma entries_kept : forall e, NoDup (map fst e) ->
  to_inttuple digit value (ACounter value (strings e)) = Ok (CCounter value (tuples e)) /\ to_inttuple digit value (ADict value (strings e)) = Ok (CDict value (tuples e)).
Proof. intros e N. unfold to_inttuple. pose proof (comprehension_app e [] N) as H. cbn [tuples map List.app] in H. rewrite H. auto. Qed.
Lemma string_kept : forall l, to_inttuple digit value (AStr value (bit_string l)) = Ok (CTuple value (bit_tuple l)).
Proof. intros. unfold to_inttuple. rewrite string_bits. reflexivity. Qed.

(** characters that are no digits *)
Lemma bad_char : forall s c, In c s -> digit c = None -> int_tuple digit s = Err ValueError.
Proof.
  induction s as [|x s IH]; intros c I N; [destruct I|]. unfold int_tuple in *. cbn [map_res]. destruct (digit x) as [d|] eqn:E; [|reflexivity]. cbn [bind].
  destruct I as [->|I]; [congruence|]. rewrite (IH c I N). reflexivity.
Qed.
Lemma int_tuple_err : forall s e, int_tuple digit s = Err e -> e = ValueError.
Proof.
  induction s as [|x s IH]; intros e H; unfold int_tuple in *; cbn [map_res] in H; [discriminate|]. destruct (digit x); cbn [bind] in H; [|congruence].
  destruct (map_res _ s) eqn:E; cbn [bind] in H; [discriminate|]. injection H as <-. apply IH. reflexivity.
Qed.
Lemma bad_key : forall d acc k v c, In (k, v) d -> In c k -> digit c = None -> comprehension digit value acc d = Err ValueError.
Proof.
  induction d as [|[k' v'] d IH]; intros acc k v c I Ic N; [destruct I|]. cbn [comprehension]. destruct I as [E|I].
  - injection E as -> ->. rewrite (bad_char k c Ic N). reflexivity.
  - destruct (int_tuple digit k') eqn:E; cbn [bind]; [eapply IH; eauto|]. apply int_tuple_err in E. subst. auto.
Qed.
Lemma no_digit_none : forall c, no_digit c -> digit c = None.
Proof.
  intros c [L N]. rewrite (D c L). destruct (48 <=? c)%N eqn:E1; [|auto]. destruct (c <=? 57)%N eqn:E2; [|auto]. apply N.leb_le in E1, E2. exfalso. apply N. auto.
Qed.
Lemma others_refused : (forall s c, In c s -> no_digit c -> to_inttuple digit value (AStr value s) = Err ValueError) /\
  (forall d k v c, In (k, v) d -> In c k -> no_digit c ->
     to_inttuple digit value (ACounter value d) = Err ValueError /\ to_inttuple digit value (ADict value d) = Err ValueError) /\
  to_inttuple digit value (AOther value) = Err ValueError.
Proof.
  split; [|split; [|reflexivity]].
  - intros s c I N. unfold to_inttuple. rewrite (bad_char s c I (no_digit_none c N)). reflexivity.
  - intros d k v c I Ic N. unfold to_inttuple. rewrite (bad_key d [] k v c I Ic (no_digit_none c N)). auto.
Qed.
(** the other digits are accepted *)
Lemma digits_accepted : forall k, 2 <= k <= 9 -> to_inttuple digit value (AStr value [(48 + N.of_nat k)%N]) = Ok (CTuple value [k]).
Proof.
  intros k H. unfold to_inttuple, int_tuple. cbn [map_res]. rewrite D by lia.
  replace (48 <=? 48 + N.of_nat k)%N with true by (symmetry; apply N.leb_le; lia). replace (48 + N.of_nat k <=? 57)%N with true by (symmetry; apply N.leb_le; lia).
  cbn [andb bind]. replace (N.to_nat (48 + N.of_nat k - 48)) with k by lia. reflexivity.
Qed.
(** a digit 0 of another script merges with '0' *)
Lemma scripts_merge : forall c v w, c <> 48%N -> digit c = Some 0 ->
  to_inttuple digit value (ADict value [([48%N], v); ([c], w)]) = Ok (CDict value [([0], w)]).
Proof. intros c v w N H. unfold to_inttuple. cbn [comprehension int_tuple map_res]. rewrite H, (D 48%N) by reflexivity. reflexivity. Qed.
End Proofs.

(** a function with the digits of ASCII and the Arabic-Indic zero *)
Definition digit_ex (c : N) : option nat := if (c =? 1632)%N then Some 0 else if ((48 <=? c) && (c <=? 57))%N%bool then Some (N.to_nat (c - 48)) else None.
Lemma digit_case : python_digits digit_ex /\ 1632%N <> 48%N /\ digit_ex 1632 = Some 0 /\ NoDup (map fst [([true; false], 1); ([false; true], 2); ([], 3)]) /\
  no_digit 97.
Proof.
  split.
  - intros c L. unfold digit_ex. destruct (N.eqb_spec c 1632); [lia|reflexivity].
  - repeat split; try reflexivity; try discriminate; try (intros [H1 H2]; lia). repeat (apply NoDup_cons; [cbn; intuition discriminate|]). constructor.
Qed.
