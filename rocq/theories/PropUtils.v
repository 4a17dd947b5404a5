(** Property theorems: to_inttuple (C52).  [digit] is Python's int() of one character ([python_digits]: on ASCII the digits 0 to 9). *)
From Coq Require Import List NArith.
Import ListNotations.
From Verif Require Import Base ModelUtils SpecUtils ProofUtils.

(** C52.  Bit strings become the tuples of their bits; *)
Theorem C52_string : forall digit value, python_digits digit -> forall l, to_inttuple digit value (AStr value (bit_string l)) = Ok (CTuple value (bit_tuple l)).
Proof. exact string_kept. Qed.
Print Assumptions C52_string.
(** every entry of a Counter or dictionary is kept, with its value and in its place; *)
Theorem C52_entries : forall digit value, python_digits digit -> forall e, NoDup (map fst e) ->
  to_inttuple digit value (ACounter value (strings value e)) = Ok (CCounter value (tuples value e)) /\
  to_inttuple digit value (ADict value (strings value e)) = Ok (CDict value (tuples value e)).
Proof. exact entries_kept. Qed.
Print Assumptions C52_entries.
Theorem C52_injective : forall a b, bit_tuple a = bit_tuple b -> a = b.
Proof. exact bit_tuple_inj. Qed.
Print Assumptions C52_injective.
(** ASCII characters other than digits are refused, wherever they are.  Missing for the full claim: the digits 2 to 9 (refuted below). *)
Theorem C52_refused_partial : forall digit value, python_digits digit ->
  (forall s c, In c s -> no_digit c -> to_inttuple digit value (AStr value s) = Err ValueError) /\
  (forall d k v c, In (k, v) d -> In c k -> no_digit c ->
     to_inttuple digit value (ACounter value d) = Err ValueError /\ to_inttuple digit value (ADict value d) = Err ValueError) /\
  to_inttuple digit value (AOther value) = Err ValueError.
Proof. exact others_refused. Qed.
Print Assumptions C52_refused_partial.
(** to_inttuple('2') is (2,). *)
Theorem C52_digits_refuted : forall digit value, python_digits digit -> forall k, 2 <= k <= 9 -> to_inttuple digit value (AStr value [(48 + N.of_nat k)%N]) = Ok (CTuple value [k]).
Proof. exact digits_accepted. Qed.
Print Assumptions C52_digits_refuted.
(** Where int() knows another zero, such as the Arabic-Indic one, entries are merged. *)
Theorem C52_merge_refuted : forall digit value, python_digits digit -> forall c v w, c <> 48%N -> digit c = Some 0 ->
  to_inttuple digit value (ADict value [([48%N], v); ([c], w)]) = Ok (CDict value [([0], w)]).
Proof. exact scripts_merge. Qed.
Print Assumptions C52_merge_refuted.
Example C52_case : python_digits digit_ex /\ 1632%N <> 48%N /\ digit_ex 1632 = Some 0 /\ NoDup (map fst [([true; false], 1); ([false; true], 2); ([], 3)]) /\ no_digit 97.
Proof. exact digit_case. Qed.
