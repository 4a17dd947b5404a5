(** Specification of bit strings. *)
From Coq Require Import List NArith.
Import ListNotations.
From Verif Require Import ModelUtils.

(** '0' is the code point 48, '1' is 49 *)
Definition bit_char (b : bool) : N := if b then 49%N else 48%N.
Definition bit_int (b : bool) : nat := if b then 1 else 0.
Definition bit_string (l : list bool) : str := map bit_char l.
Definition bit_tuple (l : list bool) : list nat := map bit_int l.

(** Python's int() of one character: of the ASCII characters exactly '0' to '9' are digits *)
Definition python_digits (digit : N -> option nat) : Prop :=
  forall c, (c < 128)%N -> digit c = if ((48 <=? c) && (c <=? 57))%N%bool then Some (N.to_nat (c - 48)) else None.
(** an ASCII character that is no digit *)
Definition no_digit (c : N) : Prop := (c < 128)%N /\ ~ (48 <= c <= 57)%N.
(** a dictionary from bits, as written with strings and with tuples *)
Definition strings (value : Type) (e : list (list bool * value)) : list (str * value) := map (fun x => (bit_string (fst x), snd x)) e.
Definition tuples (value : Type) (e : list (list bool * value)) : list (list nat * value) := map (fun x => (bit_tuple (fst x), snd x)) e.
