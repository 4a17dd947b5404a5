(** Specification of how likely a good outcome is. *)
From Coq Require Import List Arith Reals.
From Verif Require Import Base Cplx Bits ModelDemo SpecQuantum SpecWq SpecDemo.
Local Open Scope R_scope.

(** the probability that the measured bits are good *)
Definition chance (g : list nat -> bool) (l : list (list nat * R)) : R := Rsum (fun op => if g (fst op) then snd op else 0) l.
(** the bits cost at most as much as [x] *)
Definition low_bits (d : nat -> R) (x : nat) (bits : list nat) : bool := if Rle_dec (d (number bits)) (d x) then true else false.
(** the bits cut at least as many edges as [x] *)
Definition cut_bits_of (edges : list (nat * nat)) (x : nat) (bits : list nat) : bool := (cut edges x <=? cut edges (number bits))%nat.
(** the two groups have the same sum *)
Definition equal_groups (g : list R * list R) : bool := if Req_EM_T (total (fst g)) (total (snd g)) then true else false.
(** the answer is two factors of the number *)
Definition factors (num : nat) (a : res (nat * nat)) : bool := match a with Ok (p, q) => (p * q =? num)%nat | Err _ => false end.
