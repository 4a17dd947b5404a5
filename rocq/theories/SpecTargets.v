(** Specification of the meaning of target expressions, independent of the algorithms of blueqat/gate.py. *)
From Coq Require Import List ZArith Sorting Bool.
Import ListNotations.
From Verif Require Import Base ModelTargets.
Local Open Scope Z_scope.

(** Position [v] of a register of [n] qubits: negative positions count from the end. *)
Definition rel (n v : Z) : Z := if v <? 0 then v + n else v.

Definition opt_le (n : Z) (o : option Z) (x : Z) : Prop := match o with None => True | Some v => rel n v < x end.
Definition opt_ge (n : Z) (o : option Z) (x : Z) : Prop := match o with None => True | Some v => x < rel n v end.

(** First position that an ascending slice starts from, and the one that a descending slice starts from. *)
Definition first_up (n : Z) (a : option Z) : Z := match a with None => 0 | Some v => Z.max 0 (rel n v) end.
Definition first_down (n : Z) (a : option Z) : Z := match a with None => n - 1 | Some v => Z.min (n - 1) (rel n v) end.

Definition step_of (c : option Z) : Z := match c with None => 1 | Some k => k end.

(** Qubit [x] belongs to [range(n)[a:b:c]]: it is inside the register, not before the start, before the stop,
    and a whole number of steps away from the start. *)
Definition in_slice (n : Z) (a b c : option Z) (x : Z) : Prop :=
  0 <= x < n /\
  (0 < step_of c -> first_up n a <= x /\ opt_ge n b x /\ (step_of c | x - first_up n a)) /\
  (step_of c < 0 -> x <= first_down n a /\ opt_le n b x /\ (step_of c | first_down n a - x)).

(** The order in which a slice with step [c] goes through the qubits. *)
Definition before (c : option Z) (x y : Z) : Prop := if 0 <? step_of c then x < y else y < x.

(** [slice_list n a b c l]: [l] is [range(n)[a:b:c]].  (Strict sortedness excludes repetitions.) *)
Definition slice_list (n : Z) (a b c : option Z) (l : list Z) : Prop :=
  step_of c <> 0 /\ (forall x, In x l <-> in_slice n a b c x) /\ StronglySorted (before c) l.

(** The qubits that a target expression denotes, in order. *)
Inductive denotes1 (n : Z) : target -> list Z -> Prop :=
| den_int : forall z, denotes1 n (TInt z) [rel n z]
| den_slice : forall a b c l, slice_list n a b c l -> denotes1 n (TSlice a b c) l.
Inductive denotes (n : Z) : target -> list Z -> Prop :=
| den_one : forall t l, denotes1 n t l -> denotes n t l
| den_tuple : forall ts ls, Forall2 (denotes1 n) ts ls -> denotes n (TTuple ts) (concat ls).

(** Targets whose explicit indices are inside a register of [n] qubits, counted from either end. *)
Definition in_range1 (n : Z) (t : target) : Prop :=
  match t with TInt z => - n <= z < n | _ => True end.
Definition in_range (n : Z) (t : target) : Prop :=
  match t with TTuple l => Forall (in_range1 n) l | _ => in_range1 n t end.

(** The pairs that the targets of a two qubit gate denote. *)
Definition denotes_pairs (n : Z) (t : target) (ps : list (Z * Z)) : Prop :=
  exists a b la lb, t = TTuple [a; b] /\ denotes n a la /\ denotes n b lb /\
    map fst ps = la /\ map snd ps = lb /\ Forall (fun p => fst p <> snd p) ps.
