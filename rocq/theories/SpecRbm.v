(** Specification of layered Boltzmann machines, their expectations and their training, and of counting rows. *)
From Coq Require Import Ascii String List Arith ZArith Bool Reals.
Import ListNotations.
From Verif Require Import Cplx SpecWq.
Local Open Scope R_scope.

(** ** Layers *)
(** the layer of a unit, for layers of the given sizes *)
Fixpoint layer_of (arr : list nat) (i : nat) : option nat :=
  match arr with
  | [] => None
  | a :: r => if (i <? a)%nat then Some 0%nat else option_map S (layer_of r (i - a))
  end.
Definition adjacent (arr : list nat) (i j : nat) : Prop := exists k, layer_of arr i = Some k /\ layer_of arr j = Some (S k).

(** ** Expectations of a machine of [n] units with weights exp(energy), given its first units *)
Fixpoint bit_lists (k : nat) : list (list R) := match k with O => [[]] | S k => map (cons 0) (bit_lists k) ++ map (cons 1) (bit_lists k) end.
Definition state (l : list R) : nat -> R := fun i => nth i l 0.
Section Machine.
Variable n : nat.
Variable energy : (nat -> R) -> R.
Definition expectation (v : list R) (f : (nat -> R) -> R) : R :=
  Rsum (fun h => exp (energy (state (v ++ h))) * f (state (v ++ h))) (bit_lists (n - length v))
  / Rsum (fun h => exp (energy (state (v ++ h)))) (bit_lists (n - length v)).
End Machine.
(** units from [V] on are coupled with the units before [V] only, and couplings are above the diagonal *)
Definition restricted (n V : nat) (Q : nat -> nat -> R) : Prop :=
  upper_triangular n Q /\ forall i j, (V <= i)%nat -> (i < j)%nat -> (j < n)%nat -> Q i j = 0.
(** nor are the first [V] units coupled with each other *)
Definition bipartite (n V : nat) (Q : nat -> nat -> R) : Prop := restricted n V Q /\ forall i j, (i < j)%nat -> (j < V)%nat -> Q i j = 0.
Definition binary (v : list R) : Prop := Forall (fun x => x = 0 \/ x = 1) v.

(** ** Training *)
(** the mean of a function of the rows *)
Definition sample_mean (rows : list (list Z)) (f : (nat -> R) -> R) : R := Rsum (fun row => f (fun i => IZR (nth i row 0%Z))) rows / INR (length rows).
(** one step: the weights learn from the difference of the expectations given data and the means of samples *)
Definition learned (n V : nat) (alpha epsilon : R) (Q : nat -> nat -> R) (v : list R) (samples : list (list Z)) (Q' : nat -> nat -> R) : Prop :=
  forall i j, (i < n)%nat -> (j < n)%nat ->
    Q' i j = alpha * Q i j +
      (if ((i =? j) || ((i <? V) && (V <=? j)))%nat
       then epsilon * (expectation n (qubo_energy n Q) v (fun x => x i * x j) - sample_mean samples (fun x => x i * x j)) else 0).
(** the data of a row: zeros and ones exchanged *)
Definition exchanged (row : list Z) (v : list R) : Prop := Forall2 (fun z x => x = 1 - IZR z) row v.
Section Training.
Variables n V : nat.
Variables alpha epsilon : R.
Variable data : list (list Z).
Variable rows : nat -> nat.
(** what an annealing of the weights may answer in an epoch *)
Variable samples_of : nat -> (nat -> nat -> R) -> list (list Z) -> Prop.
Inductive trained : nat -> nat -> (nat -> nat -> R) -> (nat -> nat -> R) -> Prop :=
| tr_end : forall e Q, trained 0 e Q Q
| tr_step : forall k e Q v samples Q1 Q2, exchanged (nth (rows e) data []) v -> samples_of e Q samples ->
    learned n V alpha epsilon Q v samples Q1 -> trained k (S e) Q1 Q2 -> trained (S k) e Q Q2.
End Training.

(** ** Counting *)
Definition occurrences (l : list (list Z)) (row : list Z) : nat := length (filter (fun r => if list_eq_dec Z.eq_dec r row then true else false) l).
(** a row of digits as text *)
Definition digits (row : list Z) : Prop := Forall (fun z => (0 <= z <= 9)%Z) row.
Fixpoint text (row : list Z) : String.string := match row with [] => String.EmptyString | z :: r => String.String (Ascii.ascii_of_nat (48 + Z.to_nat z)) (text r) end.
(** the number beside a key, 0 if there is none *)
Fixpoint count_of (s : String.string) (c : list (String.string * nat)) : nat :=
  match c with [] => 0 | (t, k) :: c => if String.string_dec s t then k else count_of s c end.
