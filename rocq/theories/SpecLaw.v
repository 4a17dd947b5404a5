(** The probability law of runs: circuits that measure and reset anywhere, any number of shots. *)
From Coq Require Import List Arith ZArith Bool Reals.
Import ListNotations.
From Verif Require Import Cplx Bits ModelTargets ModelGate SpecTargets SpecQuantum SpecCircuit SpecMeasure.
Local Open Scope R_scope.

(** What a circuit does, one qubit at a time *)
Inductive event : Type := EOp (U : oper) | EMeasure (t : nat) | EReset (t : nat).
Inductive gate_events (n : nat) : gate -> list event -> Prop :=
| ge_ops : forall g ops, gate_ops n g ops -> gate_events n g (map EOp ops)
| ge_measure : forall tg l, denotes (Z.of_nat n) tg l -> Forall (inside n) l -> gate_events n (GMeasure tg) (map (fun t => EMeasure (Z.to_nat t)) l)
| ge_reset : forall tg l, denotes (Z.of_nat n) tg l -> Forall (inside n) l -> gate_events n (GReset tg) (map (fun t => EReset (Z.to_nat t)) l).
Inductive circuit_events (n : nat) : list gate -> list event -> Prop :=
| ce_nil : circuit_events n [] []
| ce_cons : forall g gs e es, gate_events n g e -> circuit_events n gs es -> circuit_events n (g :: gs) (e ++ es).

(** How many values are found in a shot *)
Fixpoint draws (es : list event) : nat := match es with [] => 0 | EOp _ :: r => draws r | _ :: r => S (draws r) end.

(** The part of the state that belongs to the values [s], one for each measurement or reset in order, not normalised: its squared norm is the probability
    of finding them.  Too few values give 0. *)
Fixpoint branch (es : list event) (s : list bool) (psi : state) : state :=
  match es, s with
  | [], _ => psi
  | EOp U :: r, _ => branch r s (U psi)
  | EMeasure t :: r, b :: s => branch r s (project t b psi)
  | EReset t :: r, b :: s => branch r s (if b then ap1 mX t (project t b psi) else project t b psi)
  | _, [] => fun _ => C0
  end.
Definition weight (n : nat) (es : list event) (s : list bool) : R := norm2 n (branch es s (ket 0)).
(** the recorded value of every qubit: that of its last measurement, 0 without one; a reset records nothing *)
Fixpoint recorded (es : list event) (s : list bool) (bits : nat -> nat) : nat -> nat :=
  match es, s with
  | [], _ => bits
  | EOp _ :: r, _ => recorded r s bits
  | EMeasure t :: r, b :: s => recorded r s (update bits t (if b then 1 else 0)%nat)
  | EReset _ :: r, _ :: s => recorded r s bits
  | _, [] => bits
  end.
Definition record (n : nat) (es : list event) (s : list bool) : list nat := map (recorded es s (fun _ => 0%nat)) (seq 0 n).

(** The intervals of the draws: 0 is found if the draw is below the probability of 0 in the branch, otherwise 1. *)
Fixpoint box (n : nat) (es : list event) (s : list bool) (psi : state) : list (R * R) :=
  match es, s with
  | [], _ => []
  | EOp U :: r, _ => box n r s (U psi)
  | EMeasure t :: r, b :: s => (if b then (prob n t false psi / norm2 n psi, 1) else (0, prob n t false psi / norm2 n psi)) :: box n r s (project t b psi)
  | EReset t :: r, b :: s => (if b then (prob n t false psi / norm2 n psi, 1) else (0, prob n t false psi / norm2 n psi))
                             :: box n r s (if b then ap1 mX t (project t b psi) else project t b psi)
  | _, [] => []
  end.
Definition box_volume (ivs : list (R * R)) : R := fold_right (fun iv v => (snd iv - fst iv) * v) 1 ivs.
(** the draws from [pos] on are in the box *)
Definition in_box (ivs : list (R * R)) (rng : nat -> R) (pos : nat) : Prop :=
  forall i, (i < List.length ivs)%nat -> fst (nth i ivs (0, 0)) <= rng (pos + i)%nat < snd (nth i ivs (0, 0)).

(** ** Independent repetitions *)
Fixpoint values (d : nat) : list (list bool) := match d with O => [[]] | S d => map (cons false) (values d) ++ map (cons true) (values d) end.
Fixpoint sequences {A} (N : nat) (l : list A) : list (list A) := match N with O => [[]] | S N => flat_map (fun a => map (cons a) (sequences N l)) l end.
(** the probability of a sequence of shots: that of its box, which is the product *)
Definition seq_weight (n : nat) (es : list event) (ss : list (list bool)) : R := fold_right (fun s v => weight n es s * v) 1 ss.
Definition hits (n : nat) (es : list event) (k : list nat) (ss : list (list bool)) : nat := count_occ (list_eq_dec Nat.eq_dec) (map (record n es) ss) k.
(** the probability that a shot records [k] *)
Definition chance (n : nat) (es : list event) (k : list nat) : R :=
  Rsum (weight n es) (filter (fun s => if list_eq_dec Nat.eq_dec (record n es s) k then true else false) (values (draws es))).
Definition expected (n : nat) (es : list event) (N : nat) (f : list (list bool) -> R) : R :=
  Rsum (fun ss => seq_weight n es ss * f ss) (sequences N (values (draws es))).
