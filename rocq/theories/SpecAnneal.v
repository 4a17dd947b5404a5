(** The probability law of simulated annealing: a Markov chain on the configurations of [n] spins. *)
From Coq Require Import List Arith ZArith Bool Reals.
Import ListNotations.
From Verif Require Import Cplx Bits SpecQuantum SpecLaw.
Local Open Scope R_scope.

(** A configuration: true is the spin 1, false the spin -1; [values n] are all of them. *)
Definition spin (b : list bool) (i : nat) : R := if nth i b false then 1 else -1.
Fixpoint flip_spin (b : list bool) (x : nat) : list bool :=
  match b, x with
  | [], _ => []
  | s :: r, O => negb s :: r
  | s :: r, S x => s :: flip_spin r x
  end.
Definition is (b c : list bool) : R := if list_eq_dec bool_dec b c then 1 else 0.

Section Metropolis.
Variable n : nat.
Variable E : list bool -> R.
Definition rise (b : list bool) (x : nat) : R := E (flip_spin b x) - E b.
(** the probability that spin [x] is turned once it is proposed *)
Definition accept (T : R) (b : list bool) (x : nat) : R := Rmin 1 (exp (- rise b x / T)).
(** one proposal, of each spin with the same probability; several proposals, each with its temperature *)
Definition move (T : R) (b c : list bool) : R := Rsum (fun x => / INR n * (accept T b x * is (flip_spin b x) c + (1 - accept T b x) * is b c)) (seq 0 n).
Fixpoint moves (ts : list R) (b c : list bool) : R :=
  match ts with
  | [] => is b c
  | T :: ts => Rsum (fun d => move T b d * moves ts d c) (values n)
  end.
(** Boltzmann's law *)
Definition boltzmann (T : R) (b : list bool) : R := exp (- E b / T) / Rsum (fun c => exp (- E c / T)) (values n).

(** What happens in a run: the spins proposed, and which of them are turned *)
Fixpoint path (hs : list (nat * bool)) (b : list bool) : list bool :=
  match hs with
  | [] => b
  | (x, a) :: hs => path hs (if a then flip_spin b x else b)
  end.
(** The intervals of the draws for which it happens.  No number is drawn if the energy falls: then the spin is turned. *)
Fixpoint turn_box (ts : list R) (hs : list (nat * bool)) (b : list bool) : option (list (R * R)) :=
  match ts, hs with
  | T :: ts, (x, a) :: hs =>
      if Rlt_dec (rise b x) 0 then (if a then turn_box ts hs (flip_spin b x) else None)
      else option_map (cons (if a then (0, exp (- rise b x / T)) else (exp (- rise b x / T), 1))) (turn_box ts hs (if a then flip_spin b x else b))
  | _, _ => Some []
  end.
(** its probability, with the spins proposed independently of each other and each with the same probability *)
Definition history_weight (ts : list R) (hs : list (nat * bool)) (b : list bool) : R :=
  (/ INR n) ^ List.length hs * match turn_box ts hs b with Some ivs => box_volume ivs | None => 0 end.
Definition histories (k : nat) : list (list (nat * bool)) := sequences k (list_prod (seq 0 n) [true; false]).
(** the probability that a run from spins chosen with equal probability ends in [c] *)
Definition answer_chance (ts : list R) (c : list bool) : R := Rsum (fun b => / 2 ^ n * moves ts b c) (values n).
End Metropolis.

(** the temperatures T, T r, T r^2, ... above the target, each for [k] proposals *)
Fixpoint temperatures (fuel : nat) (target r T : R) : list R :=
  match fuel with
  | O => []
  | S fuel => if Rlt_dec target T then T :: temperatures fuel target r (T * r) else []
  end.
Definition proposal_temperatures (k : nat) (l : list R) : list R := flat_map (fun T => repeat T k) l.
(** the result of a run as integers *)
Definition bit_list (b : list bool) : list Z := map (fun s : bool => if s then 1%Z else 0%Z) b.

(** Several runs, one after the other, from the streams of start values, of spins proposed and of numbers drawn; [c], [s], [d]: how many of them have been used before.
    Each run is given by its first spins and its history. *)
Definition start_spins (choices : nat -> bool) (n c : nat) : list bool := map (fun i => choices (c + i)%nat) (seq 0 n).
Inductive runs (n : nat) (E : list bool -> R) (ts : list R) (choices : nat -> bool) (sites : nat -> nat) (draws : nat -> R)
  : nat -> nat -> nat -> nat -> list (list bool * list (nat * bool)) -> Prop :=
| runs_end : forall c s d, runs n E ts choices sites draws 0 c s d []
| runs_shot : forall m c s d hs ivs l,
    map fst hs = map sites (seq s (List.length ts)) -> turn_box E ts hs (start_spins choices n c) = Some ivs -> in_box ivs draws d ->
    runs n E ts choices sites draws m (c + n) (s + List.length ts) (d + List.length ivs) l ->
    runs n E ts choices sites draws (S m) c s d ((start_spins choices n c, hs) :: l).
Definition run_answer (p : list bool * list (nat * bool)) : list bool := path (snd p) (fst p).
(** the probability of the runs: the first spins are independent and equally likely, like the spins proposed and the draws *)
Definition run_weight (n : nat) (E : list bool -> R) (ts : list R) (p : list bool * list (nat * bool)) : R := / 2 ^ n * history_weight n E ts (snd p) (fst p).
Definition all_runs (n k : nat) : list (list bool * list (nat * bool)) := list_prod (values n) (histories n k).
Definition runs_weight (n : nat) (E : list bool -> R) (ts : list R) (l : list (list bool * list (nat * bool))) : R := fold_right (fun p v => run_weight n E ts p * v) 1 l.
Definition same_answers (l : list (list bool * list (nat * bool))) (cs : list (list bool)) : R := if list_eq_dec (list_eq_dec bool_dec) (map run_answer l) cs then 1 else 0.
