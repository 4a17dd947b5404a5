(** Specification of energies estimated from shots: their probability law. *)
From Coq Require Import List Arith ZArith Bool Reals.
Import ListNotations.
From Verif Require Import Cplx Bits ModelGate ModelPauli SpecQuantum SpecCircuit SpecMeasure SpecLaw SpecPauli SpecVqe.
Local Open Scope R_scope.

(** A word on qubits that the mirrored register has in the same places: with qubit [q] it has qubit [n - 1 - q]. *)
Definition balanced (n : nat) (w : list pop) : Prop := forall q, In q (map snd w) -> In (n - 1 - q)%nat (map snd w).
(** The opposite: with qubit [q] the word is not on qubit [n - 1 - q]. *)
Definition unpaired (n : nat) (w : list pop) : Prop := forall q, In q (map snd w) -> ~ In (n - 1 - q)%nat (map snd w).
(** What a shot for the word [w] does after the operators [ops]: factors X and Y are turned into Z, then all qubits of the word are measured. *)
Definition turned (o : pop) : list oper :=
  match fst o with LX => [sem1 KH (snd o)] | LY => [sem1 (KRX (- (PI / 2))) (snd o)] | LZ => [] end.
Definition shot_events (ops : list oper) (w : list pop) : list event := map EOp (ops ++ flat_map turned w) ++ map EMeasure (map snd w).
(** the value of the word in a shot: 1 or -1, by the number of ones found *)
Definition reading (s : list bool) : R := fold_right (fun (b : bool) v => if b then - v else v) 1 s.
(** the energy that [N] shots for every term give; the shots for term after term *)
Definition estimate (N : nat) (ham : expr) (sss : list (list (list bool))) : R :=
  Rsum (fun tss => Cre (t_coeff (fst tss)) * (Rsum reading (snd tss) / INR N)) (combine ham sss).
(** the intervals of all draws *)
Definition energy_box (n : nat) (ops : list oper) (ham : expr) (sss : list (list (list bool))) : list (R * R) :=
  flat_map (fun tss => flat_map (fun s => box n (shot_events ops (t_ops (fst tss))) s (ket 0)) (snd tss)) (combine ham sss).
(** [N] shots for every term, each with a value for every qubit of the word *)
Definition shaped (N : nat) (ham : expr) (sss : list (list (list bool))) : Prop :=
  Forall2 (fun t ss => List.length ss = N /\ Forall (fun s : list bool => List.length s = List.length (t_ops t)) ss) ham sss.
(** all values that the shots can find *)
Fixpoint all_shots (N : nat) (ham : expr) : list (list (list (list bool))) :=
  match ham with
  | [] => [[]]
  | t :: r => flat_map (fun ss => map (cons ss) (all_shots N r)) (sequences N (values (List.length (t_ops t))))
  end.
(** the mean of [f] over independent uniform draws: the volume of the box of the values is their probability *)
Definition mean_shots (n : nat) (ops : list oper) (N : nat) (ham : expr) (f : list (list (list bool)) -> R) : R :=
  Rsum (fun sss => box_volume (energy_box n ops ham sss) * f sss) (all_shots N ham).
Definition squares (ham : expr) : R := Rsum (fun t => Rsqr (Cre (t_coeff t))) ham.
