(** Model of blueqat/wq.py: Ei_sqa (201-206) and the class Opt as an object: the attributes qubo, J, ep and E, add (469-478), run (480-524, by the
    loops of ModelWq.v), sqa (530-561) and dw (567-596).
    A matrix attribute has its size beside it.  [self.qubo] is a list of lists or a numpy array, which matters where it is compared with [[]].
    Simplifications: real numbers for floating point; square matrices; numpy before 1.25, where comparing an array with a list of a shape that does
    not fit gives False for [==] and True for [!=]; the arguments of np.log and np.tanh are positive (numpy gives nan or inf for others); the strings
    that add accepts (parsed by sympy) and printing are left out; E is a list of numbers, as __init__ and run with one shot leave it; ite is positive where an attribute is empty. *)
From Coq Require Import List Arith ZArith Bool Reals.
Import ListNotations.
From Verif Require Import Base ModelWq.
Local Open Scope R_scope.

(** ** Quantum annealing *)
(** spins of each slice *)
Definition slices : Type := nat -> nat -> Z.
Definition real_slices (q : slices) : nat -> nat -> R := fun p i => IZR (q p i).

(** [np.log(1 / np.tanh(G / T / P))] *)
Definition log_coth (T : R) (P : nat) (G : R) : R := ln (1 / tanh (G / T / INR P)).
(** Ei_sqa (201-206) *)
Definition Ei_sqa (n : nat) (q : slices) (J : mat) (T : R) (P : nat) (G : R) : R :=
  for_range 0 P 0 (fun p E =>
    E + Ei n (real_spins (q p)) J / INR P
      + T / 2 * log_coth T P G * sum_range 0 n (fun i => IZR (q p i) * IZR (q ((p + 1 + P) mod P) i))).
(** 545-553: the change of energy *)
Definition sqa_change (n : nat) (J : mat) (T : R) (P : nat) (G : R) (q : slices) (y x : nat) : R :=
  for_range 0 n 0 (fun j dE =>
    if j =? x then dE + - 2 * IZR (q y x) * J x x / INR P else dE + - 2 * IZR (q y j) * IZR (q y x) * J j x / INR P)
  + IZR (q y x) * (IZR (q ((P + y - 1) mod P) x) + IZR (q ((y + 1) mod P) x)) * log_coth T P G * T.
(** [q[y][x] *= -1] *)
Definition turn_at (q : slices) (y x : nat) : slices := fun p => if p =? y then turn (q p) x else q p.

Section Random.
(** the random numbers: results of choice([-1,1]), of randint(N), of randint(tro) and of rand() *)
Variable choices : nat -> bool.
Variable sites slots : nat -> nat.
Variable draws : nat -> R.

(** 542-556, [k] times; randint(0) raises ValueError; [s]: how many sites and slots have been used, [d]: how many draws *)
Fixpoint sqa_proposals (k n : nat) (J : mat) (T : R) (P : nat) (G : R) (q : slices) (s d : nat) : res (slices * nat * nat) :=
  match k with
  | O => Ok (q, s, d)
  | S k =>
      if (n =? 0) || (P =? 0) then Err ValueError
      else
        let x := sites s in
        let y := slots s in
        let dE := sqa_change n J T P G q y x in
        if Rlt_dec dE 0 then sqa_proposals k n J T P G (turn_at q y x) (S s) d
        else if Rlt_dec (draws d) (exp (- dE / T)) then sqa_proposals k n J T P G (turn_at q y x) (S s) (S d)
        else sqa_proposals k n J T P G q (S s) (S d)
  end.
(** 541-559; [None]: still running after [fuel] rounds.  The answer: [q] or the exception, and the attribute E *)
Fixpoint sqa_loop (fuel n : nat) (J : mat) (ep T : R) (P : nat) (Gf R_ : R) (ite : nat) (G : R) (q : slices) (s d : nat) (E : list R)
    : option (res slices * list R) :=
  match fuel with
  | O => None
  | S fuel =>
      if Rlt_dec Gf G then
        match sqa_proposals ite n J T P G q s d with
        | Err e => Some (Err e, E)
        | Ok (q, s, d) => sqa_loop fuel n J ep T P Gf R_ ite (G * R_) q s d (E ++ [Ei_sqa n q J T P G + ep])
        end
      else Some (Ok q, E)
  end.

(** ** The object *)
Inductive qubo_attr : Type := AList (n : nat) (m : mat) | AArray (n : nat) (m : mat).
Record opt : Type := Opt { o_qubo : qubo_attr; o_size : nat; o_J : mat; o_ep : R; o_E : list R }.
(** __init__ (364-394) *)
Definition opt_init : opt := Opt (AList 0 zeros) 0 zeros 0 [].
Definition with_qubo (o : opt) (a : qubo_attr) : opt := Opt a (o_size o) (o_J o) (o_ep o) (o_E o).
Definition with_E (o : opt) (E : list R) : opt := Opt (o_qubo o) (o_size o) (o_J o) (o_ep o) E.
Definition attr_size (a : qubo_attr) : nat := match a with AList n _ | AArray n _ => n end.
Definition attr_mat (a : qubo_attr) : mat := match a with AList _ m | AArray _ m => m end.

(** [self.qubo == []] as a condition: an array of size 0 or 1 is compared elementwise, with no elements left, which is no true value *)
Definition is_empty_list (a : qubo_attr) : bool := match a with AList n _ => n =? 0 | AArray _ _ => false end.
(** [self.qubo != []] as a condition *)
Definition is_not_empty_list (a : qubo_attr) : bool := match a with AList n _ => negb (n =? 0) | AArray n _ => negb (n <=? 1) end.

(** add (469-478) *)
Definition opt_add (o : opt) (n : nat) (m : mat) (M : R) : opt :=
  let len1 := attr_size (o_qubo o) in
  if len1 =? n then with_qubo o (AArray n (madd (attr_mat (o_qubo o)) (mtimes M m)))
  else if is_empty_list (o_qubo o) then with_qubo o (AArray n (mtimes M m))
  else o.

(** 485-486 and 536-537 *)
Definition prepare (o : opt) : opt :=
  if is_not_empty_list (o_qubo o) then
    let n := attr_size (o_qubo o) in
    let (J, ep) := qi n (attr_mat (o_qubo o)) in
    Opt (o_qubo o) n J ep (o_E o)
  else o.

(** run (480-524) for one shot: the bits, or the exception of np.random.randint(0, 0, itetemp), and the object afterwards *)
Definition opt_run1 (o : opt) (fuel : nat) (Ts R_ : R) (ite : nat) (targetT : R) : option (res (list Z) * opt) :=
  let o := prepare o in
  let n := o_size o in
  let q := fun i => if choices i then 1%Z else (-1)%Z in
  let EE := [Ei n (real_spins q) (o_J o) + o_ep o] in
  if (n =? 0) && negb (ite =? 0) then
    (if Rlt_dec targetT Ts then Some (Err ValueError, with_E o []) else Some (Ok [], with_E o EE))
  else
  match cooling sites draws fuel n (o_J o) (o_ep o) targetT R_ ite Ts q 0 0 EE with
  | None => None
  | Some (q, _, _, EE) => Some (Ok (to_bits n q), with_E o EE)
  end.

(** sqa (530-561): the spins, or the exception, and the object afterwards *)
Definition opt_sqa (o : opt) (fuel : nat) (Gs Gf Tf R_ : R) (tro ite : nat) : option (res slices * opt) :=
  let G := Gs in
  let o := prepare o in
  let J := reJ (o_J o) in
  let n := o_size o in
  let q := fun p i => if choices (p * n + i) then 1%Z else (-1)%Z in
  let E := o_E o ++ [Ei_sqa n q J Tf tro G + o_ep o] in
  match sqa_loop fuel n J (o_ep o) Tf tro Gf R_ ite G q 0 0 E with
  | None => None
  | Some (r, E) => Some (r, with_E o E)
  end.
End Random.

(** ** D-Wave *)
(** dw (567-596).  The solver: its nodes, its edges and its answer to a problem of linear and quadratic terms, both dictionaries with the entries in
    order of insertion. *)
Record solver : Type := Solver
  { nodes : list nat; edges : list (nat * nat); sample_ising : list (nat * R) -> list ((nat * nat) * R) -> list Z }.
Definition opt_dw (o : opt) (sv : solver) : list Z :=
  let o := prepare o in
  let n := o_size o in
  let harr := fun i => o_J o i i in
  let larr := map harr (filter (fun i => i <? n) (nodes sv)) in                                              (* 579-583 *)
  let linear := combine (seq 0 (length larr)) larr in                                                       (* 584 *)
  let qarr := filter (fun e => (fst e <? n) && (snd e <? n)) (edges sv) in                                   (* 587-592 *)
  let quad := map (fun e => (e, o_J o (fst e) (snd e))) qarr in                                              (* 593 *)
  map (fun s => Z.quot (s + 1) 2) (firstn n (sample_ising sv linear quad)).                                  (* 594-596 *)
