(** Runs as repetitions of independent shots, whatever the arithmetic. *)
From Coq Require Import List Arith ZArith Bool String Reals.
Import ListNotations.
From Verif Require Import Base Cplx Bits ModelGate ModelNumpy ModelFloat ModelFloatNumba ModelFloatNumbaMeasure SpecQuantum SpecCircuit SpecMeasure ProofBorn SpecLaw SpecFloatMeasure.
Local Open Scope R_scope.

(** A shot on a new backend: the state, the recorded values and the number of draws so far; or an exception *)
Definition shot_result : Type := ((carr * list nat * nat) + (exn * nat))%type.
Definition np_result (r : sres) : shot_result := match r with SOk ctx => inl (x_qubits ctx, x_cregs ctx, x_pos ctx) | SErr e p => inr (e, p) end.
Definition nb_result (r : fnctx * option exn) : shot_result := match r with (s, None) => inl s | ((_, _, p), Some e) => inr (e, p) end.

(** [N] of them one after the other: the recorded values, the last state, the number of draws so far; an exception ends the run *)
Fixpoint repeated (shot : nat -> shot_result) (N pos : nat) (last : carr) : (list (list nat) * carr * nat) + (exn * nat) :=
  match N with
  | O => inl ([], last, pos)
  | S N => match shot pos with
           | inr x => inr x
           | inl (q, r, pos) => match repeated shot N pos q with
                                | inl (rs, q, p) => inl (r :: rs, q, p)
                                | inr x => inr x
                                end
           end
  end.
Definition counts (c : counter) (rs : list (list nat)) : Prop := forall k, lookup c k = count_occ (list_eq_dec Nat.eq_dec) rs k.
Definition gives (returns : string) (q : carr) (c : counter) (r : res run_result) : Prop :=
  (returns = "statevector"%string /\ r = Ok (RState q)) \/ (returns = "shots"%string /\ r = Ok (RShots c)) \/
  (returns = "statevector_and_shots"%string /\ r = Ok (RBoth q c)).
(** what [run(shots=N, returns=...)] should give, where [f] is the change of the global phase *)
Definition runs_as (shot : nat -> shot_result) (n N pos : nat) (returns : string) (f : carr -> carr) (r : res run_result) (p : nat) : Prop :=
  match repeated shot N pos (zeros n) with
  | inr (e, p') => r = Err e /\ p = p'
  | inl (rs, q, p') => p = p' /\ exists c, counts c rs /\ gives returns (f q) c r
  end.

(** The cache of a backend is what a new backend computes for the first [k] gates; there are no measurements and resets among them, with which [fl_run] and
    [fn_run] raise an exception. *)
Definition np_cached (A : arith) (n : nat) (gs : list gate) (b : backend) : Prop := exists k, (k <= List.length gs)%nat /\ b_idx b = (Z.of_nat k - 1)%Z /\
  fl_run A (firstn k gs) n = Ok (match b_cache b with Some q => q | None => basis0 n end).
Definition nb_cached (c : compiled) (P : arith) (n : nat) (gs : list gate) (b : backend) : Prop := exists k, (k <= List.length gs)%nat /\ b_idx b = (Z.of_nat k - 1)%Z /\
  fn_run c P (firstn k gs) n = Ok (match b_cache b with Some q => q | None => basis0 n end).

(** A property of the draws from [pos] on holds with probability at least [1 - delta] when [m] draws are independent and uniform: it holds in disjoint boxes of
    [m] intervals with that total volume. *)
Fixpoint disjoint (bs : list (list (R * R))) : Prop :=
  match bs with
  | [] => True
  | a :: r => Forall (fun b => forall rng pos, draws_ok rng -> in_box a rng pos -> ~ in_box b rng pos) r /\ disjoint r
  end.
Definition mostly (m : nat) (delta : R) (Q : (nat -> R) -> nat -> Prop) : Prop :=
  exists bs, Forall (fun b => List.length b = m /\ Forall (fun iv => 0 <= fst iv /\ snd iv <= 1) b) bs /\ disjoint bs /\ 1 - delta <= Rsum SpecFloatMeasure.volume bs /\
    forall b rng pos, In b bs -> draws_ok rng -> in_box b rng pos -> Q rng pos.
(** The draws from [pos] on are those of the values [s], which are not too unlikely, and no draw is too close to its threshold *)
Definition sure (n : nat) (es : list event) (err : R) (s : list bool) (rng : nat -> R) (pos : nat) : Prop :=
  let W := weight n es s in let d := INR (draws es) in List.length s = draws es /\ 0 < W /\ 28 * (1 + d * d) * err <= W /\
  in_box (box n es s (ket 0)) rng pos /\ clear (14 * d * err) n es s (ket 0) rng pos.
(** Two runs return counters with the same counts and make the same number of draws *)
Definition same_counts (r r' : res run_result * backend * nat) : Prop :=
  exists c c' b b' p, r = (Ok (RShots c), b, p) /\ r' = (Ok (RShots c'), b', p) /\ forall k, lookup c k = lookup c' k.
