(** C55: the arrays that a program gets from runs are its own. *)
From Coq Require Import List Arith ZArith Bool String Reals.
Import ListNotations.
From Verif Require Import Base Cplx ModelTargets ModelGate ModelNumpy ModelMemory SpecMemory ProofMemory ProofMemoryEx.

(** Whatever backends a program makes, copies and runs, and whatever it writes into arrays that runs gave to it, it sees what it sees without writing. *)
Theorem C55_results : forall rng pos os, owned rng (mstart pos) [] os -> sights rng (mstart pos) os = sights rng (mstart pos) (hands_off os).
Proof. exact program_hands_off. Qed.
Print Assumptions C55_results.

(** It sees what it would see if arrays were values that nobody shares: the runs of ModelNumpy. *)
Theorem C55_values : forall rng pos os, owned rng (mstart pos) [] os -> sights rng (mstart pos) os = value_sights rng [] pos os.
Proof. exact program_values. Qed.
Print Assumptions C55_values.

(** An array that a run gave to the program keeps its contents, whatever runs come later, until the program changes that array itself. *)
Theorem C55_kept : forall rng pos os os' l, owned rng (mstart pos) [] (os ++ os') -> In l (given (fst (msteps rng (mstart pos) os))) ->
  (forall v, ~ In (HWrite l v) os') ->
  nth l (s_mem (snd (msteps rng (mstart pos) (os ++ os')))) [] = nth l (s_mem (snd (msteps rng (mstart pos) os))) [].
Proof. exact program_kept. Qed.
Print Assumptions C55_kept.

(** No two arrays given to the program are the same, in the same answer or in different ones; each exists. *)
Theorem C55_distinct : forall rng pos os, owned rng (mstart pos) [] os -> NoDup (given (fst (msteps rng (mstart pos) os))).
Proof. exact program_fresh. Qed.
Print Assumptions C55_distinct.
Theorem C55_exist : forall rng pos os l, owned rng (mstart pos) [] os -> In l (given (fst (msteps rng (mstart pos) os))) ->
  (l < List.length (s_mem (snd (msteps rng (mstart pos) os))))%nat.
Proof. exact program_exists. Qed.
Print Assumptions C55_exist.

(** A program of this kind: two runs of a backend and one of its copy with a change in place after the first. *)
Theorem C55_case : owned r0 (mstart 0) [] prog /\ given (fst (msteps r0 (mstart 0) prog)) = [1; 4; 6; 9; 8]%nat /\
  sights r0 (mstart 0) prog = [Ok SDone; Ok (SRun (RState [C0; C1])); Ok SDone; Ok (SRun (RState [C0; C1]));
    Ok (SRun (RState [C0; C1])); Ok (SRun (RCtx (Ctx 1 [C1; C0] [C0; C1] true [([0%nat], 1%nat)] [0%nat] 0)))].
Proof. exact prog_case. Qed.
Print Assumptions C55_case.

(** [owned] is needed: a program that could write into the cache of the backend would change the next run. *)
Theorem C55_cache_shared : exists l v, sights r0 (mstart 0) [HNew; HRun 0 [gX] 1 no_args; HWrite l v; HRun 0 [gX] 1 no_args]
  <> sights r0 (mstart 0) (hands_off [HNew; HRun 0 [gX] 1 no_args; HWrite l v; HRun 0 [gX] 1 no_args]).
Proof. exact cache_shared. Qed.
Print Assumptions C55_cache_shared.
