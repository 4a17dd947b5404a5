(** C81: the arrays that a program gets from runs of the numba backend are its own and have the dtype that was asked for. *)
From Coq Require Import List Arith ZArith Bool String Reals.
Import ListNotations.
From Verif Require Import Base Cplx ModelTargets ModelGate ModelNumpy ModelNumba ModelMemory ModelNumbaMemory SpecNumbaMemory ProofMemoryEx ProofNumbaMemory ProofNumbaMemoryEx.

(** Whatever backends a program makes, copies and runs, with whatever dtypes, with the cache or without, and whatever it writes into arrays that runs gave to it, it sees what it sees without writing. *)
Theorem C81_results : forall rng pos os, nowned rng (nm_start pos) [] os -> nsights rng (nm_start pos) os = nsights rng (nm_start pos) (nhands_off os).
Proof. exact nprogram_hands_off. Qed.
Print Assumptions C81_results.

(** It sees what it would see if arrays were values that nobody shares: the runs of ModelNumba, where a run with another dtype than the one before starts with a new backend. *)
Theorem C81_values : forall rng pos os, nowned rng (nm_start pos) [] os -> nsights rng (nm_start pos) os = nvalue_sights rng [] pos os.
Proof. exact nprogram_values. Qed.
Print Assumptions C81_values.

(** The array that a run gives has the dtype that was asked for, to the end of the program. *)
Theorem C81_dtype : forall rng pos os k i gs n dt a r l, nowned rng (nm_start pos) [] os -> nth_error os k = Some (BRun i gs n dt a) ->
  nth_error (fst (nm_steps rng (nm_start pos) os)) k = Some (Ok (BGot r)) -> In l (nplaces r) ->
  exists v, nth_error (t_mem (snd (nm_steps rng (nm_start pos) os))) l = Some (dt, v).
Proof. exact nprogram_dtype. Qed.
Print Assumptions C81_dtype.

(** An array that a run gave to the program keeps its contents and its dtype, whatever runs come later, until the program changes that array itself. *)
Theorem C81_kept : forall rng pos os os' l, nowned rng (nm_start pos) [] (os ++ os') -> In l (ngiven (fst (nm_steps rng (nm_start pos) os))) ->
  (forall v, ~ In (BWrite l v) os') ->
  nth_error (t_mem (snd (nm_steps rng (nm_start pos) (os ++ os')))) l = nth_error (t_mem (snd (nm_steps rng (nm_start pos) os))) l.
Proof. exact nprogram_kept. Qed.
Print Assumptions C81_kept.

(** No two arrays given to the program are the same, in the same answer or in different ones; each exists. *)
Theorem C81_distinct : forall rng pos os, nowned rng (nm_start pos) [] os -> NoDup (ngiven (fst (nm_steps rng (nm_start pos) os))).
Proof. exact nprogram_fresh. Qed.
Print Assumptions C81_distinct.
Theorem C81_exist : forall rng pos os l, nowned rng (nm_start pos) [] os -> In l (ngiven (fst (nm_steps rng (nm_start pos) os))) ->
  (l < List.length (t_mem (snd (nm_steps rng (nm_start pos) os))))%nat.
Proof. exact nprogram_exists. Qed.
Print Assumptions C81_exist.

(** A program of this kind: runs of a backend and of its copy with both dtypes, changes in place between them, a run without the cache. *)
Theorem C81_case : nowned r0 (nm_start 0) [] nprog /\ ngiven (fst (nm_steps r0 (nm_start 0) nprog)) = [0; 3; 4; 6; 9]%nat /\
  nsights r0 (nm_start 0) nprog = [Ok NSDone; Ok (NSRun (RState [C0; C1]) (Some Complex128)); Ok NSDone; Ok (NSRun (RState [C0; C1]) (Some Complex128));
    Ok (NSRun (RState [C0; C1]) (Some Complex64)); Ok (NSRun (RCtx (Ctx 1 [C1; C0] [] true [([0%nat], 1%nat)] [0%nat] 0)) (Some Complex128));
    Ok (NSRun (RShots [([0%nat], 2%nat)]) None); Ok (NSRun (RState [C0; C1]) (Some Complex128))].
Proof. exact nprog_case. Qed.
Print Assumptions C81_case.

(** [nowned] is needed: a program that could write into the cache of the backend would change the next run. *)
Theorem C81_cache_shared : exists l v, nsights r0 (nm_start 0) [BNew; BRun 0 [gX] 1 Complex128 plain; BWrite l v; BRun 0 [gX] 1 Complex128 plain]
  <> nsights r0 (nm_start 0) (nhands_off [BNew; BRun 0 [gX] 1 Complex128 plain; BWrite l v; BRun 0 [gX] 1 Complex128 plain]).
Proof. exact ncache_shared. Qed.
Print Assumptions C81_cache_shared.
