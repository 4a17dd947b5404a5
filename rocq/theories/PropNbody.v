(** Property theorems: reduction to quadratic terms (C48).  [order k l]: in which order the k-th iterator runs through the set of variables [l]. *)
From Coq Require Import List Reals Permutation.
Import ListNotations.
From Verif Require Import Base ModelWq ModelNbody SpecWq SpecNbody ProofNbody.
Local Open Scope R_scope.

(** C48.  For every iteration order: at most two factors per term, a penalty that is never negative and zero exactly if every supplementary variable is
    the product of its pair, and then the value of the original ([ok_result]). *)
Theorem C48_separation : forall order qs p new con m, (forall k l, Permutation (order k l) l) -> multilinear p -> fresh qs p ->
  nbody_separation order qs p = Some (Ok (new, con, m)) -> ok_result qs p new con m.
Proof. exact nbody_result. Qed.
Print Assumptions C48_separation.
(** It ends; the only errors are an expression that is no sum and too few supplementary variables; [excess p] are always enough. *)
Theorem C48_answers : forall order qs p, (forall k l, Permutation (order k l) l) -> multilinear p -> fresh qs p ->
  ((length p < 2)%nat -> nbody_separation order qs p = Some (Err AssertionError)) /\
  ((2 <= length p)%nat -> (excess p <= length qs)%nat -> exists r, nbody_separation order qs p = Some (Ok r)) /\
  ((2 <= length p)%nat -> (exists r, nbody_separation order qs p = Some (Ok r)) \/ nbody_separation order qs p = Some (Err IndexError)).
Proof. exact nbody_answers. Qed.
Print Assumptions C48_answers.
(** Every assignment of the original variables extends to one without penalty and with the original value. *)
Theorem C48_extends : forall order qs p new con m a, (forall k l, Permutation (order k l) l) -> multilinear p -> fresh qs p ->
  nbody_separation order qs p = Some (Ok (new, con, m)) -> binary a ->
  exists a', binary a' /\ (forall v, ~ In v qs -> a' v = a v) /\ value a' con = 0 /\ value a' new = value a p.
Proof. exact nbody_extends. Qed.
Print Assumptions C48_extends.
Example C48_case : multilinear cubic /\ fresh [10; 11; 12]%nat cubic /\ (excess cubic <= 3)%nat /\
  nbody_separation (fun _ l => rev l) [10; 11; 12]%nat cubic =
    Some (Ok ([(2, [11; 10]%nat); (3, [12; 0]%nat)], penalty 3 2 10 ++ penalty 1 0 11 ++ penalty 2 1 12, [((3, 2), 10); ((1, 0), 11); ((2, 1), 12)]%nat)).
Proof. exact cubic_ok. Qed.
Example C48_case_order : forall (k : nat) (l : list nat), Permutation (rev l) l.
Proof. exact rev_perm. Qed.

(** qn_to_qubo gives the matrix of the polynomial without its constant, if no other coefficient is one (missing for the full claim). *)
Theorem C48_qubo_partial : forall p, (2 <= length p)%nat -> flat_map snd p <> [] -> quadratic p -> multilinear p -> unit_free p ->
  ForallOrdPairs (fun s t => snd s <> [] -> ~ Permutation (snd s) (snd t)) p ->
  exists n m, qn_to_qubo p = Ok (n, m) /\ (forall v, In v (flat_map snd p) -> (v < n)%nat) /\ forall a, binary a -> qubo_energy n m a + constant p = value a p.
Proof. exact qn_energy. Qed.
Print Assumptions C48_qubo_partial.
Example C48_qubo_case : let p := [(2, [0; 1]%nat); (3, [2]%nat); (1, [])] in
  quadratic p /\ multilinear p /\ unit_free p /\ ForallOrdPairs (fun s t => snd s <> [] -> ~ Permutation (snd s) (snd t)) p.
Proof. exact qn_case. Qed.
(** A product of two variables with coefficient one is left out, *)
Theorem C48_qubo_pair_refuted : exists p n m a, quadratic p /\ multilinear p /\ binary a /\ qn_to_qubo p = Ok (n, m) /\ qubo_energy n m a + constant p <> value a p.
Proof. exact qn_pair_dropped. Qed.
Print Assumptions C48_qubo_pair_refuted.
(** and a variable with coefficient one is an error. *)
Theorem C48_qubo_symbol_refuted : forall p i, In (1, [i]) p -> (forall t, In t p -> (length (snd t) <= 2)%nat) -> (2 <= length p)%nat -> qn_to_qubo p = Err ValueError.
Proof. exact qn_symbol. Qed.
Print Assumptions C48_qubo_symbol_refuted.
