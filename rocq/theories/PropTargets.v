(** Properties C01, C02, C03: the meaning of the targets of a gate. *)
From Coq Require Import List ZArith Lia.
Import ListNotations.
From Verif Require Import Base ModelTargets SpecTargets ProofTargets.
Local Open Scope Z_scope.

(** C01.  A slice acts on exactly the qubits [range(n)[a:b:c]], in that order, all inside the register. *)
Theorem C01_slices : forall a b c n, 0 <= n -> step_of c <> 0 ->
  exists l, slicing (TSlice a b c) n = Gen l None /\ slice_list n a b c l /\ Forall (fun x => 0 <= x < n) l.
Proof.
  exact (fun a b c n Hn Hc => match slice_sound a b c n Hn Hc with
    ex_intro _ l (conj H1 H2) => ex_intro _ l (conj H1 (conj H2 (slice_in_register n a b c l H2))) end).
Qed.
Print Assumptions C01_slices.

(** The list described by the specification is unique, so C01_slices determines the result. *)
Theorem C01_slice_list_unique : forall n a b c l1 l2,
  slice_list n a b c l1 -> slice_list n a b c l2 -> l1 = l2.
Proof. exact slice_list_unique. Qed.
Print Assumptions C01_slice_list_unique.

Theorem C01_zero_step : forall a b c n, step_of c = 0 -> slicing (TSlice a b c) n = Gen [] (Some ValueError).
Proof. exact slice_zero_step. Qed.
Print Assumptions C01_zero_step.

Example C01_case : slice_list 7 (Some (-2)) None (Some (-2)) [5; 3; 1] /\ slicing (TSlice (Some (-2)) None (Some (-2))) 7 = Gen [5; 3; 1] None
  /\ slicing (TSlice (Some 1) (Some 100) (Some 3)) 9 = Gen [1; 4; 7] None
  /\ slicing (TSlice None None (Some 0)) 9 = Gen [] (Some ValueError).
Proof. exact (conj slice_example (conj eq_refl (conj eq_refl eq_refl))). Qed.

(** C02.  The qubits a gate acts on are those that its target denotes: integers count from either end, a tuple
    goes from left to right.  The loop ends normally for these targets only. *)
Theorem C02_targets : forall n t l, 0 <= n -> (slicing t n = Gen l None <-> denotes n t l).
Proof. exact slicing_iff. Qed.
Print Assumptions C02_targets.

(** Anything else raises TypeError, after the members to the left of it were used. *)
Theorem C02_type_error : forall n ts ls t rest, 0 <= n -> Forall2 (denotes1 n) ts ls -> not_index t ->
  slicing (TTuple (ts ++ t :: rest)) n = Gen (concat ls) (Some TypeError).
Proof. exact slicing_type_error. Qed.
Print Assumptions C02_type_error.

Theorem C02_type_error_single : forall n, slicing TOther n = Gen [] (Some TypeError).
Proof. exact (fun n => eq_refl). Qed.
Print Assumptions C02_type_error_single.

Theorem C02_value_error : forall n ts ls a b c rest, 0 <= n -> Forall2 (denotes1 n) ts ls -> step_of c = 0 ->
  slicing (TTuple (ts ++ TSlice a b c :: rest)) n = Gen (concat ls) (Some ValueError).
Proof. exact slicing_value_error. Qed.
Print Assumptions C02_value_error.

(** Targets stay inside the register if the explicit integers are between -n and n-1 ... *)
Theorem C02_in_register_partial : forall n t l, denotes n t l -> in_range n t -> Forall (fun x => 0 <= x < n) l.
Proof. exact denotes_in_register. Qed.
Print Assumptions C02_in_register_partial.

(** ... but an integer below -n is not refused: it denotes a qubit outside of the register. *)
Theorem C02_in_register_refuted : exists n z l, 0 <= n /\ slicing (TInt z) n = Gen l None /\
  ~ Forall (fun x => 0 <= x < n) l.
Proof. exact out_of_register_witness. Qed.
Print Assumptions C02_in_register_refuted.

Example C02_case : denotes 4 (TTuple [TInt (-1); TInt 0; TInt 3]) [3; 0; 3] /\ in_range 4 (TTuple [TInt (-1); TInt 0; TInt 3])
  /\ not_index TOther.
Proof. exact C02_example. Qed.

(** C03.  A two qubit gate acts on the pairs of its two parts, in order ... *)
Theorem C03_pairs : forall n t ps, 0 <= n -> (qubit_pairs t n = Ok ps <-> denotes_pairs n t ps).
Proof. exact pairs_iff. Qed.
Print Assumptions C03_pairs.

(** ... is refused exactly when the lengths differ or a pair has equal members ... *)
Theorem C03_refused : forall n a b la lb, 0 <= n -> denotes n a la -> denotes n b lb ->
  (qubit_pairs (TTuple [a; b]) n = Err ValueError <->
   List.length la <> List.length lb \/ exists k, (k < List.length la)%nat /\ nth k la 0 = nth k lb 0).
Proof. exact pairs_refused. Qed.
Print Assumptions C03_refused.

(** ... or when there are not two parts. *)
Theorem C03_arity : forall n t, (forall a b, t <> TTuple [a; b]) -> qubit_pairs t n = Err ValueError.
Proof. exact pairs_arity. Qed.
Print Assumptions C03_arity.

Theorem C03_in_register : forall n a b ps, 0 <= n -> qubit_pairs (TTuple [a; b]) n = Ok ps ->
  in_range n a -> in_range n b ->
  Forall (fun p => 0 <= fst p < n /\ 0 <= snd p < n /\ fst p <> snd p) ps.
Proof. exact pairs_in_register. Qed.
Print Assumptions C03_in_register.

Example C03_case : qubit_pairs (TTuple [TSlice None (Some (-1)) None; TTuple [TInt 1; TInt (-1)]]) 3 = Ok [(0, 1); (1, 2)]
  /\ qubit_pairs (TTuple [TInt 0; TInt (-3)]) 3 = Err ValueError
  /\ qubit_pairs (TTuple [TInt 0; TSlice None None None]) 3 = Err ValueError.
Proof. exact (conj eq_refl (conj eq_refl eq_refl)). Qed.
