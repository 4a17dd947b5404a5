(** Property theorems: polynomials of sympy as QUBO matrices (C76, C77).  [order l]: in which order a set is iterated. *)
From Coq Require Import List Arith Reals Permutation Sorted.
Import ListNotations.
From Verif Require Import Base Cplx ModelWq ModelOpt ModelPoly SpecWq SpecOpt SpecNbody SpecPoly ProofPoly ProofPolySubs ProofPolyFlat ProofPolyMatrix ProofPolyRun ProofPolyCase ProofPolyAdd.
Local Open Scope R_scope.

(** C76.  expand_qubo keeps the values on bits; *)
Theorem C76_expand : forall order, (forall l, Permutation (order l) l) -> forall s q, expand_qubo order s = POk q ->
  collected q /\ forall a, binary a -> value_of a q = value a s.
Proof. exact expand_value. Qed.
Print Assumptions C76_expand.
(** if no variable has a higher power than the lowest one, it leaves no powers and the coefficients are those on bits; *)
Theorem C76_reduced : forall order, (forall l, Permutation (order l) l) -> forall s, led s ->
  exists q, expand_qubo order s = POk q /\ collected q /\ flat q /\ forall l, of_set q l = reduced s l.
Proof. exact expand_reduced. Qed.
Print Assumptions C76_reduced.
(** qubo_to_matrix then gives the matrix of a quadratic polynomial in the variables 0 .. n-1. *)
Theorem C76_matrix_partial : forall order, (forall l, Permutation (order l) l) -> forall s n, led s -> at_most_two s -> numbered s n ->
  exists M, qubo_to_matrix order s = POk (n, M) /\ right_matrix s n M.
Proof. exact matrix_ok. Qed.
Print Assumptions C76_matrix_partial.
(** add with a text adds the energies. *)
Theorem C76_add_partial : forall order, (forall l, Permutation (order l) l) -> forall s n k o, led s -> at_most_two s -> numbered s n -> (0 < n)%nat ->
  attr_size (o_qubo o) = n -> exists o' m, add_text order o s k = POk o' /\ o_qubo o' = AArray n m /\
    forall a, binary a -> qubo_energy n m a = qubo_energy n (attr_mat (o_qubo o)) a + k * (value a s - reduced s []).
Proof. exact add_text_energy. Qed.
Print Assumptions C76_add_partial.
Theorem C76_first_partial : forall order, (forall l, Permutation (order l) l) -> forall s n k, led s -> at_most_two s -> numbered s n -> (0 < n)%nat ->
  exists o' m, add_text order opt_init s k = POk o' /\ o_qubo o' = AArray n m /\ forall a, binary a -> qubo_energy n m a = k * (value a s - reduced s []).
Proof. exact add_text_first. Qed.
Print Assumptions C76_first_partial.
Example C76_case : led square_sum /\ at_most_two square_sum /\ numbered square_sum 2.
Proof. exact (conj square_led (conj square_two square_numbered)). Qed.
(** What is missing: a power of another variable is lost if the lowest variable has only the first power, as in q0 + (q1 - 1)^2; *)
Theorem C76_power_refuted : at_most_two late_square /\ numbered late_square 2 /\ forall order, (forall l, Permutation (order l) l) ->
  exists M a, qubo_to_matrix order late_square = POk (2%nat, M) /\ binary a /\ qubo_energy 2 M a + reduced late_square [] <> value a late_square.
Proof. exact (conj late_two (conj late_numbered late_wrong)). Qed.
Print Assumptions C76_power_refuted.
(** variables other than 0 .. n-1 raise IndexError, always, for example q1 alone; *)
Theorem C76_index : forall order, (forall l, Permutation (order l) l) -> forall s, led s -> at_most_two s -> (~ exists n, numbered s n) ->
  qubo_to_matrix order s = PErr (Raised IndexError).
Proof. exact matrix_index. Qed.
Print Assumptions C76_index.
Theorem C76_index_refuted : forall order, (forall l, Permutation (order l) l) ->
  led [(1, [1]%nat)] /\ at_most_two [(1, [1]%nat)] /\ qubo_to_matrix order [(1, [1]%nat)] = PErr (Raised IndexError).
Proof. exact single_symbol. Qed.
Print Assumptions C76_index_refuted.
(** products of three variables raise TypeError, and polynomials without variables GeneratorsNeeded. *)
Theorem C76_cubic : forall order, (forall l, Permutation (order l) l) -> forall s n l i j k, led s -> numbered s n -> reduced s l <> 0 ->
  In i l -> In j l -> In k l -> i <> j -> i <> k -> j <> k -> qubo_to_matrix order s = PErr (Raised TypeError).
Proof. exact matrix_type. Qed.
Print Assumptions C76_cubic.
Example C76_cubic_case : led [(1, [0; 1; 2]%nat)] /\ numbered [(1, [0; 1; 2]%nat)] 3 /\ reduced [(1, [0; 1; 2]%nat)] [0; 1; 2]%nat <> 0.
Proof. exact cubic_case. Qed.
Theorem C76_constant : forall order s, (forall m, present s m -> m = []) ->
  expand_qubo order s = PErr GeneratorsNeeded /\ qubo_to_matrix order s = PErr GeneratorsNeeded.
Proof. exact constant_refused. Qed.
Print Assumptions C76_constant.
Example C76_constant_case : forall m, present [(2, []); (1, [0]%nat); (-1, [0]%nat)] m -> m = [].
Proof. exact constant_case. Qed.

(** C77.  optx keeps the values on bits, and leaves no powers if there are none above the second. *)
Theorem C77_optx : forall order, (forall l, Permutation (order l) l) -> forall s, collected (optx order s) /\ forall a, binary a -> value_of a (optx order s) = value a s.
Proof. exact optx_value. Qed.
Print Assumptions C77_optx.
Theorem C77_reduced : forall order, (forall l, Permutation (order l) l) -> forall s, squares s -> flat (optx order s) /\ forall l, of_set (optx order s) l = reduced s l.
Proof. exact optx_reduced. Qed.
Print Assumptions C77_reduced.
Theorem C77_fourth_refuted : forall order, (forall l, Permutation (order l) l) -> ~ flat (optx order [(1, [0; 0; 0; 0]%nat)]).
Proof. exact fourth_power. Qed.
Print Assumptions C77_fourth_refuted.
(** optm gives the matrix of a quadratic polynomial in which every variable is in a product with another one. *)
Theorem C77_optm_partial : forall order, (forall l, Permutation (order l) l) -> forall s n, squares s -> at_most_two s -> (forall i, uses s i -> (i < n)%nat) ->
  (forall i, (i < n)%nat -> exists j, j <> i /\ reduced s [i; j] <> 0) -> exists M, optm order s n = POk M /\ right_matrix s n M.
Proof. exact optm_ok. Qed.
Print Assumptions C77_optm_partial.
Example C77_case : squares square_sum /\ at_most_two square_sum /\ (forall i, uses square_sum i -> (i < 2)%nat) /\
  (forall i, (i < 2)%nat -> exists j, j <> i /\ reduced square_sum [i; j] <> 0).
Proof. exact (conj square_squares (conj square_two (conj (fun i => proj1 (square_numbered i)) square_beside))). Qed.
(** Otherwise it raises GeneratorsNeeded, *)
Theorem C77_alone : forall order, (forall l, Permutation (order l) l) -> forall s n i, squares s -> at_most_two s -> (i < n)%nat ->
  (forall j, j <> i -> reduced s [i; j] = 0) -> optm order s n = PErr GeneratorsNeeded.
Proof. exact optm_alone. Qed.
Print Assumptions C77_alone.
Theorem C77_alone_refuted : forall order, (forall l, Permutation (order l) l) -> optm order [(1, [0]%nat); (1, [1]%nat)] 2 = PErr GeneratorsNeeded.
Proof. exact linear_refused. Qed.
Print Assumptions C77_alone_refuted.
(** and variables beyond the size are dropped without an error. *)
Theorem C77_dropped_refuted : forall order, (forall l, Permutation (order l) l) ->
  exists M a, optm order [(1, [0; 1]%nat); (1, [0; 2]%nat)] 2 = POk M /\ binary a /\
    qubo_energy 2 M a + reduced [(1, [0; 1]%nat); (1, [0; 2]%nat)] [] <> value a [(1, [0; 1]%nat); (1, [0; 2]%nat)].
Proof. exact third_symbol. Qed.
Print Assumptions C77_dropped_refuted.
(** make_qs gives the symbols from n (or 0) up to m - 1 (or n - 1), at least one; the last one is not the one that its documentation names. *)
Theorem C77_make_qs : (forall n, (0 < n)%nat -> exists l, make_qs n None = Ok l /\ StronglySorted lt l /\ forall i, In i l <-> (i < n)%nat) /\
  (forall n m, (n < m)%nat -> exists l, make_qs n (Some m) = Ok l /\ StronglySorted lt l /\ forall i, In i l <-> (n <= i < m)%nat) /\
  make_qs 0 None = Err ValueError /\ (forall n m, (m <= n)%nat -> make_qs n (Some m) = Err ValueError).
Proof. exact make_qs_ok. Qed.
Print Assumptions C77_make_qs.
Theorem C77_last_refuted : forall n l, make_qs n None = Ok l -> ~ In n l.
Proof. exact make_qs_last. Qed.
Print Assumptions C77_last_refuted.
