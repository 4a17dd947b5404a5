(** Property theorems: Boltzmann machines and their training, and counting rows (C61 to C64). *)
From Coq Require Import Ascii String List Arith ZArith Bool Reals.
Import ListNotations.
From Verif Require Import Base Cplx ModelWq ModelRbm SpecWq SpecRbm ProofWq ProofRbm ProofRbmEx.
Local Open Scope R_scope.

(** C61.  dbms: with a given weight, 1/2 for each unit and the weight for each pair of units in neighbouring layers, zero elsewhere; *)
Theorem C61_fixed : forall rand arr w, w <> 0 -> (forall i, dbms rand arr w i i = 1 / 2) /\ (forall i j, adjacent arr i j -> dbms rand arr w i j = w) /\
  (forall i j, i <> j -> ~ adjacent arr i j -> dbms rand arr w i j = 0).
Proof. exact dbms_fixed. Qed.
Print Assumptions C61_fixed.
(** without one, a random number of its own for each of these entries. *)
Theorem C61_random : forall rand arr, exists idx : nat -> nat -> nat,
  (forall i j, i = j \/ adjacent arr i j -> dbms rand arr 0 i j = rand (idx i j)) /\
  (forall i j, i <> j -> ~ adjacent arr i j -> dbms rand arr 0 i j = 0) /\
  (forall i j i' j', (i < list_sum arr)%nat -> (i' < list_sum arr)%nat -> i = j \/ adjacent arr i j -> i' = j' \/ adjacent arr i' j' -> idx i j = idx i' j' -> i = i' /\ j = j').
Proof. exact dbms_random. Qed.
Print Assumptions C61_random.
Example C61_case : adjacent [2; 3; 1]%nat 1 4 /\ adjacent [2; 3; 1]%nat 4 5 /\ ~ adjacent [2; 3; 1]%nat 1 5 /\ ~ adjacent [2; 3; 1]%nat 2 3.
Proof. exact layers_case. Qed.
(** setRBM takes the first two sizes, and raises for fewer layers; *)
Theorem C61_set : forall rand arr, (2 <= length arr)%nat <-> exists Q, set_rbm rand arr = Ok (Q, list_sum arr, nth 0 arr 0%nat, nth 1 arr 0%nat) /\ Q = dbms rand arr 0.
Proof. exact set_rbm_layers. Qed.
Print Assumptions C61_set.
Theorem C61_set_error : forall rand arr, (length arr < 2)%nat <-> set_rbm rand arr = Err IndexError.
Proof. exact layers_error. Qed.
Print Assumptions C61_set_error.
(** two layers are a bipartite graph. *)
Theorem C61_bipartite : forall rand a b, bipartite (a + b) a (dbms rand [a; b] 0).
Proof. exact dbms_bipartite. Qed.
Print Assumptions C61_bipartite.

(** C62.  rbm_hmodel: the expectation of each hidden unit given the visible ones, for weights exp(energy); *)
Theorem C62_hidden : forall n Q v, restricted n (length v) Q -> (length v <= n)%nat -> forall k, (k < n - length v)%nat ->
  nth k (rbm_hmodel v n Q) 0 = expectation n (qubo_energy n Q) v (fun x => x (length v + k)%nat).
Proof. exact hmodel_expect. Qed.
Print Assumptions C62_hidden.
(** rbm_data_qubo: the expectations of x_i and x_i x_j for the units and the couplings. *)
Theorem C62_data : forall n Q v, restricted n (length v) Q -> (length v <= n)%nat -> binary v -> forall i j, (i < n)%nat -> (j < n)%nat ->
  rbm_data_qubo v n Q i j = if ((i =? j) || ((i <? length v) && (length v <=? j)))%nat then expectation n (qubo_energy n Q) v (fun x => x i * x j) else 0.
Proof. exact data_expect. Qed.
Print Assumptions C62_data.
Example C62_case : restricted 2 1 coupled.
Proof. exact coupled_restricted. Qed.
(** An annealing favours low energies, as weights exp(-energy) do: these are not their expectations. *)
Theorem C62_sign_refuted : exists n Q v k, restricted n (length v) Q /\ binary v /\ (length v <= n)%nat /\ (k < n - length v)%nat /\
  nth k (rbm_hmodel v n Q) 0 <> expectation n (fun x => - qubo_energy n Q x) v (fun x => x (length v + k)%nat).
Proof. exact sign_wrong. Qed.
Print Assumptions C62_sign_refuted.

(** C63.  The means of samples of bits; *)
Theorem C63_means : forall V H result, Forall (fun row => Forall (fun z => z = 0%Z \/ z = 1%Z) row) result -> forall i j, (i < V + H)%nat -> (j < V + H)%nat ->
  model_qubo V H (length result) result i j = if ((i =? j) || ((i <? V) && (V <=? j)))%nat then sample_mean result (fun x => x i * x j) else 0.
Proof. exact model_means. Qed.
Print Assumptions C63_means.
(** for all random numbers, fit() is a training: each epoch learns from the expectations given a row and the means of annealed samples; *)
Theorem C63_trained : forall rows choices sites draws fuel n V H ite shots Ts r target alpha epsilon data, n = (V + H)%nat -> (forall e k, (sites e k < n)%nat) ->
  (forall e, (rows e < length data)%nat) -> Forall (fun row => length row = V /\ Forall (fun z => z = 0%Z \/ z = 1%Z) row) data -> forall k e Q Q', restricted n V Q ->
  fit rows choices sites draws k e fuel n V H Ts r ite data shots target alpha epsilon Q = Some (Ok Q') ->
  trained n V alpha epsilon data rows (fun e Q samples => exists l, anneals n (objective n Q) (draws e) (sites e) (choices e) Ts target (3 / 4) 100 shots 0 0 0 l /\ samples = map snd l)
    k e Q Q'.
Proof. exact fit_trained. Qed.
Print Assumptions C63_trained.
(** it ends, and does not raise, with two or more shots; *)
Theorem C63_ends : forall Ts target, 0 < target -> exists fuel, forall rows choices sites draws k e n V H r ite data shots alpha epsilon Q,
  n = (V + H)%nat -> (forall e k, (sites e k < n)%nat) -> (forall e, (rows e < length data)%nat) ->
  Forall (fun row => length row = V /\ Forall (fun z => z = 0%Z \/ z = 1%Z) row) data -> (2 <= shots)%nat ->
  exists Q', fit rows choices sites draws k e fuel n V H Ts r ite data shots target alpha epsilon Q = Some (Ok Q').
Proof. exact fit_ends. Qed.
Print Assumptions C63_ends.
(** no couplings arise inside of a layer; *)
Theorem C63_bipartite : forall rows choices sites draws fuel n V H ite shots Ts r target alpha epsilon data, n = (V + H)%nat -> (forall e k, (sites e k < n)%nat) ->
  (forall e, (rows e < length data)%nat) -> Forall (fun row => length row = V /\ Forall (fun z => z = 0%Z \/ z = 1%Z) row) data -> forall k e Q Q', bipartite n V Q ->
  fit rows choices sites draws k e fuel n V H Ts r ite data shots target alpha epsilon Q = Some (Ok Q') -> bipartite n V Q'.
Proof. exact fit_bipartite. Qed.
Print Assumptions C63_bipartite.
(** the entries stay bounded; *)
Theorem C63_bounded : forall rows choices sites draws fuel n V H ite shots Ts r target alpha epsilon data, n = (V + H)%nat -> (forall e k, (sites e k < n)%nat) ->
  (forall e, (rows e < length data)%nat) -> Forall (fun row => length row = V /\ Forall (fun z => z = 0%Z \/ z = 1%Z) row) data -> forall bound k e Q Q',
  0 <= alpha -> 0 <= epsilon -> alpha * bound + epsilon <= bound -> restricted n V Q -> (forall i j, (i < n)%nat -> (j < n)%nat -> Rabs (Q i j) <= bound) ->
  fit rows choices sites draws k e fuel n V H Ts r ite data shots target alpha epsilon Q = Some (Ok Q') ->
  forall i j, (i < n)%nat -> (j < n)%nat -> Rabs (Q' i j) <= bound.
Proof. exact fit_bounded. Qed.
Print Assumptions C63_bounded.
(** with the defaults of fit(), from the weights of setRBM, by 1. *)
Theorem C63_default : forall rand rows choices sites draws k e fuel V H Ts r ite data shots target Q n v h Q', (forall u, 0 <= rand u <= 1) ->
  (forall e k, (sites e k < V + H)%nat) -> (forall e, (rows e < length data)%nat) ->
  Forall (fun row => length row = V /\ Forall (fun z => z = 0%Z \/ z = 1%Z) row) data ->
  set_rbm rand [V; H] = Ok (Q, n, v, h) -> fit rows choices sites draws k e fuel n v h Ts r ite data shots target (9 / 10) (1 / 10) Q = Some (Ok Q') ->
  bipartite (V + H) V Q' /\ forall i j, (i < V + H)%nat -> (j < V + H)%nat -> -1 <= Q' i j <= 1.
Proof. exact fit_default. Qed.
Print Assumptions C63_default.
Example C63_case : exists fuel Q', fit (fun e => e mod 3)%nat (fun e k => Nat.even (e + k)) (fun e k => (e + k) mod 5)%nat (fun e k => / INR (k + 2)) 10 0 fuel 5 2 3 5 (19 / 20) 1000
  [[1; 0]; [0; 1]; [1; 1]]%Z 20 (1 / 50) (9 / 10) (1 / 10) (dbms (fun k => / INR (k + 1)) [2; 3]%nat 0) = Some (Ok Q').
Proof. exact fit_case. Qed.
(** It raises ValueError with fewer than two shots, and without data. *)
Theorem C63_few : forall rows choices sites draws k e fuel n V H Ts r ite data shots target alpha epsilon Q o, n = (V + H)%nat -> (forall e k, (sites e k < n)%nat) ->
  (shots < 2)%nat -> fit rows choices sites draws (S k) e fuel n V H Ts r ite data shots target alpha epsilon Q = Some o -> o = Err ValueError.
Proof. exact few_wrong. Qed.
Print Assumptions C63_few.
Theorem C63_empty : forall rows choices sites draws k e fuel n V H Ts r ite shots target alpha epsilon Q,
  fit rows choices sites draws (S k) e fuel n V H Ts r ite [] shots target alpha epsilon Q = Some (Err ValueError).
Proof. exact fit_empty. Qed.
Print Assumptions C63_empty.

(** C64.  counter: the number of occurrences of each row of digits, beside its text; *)
Theorem C64_counts : forall l row, digits row -> Forall digits l -> count_of (text row) (counter l) = occurrences l row.
Proof. exact counter_of. Qed.
Print Assumptions C64_counts.
Theorem C64_keys : forall l, NoDup (map fst (counter l)) /\ (Forall digits l -> forall s, In s (map fst (counter l)) <-> exists row, In row l /\ s = text row).
Proof. exact counter_keys. Qed.
Print Assumptions C64_keys.
(** different rows have different texts; *)
Theorem C64_injective : forall a b, digits a -> digits b -> text a = text b -> a = b.
Proof. exact text_inj. Qed.
Print Assumptions C64_injective.
(** the counts add up. *)
Theorem C64_total : forall l, list_sum (map snd (counter l)) = List.length l.
Proof. exact counter_total. Qed.
Print Assumptions C64_total.
Example C64_case : counter [[1; 0; 1]; [0; 0; 1]; [1; 0; 1]]%Z = [("101"%string, 2%nat); ("001"%string, 1%nat)].
Proof. reflexivity. Qed.
(** Rows of larger numbers are counted together. *)
Theorem C64_numbers_refuted : exists l a b, In a l /\ In b l /\ a <> b /\ List.length (counter l) = 1%nat.
Proof. exact counter_wrong. Qed.
Print Assumptions C64_numbers_refuted.
