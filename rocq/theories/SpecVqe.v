(** Specification of measurement statistics and expectation values. *)
From Coq Require Import List Arith ZArith Bool String Reals Sorted Permutation.
Import ListNotations.
From Verif Require Import Base Cplx Bits ModelTargets ModelGate SpecQuantum SpecMeasure ModelCircuit SpecAPI ModelPauli SpecPauli.
Local Open Scope R_scope.

(** the outcome of measuring the qubits [meas], in this order, in the basis state [x] *)
Definition readout (meas : list nat) (x : nat) : list nat := map (fun m => if bit x m then 1%nat else 0%nat) meas.
(** the probability of an outcome [o] in a state vector (if its norm is 1) *)
Definition marginal (v : list C) (meas o : list nat) : R :=
  Rsum (fun x => if list_eq_dec Nat.eq_dec (readout meas x) o then Cnorm2 (nth x v C0) else 0) (seq 0 (List.length v)).
(** [d] is the distribution of the outcomes: each outcome of non-zero probability once, with its probability *)
Definition distribution (v : list C) (meas : list nat) (d : list (list nat * R)) : Prop :=
  NoDup (map fst d) /\ (forall o p, In (o, p) d <-> p = marginal v meas o /\ p <> 0).
Definition mass (d : list (list nat * R)) : R := Rsum snd d.

(** <psi|U|psi> on [n] qubits *)
Definition expval (n : nat) (U : oper) (psi : state) : C := inner n psi (U psi).

(** at most one operator on each qubit, all of them below [n] *)
Definition separate_word (n : nat) (w : list pop) : Prop := NoDup (map snd w) /\ fits n w.
(** the expectation of the Hamiltonian with the sign of each Y reversed *)
Fixpoint expval_y (n : nat) (e : expr) (psi : state) : C :=
  match e with
  | [] => C0
  | t :: r => ((if Nat.even (ycount (t_ops t)) then t_coeff t else - t_coeff t) * expval n (word_op (t_ops t)) psi + expval_y n r psi)%C
  end.

(** the circuit runs by default on a backend that returns state vectors *)
Definition simulated (rng : nat -> R) (h : heap) (v : vcirc) : Prop :=
  let d := match v_default v with Some d => d | None => h_default h end in
  (d = "numpy" \/ d = "numba" /\ draws_ok rng /\ (v_n v <= 64)%Z)%string.

(** circuit.measure[meas] *)
Definition measure_gate_of (meas : list nat) : gate := GMeasure (TTuple (map TInt (map Z.of_nat meas))).
(** what the measurement sampler reads: for each requested qubit [m] the recorded outcome of qubit [n - 1 - m] *)
Definition mirrored (n : nat) (meas : list nat) (w : world) : list nat := map (fun m => w_bits w (n - 1 - m)%nat) meas.
Definition requested (meas : list nat) (w : world) : list nat := map (w_bits w) meas.
(** relative frequency of [o] *)
Definition frequency (l : list (list nat)) (o : list nat) : R := INR (count_occ (list_eq_dec Nat.eq_dec) l o) / INR (List.length l).

(** the [k] best of [p]: in descending order, none of the rest is better; ties in the order of [p] *)
Definition best (p : list (list nat * R)) (k : nat) (l : list (list nat * R)) : Prop :=
  exists rest, Permutation p (l ++ rest) /\ List.length l = Nat.min k (List.length p) /\
    StronglySorted (fun a b => snd b <= snd a) (l ++ rest) /\
    (forall q, filter (fun x => if Req_EM_T (snd x) q then true else false) (l ++ rest) = filter (fun x => if Req_EM_T (snd x) q then true else false) p).

(** ** QAOA *)
(** the evolution with one term: exp(i c t P), with the sign reversed for an odd number of factors Y; nothing for the identity *)
Definition evolved (s : R) (t : term) : oper :=
  match t_ops t with
  | [] => op_one
  | w => op_exp ((if Nat.even (ycount w) then 1 else -1) * Cre (t_coeff t) * s) (word_op w)
  end.
Definition evolved_all (s : R) (ts : list term) (psi : state) : state := fold_left (fun psi t => evolved s t psi) ts psi.
(** one matrix on every qubit *)
Definition everywhere (n : nat) (m : mat2) (psi : state) : state := fold_left (fun psi q => ap1 m q psi) (seq 0 n) psi.
Definition mixed (n : nat) (mixer : option (list term)) (beta : R) (psi : state) : state :=
  match mixer with None => everywhere n (mRX beta) psi | Some ts => evolved_all beta ts psi end.
Definition qaoa_round (n : nat) (ham : list term) (mixer : option (list term)) (psi : state) (bg : R * R) : state :=
  mixed n mixer (PI * fst bg) (evolved_all (2 * PI * snd bg) ham psi).
(** simplified terms with real coefficients on the first [z] qubits *)
Definition suits (z : Z) (ts : list term) : Prop :=
  Forall (fun t => canonical (t_ops t)) ts /\ Forall (fun t => (Cim (t_coeff t) = 0)%R) ts /\ Forall (fun t => fits (Z.to_nat z) (t_ops t)) ts.
Definition pairwise_commuting (ts : list term) : Prop :=
  ForallOrdPairs (fun s t => same_op (op_mul (term_op s) (term_op t)) (op_mul (term_op t) (term_op s))) ts.
(** two terms that anticommute, not both tiny *)
Definition opposed (s t : term) : Prop :=
  Nat.even (clashes (t_ops s) (t_ops t)) = false /\ (/ 10 ^ 8 <= 4 * Cnorm2 (t_coeff s) * Cnorm2 (t_coeff t))%R.
(** whether stored probabilities have to be computed anew: as told, otherwise if a sampler is given *)
Definition rerun_of {A : Type} (s : option A) (rerun : option bool) : bool :=
  match rerun with Some b => b | None => match s with Some _ => true | None => false end end.
