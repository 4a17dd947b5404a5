(** Exponentials of operators, and the Hamiltonians that the time evolutions of the code generate. *)
From Coq Require Import List Arith ZArith Bool Reals.
Import ListNotations.
From Verif Require Import Base Cplx Bits SpecQuantum ModelGate ModelPauli SpecPauli.
Local Open Scope R_scope.

(** [phi] is exp(K) psi on [n] qubits: each amplitude is the sum of the exponential series *)
Definition series_sum (n : nat) (K : oper) (psi phi : state) : Prop := forall x, (x < 2 ^ n)%nat ->
  infinite_sum (fun k => Cre (op_pow K k psi x) / INR (fact k)) (Cre (phi x)) /\ infinite_sum (fun k => Cim (op_pow K k psi x) / INR (fact k)) (Cim (phi x)).
(** [phi] is exp(i t H) psi *)
Definition evolves (n : nat) (H : oper) (t : R) (psi phi : state) : Prop := series_sum n (op_scl (Ci * RtoC t) H) psi phi.
(** the terms with their signs reversed for an odd number of factors Y, without those that have no operators *)
Definition generated (ts : list term) : expr :=
  flat_map (fun t => match t_ops t with [] => [] | w => [Term w (RtoC ((if Nat.even (ycount w) then 1 else -1) * Cre (t_coeff t)))] end) ts.
(** the sum of X over the qubits *)
Definition sum_x (n : nat) : oper := fun psi x => Csum (fun q => ap1 mX q psi x) (seq 0 n).
(** the generator of QAOA: i (2 pi g H - pi b / 2 sum X), with a mixer M of its own i (2 pi g H + pi b M) *)
Definition qaoa_generator (n : nat) (ham : list term) (mixer : option (list term)) (b g : R) : oper :=
  op_scl Ci (op_add (op_scl (RtoC (2 * PI * g)) (expr_op (generated ham)))
    (match mixer with None => op_scl (RtoC (- (PI * b / 2))) (sum_x n) | Some ts => op_scl (RtoC (PI * b)) (expr_op (generated ts)) end)).
