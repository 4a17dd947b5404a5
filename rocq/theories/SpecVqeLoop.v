(** Specification of Vqe.run: a minimizer that is given a mathematical function. *)
From Coq Require Import List Arith ZArith Bool String Reals.
Import ListNotations.
From Verif Require Import Base Cplx ModelTargets ModelGate ModelPauli SpecQuantum SpecPauli SpecVqe ModelVqeLoop.
Local Open Scope R_scope.

(** [plays E t ps asked]: with the values of [E], the minimizer [t] asks for [asked], in this order, and answers [ps] *)
Inductive plays (E : list R -> R) : strategy -> list R -> list (list R) -> Prop :=
| plays_answer : forall ps, plays E (Answer ps) ps []
| plays_evaluate : forall p next ps asked, plays E (next (E p)) ps asked -> plays E (Evaluate p next) ps (p :: asked).

(** the angles of the rounds: [params] is the list of the betas, [step] of them, and then of the gammas *)
Definition angles (step : nat) (params : list R) : list (R * R) :=
  map (fun i => (nth i params 0, nth (step + i) params 0)) (seq 0 (Nat.min step (List.length params - step))).
(** the state of the ansatz *)
Definition qaoa_state (n : nat) (ham : list term) (mixer : option (list term)) (step : nat) (psi : state) (params : list R) : state :=
  fold_left (qaoa_round n ham mixer) (angles step params) psi.
(** the number [g] is below the energies of all states of [n] qubits *)
Definition below_spectrum (n : nat) (U : oper) (g : R) : Prop := forall psi, norm2 n psi = 1 -> g <= Cre (expval n U psi).
