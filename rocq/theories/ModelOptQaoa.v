(** Model of blueqat/wq.py: Opt.qaoa (563-565) and Opt.sa (526-528).
    Simplification: [self.qubo] is a square matrix (see ModelOpt).  qaoa ignores its arguments shots and verbose: Vqe.run gets none. *)
From Coq Require Import List Arith Bool Reals.
Import ListNotations.
From Verif Require Import Base Cplx ModelGate ModelCircuit ModelPauli ModelVqe ModelVqeLoop ModelDemo ModelWq ModelOpt.
Local Open Scope R_scope.

Section Random.
(** random numbers of the simulator; random.random and scipy's minimizer for [vqe.get_scipy_minimizer(method="Powell", ...)] (vqe.py:178-181) *)
Variables (rng random : nat -> R) (powell : list R -> strategy).
(** qaoa (563-565); pauli gives the number 0.0 for an empty QUBO, and AnsatzBase calls its max_n (vqe.py:30) *)
Definition opt_qaoa (h : heap) (o : opt) (step : nat) : res (list R * vqeresult) * heap :=
  match wq_pauli (attr_size (o_qubo o)) (attr_mat (o_qubo o)) with
  | VNum _ => (Err AttributeError, h)
  | ham =>
      match make_vqe rng random powell h ham step None None with
      | (Ok v, h) => let '(r, h, _, _) := vqe_run rng h v false in (r, h)
      | (Err e, h) => (Err e, h)
      end
  end.
End Random.

(** sa (526-528) of an Opt with attributes Ts, R, ite and qubo (of at least two rows, see [prepare] in ModelOpt): run with its default target temperature 0.02 *)
Definition opt_sa (choices : nat -> bool) (sites : nat -> nat) (draws : nat -> R) (fuel n : nat) (qubo : mat) (Ts R_ : R) (ite shots : nat) (fast : bool) : option outcome :=
  opt_run choices sites draws fuel n qubo Ts R_ ite shots fast (2 / 100).
