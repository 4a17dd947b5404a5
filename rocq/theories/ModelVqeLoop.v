(** Model of blueqat/vqe.py: get_objective, Vqe.run and get_scipy_minimizer.
    Not modelled: the arithmetic of scipy.optimize.minimize; any deterministic way of choosing the next parameters from the values seen so far
    is allowed.  Vqe.result (198-203) is not modelled: it reads an attribute [_result] that is never set. *)
From Coq Require Import List Arith ZArith Bool String Reals.
Import ListNotations.
From Verif Require Import Base Cplx ModelTargets ModelGate ModelNumpy ModelNumba ModelCircuit ModelPauli ModelPauliMatrix ModelVqe.
Local Open Scope R_scope.

(** What a minimizer does with the objective: it evaluates it at some parameters and goes on with the value, or it answers.  It ends after
    finitely many evaluations. *)
Inductive strategy : Type :=
| Answer (params : list R)
| Evaluate (params : list R) (next : R -> strategy).
(** [minimizer(objective, n_params)] *)
Definition minimizer : Type := nat -> strategy.
(** get_scipy_minimizer (205-211): [random i] is the i-th number that random.random() returns, [scipy params] what
    scipy.optimize.minimize does from the starting point [params] *)
Definition scipy_minimizer (random : nat -> R) (scipy : list R -> strategy) : minimizer := fun n_params => scipy (map random (seq 0 n_params)).

(** A QaoaAnsatz with the attribute [sparse] (line 31: None in the beginning) *)
Record ansatz : Type := Ansatz { an_qaoa : qaoa; an_sparse : option smat }.
Definition ansatz_of (q : qaoa) : ansatz := Ansatz q None.
(** [step * 2] (line 99) *)
Definition n_params (a : ansatz) : nat := (qa_step (an_qaoa a) * 2)%nat.
(** Vqe.__init__ (176-182); the minimizer is given *)
Record vqe : Type := Vqe { vq_ansatz : ansatz; vq_minimizer : minimizer; vq_sampler : option sampler }.

Section Random.
Variable rng : nat -> R.

(** the two objective functions (68-76) *)
Definition objective_with (energy : heap -> nat -> res R * heap) (q : qaoa) (h : heap) (params : list R) : res R * heap :=
  match qaoa_circuit rng h q params with
  | (Err e, h) => (Err e, h)
  | (Ok c, h) =>
      match step rng h (OMakeCache c None) with
      | (Err e, h) => (Err e, h)
      | (Ok _, h) => energy h c
      end
  end.
(** get_objective (66-82): the objective, and the ansatz with its matrix *)
Definition get_objective (a : ansatz) (s : option sampler) : res (heap -> list R -> res R * heap) * ansatz :=
  let q := an_qaoa a in
  match s with
  | Some f => (Ok (objective_with (fun h c => get_energy rng h (qa_ham q) c f) q), a)
  | None =>
      match an_sparse a with
      | Some m => (Ok (objective_with (fun h c => get_energy_sparse rng h m c) q), a)
      | None =>
          match make_sparse (qa_ham q) with
          | Err e => (Err e, a)
          | Ok m => (Ok (objective_with (fun h c => get_energy_sparse rng h m c) q), Ansatz q (Some m))
          end
      end
  end.

(** The minimizer at work: its answer, or the exception of an evaluation; the lines that verbose_objective (187-192) prints *)
Fixpoint minimize (f : heap -> list R -> res R * heap) (t : strategy) (h : heap) : res (list R) * heap * list (list R * R) :=
  match t with
  | Answer ps => (Ok ps, h, [])
  | Evaluate ps next =>
      match f h ps with
      | (Err e, h) => (Err e, h, [])
      | (Ok val, h) => match minimize f (next val) h with (r, h, lines) => (r, h, (ps, val) :: lines) end
      end
  end.
(** Vqe.run (184-196): [params] and the VqeResult; the ansatz afterwards; what is printed *)
Definition vqe_run (h : heap) (x : vqe) (verbose : bool) : res (list R * vqeresult) * heap * ansatz * list (list R * R) :=
  match get_objective (vq_ansatz x) (vq_sampler x) with
  | (Err e, a) => (Err e, h, a, [])
  | (Ok f, a) =>
      match minimize f (vq_minimizer x (n_params a)) h with
      | (Err e, h, lines) => (Err e, h, a, if verbose then lines else [])
      | (Ok ps, h, lines) =>
          match qaoa_circuit rng h (an_qaoa a) ps with
          | (Err e, h) => (Err e, h, a, if verbose then lines else [])
          | (Ok c, h) => (Ok (ps, VqeResult (Some (vq_sampler x)) c None), h, a, if verbose then lines else [])
          end
      end
  end.
End Random.
