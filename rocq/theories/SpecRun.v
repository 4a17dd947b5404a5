(** A run without any cache: the reference for the property that caching is invisible. *)
From Coq Require Import List Arith ZArith Bool String Reals.
Import ListNotations.
From Verif Require Import Base Cplx ModelTargets ModelGate ModelNumpy.

Section Random.
Variable rng : nat -> R.

(** Every shot starts from |0...0> and executes all gates. *)
Fixpoint ideal_shots (shots : nat) (gates : list gate) (ctx : npctx) : sres :=
  match shots with
  | O => SOk ctx
  | S k =>
      match run_list (np_run_single rng recursion_limit) gates (prepare ctx None) with
      | SErr e p => SErr e p
      | SOk ctx => ideal_shots k gates (match x_cregs ctx with [] => ctx | _ => store_shot ctx end)
      end
  end.

Definition ideal_run (gates : list gate) (n : nat) (a : run_args) (pos : nat) : res run_result * nat :=
  match parse_run_args a with
  | Err e => (Err e, pos)
  | Ok (shots, returns, ignore_global) =>
      match ideal_shots (Z.to_nat shots) gates (new_ctx n pos) with
      | SErr e p => (Err e, p)
      | SOk ctx =>
          let ctx := if ignore_global
                     then set_bufs ctx (ignore_global_phase (x_qubits ctx), x_buf ctx) else ctx in
          (Ok (return_type returns ctx), x_pos ctx)
      end
  end.
End Random.

(** Equality of contexts and results, except for the contents of the scratch buffer, which only the undocumented
    return type "_inner_ctx" exposes. *)
Definition ctx_same (a b : npctx) : Prop :=
  x_n a = x_n b /\ x_qubits a = x_qubits b /\ x_save a = x_save b /\ x_shots a = x_shots b /\
  x_cregs a = x_cregs b /\ x_pos a = x_pos b.
Definition result_same (a b : run_result) : Prop :=
  match a, b with
  | RCtx a, RCtx b => ctx_same a b
  | RCtx _, _ | _, RCtx _ => False
  | _, _ => a = b
  end.
Definition outcome_same (a b : res run_result) : Prop :=
  match a, b with
  | Ok a, Ok b => result_same a b
  | Err a, Err b => a = b
  | _, _ => False
  end.
