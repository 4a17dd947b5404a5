(** What it means that arrays given to a program by numba runs are its own and have the dtype that was asked for. *)
From Coq Require Import List Arith ZArith Bool String Reals.
Import ListNotations.
From Verif Require Import Base Cplx ModelGate ModelNumpy ModelNumba ModelCircuit ModelMemory ModelNumbaMemory.

(** The arrays that an answer refers to *)
Definition nplaces (r : nmresult) : list nat := match r with NState l => [l] | NShots _ => [] | NBoth l _ => [l] | NInner c => [nx_q c] end.
Definition nhanded (x : res nmanswer) : list nat := match x with Ok (BGot r) => nplaces r | _ => [] end.
Definition ngiven (xs : list (res nmanswer)) : list nat := flat_map nhanded xs.

(** What the program sees in an answer when it looks into the arrays at once: their contents and their dtype *)
Definition nseen (m : nmem) (r : nmresult) : run_result * option dtype :=
  let see l := snd (nth l m (Complex128, [])) in
  let kind l := Some (fst (nth l m (Complex128, []))) in
  match r with
  | NState l => (RState (see l), kind l)
  | NShots c => (RShots c, None)
  | NBoth l c => (RBoth (see l) c, kind l)
  | NInner c => (RCtx (Ctx (nx_n c) (see (nx_q c)) [] (nx_save c) (nx_shots c) (nx_cregs c) (nx_pos c)), kind (nx_q c))
  end.
Inductive nsight : Type := NSDone | NSRun (r : run_result) (t : option dtype).
Definition nlook (m : nmem) (x : nmanswer) : nsight := match x with BDone => NSDone | BGot r => let (v, t) := nseen m r in NSRun v t end.

(** A program in which every change in place is to an array that a run has given to the program before *)
Fixpoint nowned (rng : nat -> R) (s : nmstate) (mine : list nat) (os : list nmop) : Prop :=
  match os with
  | [] => True
  | o :: r => match o with BWrite l _ => In l mine | _ => True end
              /\ nowned rng (snd (nm_step rng s o)) (nhanded (fst (nm_step rng s o)) ++ mine) r
  end.
Definition nis_write (o : nmop) : bool := match o with BWrite _ _ => true | _ => false end.
(** The program with its changes in place left out *)
Definition nhands_off (os : list nmop) : list nmop := filter (fun o => negb (nis_write o)) os.
(** What a program sees, operation by operation, its changes in place left out *)
Fixpoint nsights (rng : nat -> R) (s : nmstate) (os : list nmop) : list (res nsight) :=
  match os with
  | [] => []
  | o :: r => let (x, s') := nm_step rng s o in
              (if nis_write o then [] else [rmap (nlook (t_mem s')) x]) ++ nsights rng s' r
  end.

(** The same program where arrays are values: a backend is that of ModelNumba with the dtype of its last run; a run with another dtype starts with a new one.
    The result has the dtype that was asked for. *)
Definition result_dtype (dt : dtype) (r : run_result) : option dtype := match r with RShots _ => None | _ => Some dt end.
Definition value_run (rng : nat -> R) (b : backend * dtype) (gs : list gate) (n : nat) (dt : dtype) (a : nb_args) (pos : nat)
  : res nsight * (backend * dtype) * nat :=
  match parse_run_args (na_args a) with
  | Err e => (Err e, b, pos)
  | Ok _ => let '(x, b', p) := nb_run rng (if dtype_eqb (snd b) dt then fst b else new_backend) gs n a pos in
            (rmap (fun r => NSRun r (result_dtype dt r)) x, (b', dt), p)
  end.
Fixpoint nvalue_sights (rng : nat -> R) (bs : list (backend * dtype)) (pos : nat) (os : list nmop) : list (res nsight) :=
  match os with
  | [] => []
  | BNew :: r => Ok NSDone :: nvalue_sights rng (bs ++ [(new_backend, Complex128)]) pos r
  | BCopy i :: r =>
      match nth_error bs i with
      | None => Err Undefined :: nvalue_sights rng bs pos r
      | Some b => Ok NSDone :: nvalue_sights rng (bs ++ [b]) pos r
      end
  | BRun i gs n dt a :: r =>
      match nth_error bs i with
      | None => Err Undefined :: nvalue_sights rng bs pos r
      | Some b => let '(x, b', p) := value_run rng b gs n dt a pos in
                  x :: nvalue_sights rng (firstn i bs ++ b' :: skipn (S i) bs) p r
      end
  | BWrite _ _ :: r => nvalue_sights rng bs pos r
  end.
