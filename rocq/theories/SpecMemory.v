(** What it means that arrays given to a program are its own. *)
From Coq Require Import List Arith ZArith Bool String Reals.
Import ListNotations.
From Verif Require Import Base Cplx ModelGate ModelNumpy ModelCircuit ModelMemory.

(** The arrays that an answer refers to. *)
Definition places_of (r : mresult) : list nat :=
  match r with MState l => [l] | MShots _ => [] | MBoth l _ => [l] | MInner c => [mc_q c; mc_b c] end.
Definition handed (x : res manswer) : list nat := match x with Ok (ARun r) => places_of r | _ => [] end.
(** The arrays given to the program by a list of answers. *)
Definition given (xs : list (res manswer)) : list nat := flat_map handed xs.

(** What the program sees in an answer when it looks into the arrays at once. *)
Definition seen (m : mem) (r : mresult) : run_result :=
  match r with
  | MState l => RState (nth l m [])
  | MShots c => RShots c
  | MBoth l c => RBoth (nth l m []) c
  | MInner c => RCtx (Ctx (mc_n c) (nth (mc_q c) m []) (nth (mc_b c) m []) (mc_save c) (mc_shots c) (mc_cregs c) (mc_pos c))
  end.
Inductive sight : Type := SDone | SRun (r : run_result).
Definition look (m : mem) (x : manswer) : sight := match x with ADone => SDone | ARun r => SRun (seen m r) end.

(** A program in which every change in place is to an array that a run has given to the program before. *)
Fixpoint owned (rng : nat -> R) (s : mstate) (mine : list nat) (os : list mop) : Prop :=
  match os with
  | [] => True
  | o :: r => match o with HWrite l _ => In l mine | _ => True end
              /\ owned rng (snd (mstep rng s o)) (handed (fst (mstep rng s o)) ++ mine) r
  end.

Definition is_write (o : mop) : bool := match o with HWrite _ _ => true | _ => false end.
(** The program with its changes in place left out. *)
Definition hands_off (os : list mop) : list mop := filter (fun o => negb (is_write o)) os.

(** What a program sees, operation by operation, its changes in place left out. *)
Fixpoint sights (rng : nat -> R) (s : mstate) (os : list mop) : list (res sight) :=
  match os with
  | [] => []
  | o :: r => let (x, s') := mstep rng s o in
              (if is_write o then [] else [rmap (look (s_mem s')) x]) ++ sights rng s' r
  end.

(** The same program where arrays are values: nothing is shared, changes in place have no effect on the backends. *)
Fixpoint value_sights (rng : nat -> R) (bs : list backend) (pos : nat) (os : list mop) : list (res sight) :=
  match os with
  | [] => []
  | HNew :: r => Ok SDone :: value_sights rng (bs ++ [new_backend]) pos r
  | HCopy i :: r =>
      match nth_error bs i with
      | None => Err Undefined :: value_sights rng bs pos r
      | Some b => Ok SDone :: value_sights rng (bs ++ [b]) pos r
      end
  | HRun i gs n a :: r =>
      match nth_error bs i with
      | None => Err Undefined :: value_sights rng bs pos r
      | Some b => let '(x, b', p) := np_run rng b gs n a pos in
                  rmap SRun x :: value_sights rng (firstn i bs ++ b' :: skipn (S i) bs) p r
      end
  | HWrite _ _ :: r => value_sights rng bs pos r
  end.
