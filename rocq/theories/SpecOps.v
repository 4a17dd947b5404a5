(** Specification of the values of class Ops. *)
From Coq Require Import List Arith ZArith Bool String Reals.
Import ListNotations.
From Verif Require Import Base ModelTargets ModelGate ModelBackend ModelCircuit ModelOps SpecAPI.

(** the Ops object at place [o] has width [n] and gates [gs] *)
Definition is_ops (m : memory) (o : nat) (n : Z) (gs : list gate) : Prop :=
  exists x, nth_error (m_objs m) o = Some x /\ p_n x = n /\ nth_error (m_tuples m) (p_ops x) = Some gs.
(** the wrapper at place [w] is that of the gate [name] of object [o], with arguments [args] *)
Definition is_wrapper (m : memory) (w o : nat) (name : string) (args : list R) : Prop :=
  exists x, nth_error (m_wraps m) w = Some x /\ w_ops x = o /\ lookup ops_gate_set name = Some (w_gate x) /\ w_args x = args.

(** the arguments that a gate is made from: its parameters; a gate without parameters can also be given one argument that it does not use *)
Definition takes (g : gate) (args : list R) : Prop := args = params g \/ params g = [] /\ exists a, args = [a].
(** [g] is what the method [name] of class Circuit, called with [args] and [tg], adds *)
Definition builds (name : string) (args : list R) (tg : target) (g : gate) : Prop :=
  In (name, lowername g) gate_set /\ takes g args /\ targets g = tg.

(** the gates that class Ops has: those of class Circuit but five *)
Definition ops_has (name : string) : Prop :=
  In name (map fst gate_set) /\ ~ In name ["rxx"; "ryy"; "rzz"; "cswap"; "reset"]%string.

(** o.name(args)[tg] for each of [l], one after the other, on a new Ops(n); the objects made are [a], [a+1], ... and the wrappers [b], [b+1], ... *)
Fixpoint chain (a b : nat) (l : list (string * list R * target)) : list call :=
  match l with
  | [] => []
  | (name, args, tg) :: r => Attr a name :: ModelOps.Call b args :: Item b tg :: chain (S a) (S b) r
  end.
(** no call raised *)
Definition all_ok {A} (rs : list (res A)) : Prop := Forall (fun r => exists a, r = Ok a) rs.
