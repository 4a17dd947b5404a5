(** Model of macros: Circuit.__getattr__ with GLOBAL_MACROS (circuit.py:73, 112-122) and what happens when the result is called, on the circuits and wrappers
    of ModelGateCall.
    A Python expression that starts at a circuit is a chain of links: an attribute, a call, a subscript.  A macro is a function that is given the circuit and
    the arguments of the call: it fails, or it evaluates one chain that starts at this circuit and returns its value or None.
    Simplifications: the macros do not change while a chain is evaluated; a name is not an attribute that circuits, wrappers, partial objects or None have
    anyway, nor does it begin with run_with_ (ModelRegistry); a chain has no other effects. *)
From Coq Require Import String List Arith ZArith Bool.
Import ListNotations.
From Verif Require Import Base ModelTargets ModelBackend ModelGateCall.
Local Open Scope string_scope.

Inductive link : Type :=
| LAttr (name : string)                         (* .name *)
| LCall (args : list arg) (kw : dict)           (* (args, **kw) *)
| LItem (tg : target).                          (* [tg] *)
Record body : Type := Body { b_chain : list link; b_returns : bool }.
Definition macro : Type := list arg -> dict -> res body.

Inductive mval : Type := MCircuit (c : nat) | MWrap (w : nat) | MPartial (m : macro) (c : nat) | MNone.
Definition of_gval (v : gval) : mval := match v with VCircuit c => MCircuit c | VWrap w => MWrap w end.
Definition as_step (p : res gval * store) : res mval * store := (rmap of_gval (fst p), snd p).

Section Macros.
(** GLOBAL_MACROS (73) *)
Variable macros : list (string * macro).
Fixpoint macro_of (l : list (string * macro)) (name : string) : option macro :=
  match l with [] => None | (k, m) :: r => if String.eqb name k then Some m else macro_of r name end.

(** One link; [call] evaluates a macro *)
Definition follow (call : macro -> nat -> list arg -> dict -> store -> res mval * store) (s : store) (v : mval) (k : link) : res mval * store :=
  match k, v with
  | LAttr name, MCircuit c =>                                           (* 112-122 *)
      match class_of gate_set name with
      | Some _ => as_step (gstep s (GAttr c name))                      (* 113-114 *)
      | None => match macro_of macros name with
                | Some m => (Ok (MPartial m c), s)                      (* 115-116 *)
                | None => (Err AttributeError, s)                       (* 122 *)
                end
      end
  | LAttr _, _ => (Err AttributeError, s)
  | LCall args kw, MWrap w => as_step (gstep s (GCall w args kw))       (* 278-281 *)
  | LCall args kw, MPartial m c => call m c args kw s                   (* partial(GLOBAL_MACROS[name], self) *)
  | LCall _ _, _ => (Err TypeError, s)                                  (* not callable *)
  | LItem tg, MWrap w => as_step (gstep s (GItem w tg))                 (* 283-288 *)
  | LItem _, _ => (Err TypeError, s)                                    (* not subscriptable *)
  end.
Fixpoint follow_all (call : macro -> nat -> list arg -> dict -> store -> res mval * store) (s : store) (v : mval) (ks : list link) : res mval * store :=
  match ks with
  | [] => (Ok v, s)
  | k :: ks => match follow call s v k with
               | (Err e, s) => (Err e, s)
               | (Ok v, s) => follow_all call s v ks
               end
  end.
(** The call of a macro when [depth] calls may still be nested *)
Fixpoint call_macro (depth : nat) (m : macro) (c : nat) (args : list arg) (kw : dict) (s : store) : res mval * store :=
  match depth with
  | O => (Err RecursionError, s)
  | S d => match m args kw with
           | Err e => (Err e, s)
           | Ok b => match follow_all (call_macro d) s (MCircuit c) (b_chain b) with
                     | (Err e, s) => (Err e, s)
                     | (Ok v, s) => (Ok (if b_returns b then v else MNone), s)
                     end
           end
  end.
(** The chain [ks] after the circuit [c] *)
Definition evaluate (depth : nat) (s : store) (c : nat) (ks : list link) : res mval * store := follow_all (call_macro depth) s (MCircuit c) ks.
End Macros.
