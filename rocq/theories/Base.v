(** Common vocabulary of the model: Python exceptions as values, generators, loops. *)
From Coq Require Import List Arith ZArith Bool Lia.
Import ListNotations.

(** Exceptions that the modelled code raises, by class. *)
Inductive exn : Type :=
| ValueError | TypeError | AttributeError | KeyError | IndexError
| NotImplementedError | ZeroDivisionError | RecursionError | AssertionError
| ImportError | UnboundLocalError | RuntimeError
(** not an exception: the code does something that its language leaves undefined, such as reading outside of an array *)
| Undefined.

Definition exn_eqb (a b : exn) : bool :=
  match a, b with
  | ValueError, ValueError | TypeError, TypeError | AttributeError, AttributeError
  | KeyError, KeyError | IndexError, IndexError | NotImplementedError, NotImplementedError
  | ZeroDivisionError, ZeroDivisionError | RecursionError, RecursionError
  | AssertionError, AssertionError | ImportError, ImportError | UnboundLocalError, UnboundLocalError | RuntimeError, RuntimeError
  | Undefined, Undefined => true
  | _, _ => false
  end.

(** The outcome of a call: a value, or a raised exception. *)
Inductive res (A : Type) : Type :=
| Ok (a : A)
| Err (e : exn).
Arguments Ok {A} a.
Arguments Err {A} e.

Definition bind {A B} (x : res A) (f : A -> res B) : res B :=
  match x with Ok a => f a | Err e => Err e end.
Notation "'let*' x := e1 'in' e2" := (bind e1 (fun x => e2))
  (at level 200, x pattern, e1 at level 100, e2 at level 200, right associativity).

Definition rmap {A B} (f : A -> B) (x : res A) : res B :=
  match x with Ok a => Ok (f a) | Err e => Err e end.

(** A Python generator that was run to its end: the values that it yielded, in order, and the exception
    with which it ended, if any.  A [for] loop over it executes its body for each yielded value before
    the exception is raised. *)
Record gen (A : Type) : Type := Gen { yields : list A; raised : option exn }.
Arguments Gen {A} yields raised.
Arguments yields {A} g.
Arguments raised {A} g.

Definition gen_app {A} (a b : gen A) : gen A :=
  match raised a with
  | Some e => a
  | None => Gen (yields a ++ yields b) (raised b)
  end.

Fixpoint gen_concat {A} (l : list (gen A)) : gen A :=
  match l with
  | [] => Gen [] None
  | g :: r => gen_app g (gen_concat r)
  end.

(** [list(g)]. *)
Definition gen_list {A} (g : gen A) : res (list A) :=
  match raised g with Some e => Err e | None => Ok (yields g) end.

(** [for a in l: s = f(a, s)] *)
Fixpoint for_list {A S} (l : list A) (f : A -> S -> res S) (s : S) : res S :=
  match l with
  | [] => Ok s
  | a :: r => let* s' := f a s in for_list r f s'
  end.

Definition for_gen {A S} (g : gen A) (f : A -> S -> res S) (s : S) : res S :=
  let* s' := for_list (yields g) f s in
  match raised g with Some e => Err e | None => Ok s' end.

Fixpoint map_res {A B} (f : A -> res B) (l : list A) : res (list B) :=
  match l with
  | [] => Ok []
  | a :: r => let* b := f a in let* bs := map_res f r in Ok (b :: bs)
  end.

Lemma for_list_app : forall A S (f : A -> S -> res S) l1 l2 s,
  for_list (l1 ++ l2) f s = bind (for_list l1 f s) (for_list l2 f).
Proof.
  induction l1; intros; simpl; auto.
  destruct (f a s); simpl; auto.
Qed.

Lemma for_list_ext : forall A S (f g : A -> S -> res S) l s,
  (forall a s, In a l -> f a s = g a s) -> for_list l f s = for_list l g s.
Proof.
  induction l; intros; simpl; auto.
  rewrite H by (left; auto). destruct (g a s); simpl; auto.
  apply IHl. intros; apply H; right; auto.
Qed.

Definition is_ok {A} (r : res A) : bool := match r with Ok _ => true | Err _ => false end.
