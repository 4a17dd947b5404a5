(** Model of nbody_separation and qn_to_qubo in blueqat/wq.py (94-192).
    A sympy sum is the list of its terms: a coefficient and the variables, each to the power one (multilinear); variables are numbers.
    Simplifications: names of variables are one to one with variables, so that the keys of [mapping] are pairs of variables; sums are not collected
    (adding a term appends it); a sum of less than two terms is not a sympy.Add.  Logging is left out. *)
From Coq Require Import List Arith Bool Reals.
Import ListNotations.
From Verif Require Import Base ModelWq.
Local Open Scope nat_scope.

Definition poly : Type := list (R * list nat).
Definition vmap : Type := list ((nat * nat) * nat).
Definition is_in (v : nat) (l : list nat) : bool := existsb (Nat.eqb v) l.
Fixpoint drop_one (v : nat) (l : list nat) : list nat := match l with [] => [] | w :: r => if v =? w then r else w :: drop_one v r end.
(** [arg.subs(v1*v2, v)] for the variables of a product *)
Definition subs (vars : list nat) (v1 v2 v : nat) : list nat :=
  if is_in v1 vars && is_in v2 vars then v :: drop_one v1 (drop_one v2 vars) else vars.
(** [zip(it, it)] for one iterator *)
Fixpoint in_pairs (l : list nat) : list (nat * nat) := match l with a :: b :: r => (a, b) :: in_pairs r | _ => [] end.
Fixpoint look (m : vmap) (v1 v2 : nat) : option nat :=
  match m with [] => None | ((a, b), v) :: r => if (a =? v1) && (b =? v2) then Some v else look r v1 v2 end.
(** 139 *)
Definition penalty (v1 v2 v : nat) : poly := [(3%R, [v]); (1%R, [v1; v2]); ((-2)%R, [v1; v]); ((-2)%R, [v2; v])].

Section Separation.
(** the order in which the k-th iterator runs through a set *)
Variable order : nat -> list nat -> list nat.
Variable qs : list nat.
Record nstate : Type := NState { n_map : vmap; n_cons : poly; n_var : nat; n_iter : nat }.

(** 130-141 *)
Fixpoint replace_pairs (ps : list (nat * nat)) (s : nstate) (vars : list nat) : res (nstate * list nat) :=
  match ps with
  | [] => Ok (s, vars)
  | (v1, v2) :: ps =>
      match look (n_map s) v1 v2 with
      | Some v => replace_pairs ps s (subs vars v1 v2 v)
      | None =>
          match nth_error qs (n_var s) with
          | None => Err IndexError
          | Some v => replace_pairs ps (NState (n_map s ++ [((v1, v2), v)]) (n_cons s ++ penalty v1 v2 v) (S (n_var s)) (n_iter s)) (subs vars v1 v2 v)
          end
      end
  end.
(** 128-142; the free symbols are the variables without repetition; [None]: still running *)
Fixpoint reduce (fuel : nat) (s : nstate) (vars : list nat) : option (res (nstate * list nat)) :=
  let syms := nodup Nat.eq_dec vars in
  if 2 <? length syms then
    match fuel with
    | O => None
    | S fuel =>
        match replace_pairs (in_pairs (order (n_iter s) syms)) (NState (n_map s) (n_cons s) (n_var s) (S (n_iter s))) vars with
        | Err e => Some (Err e)
        | Ok (s, vars) => reduce fuel s vars
        end
    end
  else Some (Ok (s, vars)).
(** 119-144; symbols and numbers (120-125) have at most one variable and stay *)
Fixpoint separate (p : poly) (s : nstate) (acc : poly) : option (res (nstate * poly)) :=
  match p with
  | [] => Some (Ok (s, acc))
  | (c, vars) :: p =>
      match reduce (length vars) s vars with
      | None => None
      | Some (Err e) => Some (Err e)
      | Some (Ok (s, vars)) => separate p s (acc ++ [(c, vars)])
      end
  end.
(** 94-145: the new expression, the constraints and the mapping *)
Definition nbody_separation (p : poly) : option (res (poly * poly * vmap)) :=
  if length p <? 2 then Some (Err AssertionError) else
  match separate p (NState [] [] 0 0) [] with
  | None => None
  | Some (Err e) => Some (Err e)
  | Some (Ok (s, new)) => Some (Ok (new, n_cons s, n_map s))
  end.
End Separation.

(** qn_to_qubo (147-192), variables numbered as in their names: the size and the matrix; [one c]: the coefficient is not among the arguments
    of the product.  Terms with two different variables of the same number (171-178) do not exist here. *)
Definition one (c : R) : bool := if Req_EM_T c 1 then true else false.
Definition qn_term (t : R * list nat) (m : mat) : res mat :=
  match t with
  | (_, []) => Ok m
  | (c, [i]) => if one c then Err ValueError else Ok (upd m i i c)                       (* a bare symbol has no arguments (191) *)
  | (c, [i; j]) => if one c then Ok m else Ok (upd m (min i j) (max i j) c)              (* 181-182: nothing is stored *)
  | _ => Err AssertionError
  end.
Fixpoint qn_terms (p : poly) (m : mat) : res mat :=
  match p with [] => Ok m | t :: p => let* m := qn_term t m in qn_terms p m end.
Definition qn_to_qubo (p : poly) : res (nat * mat) :=
  if length p <? 2 then Err AssertionError else
  match flat_map snd p with
  | [] => Err ValueError                                                                (* max() of nothing *)
  | vs => let* m := qn_terms p zeros in Ok (S (list_max vs), m)
  end.
