(** Specification of Pauli operators: terms and expressions as operators on state vectors. *)
From Coq Require Import List Arith ZArith Bool Ascii String Reals Sorted.
Import ListNotations.
From Verif Require Import Base Cplx Bits SpecQuantum ModelGate ModelPauli.
Local Open Scope nat_scope.

(** Arithmetic of operators *)
Definition op_add (U V : oper) : oper := fun psi x => (U psi x + V psi x)%C.
Definition op_sub (U V : oper) : oper := fun psi x => (U psi x - V psi x)%C.
Definition op_neg (U : oper) : oper := fun psi x => (- U psi x)%C.
Definition op_mul (U V : oper) : oper := fun psi => U (V psi).
Fixpoint op_pow (U : oper) (n : nat) : oper := match n with O => fun psi => psi | S m => op_mul U (op_pow U m) end.
Definition op_scl (k : C) (U : oper) : oper := fun psi x => (k * U psi x)%C.
Definition op_one : oper := fun psi => psi.
Definition same_op (U V : oper) : Prop := forall psi x, U psi x = V psi x.

(** Pauli matrices *)
Definition lmat (l : letter) : mat2 := match l with LX => mX | LY => mY | LZ => mZ end.
(** X[0]*Y[1]*... : the last one acts first *)
Fixpoint word_op (w : list pop) : oper :=
  match w with [] => op_one | (l, q) :: r => op_mul (ap1 (lmat l) q) (word_op r) end.
Definition term_op (t : term) : oper := op_scl (t_coeff t) (word_op (t_ops t)).
Fixpoint expr_op (e : expr) : oper :=
  match e with [] => fun _ _ => C0 | t :: r => op_add (term_op t) (expr_op r) end.
Definition val_op (v : pval) : oper :=
  match v with
  | VNum x => op_scl (nval x) op_one
  | VPauli PId => op_one
  | VPauli (PP (l, q)) => ap1 (lmat l) q
  | VTerm t => term_op t
  | VExpr e => expr_op e
  end.

(** Expressions written in Python with Pauli operators and numbers *)
Inductive pexp : Type :=
| ENum (x : num) | EPauli (p : pauli)
| EAdd (a b : pexp) | ESub (a b : pexp) | EMul (a b : pexp) | ENeg (a : pexp)
| EDiv (a : pexp) (x : num) | EPow (a : pexp) (n : Z).
(** what Python computes *)
Fixpoint eval (e : pexp) : res pval :=
  match e with
  | ENum x => Ok (VNum x)
  | EPauli p => Ok (VPauli p)
  | EAdd a b => let* u := eval a in let* v := eval b in Ok (v_add u v)
  | ESub a b => let* u := eval a in let* v := eval b in Ok (v_sub u v)
  | EMul a b => let* u := eval a in let* v := eval b in Ok (v_mul u v)
  | ENeg a => let* u := eval a in Ok (v_neg u)
  | EDiv a x => let* u := eval a in v_div u (VNum x)
  | EPow a n => let* u := eval a in v_pow u n
  end.
(** what the expression means *)
Fixpoint meaning (e : pexp) : oper :=
  match e with
  | ENum x => op_scl (nval x) op_one
  | EPauli PId => op_one
  | EPauli (PP (l, q)) => ap1 (lmat l) q
  | EAdd a b => op_add (meaning a) (meaning b)
  | ESub a b => op_sub (meaning a) (meaning b)
  | EMul a b => op_mul (meaning a) (meaning b)
  | ENeg a => op_neg (meaning a)
  | EDiv a x => op_scl (C1 / nval x)%C (meaning a)
  | EPow a n => op_pow (meaning a) (Z.to_nat n)
  end.

(** a power of a term repeats its operators; they stay free of neighbours that cancel *)
Definition cyclic (w : list pop) (n : Z) : Prop := (n <= 1)%Z \/ match w with [] => True | o :: r => last r o <> o end.
(** exponents are not negative, and powers of terms are [cyclic] (the power of an Expr is not restricted) *)
Fixpoint tame (e : pexp) : Prop :=
  match e with
  | ENum _ | EPauli _ => True
  | EAdd a b | ESub a b | EMul a b => tame a /\ tame b
  | ENeg a | EDiv a _ => tame a
  | EPow a n => tame a /\ (0 <= n)%Z /\ forall t, eval a = Ok (VTerm t) -> cyclic (t_ops t) n
  end.
(** expressions that raise no exception: division by non-zero real numbers, non-negative powers, but not of an operator itself *)
Fixpoint defined (e : pexp) : Prop :=
  match e with
  | ENum _ | EPauli _ => True
  | EAdd a b | ESub a b | EMul a b => defined a /\ defined b
  | ENeg a => defined a
  | EDiv a x => defined a /\ exists r, x = NumR r /\ r <> 0%R
  | EPow a n => defined a /\ (0 <= n)%Z /\ (match a with EPauli _ => False | _ => True end)
  end.

(** The form of a simplified term: one operator per qubit, in ascending order *)
Definition canonical (w : list pop) : Prop := StronglySorted lt (map snd w).

(** pairs of different operators on the same qubit *)
Definition clash (a b : pop) : bool := (snd a =? snd b) && negb (letter_eqb (fst a) (fst b)).
Definition clashes (v w : list pop) : nat := List.length (filter (fun p => clash (fst p) (snd p)) (list_prod v w)).

(** the operator of a character on a qubit *)
Definition char_op (ch : ascii) (q : nat) : option oper :=
  if (Ascii.eqb ch "I" || Ascii.eqb ch "i")%bool then Some op_one
  else if (Ascii.eqb ch "X" || Ascii.eqb ch "x")%bool then Some (ap1 mX q)
  else if (Ascii.eqb ch "Y" || Ascii.eqb ch "y")%bool then Some (ap1 mY q)
  else if (Ascii.eqb ch "Z" || Ascii.eqb ch "z")%bool then Some (ap1 mZ q)
  else None.
(** the operator of a string: its last character is on qubit 0 *)
Fixpoint string_op (s : string) : option oper :=
  match s with
  | EmptyString => Some op_one
  | String ch r =>
      match char_op ch (String.length r), string_op r with
      | Some U, Some V => Some (op_mul U V)
      | _, _ => None
      end
  end.

(** exp(i s U) for an operator with U U = 1 *)
Definition op_exp (s : R) (U : oper) : oper := op_add (op_scl (RtoC (cos s)) op_one) (op_scl (Ci * RtoC (sin s))%C U).

(** the qubits of a word are below [n] *)
Definition fits (n : nat) (w : list pop) : Prop := forall o, In o w -> snd o < n.
Definition ycount (w : list pop) : nat := List.length (filter (fun o => letter_eqb (fst o) LY) w).
Definition multiple_of_one (U : oper) : Prop := exists c, same_op U (op_scl c op_one).
(** no two terms with the same operators (terms with coefficient 0 do not count) *)
Definition distinct (e : expr) : Prop := NoDup (map t_ops (filter (fun t => truthy (t_coeff t)) e)).
(** sum of the squared moduli of the coefficients *)
Definition size (e : expr) : R := fold_left (fun s t => s + Cre (t_coeff t * Cconj (t_coeff t))%C)%R e 0%R.
