(** Model of blueqat/pauli.py: Pauli operators, terms and expressions (everything but matrices, see ModelPauliMatrix.v). *)
From Coq Require Import List Arith ZArith Bool String Ascii DecimalString Reals.
Import ListNotations.
From Verif Require Import Base Cplx ModelTargets ModelGate.
Local Open Scope R_scope.

(** The classes _X, _Y, _Z (pauli.py:324-331), by the value of their [op] property (231-233). *)
Inductive letter : Type := LX | LY | LZ.
(** An operator other than the identity: its class and its index [n].
    Simplification: indices are non-negative integers. *)
Definition pop : Type := (letter * nat)%type.
(** A Pauli operator: I (352-362), or X[n], Y[n], Z[n] (333-350). *)
Inductive pauli : Type := PId | PP (o : pop).
(** Term (365): [ops] and [coeff].
    Simplifications: [ops] holds no I; no function of the module puts one there (only the constructor, called by hand, can).
    Coefficients are complex numbers, computed exactly; whether Python holds one as int, float or complex makes no difference
    to the functions below (the cast in simplify, 547-549, does not change the value). *)
Record term : Type := Term { t_ops : list pop; t_coeff : C }.
(** Expr (646-647): the tuple [terms]. *)
Definition expr : Type := list term.
(** Numbers as operands: Term.__truediv__ tells complex numbers from others. *)
Inductive num : Type := NumR (r : R) | NumC (z : C).
Definition nval (x : num) : C := match x with NumR r => RtoC r | NumC z => z end.
(** Any operand *)
Inductive pval : Type := VNum (x : num) | VPauli (p : pauli) | VTerm (t : term) | VExpr (e : expr).

Definition letter_eqb (a b : letter) : bool := match a, b with LX, LX | LY, LY | LZ, LZ => true | _, _ => false end.
(** _PauliImpl.__eq__ for two operators other than I (252) *)
Definition pop_eqb (a b : pop) : bool := ((snd a =? snd b) && letter_eqb (fst a) (fst b))%nat.
(** tuple.__eq__ *)
Fixpoint ops_eqb (a b : list pop) : bool :=
  match a, b with
  | [], [] => true
  | x :: a', y :: b' => pop_eqb x y && ops_eqb a' b'
  | _, _ => false
  end.
(** truth of a number *)
Definition truthy (z : C) : bool := negb (Ceqb z C0).

(** ** Strings *)
(** str of an index *)
Definition nat_str (n : nat) : string := NilEmpty.string_of_uint (Nat.to_uint n).
Definition letter_str (l : letter) : string := match l with LX => "X" | LY => "Y" | LZ => "Z" end.
(** _PauliImpl.__repr__ (302-305) *)
Definition pop_repr (o : pop) : string := (letter_str (fst o) ++ "[" ++ nat_str (snd o) ++ "]")%string.
(** tuple.__repr__ *)
Definition ops_repr (l : list pop) : string :=
  match l with
  | [] => "()"
  | [o] => ("(" ++ pop_repr o ++ ",)")%string
  | _ => ("(" ++ String.concat ", " (map pop_repr l) ++ ")")%string
  end.

(** sorted(l, key=...) with the given comparison of keys: stable *)
Fixpoint insert_by {A} (le : A -> A -> bool) (x : A) (l : list A) : list A :=
  match l with
  | [] => [x]
  | y :: l' => if le x y then x :: l else y :: insert_by le x l'
  end.
Definition sort_by {A} (le : A -> A -> bool) (l : list A) : list A := fold_right (insert_by le) [] l.

(** ** Dictionaries, in order of insertion *)
Section Dict.
Context {K V : Type}.
Variable eqb : K -> K -> bool.
Fixpoint dget (d : list (K * V)) (k : K) : option V :=
  match d with [] => None | (k', v) :: r => if eqb k k' then Some v else dget r k end.
Fixpoint dset (d : list (K * V)) (k : K) (v : V) : list (K * V) :=
  match d with [] => [(k, v)] | (k', v') :: r => if eqb k k' then (k', v) :: r else (k', v') :: dset r k v end.
Fixpoint ddel (d : list (K * V)) (k : K) : list (K * V) :=
  match d with [] => [] | (k', v') :: r => if eqb k k' then r else (k', v') :: ddel r k end.
End Dict.
Definition tdict : Type := list (list pop * C).

(** ** Term *)
(** from_pauli (380-384) *)
Definition from_pauli (p : pauli) (c : C) : term :=
  match p with
  | PId => Term [] c
  | PP o => if Ceqb c C0 then Term [] c else Term [o] c
  end.
(** _PauliImpl.to_term (307-309) *)
Definition pauli_term (p : pauli) : term := from_pauli p C1.

(** join_ops (413-423): the loop compares the last element of ops1 with the first of ops2; [r1] is ops1[:i+1] reversed. *)
Fixpoint join_loop (r1 ops2 : list pop) : list pop :=
  match r1, ops2 with
  | a :: r1', b :: ops2' => if pop_eqb a b then join_loop r1' ops2' else rev r1 ++ ops2
  | _, _ => rev r1 ++ ops2
  end.
Definition join_ops (ops1 ops2 : list pop) : list pop := join_loop (rev ops1) ops2.

(** _PauliImpl.__mul__ of two operators (265-273), from_paulipair (375-377) *)
Definition pauli_mul (a b : pauli) : term :=
  match a, b with
  | PId, _ => pauli_term b
  | _, PId => pauli_term a
  | PP x, PP y => if pop_eqb x y then pauli_term PId else Term (join_ops [x] [y]) C1
  end.
(** Term.__mul__ of two terms (433-436) *)
Definition term_mul (a b : term) : term := Term (join_ops (t_ops a) (t_ops b)) (t_coeff a * t_coeff b)%C.
(** Term.__mul__ with an operator (437-440) *)
Definition term_mul_pauli (t : term) (p : pauli) : term :=
  match p with PId => t | PP o => Term (join_ops (t_ops t) [o]) (t_coeff t) end.
(** Term.__rmul__ with an operator (446-449) *)
Definition pauli_mul_term (p : pauli) (t : term) : term :=
  match p with PId => t | PP o => Term (join_ops [o] (t_ops t)) (t_coeff t) end.
(** Term.__mul__ and __rmul__ with a number (431-432, 444-445) *)
Definition term_scale (t : term) (x : C) : term := Term (t_ops t) (t_coeff t * x)%C.

Fixpoint cpow (z : C) (n : nat) : C := match n with O => C1 | S m => (z * cpow z m)%C end.
(** tuple * n *)
Fixpoint repeat_ops (l : list pop) (n : nat) : list pop := match n with O => [] | S m => l ++ repeat_ops l m end.
(** Term.__pow__ (459-467) *)
Definition term_pow (t : term) (n : Z) : res term :=
  if (n <? 0)%Z then Err ValueError
  else if (n =? 0)%Z then Ok (from_pauli PId C1)
  else Ok (Term (repeat_ops (t_ops t) (Z.to_nat n)) (cpow (t_coeff t) (Z.to_nat n))).

(** _mul_map (50-60); None is "I" *)
Definition mul_map (a b : letter) : C * option letter :=
  match a, b with
  | LX, LX => (C1, None) | LX, LY => (Ci, Some LZ) | LX, LZ => (- Ci, Some LY)%C
  | LY, LX => (- Ci, Some LZ)%C | LY, LY => (C1, None) | LY, LZ => (Ci, Some LX)
  | LZ, LX => (Ci, Some LY) | LZ, LY => (- Ci, Some LX)%C | LZ, LZ => (C1, None)
  end.
(** mul (524-529) *)
Definition mul_letter (a b : option letter) : C * option letter :=
  match a, b with
  | None, _ => (C1, b)
  | _, None => (C1, a)
  | Some x, Some y => mul_map x y
  end.
(** before (531-535): for each qubit its operators in order *)
Definition before (ops : list pop) : list (nat * list letter) :=
  fold_left (fun d o => dset Nat.eqb d (snd o)
    (match dget Nat.eqb d (snd o) with Some l => l | None => [] end ++ [fst o])) ops [].
(** 541-545: the product of the operators of one qubit *)
Definition mul_all (l : list letter) : C * option letter :=
  match l with
  | [] => (C1, None) (* excluded by the assertion *)
  | a :: r => fold_left (fun (s : C * option letter) b => let '(k, op) := mul_letter (snd s) (Some b) in ((fst s * k)%C, op)) r (C1, Some a)
  end.
(** Term.simplify (522-552) *)
Definition simplify (t : term) : term :=
  let d := before (t_ops t) in
  let '(ops, c) := fold_left (fun (s : list pop * C) n =>
      let '(k, op) := mul_all (match dget Nat.eqb d n with Some l => l | None => [] end) in
      (fst s ++ match op with None => [] | Some l => [(l, n)] end, (snd s * k)%C))
    (sort_by Nat.leb (map fst d)) ([], t_coeff t) in
  Term ops c.

(** max_n, n_qubits (554-571): max_n is -1 if there are no operators, so this is max_n + 1 *)
Definition term_qubits (t : term) : nat := fold_left Nat.max (map (fun o => S (snd o)) (t_ops t)) O.

(** pauli_from_char (127-149).  Simplification: upper() of characters other than a-z is the character itself, which is true of ASCII. *)
Definition upper (ch : ascii) : ascii :=
  let k := nat_of_ascii ch in if ((97 <=? k) && (k <=? 122))%nat then ascii_of_nat (k - 32) else ch.
Definition pauli_from_char (ch : ascii) (n : nat) : res pauli :=
  let ch := upper ch in
  if Ascii.eqb ch "I" then Ok PId
  else if Ascii.eqb ch "X" then Ok (PP (LX, n))
  else if Ascii.eqb ch "Y" then Ok (PP (LY, n))
  else if Ascii.eqb ch "Z" then Ok (PP (LZ, n))
  else Err ValueError.
(** from_chars (392-410).  The list comprehension; the product of the operators (reduce starts with a product of two operators, 410,
    and goes on with products of a term and an operator). *)
Fixpoint chars_paulis (chars : list ascii) (n : nat) : res (list pauli) :=
  match chars with
  | [] => Ok []
  | c :: r =>
      if Ascii.eqb c "I" then chars_paulis r (S n)
      else let* p := pauli_from_char c n in let* ps := chars_paulis r (S n) in Ok (p :: ps)
  end.
Definition from_chars (chars : list ascii) : res term :=
  let* ps := chars_paulis chars 0 in
  match ps with
  | [] => Ok (from_pauli PId C1)
  | [p] => Ok (from_pauli p C1)
  | p :: q :: r => Ok (fold_left term_mul_pauli r (pauli_mul p q))
  end.
(** term_from_chars (152-165) *)
Definition term_from_chars (s : string) : res term := from_chars (rev (list_ascii_of_string s)).

(** Term.is_identity (425-428) *)
Definition term_is_identity (t : term) : bool := match t_ops t with [] => true | _ => false end.

(** Term.__eq__ of two terms (497-501) *)
Definition term_tuple_eqb (a b : term) : bool := ops_eqb (t_ops a) (t_ops b) && Ceqb (t_coeff a) (t_coeff b).
Definition term_eqb (a b : term) : bool := term_tuple_eqb a b || term_tuple_eqb (simplify a) (simplify b).

(** append_to_circuit (573-582): the gates that are appended *)
Definition letter_gate (l : letter) : g1 := match l with LX => KX | LY => KY | LZ => KZ end.
Definition append_gates (t : term) (simp : bool) : list gate :=
  let t := if simp then simplify t else t in
  map (fun o => GOne (letter_gate (fst o)) (TInt (Z.of_nat (snd o)))) (rev (t_ops t)).

(** get_time_evolution (584-616): an exception, or the gates that the returned function appends *)
Definition basis_gates (angle : R) (ops : list pop) : list gate :=
  flat_map (fun o : pop => match fst o with
    | LX => [GOne KH (TInt (Z.of_nat (snd o)))]
    | LY => [GOne (KRX angle) (TInt (Z.of_nat (snd o)))]
    | LZ => [] end) ops.
Fixpoint ladder (ops : list pop) : list gate :=
  match ops with
  | a :: (b :: _) as r => GTwo KCX (TTuple [TInt (Z.of_nat (snd a)); TInt (Z.of_nat (snd b))]) :: ladder r
  | _ => []
  end.
Definition evolution_gates (ops : list pop) (c t : R) : list gate :=
  match ops with
  | [] => []
  | o :: r =>
      basis_gates (- (PI / 2)) ops ++ ladder ops ++
      [GOne (KRZ (- 2 * c * t)) (TInt (Z.of_nat (snd (last r o))))] ++
      rev (ladder ops) ++ basis_gates (PI / 2) ops
  end.
Definition time_evolution (t : term) : res (R -> list gate) :=
  let s := simplify t in
  if negb (Reqb (Cim (t_coeff s)) 0) then Err ValueError
  else Ok (evolution_gates (t_ops s) (Cre (t_coeff s))).

(** ** Expr *)
(** from_term (656-660), from_number (649-653), from_terms_iter (663-665) *)
Definition from_term (t : term) : expr := if truthy (t_coeff t) then [t] else [].
Definition from_number (z : C) : expr := if truthy z then from_term (Term [] z) else [].
Definition from_terms_iter (l : list term) : expr := filter (fun t => truthy (t_coeff t)) l.
(** terms_to_dict (667-669) *)
Definition terms_to_dict (e : expr) : tdict :=
  fold_left (fun d t => dset ops_eqb d (t_ops t) (t_coeff t)) (filter (fun t => truthy (t_coeff t)) e) [].
(** from_terms_dict (672-674) *)
Definition from_terms_dict (d : tdict) : expr :=
  map (fun kv => Term (fst kv) (snd kv)) (filter (fun kv => truthy (snd kv)) d).
(** __add__ of two expressions (703-712) and __sub__ (720-729) *)
Definition add_into (d : tdict) (k : list pop) (c : C) : tdict :=
  match dget ops_eqb d k with
  | Some v => if Ceqb (v + c)%C C0 then ddel ops_eqb d k else dset ops_eqb d k (v + c)%C
  | None => dset ops_eqb d k c
  end.
Definition expr_add (a b : expr) : expr :=
  from_terms_dict (fold_left (fun d t => add_into d (t_ops t) (t_coeff t)) b (terms_to_dict a)).
Definition sub_into (d : tdict) (k : list pop) (c : C) : tdict :=
  match dget ops_eqb d k with
  | Some v => if Ceqb (v - c)%C C0 then ddel ops_eqb d k else dset ops_eqb d k (v - c)%C
  | None => dset ops_eqb d k (- c)%C
  end.
Definition expr_sub (a b : expr) : expr :=
  from_terms_dict (fold_left (fun d t => sub_into d (t_ops t) (t_coeff t)) b (terms_to_dict a)).
(** __neg__ (746-747) *)
Definition expr_neg (e : expr) : expr := map (fun t => Term (t_ops t) (- t_coeff t)%C) e.
(** __mul__ and __rmul__ with a number (750-753, 767-770) *)
Definition expr_scale (e : expr) (x : C) : expr :=
  if Ceqb x C0 then from_number C0 else from_terms_iter (map (fun t => Term (t_ops t) (t_coeff t * x)%C) e).
(** __mul__ with a term (756-757), __rmul__ (773-774), __mul__ with an expression (758-763) *)
Definition expr_mul_term (e : expr) (t : term) : expr := map (fun s => term_mul s t) e.
Definition term_mul_expr (t : term) (e : expr) : expr := map (fun s => term_mul t s) e.
(** d[k] += c of a defaultdict(float) *)
Definition accumulate (d : tdict) (k : list pop) (c : C) : tdict :=
  dset ops_eqb d k ((match dget ops_eqb d k with Some v => v | None => C0 end) + c)%C.
Definition expr_mul (a b : expr) : expr :=
  from_terms_dict (fold_left (fun d t => accumulate d (t_ops t) (t_coeff t)) (flat_map (fun t1 => map (term_mul t1) b) a) []).
(** __pow__ (784-795) *)
Definition expr_pow (e : expr) (n : Z) : res expr :=
  if (n <? 0)%Z then Err ValueError
  else if (n =? 0)%Z then Ok (from_number C1)
  else Ok (Nat.iter (Z.to_nat n - 1) (fun v => expr_mul v e) e).
(** simplify (858-865) *)
Definition expr_simplify (e : expr) : expr :=
  let d := fold_left (fun d t => let t' := simplify t in accumulate d (t_ops t') (t_coeff t')) e [] in
  from_terms_iter
    (map (fun k => Term k (match dget ops_eqb d k with Some v => v | None => C0 end))
      (filter (fun k => truthy (match dget ops_eqb d k with Some v => v | None => C0 end))
        (sort_by (fun a b => String.leb (ops_repr a) (ops_repr b)) (map fst d)))).
(** tuple.__eq__ of terms; Expr.__eq__ of two expressions (688-693) *)
Fixpoint terms_eqb (a b : expr) : bool :=
  match a, b with
  | [], [] => true
  | x :: a', y :: b' => term_eqb x y && terms_eqb a' b'
  | _, _ => false
  end.
Definition expr_eqb (a b : expr) : bool := terms_eqb a b || terms_eqb (expr_simplify a) (expr_simplify b).
(** is_identity (681-686) *)
Definition expr_is_identity (e : expr) : bool :=
  match e with
  | [] => true
  | [t] => term_is_identity t && Ceqb (t_coeff t) C1
  | _ => false
  end.
(** max_n, n_qubits (824-839) *)
Definition expr_qubits (e : expr) : nat :=
  fold_left Nat.max (map term_qubits (filter (fun t => negb (term_is_identity t)) e)) O.

(** ** Operators of Python: the methods of the left operand, then the reflected methods of the right one *)
Definition pauli_expr (p : pauli) : expr := from_term (pauli_term p).

(** [a * b]: _PauliImpl.__mul__ (262-273), __rmul__ (275-278), Term (430-450), Expr (749-775) *)
Definition v_mul (a b : pval) : pval :=
  match a, b with
  | VNum x, VNum y => VNum (match x, y with NumR r, NumR s => NumR (r * s) | _, _ => NumC (nval x * nval y)%C end)
  | VNum x, VPauli p | VPauli p, VNum x => VTerm (from_pauli p (nval x))
  | VNum x, VTerm t | VTerm t, VNum x => VTerm (term_scale t (nval x))
  | VNum x, VExpr e | VExpr e, VNum x => VExpr (expr_scale e (nval x))
  | VPauli p, VPauli q => VTerm (pauli_mul p q)
  | VPauli p, VTerm t => VTerm (pauli_mul_term p t)
  | VTerm t, VPauli p => VTerm (term_mul_pauli t p)
  | VTerm s, VTerm t => VTerm (term_mul s t)
  | VPauli p, VExpr e => VExpr (term_mul_expr (pauli_term p) e)
  | VExpr e, VPauli p => VExpr (expr_mul_term e (pauli_term p))
  | VTerm t, VExpr e => VExpr (term_mul_expr t e)
  | VExpr e, VTerm t => VExpr (expr_mul_term e t)
  | VExpr d, VExpr e => VExpr (expr_mul d e)
  end.

(** the expression into which an operand of + or - is converted: to_expr (311-313, 510-512, 820-822), from_number, from_term *)
Definition v_expr (v : pval) : expr :=
  match v with
  | VNum x => from_number (nval x)
  | VPauli p => pauli_expr p
  | VTerm t => from_term t
  | VExpr e => e
  end.
(** [a + b]: __add__ and __radd__ of _PauliImpl (287-291), Term (469-473) and Expr (698-713, 732-737) all end in the sum of two
    expressions *)
Definition v_add (a b : pval) : pval :=
  match a, b with
  | VNum x, VNum y => VNum (match x, y with NumR r, NumR s => NumR (r + s) | _, _ => NumC (nval x + nval y)%C end)
  | _, _ => VExpr (expr_add (v_expr a) (v_expr b))
  end.
(** [a - b]: 293-297, 475-479, 715-730, 739-744 *)
Definition v_sub (a b : pval) : pval :=
  match a, b with
  | VNum x, VNum y => VNum (match x, y with NumR r, NumR s => NumR (r - s) | _, _ => NumC (nval x - nval y)%C end)
  | _, _ => VExpr (expr_sub (v_expr a) (v_expr b))
  end.
(** [- a]: 299-300, 481-482, 746-747 *)
Definition v_neg (a : pval) : pval :=
  match a with
  | VNum (NumR r) => VNum (NumR (- r))
  | VNum (NumC z) => VNum (NumC (- z)%C)
  | VPauli p => VTerm (from_pauli p (- C1)%C)
  | VTerm t => VTerm (Term (t_ops t) (- t_coeff t)%C)
  | VExpr e => VExpr (expr_neg e)
  end.
(** Term.__truediv__ (452-457) *)
Definition term_div (t : term) (x : num) : res term :=
  match x with
  | NumR r => if Reqb r 0 then Err ZeroDivisionError else Ok (Term (t_ops t) (t_coeff t / RtoC r)%C)
  | NumC _ => Err TypeError
  end.
(** [a / b]: _PauliImpl.__truediv__ (280-285), Expr.__truediv__ (777-782) *)
Definition v_div (a b : pval) : res pval :=
  match a, b with
  | VNum x, VNum y =>
      if truthy (nval y) then Ok (VNum (match x, y with NumR r, NumR s => NumR (r / s) | _, _ => NumC (nval x / nval y)%C end))
      else Err ZeroDivisionError
  | VPauli p, VNum x => if truthy (nval x) then Ok (VTerm (from_pauli p (C1 / nval x)%C)) else Err ZeroDivisionError
  | VTerm t, VNum x => rmap VTerm (term_div t x)
  | VExpr e, VNum x => if truthy (nval x) then rmap VExpr (map_res (fun t => term_div t x) e) else Err ZeroDivisionError
  | _, _ => Err TypeError
  end.
(** [a ** n]: _PauliImpl has no __pow__ *)
Definition v_pow (a : pval) (n : Z) : res pval :=
  match a with
  | VNum x =>
      if (n <? 0)%Z then
        if truthy (nval x) then Ok (VNum (NumC (C1 / cpow (nval x) (Z.to_nat (- n)))%C)) else Err ZeroDivisionError
      else Ok (VNum (match x with NumR r => NumR (r ^ Z.to_nat n) | NumC z => NumC (cpow z (Z.to_nat n)) end))
  | VPauli _ => Err TypeError
  | VTerm t => rmap VTerm (term_pow t n)
  | VExpr e => rmap VExpr (expr_pow e n)
  end.
(** [a == b]: _PauliImpl.__eq__ (248-257; I has no attribute n), Term.__eq__ (497-501: a tuple of two elements never equals one of one
    element, simplified or not; with a number, tuple.__eq__ gives NotImplemented, which is a true value), Expr.__eq__ (688-693).  Where
    both sides return NotImplemented, the objects are compared by identity. *)
Definition v_eq (a b : pval) : res bool :=
  match a, b with
  | VNum x, VNum y => Ok (Ceqb (nval x) (nval y))
  | VNum _, _ | _, VNum _ => Ok false
  | VPauli p, VPauli q => match p, q with PId, PId => Ok true | PId, PP _ => Ok false | PP _, PId => Err AttributeError | PP x, PP y => Ok (pop_eqb x y) end
  | VPauli p, VTerm t => Ok (term_eqb (pauli_term p) t)
  | VTerm t, VPauli p => Ok (term_eqb t (pauli_term p))
  | VPauli p, VExpr e => Ok (expr_eqb (pauli_expr p) e)
  | VExpr e, VPauli p => Ok (expr_eqb e (pauli_expr p))
  | VTerm s, VTerm t => Ok (term_eqb s t)
  | VTerm _, VExpr _ => Ok false
  | VExpr e, VTerm t => Ok (expr_eqb e (from_term t))
  | VExpr d, VExpr e => Ok (expr_eqb d e)
  end.
(** [hash(a)] of an operator, as the pair that is hashed (245-246); Term and Expr define __eq__ and no __hash__ *)
Definition v_hash (a : pval) : res (letter * nat) :=
  match a with
  | VPauli (PP o) => Ok o
  | VPauli PId => Err AttributeError
  | VTerm _ | VExpr _ => Err TypeError
  | VNum _ => Err Undefined
  end.

(** is_identity of any value (236-238, 426-428, 682-686) *)
Definition pauli_is_identity (p : pauli) : bool := match p with PId => true | PP _ => false end.

(** commutator (192-204), of expressions, terms and operators *)
Definition commutator (a b : expr) : expr :=
  let a := expr_simplify a in let b := expr_simplify b in
  expr_simplify (expr_sub (expr_mul a b) (expr_mul b a)).
(** is_commutable (207-219) *)
Definition is_commutable (a b : expr) (eps : R) : bool :=
  Rltb (fold_left (fun s t => s + Cre (t_coeff t * Cconj (t_coeff t))%C) (commutator a b) 0) eps.
(** the default of eps *)
Definition default_eps : R := / 10 ^ 8.
(** is_all_terms_commutable (854-856) *)
Fixpoint pairs_of {A} (l : list A) : list (A * A) :=
  match l with [] => [] | a :: r => map (pair a) r ++ pairs_of r end.
Definition is_all_terms_commutable (e : expr) : bool :=
  forallb (fun p => is_commutable (from_term (fst p)) (from_term (snd p)) default_eps) (pairs_of e).

(** qubo_bit (904-913) *)
Definition qubo_bit (n : nat) : pval :=
  v_sub (VNum (NumR (1 / 2))) (v_mul (VNum (NumR (1 / 2))) (VPauli (PP (LZ, n)))).
