(** Specification of texts of operators: a reader of the part of Python's expressions that has numbers, the names I, X, Y, Z with an index, parentheses, unary minus,
    products, sums and differences.  [read]: the value of a numeral without sign. *)
From Coq Require Import String Ascii DecimalString List Arith ZArith Bool Reals.
Import ListNotations.
From Verif Require Import Base Cplx ModelPauli SpecPauli.
Local Open Scope string_scope.

(** ** Tokens *)
Inductive token : Type := TNum (s : string) | TImag (s : string) | TChar (c : ascii).
Definition digit (c : ascii) : bool := (48 <=? nat_of_ascii c)%nat && (nat_of_ascii c <=? 57)%nat.
Definition sign (c : ascii) : bool := Ascii.eqb c "+" || Ascii.eqb c "-".
Fixpoint ends_in_e (s : string) : bool :=
  match s with EmptyString => false | String c EmptyString => Ascii.eqb c "e" | String _ r => ends_in_e r end.
(** a character that belongs to the numeral begun before it *)
Definition continues (b : string) (c : ascii) : bool := digit c || Ascii.eqb c "." || Ascii.eqb c "e" || (sign c && ends_in_e b).
(** [buf]: the numeral that was begun *)
Fixpoint tokens (buf : option string) (s : string) : list token :=
  match s with
  | EmptyString => match buf with Some b => [TNum b] | None => [] end
  | String c r =>
      let fresh := if digit c || Ascii.eqb c "." then tokens (Some (String c "")) r
                   else if Ascii.eqb c " " then tokens None r else TChar c :: tokens None r in
      match buf with
      | None => fresh
      | Some b => if continues b c then tokens (Some (b ++ String c "")) r
                  else if Ascii.eqb c "j" then TImag b :: tokens None r else TNum b :: fresh
      end
  end.

(** ** Expressions *)
Definition name (c : ascii) : option letter :=
  if Ascii.eqb c "X" then Some LX else if Ascii.eqb c "Y" then Some LY else if Ascii.eqb c "Z" then Some LZ else None.
Definition read_index (s : string) : option nat := option_map Nat.of_uint (NilZero.uint_of_string s).
Section Read.
Variable read : string -> option R.
(** the fuel is at least the number of tokens *)
Fixpoint p_factor (fuel : nat) (ts : list token) : option (pexp * list token) :=
  match fuel with O => None | S f =>
  match ts with
  | TNum s :: r => option_map (fun x => (ENum (NumR x), r)) (read s)
  | TImag s :: r => option_map (fun x => (ENum (NumC (0%R, x)), r)) (read s)
  | TChar "-" :: r => option_map (fun p => (ENeg (fst p), snd p)) (p_factor f r)
  | TChar "(" :: r => match p_sum f r with Some (e, TChar ")" :: r') => Some (e, r') | _ => None end
  | TChar "I" :: r => Some (EPauli PId, r)
  | TChar c :: TChar "[" :: TNum i :: TChar "]" :: r =>
      match name c, read_index i with Some l, Some k => Some (EPauli (PP (l, k)), r) | _, _ => None end
  | _ => None
  end end
with p_product (fuel : nat) (ts : list token) : option (pexp * list token) :=
  match fuel with O => None | S f => match p_factor f ts with Some (e, r) => p_muls f e r | None => None end end
with p_muls (fuel : nat) (e : pexp) (ts : list token) : option (pexp * list token) :=
  match fuel with O => None | S f =>
  match ts with
  | TChar "*" :: r => match p_factor f r with Some (e', r') => p_muls f (EMul e e') r' | None => None end
  | _ => Some (e, ts)
  end end
with p_sum (fuel : nat) (ts : list token) : option (pexp * list token) :=
  match fuel with O => None | S f => match p_product f ts with Some (e, r) => p_adds f e r | None => None end end
with p_adds (fuel : nat) (e : pexp) (ts : list token) : option (pexp * list token) :=
  match fuel with O => None | S f =>
  match ts with
  | TChar "+" :: r => match p_product f r with Some (e', r') => p_adds f (EAdd e e') r' | None => None end
  | TChar "-" :: r => match p_product f r with Some (e', r') => p_adds f (ESub e e') r' | None => None end
  | _ => Some (e, ts)
  end end.
Definition python (s : string) : option pexp :=
  let ts := tokens None s in match p_sum (List.length ts + 20) ts with Some (e, []) => Some e | _ => None end.

(** ** Texts of numbers *)
Fixpoint all_digits (s : string) : bool := match s with EmptyString => true | String c r => digit c && all_digits r end.
(** 12, 0.5, 1e-05, ... *)
Definition numeral (s : string) : Prop := exists i f e, s = i ++ f ++ e /\ i <> "" /\ all_digits i = true /\
  (f = "" \/ exists d, f = "." ++ d /\ all_digits d = true) /\
  (e = "" \/ exists g d, e = "e" ++ g ++ d /\ (g = "" \/ g = "+" \/ g = "-") /\ d <> "" /\ all_digits d = true).
Definition reads (s : string) (x : R) : Prop := numeral s /\ read s = Some x.
Definition signed (g : string) (x y : R) : Prop := (g = "" /\ y = x) \/ (g = "-" /\ y = (- x)%R).
(** str of a number, as for floating point and complex numbers: 0.5, -0.5, 2j, -2j, (0.5+2j), (-0.5-2j) *)
Definition number_text (s : string) (c : C) : Prop :=
  (exists g t x, s = g ++ t /\ reads t x /\ signed g x (Cre c) /\ Cim c = 0%R) \/
  (exists g t x, s = g ++ t ++ "j" /\ reads t x /\ signed g x (Cim c) /\ Cre c = 0%R) \/
  (exists g t x m u y, s = "(" ++ g ++ t ++ m ++ u ++ "j)" /\ reads t x /\ reads u y /\ signed g x (Cre c) /\ (m = "+" /\ Cim c = y \/ m = "-" /\ Cim c = (- y)%R)).
End Read.
(** str of every coefficient is a text of it *)
Definition written (show : C -> string) (read : string -> option R) (v : pval) : Prop :=
  match v with
  | VNum _ => False
  | VPauli _ => True
  | VTerm t => number_text read (show (t_coeff t)) (t_coeff t)
  | VExpr e => Forall (fun t => number_text read (show (t_coeff t)) (t_coeff t)) e
  end.
