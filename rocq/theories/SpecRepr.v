(** Specification of the text of a circuit: reading the Python expression  Circuit(n).name(a, b)[i, j:k, ...]...  and evaluating it.
    The reader accepts a part of Python's expressions; what it accepts, Python reads in the same way. *)
From Coq Require Import String Ascii List Arith ZArith Bool Reals Decimal DecimalString.
Import ListNotations.
From Verif Require Import Base ModelTargets ModelGate ModelCircuit SpecTargets SpecAPI SpecOps SpecQasm.
Local Open Scope string_scope.

(** ** Words and punctuation *)
Definition digit (c : ascii) : bool := between "0" "9" c.
Definition letter (c : ascii) : bool := between "a" "z" c || between "A" "Z" c || Ascii.eqb c "_".
(** a word begins with a letter (a name) or with a digit or the sign (a number); only numbers contain . + - *)
Definition starts (c : ascii) : bool := letter c || digit c || Ascii.eqb c "-".
Definition continues (w : string) (c : ascii) : bool :=
  match w with
  | "" => starts c
  | String a _ => letter c || digit c || (negb (letter a) && (Ascii.eqb c "." || Ascii.eqb c "+" || Ascii.eqb c "-"))
  end.
Fixpoint py_tokens (w s : string) : list token :=
  match s with
  | "" => emit w []
  | String c r =>
      if continues w c then py_tokens (w ++ String c "") r
      else emit w (if blank c then py_tokens "" r else Punct c :: py_tokens "" r)
  end.

(** ** Integers, slices, subscripts *)
(** Python has no numbers with leading zeros *)
Definition leading_zero (s : string) : bool := prefix "0" s && negb (String.eqb s "0") || prefix "-0" s.
Definition read_int (s : string) : option Z := if leading_zero s then None else option_map Z.of_int (NilZero.int_of_string s).
(** what follows the first colon of a slice *)
Definition p_slice (a : option Z) (ts : list token) : option (target * list token) :=
  match ts with
  | Word b :: Punct ":" :: Word c :: r => match read_int b, read_int c with Some b, Some c => Some (TSlice a (Some b) (Some c), r) | _, _ => None end
  | Word b :: Punct ":" :: r => match read_int b with Some b => Some (TSlice a (Some b) None, r) | None => None end
  | Word b :: r => match read_int b with Some b => Some (TSlice a (Some b) None, r) | None => None end
  | Punct ":" :: Word c :: r => match read_int c with Some c => Some (TSlice a None (Some c), r) | None => None end
  | Punct ":" :: r => Some (TSlice a None None, r)
  | r => Some (TSlice a None None, r)
  end.
Definition p_item (ts : list token) : option (target * list token) :=
  match ts with
  | Punct ":" :: r => p_slice None r
  | Word i :: Punct ":" :: r => match read_int i with Some i => p_slice (Some i) r | None => None end
  | Word i :: r => match read_int i with Some i => Some (TInt i, r) | None => None end
  | _ => None
  end.
(** the items up to the closing bracket, and whether there was a comma after the last *)
Fixpoint p_items (fuel : nat) (ts : list token) : option (list target * bool * list token) :=
  match fuel with
  | O => None
  | S f =>
      match p_item ts with
      | Some (t, Punct "]" :: r) => Some ([t], false, r)
      | Some (t, Punct "," :: Punct "]" :: r) => Some ([t], true, r)
      | Some (t, Punct "," :: r) => match p_items f r with Some (l, b, r) => Some (t :: l, b, r) | None => None end
      | _ => None
      end
  end.
(** [x] is the item, [x,] and [x, y] are tuples, [] is no subscript *)
Definition p_subscript (ts : list token) : option (target * list token) :=
  match ts with
  | Punct "[" :: r =>
      match p_items (List.length r) r with
      | Some ([t], false, r) => Some (t, r)
      | Some (l, _, r) => Some (TTuple l, r)
      | None => None
      end
  | _ => None
  end.

(** ** Calls *)
Section Read.
Variable read : string -> option R.
(** .name[...]  or  .name(...)[...] *)
Definition p_call (ts : list token) : option (string * list R * target * list token) :=
  match ts with
  | Punct "." :: Word name :: Punct "(" :: Punct ")" :: r =>
      match p_subscript r with Some (t, r) => Some (name, [], t, r) | None => None end
  | Punct "." :: Word name :: Punct "(" :: r =>
      match p_params read r with
      | Some (ps, r) => match p_subscript r with Some (t, r) => Some (name, ps, t, r) | None => None end
      | None => None
      end
  | Punct "." :: Word name :: r => match p_subscript r with Some (t, r) => Some (name, [], t, r) | None => None end
  | _ => None
  end.
Fixpoint p_calls (fuel : nat) (ts : list token) : option (list (string * list R * target)) :=
  match ts with
  | [] => Some []
  | _ => match fuel with
         | O => None
         | S f => match p_call ts with Some (c, r) => option_map (cons c) (p_calls f r) | None => None end
         end
  end.
(** Circuit(n) followed by calls *)
Definition read_circuit (text : string) : option (nat * list (string * list R * target)) :=
  match py_tokens "" text with
  | Word "Circuit" :: Punct "(" :: Word n :: Punct ")" :: r =>
      match read_int n with
      | Some z => if (0 <=? z)%Z then option_map (fun l => (Z.to_nat z, l)) (p_calls (List.length r) r) else None
      | None => None
      end
  | _ => None
  end.

(** ** Evaluation: the expression makes a new circuit and adds the gates; [h'] is the heap afterwards *)
Definition evaluates (rng : nat -> R) (text : string) (h h' : heap) : Prop :=
  exists n calls gs rs, read_circuit text = Some (n, calls) /\ Forall2 (fun c g => builds (fst (fst c)) (snd (fst c)) (snd c) g) calls gs /\
    steps rng h (ONew n :: map (OGate (List.length (h_circs h))) gs) = (rs, h') /\ all_ok rs.
End Read.

(** [show] prints the number as a number that is read back *)
Fixpoint number_chars (s : string) : bool :=
  match s with "" => true | String c r => (letter c || digit c || Ascii.eqb c "." || Ascii.eqb c "+" || Ascii.eqb c "-") && number_chars r end.
Definition number_word (s : string) : bool := match s with "" => false | String c r => (digit c || Ascii.eqb c "-") && number_chars r end.
Definition printable (show : R -> string) (read : string -> option R) (x : R) : Prop := number_word (show x) = true /\ read (show x) = Some x.

(** ** Targets *)
(** a subscript can be written if it is an integer, a slice or a tuple with at least one of those *)
Definition writable (t : target) : Prop := flat t /\ t <> TTuple [].
(** a tuple of one is written like its element *)
Definition unwrap (t : target) : target := match t with TTuple [a] => a | _ => t end.
Definition retarget (g : gate) (t : target) : gate :=
  match g with
  | GOne k _ => GOne k t | GTwo k _ => GTwo k t | GThree k _ => GThree k t | GMeasure _ => GMeasure t | GReset _ => GReset t
  end.
Definition as_written (g : gate) : gate := retarget g (unwrap (targets g)).

(** every gate but CCZ has a method of class Circuit *)
Definition has_method (g : gate) : Prop := forall tg, g <> GThree KCCZ tg.
(** the circuits whose text is an expression *)
Definition expressible (gs : list gate) : Prop := gs <> [] /\ Forall (fun g => writable (targets g) /\ has_method g) gs.
