(** Specification of OpenQASM 2.0 text: reading programs, the gates of qelib1.inc, and the statements expected for a circuit.
    The definitions of qelib1.inc are those of the file that comes with OpenQASM 2.0 (with swap and cswap). *)
From Coq Require Import String Ascii List Arith ZArith Bool Reals Decimal DecimalString.
Import ListNotations.
From Verif Require Import Base Cplx Bits ModelTargets ModelGate SpecTargets SpecQuantum SpecCircuit SpecAPI.
Local Open Scope string_scope.

(** ** Words and punctuation *)
Inductive token : Type := Word (s : string) | Punct (c : ascii).
Definition between (a b c : ascii) : bool := (nat_of_ascii a <=? nat_of_ascii c)%nat && (nat_of_ascii c <=? nat_of_ascii b)%nat.
(** letters, digits, _ . - + *)
Definition word_char (c : ascii) : bool :=
  between "a" "z" c || between "A" "Z" c || between "0" "9" c || Ascii.eqb c "_" || Ascii.eqb c "." || Ascii.eqb c "-" || Ascii.eqb c "+".
Definition blank (c : ascii) : bool := Ascii.eqb c " " || Ascii.eqb c (ascii_of_nat 10).
Definition emit (w : string) (l : list token) : list token := if String.eqb w "" then l else Word w :: l.
(** [w] is the word read so far; in a comment everything up to the end of the line is skipped *)
Fixpoint tokens (comment : bool) (w s : string) : list token :=
  match s with
  | "" => emit w []
  | String c r =>
      if comment then tokens (negb (Ascii.eqb c (ascii_of_nat 10))) "" r
      else if word_char c then tokens false (w ++ String c "") r
      else emit w (if blank c then tokens false "" r
                   else if Ascii.eqb c "/" && prefix "/" r then tokens true "" r
                   else Punct c :: tokens false "" r)
  end.

(** ** Statements *)
Inductive stmt : Type :=
| SGate (name : string) (params : list R) (qs : list nat)
| SMeasure (q c : nat)
| SReset (q : nat).
Record prog : Type := Prog { p_qreg : nat; p_creg : nat; p_body : list stmt }.

Definition read_nat (s : string) : option nat := option_map (fun u => Z.to_nat (Z.of_uint u)) (NilZero.uint_of_string s).

Section Read.
Variable read : string -> option R.

Definition opt_bind {A B} (o : option A) (f : A -> option B) : option B := match o with Some a => f a | None => None end.
(** name[i] *)
Definition p_index (name : string) (ts : list token) : option (nat * list token) :=
  match ts with
  | Word x :: Punct "[" :: Word i :: Punct "]" :: r => if String.eqb x name then option_map (fun k => (k, r)) (read_nat i) else None
  | _ => None
  end.
(** q[i],q[j],...; *)
Fixpoint p_qubits (fuel : nat) (ts : list token) : option (list nat * list token) :=
  match fuel with
  | O => None
  | S f =>
      match p_index "q" ts with
      | Some (q, Punct ";" :: r) => Some ([q], r)
      | Some (q, Punct "," :: r) => match p_qubits f r with Some (qs, r) => Some (q :: qs, r) | None => None end
      | _ => None
      end
  end.
(** a,b,...) *)
Fixpoint p_params (ts : list token) : option (list R * list token) :=
  match ts with
  | Word a :: Punct ")" :: r => match read a with Some x => Some ([x], r) | None => None end
  | Word a :: Punct "," :: r => match read a, p_params r with Some x, Some (xs, r) => Some (x :: xs, r) | _, _ => None end
  | _ => None
  end.
Definition p_stmt (ts : list token) : option (stmt * list token) :=
  match ts with
  | Word name :: r =>
      if String.eqb name "measure" then
        match p_index "q" r with
        | Some (q, Word "-" :: Punct ">" :: r) =>
            match p_index "c" r with Some (c, Punct ";" :: r) => Some (SMeasure q c, r) | _ => None end
        | _ => None
        end
      else if String.eqb name "reset" then
        match p_index "q" r with Some (q, Punct ";" :: r) => Some (SReset q, r) | _ => None end
      else
        match r with
        | Punct "(" :: r =>
            match p_params r with
            | Some (xs, r) => match p_qubits (List.length r) r with Some (qs, r) => Some (SGate name xs qs, r) | None => None end
            | None => None
            end
        | _ => match p_qubits (List.length r) r with Some (qs, r) => Some (SGate name [] qs, r) | None => None end
        end
  | _ => None
  end.
Fixpoint p_stmts (fuel : nat) (ts : list token) : option (list stmt) :=
  match ts with
  | [] => Some []
  | _ => match fuel with
         | O => None
         | S f => match p_stmt ts with Some (s, r) => option_map (cons s) (p_stmts f r) | None => None end
         end
  end.
(** a register: keyword name[size]; *)
Definition p_register (keyword name : string) (ts : list token) : option (nat * list token) :=
  match ts with
  | Word k :: r => if String.eqb k keyword then match p_index name r with Some (n, Punct ";" :: r) => Some (n, r) | _ => None end else None
  | _ => None
  end.
Definition read_body (text : string) : option (list stmt) := let ts := tokens false "" text in p_stmts (List.length ts) ts.
Definition read_program (text : string) : option prog :=
  match tokens false "" text with
  | Word "OPENQASM" :: Word "2.0" :: Punct ";" :: Word "include" :: Punct """" :: Word "qelib1.inc" :: Punct """" :: Punct ";" :: r =>
      match p_register "qreg" "q" r with
      | Some (n, r) => match p_register "creg" "c" r with
                       | Some (m, r) => option_map (Prog n m) (p_stmts (List.length r) r)
                       | None => None
                       end
      | None => None
      end
  | _ => None
  end.
End Read.

(** ** The language and qelib1.inc *)
(** the built in operations U(theta,phi,lambda) q and CX c,t *)
Inductive prim : Type := PU (theta phi lambda : R) (q : nat) | PCX (c t : nat).
Definition prim_op (p : prim) : oper := match p with PU th ph la q => ap1 (mU3 th ph la) q | PCX c t => ctl c (ap1 mX t) end.

Section Qelib.
Local Open Scope R_scope.
Local Open Scope list_scope.
Definition q_u3 th ph la a := [PU th ph la a].
Definition q_u2 ph la a := [PU (PI / 2) ph la a].
Definition q_u1 la a := [PU 0 0 la a].
Definition q_cx a b := [PCX a b].
Definition q_id a := [PU 0 0 0 a].
Definition q_x a := q_u3 PI 0 PI a.
Definition q_y a := q_u3 PI (PI / 2) (PI / 2) a.
Definition q_z a := q_u1 PI a.
Definition q_h a := q_u2 0 PI a.
Definition q_s a := q_u1 (PI / 2) a.
Definition q_sdg a := q_u1 (- PI / 2) a.
Definition q_t a := q_u1 (PI / 4) a.
Definition q_tdg a := q_u1 (- PI / 4) a.
Definition q_rx th a := q_u3 th (- PI / 2) (PI / 2) a.
Definition q_ry th a := q_u3 th 0 0 a.
Definition q_rz ph a := q_u1 ph a.
Definition q_cz a b := q_h b ++ q_cx a b ++ q_h b.
Definition q_cy a b := q_sdg b ++ q_cx a b ++ q_s b.
Definition q_swap a b := q_cx a b ++ q_cx b a ++ q_cx a b.
Definition q_ch a b := q_h b ++ q_sdg b ++ q_cx a b ++ q_h b ++ q_t b ++ q_cx a b ++ q_t b ++ q_h b ++ q_s b ++ q_x b ++ q_s a.
Definition q_ccx a b c :=
  q_h c ++ q_cx b c ++ q_tdg c ++ q_cx a c ++ q_t c ++ q_cx b c ++ q_tdg c ++ q_cx a c ++ q_t b ++ q_t c ++ q_h c ++
  q_cx a b ++ q_t a ++ q_tdg b ++ q_cx a b.
Definition q_cswap a b c := q_cx c b ++ q_ccx a b c ++ q_cx c b.
Definition q_crz la a b := q_u1 (la / 2) b ++ q_cx a b ++ q_u1 (- la / 2) b ++ q_cx a b.
Definition q_cu1 la a b := q_u1 (la / 2) a ++ q_cx a b ++ q_u1 (- la / 2) b ++ q_cx a b ++ q_u1 (la / 2) b.
Definition q_cu3 th ph la c t :=
  q_u1 ((la - ph) / 2) t ++ q_cx c t ++ q_u3 (- th / 2) 0 (- (ph + la) / 2) t ++ q_cx c t ++ q_u3 (th / 2) ph 0 t.
Definition q_rzz th a b := q_cx a b ++ q_u1 th b ++ q_cx a b.
End Qelib.

(** the operation that a gate name with parameters and qubits stands for; None: not defined *)
Definition qelib (name : string) (ps : list R) (qs : list nat) : option (list prim) :=
  let is := String.eqb name in
  match ps, qs with
  | [], [a] => if is "id" then Some (q_id a) else if is "x" then Some (q_x a) else if is "y" then Some (q_y a) else if is "z" then Some (q_z a)
               else if is "h" then Some (q_h a) else if is "s" then Some (q_s a) else if is "sdg" then Some (q_sdg a)
               else if is "t" then Some (q_t a) else if is "tdg" then Some (q_tdg a) else None
  | [x], [a] => if is "rx" then Some (q_rx x a) else if is "ry" then Some (q_ry x a) else if is "rz" then Some (q_rz x a)
                else if is "u1" then Some (q_u1 x a) else None
  | [x; y], [a] => if is "u2" then Some (q_u2 x y a) else None
  | [x; y; z], [a] => if is "u3" then Some (q_u3 x y z a) else if is "U" then Some [PU x y z a] else None
  | [], [a; b] => if is "cx" then Some (q_cx a b) else if is "CX" then Some [PCX a b] else if is "cz" then Some (q_cz a b)
                  else if is "cy" then Some (q_cy a b) else if is "ch" then Some (q_ch a b) else if is "swap" then Some (q_swap a b) else None
  | [x], [a; b] => if is "crz" then Some (q_crz x a b) else if is "cu1" then Some (q_cu1 x a b) else if is "rzz" then Some (q_rzz x a b) else None
  | [x; y; z], [a; b] => if is "cu3" then Some (q_cu3 x y z a b) else None
  | [], [a; b; c] => if is "ccx" then Some (q_ccx a b c) else if is "cswap" then Some (q_cswap a b c) else None
  | _, _ => None
  end.

(** the operators of a list of gate statements; None if one is not a defined gate *)
Definition stmt_ops (s : stmt) : option (list oper) :=
  match s with SGate name ps qs => option_map (map prim_op) (qelib name ps qs) | _ => None end.
Fixpoint body_ops (l : list stmt) : option (list oper) :=
  match l with
  | [] => Some []
  | s :: r => match stmt_ops s, body_ops r with Some a, Some b => Some (a ++ b)%list | _, _ => None end
  end.
(** qubits exist, are different, and the operation is defined *)
Definition stmt_ok (n : nat) (s : stmt) : Prop :=
  match s with
  | SGate name ps qs => Forall (fun q => (q < n)%nat) qs /\ NoDup qs /\ qelib name ps qs <> None
  | SMeasure q c => (q < n /\ c < n)%nat
  | SReset q => (q < n)%nat
  end.

(** ** The statements of a circuit *)
(** one application of a gate to qubits *)
Inductive app : Type :=
| A1 (k : g1) (q : nat) | A2 (k : g2) (c t : nat) | A3 (k : g3) (a b c : nat) | AMeasure (q : nat) | AReset (q : nat).
Inductive gate_apps (n : nat) : gate -> list app -> Prop :=
| ga_one : forall k tg l, denotes (Z.of_nat n) tg l -> Forall (inside n) l -> gate_apps n (GOne k tg) (map (fun t => A1 k (Z.to_nat t)) l)
| ga_two : forall k tg ps, denotes_pairs (Z.of_nat n) tg ps -> Forall (fun p => inside n (fst p) /\ inside n (snd p)) ps ->
    gate_apps n (GTwo k tg) (map (fun p => A2 k (Z.to_nat (fst p)) (Z.to_nat (snd p))) ps)
| ga_three : forall k a b c, inside n a -> inside n b -> inside n c -> a <> b -> a <> c -> b <> c ->
    gate_apps n (GThree k (TTuple [TInt a; TInt b; TInt c])) [A3 k (Z.to_nat a) (Z.to_nat b) (Z.to_nat c)]
| ga_measure : forall tg l, denotes (Z.of_nat n) tg l -> Forall (inside n) l -> gate_apps n (GMeasure tg) (map (fun t => AMeasure (Z.to_nat t)) l)
| ga_reset : forall tg l, denotes (Z.of_nat n) tg l -> Forall (inside n) l -> gate_apps n (GReset tg) (map (fun t => AReset (Z.to_nat t)) l).
Inductive circuit_apps (n : nat) : list gate -> list app -> Prop :=
| ca_nil : circuit_apps n [] []
| ca_cons : forall g gs a l, gate_apps n g a -> circuit_apps n gs l -> circuit_apps n (g :: gs) (a ++ l)%list.

Section Blocks.
Local Open Scope R_scope.
Local Open Scope string_scope.
(** what is written for an application *)
Definition block (a : app) : list stmt :=
  match a with
  | A1 k q =>
      match k with
      | KI => [SGate "id" [] [q]] | KX => [SGate "x" [] [q]] | KY => [SGate "y" [] [q]] | KZ => [SGate "z" [] [q]] | KH => [SGate "h" [] [q]]
      | KT => [SGate "t" [] [q]] | KS => [SGate "s" [] [q]]
      | KTdg => [SGate "u1" [- PI / 4] [q]] | KSdg => [SGate "u1" [- PI / 2] [q]]
      | KRX x => [SGate "rx" [x] [q]] | KRY x => [SGate "ry" [x] [q]] | KRZ x => [SGate "rz" [x] [q]] | KPhase x => [SGate "u1" [x] [q]]
      | KU1 x => [SGate "u1" [x] [q]] | KU2 x y => [SGate "u2" [x; y] [q]] | KU3 x y z => [SGate "u3" [x; y; z] [q]]
      end
  | A2 k c t =>
      match k with
      | KCX => [SGate "cx" [] [c; t]] | KCZ => [SGate "cz" [] [c; t]] | KCY => [SGate "cy" [] [c; t]] | KCH => [SGate "ch" [] [c; t]]
      | KSwap => [SGate "swap" [] [c; t]]
      | KCPhase x => [SGate "cu1" [x] [c; t]] | KCU1 x => [SGate "cu1" [x] [c; t]] | KCU2 x y => [SGate "cu2" [x; y] [c; t]]
      | KCU3 x y z => [SGate "cu3" [x; y; z] [c; t]]
      | KCRX x => [SGate "rx" [x / 2] [t]; SGate "cz" [] [c; t]; SGate "rx" [- x / 2] [t]; SGate "cz" [] [c; t]]
      | KCRY x => [SGate "ry" [x / 2] [t]; SGate "cx" [] [c; t]; SGate "ry" [- x / 2] [t]; SGate "cx" [] [c; t]]
      | KCRZ x => [SGate "rz" [x / 2] [t]; SGate "cx" [] [c; t]; SGate "rz" [- x / 2] [t]; SGate "cx" [] [c; t]]
      | KRZZ x => [SGate "cx" [] [c; t]; SGate "rz" [x] [t]; SGate "cx" [] [c; t]]
      | KRXX x => [SGate "h" [] [c]; SGate "h" [] [t]; SGate "cx" [] [c; t]; SGate "rz" [x] [t]; SGate "cx" [] [c; t]; SGate "h" [] [c]; SGate "h" [] [t]]
      | KRYY x => [SGate "rx" [- PI * (1 / 2)] [c]; SGate "rx" [- PI * (1 / 2)] [t]; SGate "cx" [] [c; t]; SGate "rz" [x] [t]; SGate "cx" [] [c; t];
                   SGate "rx" [PI * (1 / 2)] [c]; SGate "rx" [PI * (1 / 2)] [t]]
      end
  | A3 k a b c =>
      match k with
      | KCCX => [SGate "ccx" [] [a; b; c]]
      | KCSwap => [SGate "cswap" [] [a; b; c]]
      | KCCZ => []                                                 (* not a method of circuits *)
      end
  | AMeasure q => [SMeasure q q]
  | AReset q => [SReset q]
  end.
End Blocks.
(** gates written in one statement *)
Definition named (a : app) : bool :=
  match a with A2 k _ _ => match k with KCRX _ | KCRY _ | KCRZ _ | KRXX _ | KRYY _ | KRZZ _ => false | _ => true end | _ => true end.
Definition app_qubits (a : app) : list nat :=
  match a with A1 _ q | AMeasure q | AReset q => [q] | A2 _ c t => [c; t] | A3 _ a b c => [a; b; c] end.
Definition stmt_qubits (s : stmt) : list nat := match s with SGate _ _ qs => qs | SMeasure q _ => [q] | SReset q => [q] end.
Definition stmt_params (s : stmt) : list R := match s with SGate _ ps _ => ps | _ => [] end.
(** no gate is a cu2 *)
Definition not_cu2 (g : gate) : Prop := match g with GTwo (KCU2 _ _) _ => False | _ => True end.

(** [show] prints the number as a word that is read back as the number *)
Fixpoint all_word (s : string) : bool := match s with "" => true | String c r => word_char c && all_word r end.
Definition legible (show : R -> string) (read : string -> option R) (x : R) : Prop :=
  show x <> "" /\ all_word (show x) = true /\ read (show x) = Some x.
