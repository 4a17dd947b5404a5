(** Model of blueqat/backends/qasm_output_backend.py.
    Simplifications: [show] stands for [str] of the angles; a target of a three qubit gate that is neither an integer nor a slice is printed as "?". *)
From Coq Require Import String Ascii List Arith ZArith Bool Reals Decimal DecimalString.
Import ListNotations.
From Verif Require Import Base Cplx ModelTargets ModelGate ModelNumpy ModelBackend.
Local Open Scope string_scope.

(** [str(i)] of an integer *)
Definition dec (z : Z) : string := NilZero.string_of_int (Z.to_int z).
Definition newline : string := String (ascii_of_nat 10) "".

(** [str] of one of the targets of a three qubit gate (119-122) *)
Definition dec_opt (o : option Z) : string := match o with None => "None" | Some z => dec z end.
Definition str_target (t : target) : string :=
  match t with
  | TInt z => dec z
  | TSlice a b c => "slice(" ++ dec_opt a ++ ", " ++ dec_opt b ++ ", " ++ dec_opt c ++ ")"
  | _ => "?"
  end.

Section Show.
Variable show : R -> string.

(** the statements; [idx] comes from [gate.target_iter], [c], [t] from [gate.control_target_iter] *)
Definition line_noargs (name : string) (idx : Z) : string := name ++ " q[" ++ dec idx ++ "];".                              (* 44 *)
Definition line_two (name : string) (c t : Z) : string := name ++ " q[" ++ dec c ++ "],q[" ++ dec t ++ "];".                (* 56 *)
Definition line_theta (name : string) (th : R) (idx : Z) : string := name ++ "(" ++ show th ++ ") q[" ++ dec idx ++ "];".   (* 67, 81 *)
Definition line_u2 (name : string) (p l : R) (idx : Z) : string :=                                                          (* 86 *)
  name ++ "(" ++ show p ++ "," ++ show l ++ ") q[" ++ dec idx ++ "];".
Definition line_u3 (name : string) (th p l : R) (idx : Z) : string :=                                                       (* 91 *)
  name ++ "(" ++ show th ++ "," ++ show p ++ "," ++ show l ++ ") q[" ++ dec idx ++ "];".
Definition line_phase (th : R) (idx : Z) : string := "u1(" ++ show th ++ ") q[" ++ dec idx ++ "]; // Global phase is ignored.".  (* 96 *)
Definition line_cu1 (name : string) (l : R) (c t : Z) : string := name ++ "(" ++ show l ++ ") q[" ++ dec c ++ "],q[" ++ dec t ++ "];".  (* 101, 116 *)
Definition line_cu2 (name : string) (p l : R) (c t : Z) : string :=                                                         (* 106 *)
  name ++ "(" ++ show p ++ "," ++ show l ++ ") q[" ++ dec c ++ "],q[" ++ dec t ++ "];".
Definition line_cu3 (name : string) (th p l : R) (c t : Z) : string :=                                                      (* 111 *)
  name ++ "(" ++ show th ++ "," ++ show p ++ "," ++ show l ++ ") q[" ++ dec c ++ "],q[" ++ dec t ++ "];".
Definition line_three (name : string) (a b c : target) : string :=                                                          (* 121 *)
  name ++ " q[" ++ str_target a ++ "],q[" ++ str_target b ++ "],q[" ++ str_target c ++ "];".
Definition line_measure (idx : Z) : string := "measure q[" ++ dec idx ++ "] -> c[" ++ dec idx ++ "];".                      (* 129 *)

Definition each_target (tg : target) (n : Z) (line : Z -> string) (ctx : list string) : res (list string) :=
  let* ts := gen_list (slicing tg n) in Ok (ctx ++ map line ts)%list.
Definition each_pair (tg : target) (n : Z) (line : Z -> Z -> string) (ctx : list string) : res (list string) :=
  let* ps := qubit_pairs tg n in Ok (ctx ++ map (fun p => line (fst p) (snd p)) ps)%list.

(** the methods [gate_*] (42-132); for kinds without a method the value does not matter *)
Definition qasm_action (n : Z) (g : gate) (ctx : list string) : res (list string) :=
  match g with
  | GOne k tg =>
      match k with
      | KX | KY | KZ | KH | KT | KS => each_target tg n (line_noargs (lowername g)) ctx                  (* 42-52 *)
      | KRX th | KRY th | KRZ th => each_target tg n (line_theta (lowername g) th) ctx                   (* 65-72 *)
      | KI => each_target tg n (line_noargs "id") ctx                                                    (* 74-77 *)
      | KU1 l => each_target tg n (line_theta (lowername g) l) ctx                                       (* 79-82 *)
      | KU2 p l => each_target tg n (line_u2 (lowername g) p l) ctx                                      (* 84-87 *)
      | KU3 th p l => each_target tg n (line_u3 (lowername g) th p l) ctx                                (* 89-92 *)
      | KPhase th => each_target tg n (line_phase th) ctx                                                (* 94-97 *)
      | KTdg | KSdg => Err AttributeError
      end
  | GTwo k tg =>
      match k with
      | KCZ | KCX | KCY | KCH | KSwap => each_pair tg n (line_two (lowername g)) ctx                     (* 54-63 *)
      | KCU1 l => each_pair tg n (line_cu1 (lowername g) l) ctx                                          (* 99-102 *)
      | KCU2 p l => each_pair tg n (line_cu2 (lowername g) p l) ctx                                      (* 104-107 *)
      | KCU3 th p l => each_pair tg n (line_cu3 (lowername g) th p l) ctx                                (* 109-112 *)
      | KCPhase th => each_pair tg n (line_cu1 "cu1" th) ctx                                             (* 114-117 *)
      | _ => Err AttributeError
      end
  | GThree k tg => let* (c0, c1, t) := unpack3 tg in Ok (ctx ++ [line_three (lowername g) c0 c1 t])%list (* 119-125 *)
  | GMeasure tg => each_target tg n line_measure ctx                                                     (* 127-130 *)
  | GReset tg => each_target tg n (line_noargs (lowername g)) ctx                                        (* 132 *)
  end.

(** lines 23-37 *)
Definition qasm_prologue (n : Z) (output_prologue : bool) : list string :=
  if output_prologue
  then ["OPENQASM 2.0;"; "include ""qelib1.inc"";"; "qreg q[" ++ dec n ++ "];"; "creg c[" ++ dec n ++ "];"]
  else [].
(** [run] (backendbase.py:55-73) and lines 39-40; Circuit.to_qasm (circuit.py:230-232) runs this backend *)
Definition qasm_run (gates : list gate) (n : nat) (output_prologue : bool) : res string :=
  let* lines := run_gates qasm_names (qasm_action (Z.of_nat n)) recursion_limit gates (Z.of_nat n) (qasm_prologue (Z.of_nat n) output_prologue) in
  Ok (String.concat newline lines).
End Show.
