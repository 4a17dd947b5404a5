(** Model of blueqat/backends/ibmq_backend.py, blueqat/backends/qasm_parser_backend_generator.py and of get_qiskit_sampler in blueqat/vqe.py.
    Qiskit is a record of arbitrary functions; the theorems hold for every such record, so a function stands for the answers of one run of the program.
    The calls into Qiskit are listed in order.
    Simplifications: warnings and texts of exceptions are left out; a ModuleNotFoundError is an ImportError; int(text, base=16) takes hexadecimal digits only
    (no blanks, no underscores), int(character) takes the digits 0 to 9 of ASCII only. *)
From Coq Require Import String Ascii List Arith ZArith Bool Reals.
Import ListNotations.
From Verif Require Import Base Cplx ModelTargets ModelGate ModelNumpy ModelNumba ModelCircuit ModelPauli ModelQasm ModelVqe.
Local Open Scope string_scope.

(** What is used of Qiskit.  [qk_import] is the exception that importing it raises. *)
Record qiskit : Type := Qiskit {
  qk_circ : Type; qk_back : Type; qk_job : Type; qk_res : Type; qk_pic : Type; qk_kw : Type;
  qk_import : option exn;
  qk_parse : string -> res qk_circ;                                  (* QuantumCircuit.from_qasm_str(qasm) *)
  qk_draw : qk_circ -> qk_kw -> res qk_pic;                          (* circuit.draw( **kwargs) *)
  qk_aer : string -> res qk_back;                                    (* Aer.get_backend(name) *)
  qk_execute : qk_circ -> qk_back -> Z -> qk_kw -> res qk_job;       (* execute(circuit, backend=, shots=, **kwargs) *)
  qk_result : qk_job -> res qk_res;                                  (* job.result() *)
  qk_counts : qk_res -> res (list (string * nat)) }.                 (* result.get_counts() *)

Section Qiskit.
Variable Q : qiskit.

Inductive call : Type :=
| CParse (qasm : string)
| CDraw (c : qk_circ Q) (kw : qk_kw Q)
| CAer (name : string)
| CExecute (c : qk_circ Q) (b : qk_back Q) (shots : Z) (kw : qk_kw Q)
| CResult (j : qk_job Q)
| CCounts (r : qk_res Q).

(** What a run returns *)
Inductive qk_out : Type :=
| QNone | QCircuit (c : qk_circ Q) | QDrawing (p : qk_pic Q) | QJob (j : qk_job Q) | QResult (r : qk_res Q) | QCounts (d : list (string * nat)).

(** make a call, then go on *)
Definition calls {A} (ev : call) (r : res A) (k : A -> res qk_out * list call) : res qk_out * list call :=
  match r with
  | Ok a => let (x, l) := k a in (x, ev :: l)
  | Err e => (Err e, [ev])
  end.

(** [bits[::-1]] *)
Definition rev_string (s : string) : string := string_of_list_ascii (rev (list_ascii_of_string s)).
(** line 83 *)
Definition rev_counts (d : list (string * nat)) : list (string * nat) :=
  fold_left (fun acc kv => dset String.eqb acc (rev_string (fst kv)) (snd kv)) d [].

(** _qasm_runner_qiskit (ibmq_backend.py:43-84).  In line 60 the name [e] is no longer bound: Python deletes it at the end of the except clause. *)
Definition runner (qasm : string) (backend : option (qk_back Q)) (shots : option Z) (returns : option string) (kw : qk_kw Q) : res qk_out * list call :=
  let returns := match returns with None => "shots" | Some s => s end in
  if negb (existsb (String.eqb returns) ["shots"; "draw"; "_exception"; "qiskit_circuit"; "qiskit_job"; "qiskit_result"]) then (Err ValueError, [])
  else match qk_import Q with
  | Some import_error =>
      if String.eqb returns "_exception" then (Err UnboundLocalError, [])
      else if exn_eqb import_error ImportError then (Err ImportError, [])
      else (Err ValueError, [])
  | None =>
      if String.eqb returns "_exception" then (Ok QNone, [])
      else calls (CParse qasm) (qk_parse Q qasm) (fun qk_circuit =>
        if String.eqb returns "qiskit_circuit" then (Ok (QCircuit qk_circuit), [])
        else if String.eqb returns "draw" then calls (CDraw qk_circuit kw) (qk_draw Q qk_circuit kw) (fun p => (Ok (QDrawing p), []))
        else
          let shots := match shots with None => 1024%Z | Some s => s end in
          let execute b :=
            calls (CExecute qk_circuit b shots kw) (qk_execute Q qk_circuit b shots kw) (fun job =>
              if String.eqb returns "qiskit_job" then (Ok (QJob job), [])
              else calls (CResult job) (qk_result Q job) (fun result =>
                if String.eqb returns "qiskit_result" then (Ok (QResult result), [])
                else calls (CCounts result) (qk_counts Q result) (fun counts => (Ok (QCounts (rev_counts counts)), [])))) in
          match backend with
          | None => calls (CAer "qasm_simulator") (qk_aer Q "qasm_simulator") execute
          | Some b => execute b
          end)
  end.

Section Show.
Variable show : R -> string.

(** QasmParsableBackend.run (qasm_parser_backend_generator.py:31-33) with that runner; [to_qasm.run] writes the header *)
Definition ibmq_run (gates : list gate) (n : nat) (backend : option (qk_back Q)) (shots : option Z) (returns : option string) (kw : qk_kw Q) :
  res qk_out * list call :=
  match qasm_run show gates n true with
  | Ok qasm => runner qasm backend shots returns kw
  | Err e => (Err e, [])
  end.

(** ** get_qiskit_sampler (vqe.py:268-318) *)
(** [int(x)] of a character *)
Definition digit (c : ascii) : res nat :=
  let k := nat_of_ascii c in if (48 <=? k)%nat && (k <=? 57)%nat then Ok (k - 48)%nat else Err ValueError.
(** a digit of [int(text, base=16)]; simplification: the separators "_" between digits and the blanks around them that Python accepts are errors here *)
Definition hex_digit (c : ascii) : res nat :=
  let k := nat_of_ascii c in
  if (48 <=? k)%nat && (k <=? 57)%nat then Ok (k - 48)%nat
  else if (97 <=? k)%nat && (k <=? 102)%nat then Ok (k - 87)%nat
  else if (65 <=? k)%nat && (k <=? 70)%nat then Ok (k - 55)%nat
  else Err ValueError.
Fixpoint hex_int (acc : nat) (s : string) : res nat :=
  match s with
  | "" => Ok acc
  | String c r => let* d := hex_digit c in hex_int (16 * acc + d) r
  end.
(** [format(k, "b")], lowest digit first *)
Fixpoint bin_digits (fuel k : nat) : list nat :=
  match fuel with
  | O => []
  | S f => if (k <? 2)%nat then [k] else (k mod 2)%nat :: bin_digits f (k / 2)
  end.
(** reduce_bits (283-307): the digits in the order of [bits[::-1]], then the entries for [meas] *)
Definition key_digits (bits : string) : res (list nat) :=
  if prefix "0x" bits then
    let text := substring 2 (String.length bits - 2) bits in
    if String.eqb text "" then Err ValueError
    else let* k := hex_int 0 text in Ok (bin_digits (S k) k ++ repeat 0%nat 100)%list
  else map_res digit (rev (list_ascii_of_string bits)).
Definition qk_reduce_bits (bits : string) (meas : list Z) : res (list nat) := let* l := key_digits bits in map_res (py_get l) meas.
(** line 315 *)
Definition qk_reduce (d : list (string * nat)) (meas : list Z) : res (list (list nat * nat)) :=
  for_list d (fun kv acc => let* k := qk_reduce_bits (fst kv) meas in Ok (dset key_eqb acc k (snd kv))) [].
(** line 316; [shots] is None if the caller gave shots=None *)
Definition fractions (counts : list (list nat * nat)) (shots : option Z) : res dist :=
  match counts, shots with
  | [], _ => Ok []
  | _, None => Err TypeError
  | _, Some s => if (s =? 0)%Z then Err ZeroDivisionError else Ok (map (fun kv : list nat * nat => (fst kv, INR (snd kv) / IZR s)%R) counts)
  end.

Variable rng : nat -> R.
(** [shots]: None if execute_kwargs has no entry 'shots' (lines 277-280), otherwise the entry *)
Definition sampling (backend : option (qk_back Q)) (shots : option (option Z)) (kw : qk_kw Q) : sampler := fun h c meas =>
  let shots := match shots with None => Some 1024%Z | Some s => s end in
  match meas with
  | [] => (Ok [], h)
  | _ =>
      match step rng h (OGate c (GMeasure (TTuple (map TInt meas)))) with
      | (Err e, h) => (Err e, h)
      | (Ok _, h) =>
          match step rng h (ORunWith c "ibmq" (NbArgs no_args true)) with
          | (Ok (OutOther _ gates n), h) =>
              match fst (ibmq_run gates (Z.to_nat n) backend shots (Some "qiskit_result") kw) with
              | Ok (QResult r) => (let* d := qk_counts Q r in let* counts := qk_reduce d meas in fractions counts shots, h)
              | Ok _ => (Err Undefined, h)
              | Err e => (Err e, h)
              end
          | (Ok _, h) => (Err Undefined, h)
          | (Err e, h) => (Err e, h)
          end
      end
  end.
(** lines 273-276; exceptions of other classes pass *)
Definition qiskit_sampler (backend : option (qk_back Q)) (shots : option (option Z)) (kw : qk_kw Q) : res sampler :=
  match qk_import Q with
  | Some e => Err e
  | None => Ok (sampling backend shots kw)
  end.
End Show.
End Qiskit.
