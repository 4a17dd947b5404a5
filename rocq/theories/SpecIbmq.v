(** Specification for the backend ibmq and the Qiskit sampler: texts of classical registers, tallies of shots, and what a Qiskit that executes programs does. *)
From Coq Require Import String Ascii List Arith ZArith Bool Reals HexadecimalString.
Import ListNotations.
From Verif Require Import Base Cplx ModelTargets ModelGate ModelNumpy ModelIbmq SpecQuantum SpecMeasure SpecQasm SpecQasmRun.
Local Open Scope nat_scope.

Definition bit_char (v : nat) : ascii := if v =? 0 then "0"%char else "1"%char.
(** the outcomes of qubits 0, 1, ... from left to right *)
Definition shot_text (n : nat) (w : world) : string := string_of_list_ascii (map (fun i => bit_char (w_bits w i)) (seq 0 n)).
(** the classical register as Qiskit prints it: c[n-1] ... c[0] *)
Definition register_text (n : nat) (w : world) : string := string_of_list_ascii (map (fun i => bit_char (w_bits w (n - 1 - i))) (seq 0 n)).
(** the classical register as a number, c[i] being the digit of weight 2^i, and as hexadecimal text *)
Definition register_number (n : nat) (w : world) : nat := list_sum (map (fun i => if w_bits w i =? 0 then 0 else 2 ^ i) (seq 0 n)).
Definition register_hex (n : nat) (w : world) : string := "0x" ++ NilZero.string_of_uint (Nat.to_hex_uint (register_number n w)).

(** [d] lists every member of [l] once, with its number *)
Definition tallies {K} (dec : forall a b : K, {a = b} + {a <> b}) (d : list (K * nat)) (l : list K) : Prop :=
  NoDup (map fst d) /\ forall k c, In (k, c) d <-> In k l /\ c = count_occ dec l k.

(** Qiskit executes the programs it can read, with the random numbers [rng] from [pos] on; [key n w] is the text for a register of n bits *)
Definition executes (Q : qiskit) (read : string -> option R) (rng : nat -> R) (pos : nat) (key : nat -> world -> string) (b : qk_back Q) (kw : qk_kw Q) : Prop :=
  qk_import Q = None /\
  forall text p N, read_program read text = Some p -> 0 < p_qreg p -> p_creg p = p_qreg p -> Forall (stmt_ok (p_qreg p)) (p_body p) ->
    exists c j r d us, qk_parse Q text = Ok c /\ qk_execute Q c b (Z.of_nat N) kw = Ok j /\ qk_result Q j = Ok r /\ qk_counts Q r = Ok d /\
      prog_shots rng p pos us /\ List.length us = N /\ tallies string_dec d (map (key (p_creg p)) us).

(** the outcomes of the qubits [meas] *)
Definition picked (meas : list nat) (w : world) : list nat := map (w_bits w) meas.
(** the relative frequencies of the members of [l] *)
Definition frequencies (d : list (list nat * R)) (l : list (list nat)) : Prop :=
  NoDup (map fst d) /\ forall k x, In (k, x) d <-> In k l /\ x = (INR (count_occ (list_eq_dec Nat.eq_dec) l k) / INR (List.length l))%R.
(** no measurement among the gates *)
Definition unmeasured (g : gate) : Prop := match g with GMeasure _ => False | _ => True end.

(** every text is read backwards; Qiskit's texts are different from each other *)
Definition backwards (d d' : list (string * nat)) : Prop :=
  NoDup (map fst d) -> map snd d' = map snd d /\ map (fun kv => list_ascii_of_string (fst kv)) d' = map (fun kv => rev (list_ascii_of_string (fst kv))) d.

(** ** Sessions with Qiskit *)
Section Session.
Variables (Q : qiskit) (text : string) (backend : option (qk_back Q)) (shots : option Z) (kw : qk_kw Q).
(** the device: the one given, otherwise Aer's qasm_simulator; and the call that asks for it *)
Definition device (b : qk_back Q) (cs : list (call Q)) : Prop :=
  (backend = Some b /\ cs = []) \/ (backend = None /\ qk_aer Q "qasm_simulator" = Ok b /\ cs = [CAer Q "qasm_simulator"]).
Definition shots_or_default : Z := match shots with Some s => s | None => 1024 end.
(** [executed c j cs]: the circuit is parsed and executed on the device *)
Definition job_started (c : qk_circ Q) (j : qk_job Q) (cs : list (call Q)) : Prop :=
  exists b ask, qk_parse Q text = Ok c /\ device b ask /\ qk_execute Q c b shots_or_default kw = Ok j /\
    cs = CParse Q text :: ask ++ [CExecute Q c b shots_or_default kw].
(** what each value of [returns] gives, and the calls that are made for it *)
Inductive session : string -> qk_out Q -> list (call Q) -> Prop :=
| s_nothing : session "_exception" (QNone Q) []
| s_circuit : forall c, qk_parse Q text = Ok c -> session "qiskit_circuit" (QCircuit Q c) [CParse Q text]
| s_draw : forall c p, qk_parse Q text = Ok c -> qk_draw Q c kw = Ok p -> session "draw" (QDrawing Q p) [CParse Q text; CDraw Q c kw]
| s_job : forall c j cs, job_started c j cs -> session "qiskit_job" (QJob Q j) cs
| s_result : forall c j cs r, job_started c j cs -> qk_result Q j = Ok r -> session "qiskit_result" (QResult Q r) (cs ++ [CResult Q j])
| s_shots : forall c j cs r d d', job_started c j cs -> qk_result Q j = Ok r -> qk_counts Q r = Ok d -> backwards d d' ->
    session "shots" (QCounts Q d') (cs ++ [CResult Q j; CCounts Q r]).
(** the call raises the exception *)
Definition raised (e : exn) (ev : call Q) : Prop :=
  match ev with
  | CParse _ s => qk_parse Q s = Err e
  | CDraw _ c k => qk_draw Q c k = Err e
  | CAer _ s => qk_aer Q s = Err e
  | CExecute _ c b s k => qk_execute Q c b s k = Err e
  | CResult _ j => qk_result Q j = Err e
  | CCounts _ r => qk_counts Q r = Err e
  end.
(** the default is "shots" *)
Definition named_returns (o : option string) : string := match o with Some s => s | None => "shots"%string end.
Definition returns_known (s : string) : Prop := In s ["shots"; "draw"; "_exception"; "qiskit_circuit"; "qiskit_job"; "qiskit_result"]%string.
End Session.
(** [c] is the decimal numeral of [v]; the hexadecimal numeral, in lower or upper case *)
Definition numeral (c : ascii) (v : nat) : Prop := String.get v "0123456789" = Some c.
Definition hex_numeral (c : ascii) (v : nat) : Prop := String.get v "0123456789abcdef" = Some c \/ String.get v "0123456789ABCDEF" = Some c.
(** the number written by hexadecimal numerals, the first being the highest *)
Definition hex_value (vs : list nat) : nat := fold_left (fun a v => 16 * a + v) vs 0.
