(** Proofs for the Qiskit sampler: one call, keys that collide, identity terms; a Qiskit that executes programs. *)
From Coq Require Import String Ascii List Arith ZArith Bool Reals Lia Lra.
Import ListNotations.
From Verif Require Import Base Cplx Bits ModelTargets ModelGate ModelNumpy ModelNumba ModelBackend ModelCircuit ModelPauli ModelQasm ModelVqe ModelIbmq SpecTargets SpecQuantum
  SpecCircuit SpecMeasure SpecAPI SpecPauli SpecVqe SpecQasm SpecQasmRun SpecIbmq ProofBackend ProofTargets ProofMeasure ProofReach ProofVqeRun ProofVqeSample ProofQasm ProofQasmOps ProofQasmProps ProofQasmRun
  ProofIbmq ProofIbmqSample.
Local Open Scope nat_scope.

Lemma apps_app : forall n a la b lb, circuit_apps n a la -> circuit_apps n b lb -> circuit_apps n (a ++ b) (la ++ lb).
Proof. intros n a la b lb A B. induction A as [|g gs x l G A IH]; [auto|]. cbn [List.app]. rewrite <- app_assoc. constructor; auto. Qed.
Lemma measure_apps : forall n meas, Forall (fun m => m < n) meas -> circuit_apps n [measure_gate_of meas] (map AMeasure meas).
Proof.
  intros n meas F. pose proof (ca_cons n _ [] _ [] (ga_measure n _ _ (measure_denotes n meas F) (proj2 (Forall_map Z.of_nat (inside n) meas) (Forall_impl _ (fun m (H : m < n) => conj (Zle_0_nat m) (proj1 (Nat2Z.inj_lt m n) H)) F))) (ca_nil n)) as X.
  rewrite app_nil_r in X. assert (E : map (fun t => AMeasure (Z.to_nat t)) (map Z.of_nat meas) = map AMeasure meas).
  { rewrite map_map. apply map_ext. intros m. rewrite Nat2Z.id. auto. }
  rewrite E in X. exact X.
Qed.

Section Sampler.
Variables (Q : qiskit) (show : R -> string) (read : string -> option R) (rng qrng : nat -> R).

Lemma key_picked : forall (key : nat -> world -> string) n gs meas pos ws, Forall unmeasured gs -> Forall (fun m => m < n) meas ->
  shots qrng n (gs ++ [measure_gate_of meas]) pos ws -> (forall w w', w_bits w = w_bits w' -> key n w = key n w' :> string) ->
  forall w w', In w ws -> In w' ws -> picked meas w = picked meas w' -> key n w = key n w'.
Proof.
  intros key n gs meas pos ws U F S0 K w w' I I' E. pose proof (shots_each qrng _ _ _ _ S0) as X. rewrite Forall_forall in X.
  destruct (X w I) as [p Ew]. destruct (X w' I') as [p' Ew']. destruct (measured_bits qrng _ _ _ _ _ U F Ew) as [_ B]. destruct (measured_bits qrng _ _ _ _ _ U F Ew') as [_ B'].
  apply K. apply FunctionalExtensionality.functional_extensionality. intros i. destruct (in_dec Nat.eq_dec i meas) as [J|J].
  - clear - E J. unfold picked in E. induction meas as [|m meas IH]; [contradiction|]. cbn [map] in E. injection E as E1 E2. destruct J as [<- |J]; auto.
  - rewrite B, B'; auto.
Qed.
Lemma sampler_ok : forall seen h c v apps N meas b kw sh pos key, let n := Z.to_nat (v_n v) in
  reachable rng seen h -> circuit_is h c v -> circuit_apps n (v_gates v) apps -> Forall is_method (v_gates v) -> Forall not_cu2 (v_gates v) ->
  Forall unmeasured (v_gates v) -> Forall (legible show read) (flat_map stmt_params (flat_map block apps)) ->
  meas <> [] -> Forall (fun m => m < n) meas -> 0 < N -> sh = Some (Some (Z.of_nat N)) \/ (sh = None /\ Z.of_nat N = 1024%Z) ->
  executes Q read qrng pos key b kw -> key = register_text \/ (key = register_hex /\ Forall (fun m => m <= 100) meas) ->
  exists s d ws h', qiskit_sampler Q show rng (Some b) sh kw = Ok s /\ s h c (map Z.of_nat meas) = (Ok d, h') /\
    shots qrng n (v_gates v ++ [measure_gate_of meas]) pos ws /\ List.length ws = N /\ frequencies d (map (picked meas) ws) /\ mass d = 1%R /\
    reachable rng seen h' /\ h_default h' = h_default h /\ circuit_is h' c (VCirc (v_gates v ++ [measure_gate_of meas]) (v_n v) (v_default v)) /\
    (forall c' v', c' <> c -> circuit_is h c' v' -> circuit_is h' c' v').
Proof.
  intros seen h c v apps N meas b kw sh pos key n Re Ci A M NC U L Ne F PN Sh X K.
  destruct (gate_step rng seen h c v (measure_gate_of meas) Re Ci) as [h1 [E1 [R1 [P1 [D1 [C1 K1]]]]]].
  { cbn. apply Forall_map, Forall_map, Forall_forall. cbn. auto. }
  { cbn. apply Forall_map, Forall_map. eapply Forall_impl; [|exact F]. cbn. intros. lia. }
  destruct (ibmq_step rng seen h1 c _ (NbArgs no_args true) R1 C1) as [h2 [E2 [R2 [P2 [D2 K2]]]]]. cbn [v_gates v_n v_default] in E2.
  assert (Hn : 0 < n) by (destruct meas as [|m meas]; [contradiction|]; inversion F; subst; lia).
  assert (Kb : forall w w', w_bits w = w_bits w' -> key n w = key n w' :> string).
  { intros w w' B. destruct K as [-> |[-> _]]; unfold register_text, register_hex, register_number; rewrite B; auto. }
  assert (A' : circuit_apps n (v_gates v ++ [measure_gate_of meas]) (apps ++ map AMeasure meas)) by (apply apps_app; [auto|apply measure_apps; auto]).
  assert (L' : Forall (legible show read) (flat_map stmt_params (flat_map block (apps ++ map AMeasure meas)))).
  { rewrite !flat_map_app. apply Forall_app. split; auto. clear. induction meas as [|m meas IH]; [constructor|]. exact IH. }
  destruct (executed Q show read qrng n (v_gates v ++ [measure_gate_of meas]) (apps ++ map AMeasure meas) A') with (pos := pos) (key := key) (b := b) (kw := kw) (N := N)
    as [text [cq [j [r [d [ws [T1 [T2 [T3 [T4 [T5 [S0 [Lw T]]]]]]]]]]]]]; auto.
  { apply Forall_app. split; auto. apply Forall_cons; [cbn; tauto|constructor]. }
  { apply Forall_app. split; auto. apply Forall_cons; [exact I|constructor]. }
  assert (Rd : forall w, In w ws -> qk_reduce_bits (key n w) (map Z.of_nat meas) = Ok (picked meas w)).
  { intros w Iw. pose proof (shots_each qrng _ _ _ _ S0) as Y. rewrite Forall_forall in Y. destruct (Y w Iw) as [p Ew]. destruct (measured_bits qrng _ _ _ _ _ U F Ew) as [B _].
    destruct K as [-> |[-> F']]; [apply reduce_text; auto|]. apply reduce_hex; auto. clear - F F'. induction F as [|m l H F IH]; inversion F'; subst; constructor; auto. }
  destruct (reduce_tallies key n meas ws d Rd (key_picked key n _ meas pos ws U F S0 Kb) T) as [d' [Ed T']].
  exists (sampling Q show rng (Some b) sh kw), (map (fun kv : list nat * nat => (fst kv, INR (snd kv) / IZR (Z.of_nat N))%R) d'), ws, h2.
  assert (Ls : List.length (map (picked meas) ws) = N) by (rewrite map_length; auto).
  split; [unfold qiskit_sampler; destruct X as [-> _]; auto|]. split.
  - unfold sampling. assert (Es : match sh with Some s => s | None => Some 1024%Z end = Some (Z.of_nat N)) by (destruct Sh as [-> |[-> <-]]; auto). rewrite Es.
    destruct (map Z.of_nat meas) as [|z zs] eqn:Em; [destruct meas; [contradiction|discriminate]|].
    rewrite <- Em in *. fold (measure_gate_of meas). rewrite E1, E2. unfold ibmq_run. fold n. rewrite T1. unfold runner. destruct X as [-> _].
    cbn [existsb String.eqb Ascii.eqb Bool.eqb negb orb]. rewrite T2. cbn [calls]. rewrite T3. cbn [calls]. rewrite T4. cbn [calls fst]. rewrite T5. cbn [bind]. rewrite Ed. cbn [bind].
    unfold fractions. destruct d' as [|kv d'].
    + exfalso. assert (Y : List.length (map (picked meas) ws) = 0) by (rewrite <- (tallies_total _ _ _ _ T'); auto). lia.
    + destruct (Z.eqb_spec (Z.of_nat N) 0); [lia|]. auto.
  - split; auto. split; auto. split; [apply frequencies_of; auto|]. split.
    + rewrite mass_div, (tallies_total _ _ _ _ T'), Ls, <- INR_IZR_INZ. field. apply not_0_INR. lia.
    + split; auto. split; [congruence|]. split; [apply K2; auto|]. intros c' v' N' H. apply K2. apply K1; auto.
Qed.

(** identity terms are lost: with this sampler the energy of a number is 0 *)
Lemma no_qubits : forall b sh kw s h c, qiskit_sampler Q show rng b sh kw = Ok s -> s h c [] = (Ok [], h).
Proof. intros b sh kw s h c. unfold qiskit_sampler. destruct (qk_import Q); intros E; [discriminate|]. injection E as <-. reflexivity. Qed.
Lemma identity_energy : forall b sh kw s seen h c v x, qiskit_sampler Q show rng b sh kw = Ok s -> reachable rng seen h -> circuit_is h c v ->
  exists h', get_energy rng h [Term [] x] c s = (Ok 0%R, h').
Proof.
  intros b sh kw s seen h c v x E Re Ci. unfold get_energy. cbn [energy_terms t_ops]. destruct (step rng h (OCopy c true true)) as [r h1] eqn:Es.
  destruct (reach_sim rng _ _ Re) as [w [S0 _]]. apply (shows_sim rng _ _ _ _ S0) in Ci. destruct (step_sim2 rng _ _ _ _ _ S0 Es I) as [w' [V _]].
  assert (K : exists d, r = Ok (OutCirc d)).
  { inversion V; subst; eauto. match goal with Y : In _ _ |- _ => cbn in Y; destruct Y as [<-|[]]; congruence end. }
  destruct K as [d ->]. cbn [basis_change flat_map add_gates map]. rewrite (no_qubits b sh kw s h1 d E). cbn. eexists. reflexivity.
Qed.
(** construction *)
Lemma sampler_import : forall b sh kw e, qk_import Q = Some e -> qiskit_sampler Q show rng b sh kw = Err e.
Proof. intros b sh kw e E. unfold qiskit_sampler. rewrite E. auto. Qed.
End Sampler.

(** ** Keys *)
Lemma collide : exists d d', tallies string_dec d ["00"; "01"]%string /\ qk_reduce d [1%Z] = Ok d' /\ list_sum (map snd d) = 2 /\ list_sum (map snd d') = 1.
Proof.
  exists [("00", 1); ("01", 1)]%string, [([0], 1)]. split; [|split; [reflexivity|split; reflexivity]]. split.
  - cbn. apply NoDup_cons; [intros [E|[]]; discriminate|]. apply NoDup_cons; [intros []|constructor].
  - intros k c. split.
    + intros [E|[E|[]]]; injection E as <- <-; cbn; auto.
    + intros [[<- |[<- |[]]] ->]; cbn; auto.
Qed.
(** a register of 102 bits that are all 0, hexadecimal: its bit 101 is not found *)
Lemma hex_short : forall w, (forall i, w_bits w i = 0) -> qk_reduce_bits (register_hex 102 w) [101%Z] = Err IndexError.
Proof.
  intros w B. assert (E : register_number 102 w = 0).
  { unfold register_number. rewrite (map_ext _ (fun _ => 0)) by (intros; rewrite B; auto). reflexivity. }
  unfold register_hex. rewrite E. vm_compute. reflexivity.
Qed.

(** ** A Qiskit that executes programs *)
Section Simulator.
Variables (read : string -> option R) (rng : nat -> R) (pos : nat) (key : nat -> world -> string).
Definition sim_stmt (n : nat) (s : stmt) (w : world) : option world :=
  match s with
  | SGate name ps qs => match qelib name ps qs with Some P => Some (World (apply_all (map prim_op P) (w_psi w)) (w_bits w) (w_pos w)) | None => None end
  | SMeasure q c => Some (qmeasure rng n q c w)
  | SReset q => Some (reset1 rng n q w)
  end.
Fixpoint sim_body (n : nat) (l : list stmt) (w : world) : option world :=
  match l with [] => Some w | s :: r => match sim_stmt n s w with Some w => sim_body n r w | None => None end end.
Fixpoint sim_shots (p : prog) (N pos : nat) : option (list world) :=
  match N with
  | O => Some []
  | S k => match sim_body (p_qreg p) (p_body p) (start pos) with
           | Some w => match sim_shots p k (w_pos w) with Some ws => Some (w :: ws) | None => None end
           | None => None
           end
  end.
Definition tally (l : list string) : list (string * nat) := map (fun k => (k, count_occ string_dec l k)) (nodup string_dec l).
Definition simulator : qiskit := {|
  qk_circ := prog; qk_back := unit; qk_job := list string; qk_res := list string; qk_pic := unit; qk_kw := unit;
  qk_import := None;
  qk_parse := fun text => match read_program read text with Some p => Ok p | None => Err ValueError end;
  qk_draw := fun _ _ => Ok tt;
  qk_aer := fun _ => Ok tt;
  qk_execute := fun p _ N _ => match sim_shots p (Z.to_nat N) pos with Some ws => Ok (map (key (p_creg p)) ws) | None => Err ValueError end;
  qk_result := fun j => Ok j;
  qk_counts := fun r => Ok (tally r) |}.
Lemma sim_stmt_ok : forall n s w, stmt_ok n s -> exists w', sim_stmt n s w = Some w' /\ stmt_exec rng n s w w'.
Proof.
  intros n [name ps qs|q c|q] w Ok0; cbn in Ok0; cbn [sim_stmt].
  - destruct Ok0 as [_ [_ N]]. destruct (qelib name ps qs) as [P|] eqn:E; [|contradiction]. eexists. split; [reflexivity|constructor; auto].
  - eexists. split; [reflexivity|constructor].
  - eexists. split; [reflexivity|constructor].
Qed.
Lemma sim_body_ok : forall n l w, Forall (stmt_ok n) l -> exists w', sim_body n l w = Some w' /\ body_exec rng n l w w'.
Proof.
  intros n l w F. revert w. induction F as [|s l Hs F IH]; intros w; [exists w; split; [auto|constructor]|].
  destruct (sim_stmt_ok n s w Hs) as [w1 [E1 X1]]. destruct (IH w1) as [w2 [E2 X2]]. exists w2. cbn [sim_body]. rewrite E1. split; auto. econstructor; eauto.
Qed.
Lemma sim_shots_ok : forall p N pos, Forall (stmt_ok (p_qreg p)) (p_body p) -> exists ws, sim_shots p N pos = Some ws /\ prog_shots rng p pos ws /\ List.length ws = N.
Proof.
  intros p N. induction N as [|N IH]; intros pos0 F; [exists []; repeat split; constructor|].
  destruct (sim_body_ok _ _ (start pos0) F) as [w [E X]]. destruct (IH (w_pos w) F) as [ws [E2 [X2 L2]]]. exists (w :: ws). cbn [sim_shots]. rewrite E, E2.
  repeat split; [constructor; auto|cbn; auto].
Qed.
Lemma tally_ok : forall l, tallies string_dec (tally l) l.
Proof.
  intros l. unfold tally. split.
  - rewrite map_map. cbn [fst]. rewrite map_id. apply NoDup_nodup.
  - intros k c. split.
    + intros I. apply in_map_iff in I. destruct I as [k' [E I]]. injection E as <- <-. apply nodup_In in I. auto.
    + intros [I ->]. apply in_map_iff. exists k. split; auto. apply nodup_In. auto.
Qed.
Lemma simulator_executes : executes simulator read rng pos key tt tt.
Proof.
  split; [reflexivity|]. intros text p N R Hn Hc F. destruct (sim_shots_ok p N pos F) as [ws [E [X Lw]]].
  exists p, (map (key (p_creg p)) ws), (map (key (p_creg p)) ws), (tally (map (key (p_creg p)) ws)), ws. cbn. rewrite R, Nat2Z.id, E.
  repeat (split; [auto; fail|]). apply tally_ok.
Qed.
End Simulator.
