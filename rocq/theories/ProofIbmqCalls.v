(** Proofs for the backend ibmq: which calls are made, which exceptions are raised. *)
From Coq Require Import String Ascii List Arith ZArith Bool Reals Lia.
Import ListNotations.
From Verif Require Import Base Cplx ModelTargets ModelGate ModelNumpy ModelQasm ModelIbmq SpecIbmq ProofIbmq.
Local Open Scope string_scope.

Section Calls.
Variables (Q : qiskit) (text : string) (backend : option (qk_back Q)) (shots : option Z) (kw : qk_kw Q).
Notation run r := (runner Q text backend shots r kw).
Notation session := (session Q text backend shots kw).

Lemma known_test : forall s, existsb (String.eqb s) ["shots"; "draw"; "_exception"; "qiskit_circuit"; "qiskit_job"; "qiskit_result"] = true <-> returns_known s.
Proof.
  intros s. unfold returns_known. rewrite existsb_exists. split.
  - intros [x [I E]]. apply String.eqb_eq in E. subst. auto.
  - intros I. exists s. split; auto. apply String.eqb_refl.
Qed.
Lemma run_unknown : forall r, ~ returns_known (named_returns r) -> run r = (Err ValueError, []).
Proof.
  intros r N. unfold runner. fold (named_returns r). destruct (existsb (String.eqb (named_returns r)) _) eqn:E; [|auto]. apply known_test in E. contradiction.
Qed.
Lemma run_known : forall r, returns_known (named_returns r) ->
  existsb (String.eqb (named_returns r)) ["shots"; "draw"; "_exception"; "qiskit_circuit"; "qiskit_job"; "qiskit_result"] = true.
Proof. intros r. apply known_test. Qed.
Lemma run_no_import : forall r e, returns_known (named_returns r) -> qk_import Q = Some e ->
  run r = (Err (if String.eqb (named_returns r) "_exception" then UnboundLocalError else if exn_eqb e ImportError then ImportError else ValueError), []).
Proof.
  intros r e K I. unfold runner. fold (named_returns r). rewrite (run_known r K), I. cbn [negb].
  destruct (String.eqb (named_returns r) "_exception"); [auto|]. destruct (exn_eqb e ImportError); auto.
Qed.
(** all branches of a run with Qiskit *)
Lemma job_case : forall c cs P (k : qk_job Q -> res (qk_out Q) * list (call Q)),
  qk_parse Q text = Ok c ->
  (forall b ask j, qk_parse Q text = Ok c -> device Q backend b ask -> qk_execute Q c b (shots_or_default shots) kw = Ok j -> forall x l, k j = (x, l) ->
     P x (CParse Q text :: ask ++ CExecute Q c b (shots_or_default shots) kw :: l)) ->
  (forall b ask e, device Q backend b ask -> qk_execute Q c b (shots_or_default shots) kw = Err e -> P (Err e) (CParse Q text :: ask ++ [CExecute Q c b (shots_or_default shots) kw])) ->
  (forall e, qk_aer Q "qasm_simulator" = Err e -> P (Err e) [CParse Q text; CAer Q "qasm_simulator"]) ->
  (let execute b := calls Q (CExecute Q c b (shots_or_default shots) kw) (qk_execute Q c b (shots_or_default shots) kw) k in
   match backend with None => calls Q (CAer Q "qasm_simulator") (qk_aer Q "qasm_simulator") execute | Some b => execute b end) = cs ->
  P (fst cs) (CParse Q text :: snd cs).
Proof.
  intros c cs P k E H1 H2 H3 <-. cbv zeta. destruct backend as [b|] eqn:B.
  - destruct (qk_execute Q c b (shots_or_default shots) kw) as [j|e] eqn:Ex; cbn [calls].
    + destruct (k j) as [x l] eqn:Ek. cbn [fst snd]. apply (H1 b [] j E); auto. left. auto.
    + cbn [fst snd]. apply (H2 b [] e); auto. left. auto.
  - destruct (qk_aer Q "qasm_simulator") as [b|e] eqn:Ea; cbn [calls]; [|cbn [fst snd]; apply H3; auto].
    destruct (qk_execute Q c b (shots_or_default shots) kw) as [j|e] eqn:Ex; cbn [calls].
    + destruct (k j) as [x l] eqn:Ek. cbn [fst snd]. apply (H1 b [CAer Q "qasm_simulator"] j E); auto. right. auto.
    + cbn [fst snd]. apply (H2 b [CAer Q "qasm_simulator"] e); auto. right. auto.
Qed.
(** what a run gives *)
Definition outcome_of (s : string) (x : res (qk_out Q)) (cs : list (call Q)) : Prop :=
  match x with Ok o => session s o cs | Err e => exists ev l, cs = (l ++ [ev])%list /\ raised Q e ev end.
Lemma run_session : forall r, returns_known (named_returns r) -> qk_import Q = None -> outcome_of (named_returns r) (fst (run r)) (snd (run r)).
Proof.
  intros r K I. unfold runner. fold (named_returns r). rewrite (run_known r K), I. cbn [negb]. revert K. generalize (named_returns r) as s. clear I r. intros s K.
  destruct (String.eqb_spec s "_exception") as [-> |N1]; [cbn; constructor|].
  destruct (qk_parse Q text) as [c|e] eqn:E; cbn [calls]; [|exists (CParse Q text), []; split; auto].
  destruct (String.eqb_spec s "qiskit_circuit") as [-> |N2]; [cbn; constructor; auto|].
  destruct (String.eqb_spec s "draw") as [-> |N3].
  { destruct (qk_draw Q c kw) as [p|e] eqn:D; cbn; [econstructor; eauto|]. exists (CDraw Q c kw), [CParse Q text]. split; auto. }
  assert (G : forall b ask j x l, qk_parse Q text = Ok c -> device Q backend b ask -> qk_execute Q c b (shots_or_default shots) kw = Ok j ->
    (if String.eqb s "qiskit_job" then (Ok (QJob Q j), [])
     else calls Q (CResult Q j) (qk_result Q j) (fun result => if String.eqb s "qiskit_result" then (Ok (QResult Q result), [])
       else calls Q (CCounts Q result) (qk_counts Q result) (fun counts => (Ok (QCounts Q (rev_counts counts)), [])))) = (x, l) ->
    outcome_of s x (CParse Q text :: ask ++ CExecute Q c b (shots_or_default shots) kw :: l)).
  { intros b ask j x l Ep D Ex H.
    assert (J : job_started Q text backend shots kw c j (CParse Q text :: ask ++ [CExecute Q c b (shots_or_default shots) kw])) by (exists b, ask; auto).
    destruct (String.eqb_spec s "qiskit_job") as [-> |N4]; [injection H as <- <-; cbn; econstructor; eauto|].
    destruct (qk_result Q j) as [r|e] eqn:Er; cbn [calls] in H.
    - destruct (String.eqb_spec s "qiskit_result") as [-> |N5].
      + injection H as <- <-. cbn. pose proof (s_result Q text backend shots kw c j _ r J Er) as X. cbn in X. rewrite <- app_assoc in X. exact X.
      + assert (s = "shots") as ->. { destruct K as [K|[K|[K|[K|[K|[K|[]]]]]]]; subst; congruence. }
        destruct (qk_counts Q r) as [d|e] eqn:Ed; cbn [calls] in H; injection H as <- <-.
        * cbn. pose proof (s_shots Q text backend shots kw c j _ r d _ J Er Ed (rev_counts_backwards d)) as X. cbn in X. rewrite <- app_assoc in X. exact X.
        * exists (CCounts Q r), (CParse Q text :: ask ++ [CExecute Q c b (shots_or_default shots) kw; CResult Q j]). split; [cbn; rewrite <- app_assoc; auto|auto].
    - injection H as <- <-. exists (CResult Q j), (CParse Q text :: ask ++ [CExecute Q c b (shots_or_default shots) kw]). split; [cbn; rewrite <- app_assoc; auto|auto]. }
  match goal with |- outcome_of s (fst (let (x, l) := ?t in _)) _ => remember t as cs eqn:Ecs end.
  pose proof (job_case c cs (outcome_of s) _ E (fun b ask j Ep D Ex x l H => G b ask j x l Ep D Ex H)) as Y.
  destruct cs as [x l]. cbn [fst snd] in *. apply Y.
  - intros b ask e D Ex. exists (CExecute Q c b (shots_or_default shots) kw), (CParse Q text :: ask). split; auto.
  - intros e Ea. exists (CAer Q "qasm_simulator"), [CParse Q text]. split; auto.
  - rewrite Ecs. reflexivity.
Qed.
End Calls.

(** ** The backend *)
Section Backend.
Variables (Q : qiskit) (show : R -> string).
Lemma ibmq_text : forall gs n back s r kw, (forall e, qasm_run show gs n true = Err e -> ibmq_run Q show gs n back s r kw = (Err e, [])) /\
  (forall text, qasm_run show gs n true = Ok text -> ibmq_run Q show gs n back s r kw = runner Q text back s r kw).
Proof. intros. unfold ibmq_run. split; intros x ->; auto. Qed.
Lemma ibmq_session : forall gs n back s r kw text, qasm_run show gs n true = Ok text -> qk_import Q = None -> returns_known (named_returns r) ->
  forall x cs, ibmq_run Q show gs n back s r kw = (x, cs) ->
  match x with Ok o => session Q text back s kw (named_returns r) o cs | Err e => exists ev l, cs = (l ++ [ev])%list /\ raised Q e ev end.
Proof.
  intros gs n back s r kw text E I K x cs H. rewrite (proj2 (ibmq_text gs n back s r kw) text E) in H.
  pose proof (run_session Q text back s kw r K I) as X. rewrite H in X. exact X.
Qed.
(** nothing is asked of Qiskit: no text, unknown [returns], no Qiskit *)
Lemma ibmq_refused : forall gs n back s r kw,
  (forall e, qasm_run show gs n true = Err e -> ibmq_run Q show gs n back s r kw = (Err e, [])) /\
  (forall text, qasm_run show gs n true = Ok text ->
    (~ returns_known (named_returns r) -> ibmq_run Q show gs n back s r kw = (Err ValueError, [])) /\
    (forall e, returns_known (named_returns r) -> named_returns r <> "_exception" -> qk_import Q = Some e ->
      ibmq_run Q show gs n back s r kw = (Err (if exn_eqb e ImportError then ImportError else ValueError), []))).
Proof.
  intros gs n back s r kw. destruct (ibmq_text gs n back s r kw) as [H1 H2]. split; [auto|]. intros text E. rewrite (H2 text E). split.
  - apply run_unknown.
  - intros e K N I. rewrite (run_no_import Q text back s kw r e K I). apply String.eqb_neq in N. rewrite N. auto.
Qed.
(** returns="_exception" raises UnboundLocalError instead of returning the exception *)
Lemma ibmq_exception : forall gs n back s kw text e, qasm_run show gs n true = Ok text -> qk_import Q = Some e ->
  ibmq_run Q show gs n back s (Some "_exception") kw = (Err UnboundLocalError, []).
Proof.
  intros gs n back s kw text e E I. rewrite (proj2 (ibmq_text gs n back s (Some "_exception") kw) text E).
  apply (run_no_import Q text back s kw (Some "_exception") e); auto. cbn. auto.
Qed.
End Backend.
