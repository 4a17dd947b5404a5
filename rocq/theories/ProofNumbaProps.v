(** Lemmas behind the property theorems on the numba backend. *)
From Coq Require Import List Arith NArith ZArith Bool String Reals Lia Lra Permutation.
Import ListNotations.
From Verif Require Import Base Cplx Bits ModelTargets ModelGate ModelNumpy ModelNumba SpecTargets SpecQuantum SpecCircuit SpecMeasure
  SpecRun SpecNumba ProofTargets ProofArray ProofNumpy ProofRun ProofCache ProofMeasure ProofWhole ProofIndex ProofKernel ProofPair
  ProofNumba ProofNumbaRun ProofExamples.
Local Open Scope R_scope.

Lemma snoc_list : forall A (l : list A), l <> [] -> exists l' x, l = l' ++ [x].
Proof. intros A l H. destruct (exists_last H) as [l' [x E]]. eauto. Qed.

Lemma loop_kacts : forall n k, (n <= 64)%nat -> loop_of (N.of_nat n) k -> exists U, kacts n k U.
Proof.
  intros n k Hn H. destruct H;
  try (match goal with |- exists U, kacts _ ?kk _ => 
    first [eexists; apply k_z_ok; assumption | eexists; apply k_x_ok; assumption | eexists; apply k_y_ok; assumption
          | eexists; apply k_h_ok; assumption | eexists; apply k_diag_ok; assumption | eexists; apply k_rz_ok; assumption
          | eexists; apply k_ry_ok; assumption | eexists; apply k_rx_ok; assumption | eexists; apply k_u3_ok; assumption
          | eexists; apply k_reduce0_ok; assumption | eexists; apply k_reduce1_ok; assumption | eexists; apply k_reset1_ok; assumption] end);
  match goal with HN : ?ct <> [] |- _ => destruct (snoc_list _ ct HN) as [cs [t ->]] end.
  - destruct (k_cz_ok n cs t Hn) as [k' [E K]]; auto. exists (controlled cs t mZ). congruence.
  - destruct (k_cx_ok n cs t Hn) as [k' [E K]]; auto. exists (controlled cs t mX). congruence.
  - destruct (k_crx_ok n cs t Hn) with (ang := th) as [k' [E K]]; auto. exists (controlled cs t (mRX th)). congruence.
  - destruct (k_cry_ok n cs t Hn) with (ang := th) as [k' [E K]]; auto. exists (controlled cs t (mRY th)). congruence.
  - destruct (k_crz_ok n cs t Hn) with (ang := th) as [k' [E K]]; auto. exists (controlled cs t (mRZ th)). congruence.
  - destruct (k_cphase_ok n cs t Hn) with (ang := th) as [k' [E K]]; auto. exists (controlled cs t (mPhase th)). congruence.
Qed.

Lemma loops_race_free : forall n k a, (n <= 64)%nat -> loop_of (N.of_nat n) k -> List.length a = (2 ^ n)%nat -> race_free k a.
Proof. intros n k a Hn H Ha. destruct (loop_kacts n k Hn H) as [U K]. eapply kacts_race_free; eauto. Qed.

(** every kernel call that the model makes is in the list: [k_c*] succeed on distinct qubits *)
Lemma loops_start : forall n ct, (n <= 64)%nat -> ct <> [] -> NoDup ct -> Forall (fun q => q < N.of_nat n)%N ct ->
  is_ok (k_cz (N.of_nat n) ct) = true /\ is_ok (k_cx (N.of_nat n) ct) = true /\
  forall th, is_ok (k_crx th (N.of_nat n) ct) = true /\ is_ok (k_cry th (N.of_nat n) ct) = true /\
    is_ok (k_crz th (N.of_nat n) ct) = true /\ is_ok (k_cphase th (N.of_nat n) ct) = true.
Proof.
  intros n ct Hn H0 Hd Hin. destruct (snoc_list _ ct H0) as [cs [t ->]].
  split; [destruct (k_cz_ok n cs t Hn Hd Hin) as [k [-> _]]; reflexivity|].
  split; [destruct (k_cx_ok n cs t Hn Hd Hin) as [k [-> _]]; reflexivity|]. intros th.
  split; [destruct (k_crx_ok n cs t Hn Hd Hin th) as [k [-> _]]; reflexivity|].
  split; [destruct (k_cry_ok n cs t Hn Hd Hin th) as [k [-> _]]; reflexivity|].
  split; [destruct (k_crz_ok n cs t Hn Hd Hin th) as [k [-> _]]; reflexivity|].
  destruct (k_cphase_ok n cs t Hn Hd Hin th) as [k [-> _]]; reflexivity.
Qed.

(** ** The reduction *)
Definition partial (a : carr) (t : N) (its : list N) : res R :=
  for_list its (fun i p0 => let* v := load a (idx0 t i) in Ok (p0 + Cnorm2 v)) 0.

Lemma reduction_any : forall n t psi chunks, (n <= 64)%nat -> (t < N.of_nat n)%N ->
  Permutation (List.concat chunks) (map N.of_nat (seq 0 (N.to_nat (half (N.of_nat n))))) ->
  exists ps, map_res (partial (arr n psi) t) chunks = Ok ps /\ p0calc (arr n psi) t (N.of_nat n) = Ok (Rsum (fun x => x) ps).
Proof.
  intros n t psi chunks Hn Ht P.
  pose proof (shifted_visits (N.of_nat n) t ltac:(lia) Ht) as V. destruct V as [_ V].
  assert (L : forall i, In i (List.concat chunks) -> load (arr n psi) (idx0 t i) = Ok (psi (N.to_nat (idx0 t i)))).
  { intros i Hi. rewrite P in Hi. apply load_arr. apply to_nat_lt. apply (V (idx0 t i)). apply in_map. exact Hi. }
  assert (S : forall i, In i (List.concat chunks) -> exists v, load (arr n psi) (idx0 t i) = Ok v /\ Cnorm2 (psi (N.to_nat (idx0 t i))) = Cnorm2 v).
  { intros. rewrite L; eauto. }
  unfold p0calc. rewrite (p0calc_seq t (fun i => Cnorm2 (psi (N.to_nat (idx0 t i))))).
  2:{ intros i Hi. apply S. rewrite P. exact Hi. }
  rewrite <- (Rsum_perm _ _ _ _ P). clear P L V. rewrite Rplus_0_l.
  induction chunks as [|c cs IH].
  - exists []. split; reflexivity.
  - destruct IH as [ps [E1 E2]]. { intros i Hi. apply S. simpl. apply in_or_app. auto. }
    injection E2 as E2.
    exists (Rsum (fun i => Cnorm2 (psi (N.to_nat (idx0 t i)))) c :: ps). simpl. split.
    + unfold partial at 1. rewrite (p0calc_seq t (fun i => Cnorm2 (psi (N.to_nat (idx0 t i))))).
      * cbn [bind]. rewrite E1. simpl. rewrite Rplus_0_l. reflexivity.
      * intros i Hi. apply S. simpl. apply in_or_app. auto.
    + rewrite Rsum_app, E2. reflexivity.
Qed.

(** ** Runs *)
Lemma session_agree : forall rng n, (n <= 64)%nat -> draws_ok rng -> forall calls gs b b' pos,
  valid n gs -> Forall (fun c => valid n (fst c) /\ a_returns (na_args (snd c)) <> Some "_inner_ctx"%string) calls ->
  ncache_ok n gs b -> cache_ok n gs b' ->
  session (fun b gs a pos => nb_run rng b gs n a pos) b gs pos calls =
  session (fun b gs a pos => np_run rng b gs n (na_args a) pos) b' gs pos calls.
Proof.
  intros rng n Hn Hr. induction calls as [|[more [a c]] calls IH]; intros gs b b' pos Hv HF Hb Hb'; [reflexivity|].
  inversion HF as [|x l [Hm Hret] HF']; subst. simpl in Hm, Hret. cbn [session fst snd na_args].
  assert (Hv' : valid n (gs ++ more)) by (apply Forall_app; auto).
  assert (Hb1 : ncache_ok n (gs ++ more) b) by (apply ncache_extend; auto).
  assert (Hb1' : cache_ok n (gs ++ more) b') by (apply cache_ok_extend; auto).
  destruct (nb_np_agree rng n (gs ++ more) a c pos Hn Hr Hv' Hret b b') as [r [p [b1 [b1' [E1 [E2 K1]]]]]].
  - unfold ncache_before. simpl. destruct c; [apply ncache_clear; auto|apply ncache_new].
  - apply cache_ok_clear; auto.
  - pose proof (run_ideal rng n (gs ++ more) b' a pos ltac:(apply cache_ok_clear; auto)) as [_ [_ K2]]. rewrite E2 in K2. simpl in K2.
    rewrite E1, E2. rewrite (IH (gs ++ more) b1 b1' p Hv' HF'); auto. destruct K2 as [K2|K2]; [exact K2|congruence].
Qed.

Lemma session_agree_new : forall rng n calls pos, (n <= 64)%nat -> draws_ok rng ->
  Forall (fun c => valid n (fst c) /\ a_returns (na_args (snd c)) <> Some "_inner_ctx"%string) calls ->
  session (fun b gs a pos => nb_run rng b gs n a pos) new_backend [] pos calls =
  session (fun b gs a pos => np_run rng b gs n (na_args a) pos) new_backend [] pos calls.
Proof.
  intros. apply session_agree; auto. constructor. apply ncache_new. left. reflexivity.
Qed.

Lemma run_agree : forall rng n gs a c pos, (n <= 64)%nat -> draws_ok rng -> valid n gs ->
  a_returns a <> Some "_inner_ctx"%string ->
  exists r p b1 b2, nb_run rng new_backend gs n (NbArgs a c) pos = (r, b1, p) /\ np_run rng new_backend gs n a pos = (r, b2, p).
Proof.
  intros rng n gs a c pos Hn Hr Hv Hret.
  destruct (nb_np_agree rng n gs a c pos Hn Hr Hv Hret new_backend new_backend) as [r [p [b1 [b2 [E1 [E2 _]]]]]]; eauto 10.
  - unfold ncache_before. simpl. destruct c; [apply ncache_clear|]; apply ncache_new.
  - left. reflexivity.
Qed.

(** ** Cases *)
Lemma ex_visits : visits_once 3 [2; 0]%N 2 (fun i => match create_masks [2; 0]%N with Ok m => mult_shifted m i | Err _ => 0%N end).
Proof.
  destruct (mult_visits 3 [2; 0]%N) as [m [E [_ V]]].
  - lia.
  - constructor; [simpl; intuition lia|]. constructor; [simpl; tauto|constructor].
  - constructor; [lia|]. constructor; [lia|constructor].
  - rewrite E. exact V.
Qed.
Lemma ex_loop : loop_of 3 (k_x 3 1) /\ exists k, k_cx 3 [2; 0]%N = Ok k /\ loop_of 3 k.
Proof.
  split; [apply lo_x; lia|].
  assert (H1 : NoDup [2; 0]%N) by (constructor; [simpl; intuition lia|]; constructor; [simpl; tauto|constructor]).
  assert (H2 : Forall (fun q => q < N.of_nat 3)%N [2; 0]%N) by (constructor; [lia|]; constructor; [lia|constructor]).
  destruct (loops_start 3 [2; 0]%N ltac:(lia) ltac:(discriminate) H1 H2) as [_ [H _]].
  destruct (k_cx (N.of_nat 3) [2; 0]%N) as [k|] eqn:E; [|discriminate]. exists k. split; [exact E|].
  apply (lo_cx 3 [2; 0]%N); auto. discriminate.
Qed.
Definition ex_args : run_args := RunArgs (Some 5%Z) None false.
Lemma ex_session : Forall (fun c => valid 3 (fst c) /\ a_returns (na_args (snd c)) <> Some "_inner_ctx"%string)
  [(ex_gates, NbArgs no_args true); (ex_measured, NbArgs ex_args true); ([], NbArgs no_args false)].
Proof.
  constructor; [split; [eapply circuit_valid; exact ex_circuit|discriminate]|].
  constructor; [split; [exact ex_measured_valid|discriminate]|].
  constructor; [split; [constructor|discriminate]|constructor].
Qed.
