(** Whole runs of the numpy backend, in the form used by the property theorems. *)
From Coq Require Import List Arith ZArith Bool String Reals Lia Lra.
Import ListNotations.
From Verif Require Import Base Cplx Bits ModelTargets ModelGate ModelNumpy SpecTargets SpecQuantum SpecCircuit SpecMeasure
  SpecRun ProofTargets ProofArray ProofNumpy ProofFallback ProofRun ProofUnitary ProofCache ProofMeasure ProofBorn.
Local Open Scope R_scope.

Lemma outcome_same_ok : forall a r, outcome_same a (Ok r) -> match r with RCtx _ => False | _ => True end -> a = Ok r.
Proof. intros [[]|] [] H NC; simpl in *; try contradiction; congruence. Qed.

Lemma new_cache_ok : forall n gs, cache_ok n gs (clear_cache_if_invalid new_backend n).
Proof. intros. left. reflexivity. Qed.

Lemma run_from_ideal : forall rng n gs b a pos r p, cache_ok n gs (clear_cache_if_invalid b n) ->
  ideal_run rng gs n a pos = (Ok r, p) -> match r with RCtx _ => False | _ => True end ->
  exists b', np_run rng b gs n a pos = (Ok r, b', p).
Proof.
  intros rng n gs b a pos r p Hok E NC. destruct (run_ideal rng n gs b a pos Hok) as [H1 [H2 _]].
  destruct (np_run rng b gs n a pos) as [[o b'] p']. simpl in *. rewrite E in *. simpl in *.
  exists b'. apply outcome_same_ok in H1; auto. subst. reflexivity.
Qed.

(** a circuit without measurement and reset, for every random stream *)
Lemma run_unitary : forall rng n gs ops b pos, circuit_ops n gs ops -> cache_ok n gs (clear_cache_if_invalid b n) ->
  exists b', np_run rng b gs n no_args pos = (Ok (RState (arr n (apply_all ops (ket 0)))), b', pos).
Proof.
  intros rng n gs ops b pos H Hok. apply run_from_ideal with (r := RState (arr n (apply_all ops (ket 0)))); auto.
  unfold ideal_run, no_args, parse_run_args. cbn -[recursion_limit].
  pose proof (ctx_acts_list n (np_run_single rng recursion_limit) gs ops H) as CA.
  assert (E : exists beta, zeros n = arr n beta) by (apply arr_exists, zeros_length). destruct E as [beta Eb].
  destruct (CA (fun g o _ Hg => gate_runs rng n g o Hg) (prepare (new_ctx n pos) None) (ket 0) beta) as [beta' E].
  - reflexivity.
  - apply arr_basis0.
  - exact Eb.
  - change (Pos.to_nat 1) with 1%nat. cbn [ideal_shots]. rewrite E. simpl x_cregs.
    destruct (repeat 0%nat n); reflexivity.
Qed.

(** every valid circuit, with measurements and resets *)
Lemma run_valid : forall rng n gs a pos N returns ig ws b, draws_ok rng -> parse_run_args a = Ok (N, returns, ig) ->
  returns <> "_inner_ctx"%string -> shots rng n gs pos ws -> List.length ws = Z.to_nat N ->
  cache_ok n gs (clear_cache_if_invalid b n) ->
  exists b', np_run rng b gs n a pos = (Ok (result_of n returns ig ws pos), b', w_pos (last ws (start pos))).
Proof.
  intros rng n gs a pos N returns ig ws b Hr Hp Hret Hsh HL Hok. eapply run_from_ideal; auto.
  - eapply ideal_run_ok; eauto.
  - unfold result_of. destruct (String.eqb returns "statevector"); auto. destruct (String.eqb returns "shots"); auto.
Qed.

Lemma shots_last : forall rng n gs pos ws, shots rng n gs pos ws -> ws <> [] ->
  exists p, exec rng n gs (start p) (last ws (start pos)).
Proof.
  induction 1 as [pos|pos w ws Hex Hsh IH]; intros Hne; [congruence|].
  destruct ws as [|w' ws].
  - exists pos. exact Hex.
  - destruct IH as [p Hp]; [discriminate|]. exists p.
    replace (last (w :: w' :: ws) (start pos)) with (last (w' :: ws) (start (w_pos w))); auto.
    clear. revert w'. induction ws; intros; auto. apply IHws.
Qed.

Lemma norm2_arr : forall n psi, np_norm2 (arr n psi) = norm2 n psi.
Proof. intros. unfold np_norm2, arr. rewrite Rsum_map. reflexivity. Qed.

(** a returned state vector has norm 1 *)
Lemma run_norm : forall rng n gs s pos b, draws_ok rng -> valid n gs -> cache_ok n gs (clear_cache_if_invalid b n) ->
  (match s with Some z => (0 < z)%Z | None => True end) ->
  exists v b' p, np_run rng b gs n (RunArgs s (Some "statevector"%string) false) pos = (Ok (RState v), b', p) /\
    List.length v = (2 ^ n)%nat /\ Rsum Cnorm2 v = 1.
Proof.
  intros rng n gs s pos b Hr Hv Hok Hs.
  set (N := match s with Some z => z | None => 1%Z end).
  destruct (shots_exist rng n gs Hv (Z.to_nat N) pos) as [ws [HL Hsh]].
  assert (Hp : parse_run_args (RunArgs s (Some "statevector"%string) false) = Ok (N, "statevector"%string, false)).
  { unfold parse_run_args. cbn. unfold N. destruct s; reflexivity. }
  assert (Hne : ws <> []).
  { intros ->. simpl in HL. unfold N in HL. destruct s; lia. }
  destruct (run_valid rng n gs _ pos N _ _ ws b Hr Hp ltac:(discriminate) Hsh HL Hok) as [b' E].
  exists (arr n (w_psi (last ws (start pos)))), b', (w_pos (last ws (start pos))). split; [|split].
  - rewrite E. unfold result_of. simpl. destruct ws; [congruence|reflexivity].
  - apply arr_length.
  - change (np_norm2 (arr n (w_psi (last ws (start pos)))) = 1). rewrite norm2_arr.
    destruct (shots_last rng n gs pos ws Hsh Hne) as [p Hex]. eapply exec_norm; eauto. apply start_norm.
Qed.

(** counts *)
Lemma run_counts : forall rng n gs N pos b, draws_ok rng -> (0 < n)%nat -> valid n gs ->
  cache_ok n gs (clear_cache_if_invalid b n) ->
  exists c ws b' p, np_run rng b gs n (RunArgs (Some (Z.of_nat N)) None false) pos = (Ok (RShots c), b', p) /\
    shots rng n gs pos ws /\ List.length ws = N /\ total c = N /\ NoDup (map fst c) /\
    (forall k, lookup c k = count_occ (list_eq_dec Nat.eq_dec) (map (outcomes n) ws) k) /\
    (forall k, In k (map fst c) <-> In k (map (outcomes n) ws)) /\
    (forall k, In k (map fst c) -> List.length k = n /\ Forall (fun d => d = 0 \/ d = 1)%nat k).
Proof.
  intros rng n gs N pos b Hr Hn Hv Hok.
  destruct (shots_exist rng n gs Hv N pos) as [ws [HL Hsh]].
  assert (Hp : parse_run_args (RunArgs (Some (Z.of_nat N)) None false) = Ok (Z.of_nat N, "shots"%string, false)) by reflexivity.
  destruct (run_valid rng n gs _ pos (Z.of_nat N) _ _ ws b Hr Hp ltac:(discriminate) Hsh ltac:(rewrite Nat2Z.id; auto) Hok) as [b' E].
  exists (tally n [] ws), ws, b', (w_pos (last ws (start pos))).
  rewrite tally_as_list by auto. destruct (tally_list_spec (map (outcomes n) ws) []) as [A [B [C D]]].
  split; [rewrite E; unfold result_of; simpl; rewrite tally_as_list by auto; reflexivity|].
  split; [auto|]. split; [auto|]. split; [rewrite B, map_length; simpl; auto|]. split; [apply C; constructor|].
  split; [intros; rewrite A; reflexivity|].
  split; [intros; rewrite D; split; [intros [[]|]; auto|auto]|].
  intros k Hk. apply D in Hk. destruct Hk as [[]|Hk]. apply in_map_iff in Hk. destruct Hk as [w [<- Hw]].
  split; [unfold outcomes; rewrite map_length, seq_length; auto|].
  assert (Bits : forall gs w w', exec rng n gs w w' -> (forall q, w_bits w q = 0 \/ w_bits w q = 1)%nat -> (forall q, w_bits w' q = 0 \/ w_bits w' q = 1)%nat).
  { assert (Ms : forall l w, (forall q, w_bits w q = 0 \/ w_bits w q = 1)%nat -> (forall q, w_bits (each (measure1 rng n) l w) q = 0 \/ w_bits (each (measure1 rng n) l w) q = 1)%nat).
    { induction l as [|t l IH]; intros w0 H0; auto. apply IH. intros q. unfold measure1; simpl. unfold update.
      destruct (q =? Z.to_nat t); auto. destruct (outcome rng n (Z.to_nat t) w0); auto. }
    assert (Rs : forall l w, (forall q, w_bits (each (reset1 rng n) l w) q = w_bits w q)).
    { induction l as [|t l IH]; intros w0 q; auto. unfold each in *. simpl. rewrite IH. reflexivity. }
    induction 1 as [|g gs0 w0 w1 w2 H1 H2 IH]; intros; auto. apply IH. intros q0. destruct H1; simpl; auto. rewrite Rs; auto. }
  unfold outcomes. apply Forall_map, Forall_forall. intros q _.
  clear - Hsh Hw Bits. induction Hsh as [pos|pos w0 ws Hex Hsh IH]; [destruct Hw|].
  destruct Hw as [->|Hw]; auto. eapply Bits; eauto.
Qed.

(** with no qubits nothing is counted *)
Lemma run_counts_empty : exists gs rng, valid 0 gs /\ draws_ok rng /\
  fst (fst (np_run rng new_backend gs 0 (RunArgs (Some 5%Z) None false) 0)) = Ok (RShots []).
Proof.
  exists [], (fun _ => 0). split; [constructor|]. split; [intro; lra|]. reflexivity.
Qed.

(** shots = 0 *)
Lemma run_zero_shots : forall rng b gs n pos,
  fst (fst (np_run rng b gs n (RunArgs (Some 0%Z) (Some "statevector"%string) false) pos)) = Ok (RState (zeros n)).
Proof. reflexivity. Qed.

(** ** Arguments of run *)
Definition known_returns (r : string) : Prop :=
  (r = "statevector" \/ r = "shots" \/ r = "statevector_and_shots" \/ r = "_inner_ctx")%string.

Lemma run_unknown : forall rng b gs n pos s r ig, ~ known_returns r ->
  np_run rng b gs n (RunArgs s (Some r) ig) pos = (Err ValueError, b, pos).
Proof.
  intros rng b gs n pos s r ig H. unfold np_run, parse_run_args. cbn [a_returns a_shots].
  unfold known_returns in H.
  destruct (String.eqb_spec r "statevector"); [exfalso; tauto|].
  destruct (String.eqb_spec r "shots"); [exfalso; tauto|].
  destruct (String.eqb_spec r "statevector_and_shots"); [exfalso; tauto|].
  destruct (String.eqb_spec r "_inner_ctx"); [exfalso; tauto|]. reflexivity.
Qed.

(** which kind of value, and how many shots *)
Definition kind (r : run_result) : string :=
  match r with RState _ => "statevector" | RShots _ => "shots" | RBoth _ _ => "statevector_and_shots" | RCtx _ => "_inner_ctx" end.
Definition wanted (s : option Z) (r : option string) : string :=
  match r with Some r => r | None => match s with None => "statevector" | Some _ => "shots" end end.
Definition shots_wanted (s : option Z) (r : option string) : Z :=
  match s with Some z => z | None => if (wanted s r =? "shots")%string || (wanted s r =? "statevector_and_shots")%string then 1024 else 1 end.

Lemma run_kind : forall rng b gs n pos s r ig v b' p,
  np_run rng b gs n (RunArgs s r ig) pos = (Ok v, b', p) -> kind v = wanted s r /\ known_returns (wanted s r).
Proof.
  intros rng b gs n pos s r ig v b' p H. unfold np_run, parse_run_args in H. cbn [a_returns a_shots] in H.
  fold (wanted s r) in H. unfold known_returns.
  destruct (negb _) eqn:E; [discriminate|].
  destruct (np_shots _ _ _ _ _) as [[c|] b1]; [|discriminate]. injection H; intros _ _ <-.
  unfold return_type. apply negb_false_iff in E.
  destruct (String.eqb_spec (wanted s r) "statevector") as [->|]; [auto|].
  destruct (String.eqb_spec (wanted s r) "shots") as [->|]; [auto|].
  destruct (String.eqb_spec (wanted s r) "statevector_and_shots") as [->|]; [auto|].
  destruct (String.eqb_spec (wanted s r) "_inner_ctx") as [->|]; [auto|]. discriminate.
Qed.

Lemma parse_shots : forall s r ig N ret ig', parse_run_args (RunArgs s r ig) = Ok (N, ret, ig') ->
  N = shots_wanted s r /\ ret = wanted s r /\ ig' = ig.
Proof.
  intros s r ig N ret ig' H. unfold parse_run_args in H. cbn [a_returns a_shots a_ignore_global] in H. fold (wanted s r) in H.
  destruct (negb _) eqn:E; [discriminate|]. injection H; intros <- <- <-. unfold shots_wanted. repeat split; auto.
  destruct s; auto. apply negb_false_iff in E.
  destruct (String.eqb_spec (wanted None r) "statevector") as [->|]; [reflexivity|].
  destruct (String.eqb_spec (wanted None r) "shots") as [->|]; [reflexivity|].
  destruct (String.eqb_spec (wanted None r) "statevector_and_shots") as [->|]; [reflexivity|].
  destruct (String.eqb_spec (wanted None r) "_inner_ctx") as [->|]; [reflexivity|]. discriminate.
Qed.

(** ** Statements of the property theorems *)
Lemma gate_acts : forall rng n g ops, gate_ops n g ops ->
  forall ctx psi, x_n ctx = n -> x_qubits ctx = arr n psi -> List.length (x_buf ctx) = (2 ^ n)%nat ->
  exists buf, List.length buf = (2 ^ n)%nat /\
    np_run_single rng recursion_limit g ctx = SOk (set_bufs ctx (arr n (apply_all ops psi), buf)).
Proof.
  intros rng n g ops H ctx psi H1 H2 H3. destruct (arr_exists n _ H3) as [beta Hb].
  destruct (gate_runs rng n g ops H ctx psi beta H1 H2 Hb) as [b' E]. exists (arr n b'). split; [apply arr_length|exact E].
Qed.

Lemma arr_values : forall n phi psi, arr n phi = arr n psi <-> forall x, (x < 2 ^ n)%nat -> phi x = psi x.
Proof.
  intros n phi psi. split.
  - intros H x Hx. apply (f_equal (fun l => nth x l C0)) in H. unfold arr in H.
    rewrite (nth_indep _ C0 (phi 0%nat)), (nth_indep (map psi _) C0 (psi 0%nat)) in H by (rewrite map_length, seq_length; auto).
    rewrite !map_nth, seq_nth in H by auto. exact H.
  - intros H. apply arr_ext. auto.
Qed.

Lemma run_unitary_new : forall rng n gs ops pos, circuit_ops n gs ops ->
  exists b, np_run rng new_backend gs n no_args pos = (Ok (RState (arr n (apply_all ops (ket 0)))), b, pos).
Proof. intros. apply run_unitary; auto. apply new_cache_ok. Qed.
Lemma run_unitary_app : forall rng n a b oa ob pos, circuit_ops n a oa -> circuit_ops n b ob ->
  exists bk, np_run rng new_backend (a ++ b) n no_args pos =
    (Ok (RState (arr n (apply_all ob (apply_all oa (ket 0))))), bk, pos).
Proof. intros. rewrite <- apply_all_app. apply run_unitary_new. apply circuit_ops_app; auto. Qed.

Lemma run_inner : forall rng n gs ops, circuit_ops n gs ops -> forall c1 c2 phi psi,
  x_n c1 = n -> x_qubits c1 = arr n phi -> List.length (x_buf c1) = (2 ^ n)%nat ->
  x_n c2 = n -> x_qubits c2 = arr n psi -> List.length (x_buf c2) = (2 ^ n)%nat ->
  exists c1' c2' phi' psi', run_list (np_run_single rng recursion_limit) gs c1 = SOk c1' /\
    run_list (np_run_single rng recursion_limit) gs c2 = SOk c2' /\
    x_qubits c1' = arr n phi' /\ x_qubits c2' = arr n psi' /\ inner n phi' psi' = inner n phi psi.
Proof.
  intros rng n gs ops H c1 c2 phi psi A1 A2 A3 B1 B2 B3.
  destruct (arr_exists n _ A3) as [ba Ha]. destruct (arr_exists n _ B3) as [bb Hb].
  pose proof (ctx_acts_list n (np_run_single rng recursion_limit) gs ops H (fun g o _ Hg => gate_runs rng n g o Hg)) as CA.
  destruct (CA c1 phi ba A1 A2 Ha) as [x E1]. destruct (CA c2 psi bb B1 B2 Hb) as [y E2].
  do 2 eexists. exists (apply_all ops phi), (apply_all ops psi). repeat split; eauto.
  apply (circuit_preserves n gs ops H).
Qed.

Lemma run_zero_shots_norm : exists rng n gs, draws_ok rng /\ valid n gs /\
  exists v, fst (fst (np_run rng new_backend gs n (RunArgs (Some 0%Z) (Some "statevector"%string) false) 0)) = Ok (RState v) /\
  Rsum Cnorm2 v <> 1.
Proof.
  exists (fun _ => 0), 1%nat, []. split; [intro; lra|]. split; [constructor|]. exists (zeros 1). split; [reflexivity|].
  simpl. unfold Cnorm2, C0; simpl. lra.
Qed.

(** ** Measurement *)
Lemma measure_gate : forall rng n tg l w ctx, draws_ok rng -> denotes (Z.of_nat n) tg l -> Forall (inside n) l ->
  norm2 n (w_psi w) = 1 -> shows n ctx w ->
  exists ctx', np_run_single rng recursion_limit (GMeasure tg) ctx = SOk ctx' /\ shows n ctx' (each (measure1 rng n) l w).
Proof.
  intros rng n tg l w ctx Hr Hd Hi Hw Hs.
  destruct (exec1_shows rng Hr n (GMeasure tg) w _ ctx (ex_measure rng n tg l w Hd Hi) Hw Hs) as [c [E [S _]]]. eauto.
Qed.
Lemma reset_gate : forall rng n tg l w ctx, draws_ok rng -> denotes (Z.of_nat n) tg l -> Forall (inside n) l ->
  norm2 n (w_psi w) = 1 -> shows n ctx w ->
  exists ctx', np_run_single rng recursion_limit (GReset tg) ctx = SOk ctx' /\ shows n ctx' (each (reset1 rng n) l w).
Proof.
  intros rng n tg l w ctx Hr Hd Hi Hw Hs.
  destruct (exec1_shows rng Hr n (GReset tg) w _ ctx (ex_reset rng n tg l w Hd Hi) Hw Hs) as [c [E [S _]]]. eauto.
Qed.

(** one qubit, in terms of draws and amplitudes *)
Lemma measure_one : forall rng n t w, draws_ok rng -> norm2 n (w_psi w) = 1 ->
  let p0 := Rsum (fun x => if bit x t then 0 else Cnorm2 (w_psi w x)) (seq 0 (2 ^ n)) in
  let w' := measure1 rng n t w in
  exists b : bool, (b = false <-> rng (w_pos w) < p0) /\
    w_bits w' t = (if b then 1 else 0)%nat /\ (forall q, q <> t -> w_bits w' q = w_bits w q) /\
    w_pos w' = S (w_pos w) /\ 0 < prob n t b (w_psi w) /\
    (forall x, w_psi w' x = if Bool.eqb (bit x t) b then (RtoC (/ sqrt (prob n t b (w_psi w))) * w_psi w x)%C else C0) /\
    norm2 n (w_psi w') = 1.
Proof.
  intros rng n t w Hr Hw p0 w'.
  assert (P0 : p0 = prob n t false (w_psi w)).
  { unfold p0, prob, norm2. apply Rsum_ext. intros x _. unfold project. destruct (bit x t); simpl; auto. symmetry. apply Cnorm2_C0. }
  exists (outcome rng n t w). split; [|split; [|split; [|split; [|split; [|split]]]]].
  - rewrite P0. unfold outcome. destruct (Rltb _ _) eqn:E; simpl; [apply Rltb_true in E|apply Rltb_false in E]; split; auto; try discriminate; lra.
  - unfold w', measure1, update. simpl. rewrite Nat.eqb_refl. reflexivity.
  - intros q Hq. unfold w', measure1, update. simpl. destruct (Nat.eqb_spec q t); congruence.
  - reflexivity.
  - apply outcome_prob; auto.
  - intros x. unfold w', measure1, collapse, scl, project. simpl. destruct (Bool.eqb _ _); auto. ring.
  - apply measure1_norm; auto.
Qed.

(** ** Born rule for all qubits *)
Definition all_qubits (n : nat) (l : list nat) : Prop := NoDup l /\ forall t, In t l <-> (t < n)%nat.

Lemma born_rule : forall n l psi k, all_qubits n l -> norm2 n psi = 1 -> (k < 2 ^ n)%nat ->
  exists ivs, List.length ivs = n /\
    (forall iv, In iv ivs -> 0 <= fst iv /\ snd iv <= 1 /\ fst iv <= snd iv) /\
    volume ivs = Cnorm2 (psi k) /\
    forall rng bits pos, draws_ok rng ->
      ((forall t, (t < n)%nat -> w_bits (each (measure1 rng n) (map Z.of_nat l) (World psi bits pos)) t = b2n (bit k t)) <->
       (forall i, (i < n)%nat -> in_interval (nth i ivs (0, 0)) (rng (pos + i)%nat))).
Proof.
  intros n l psi k [ND Hl] Hn Hk.
  assert (Len : List.length l = n).
  { rewrite <- (seq_length n 0). apply Nat.le_antisymm; apply NoDup_incl_length; auto using seq_NoDup; intros x Hx.
    - apply in_seq. apply Hl in Hx. lia.
    - apply Hl. apply in_seq in Hx. lia. }
  destruct (born_list n l (bit k) psi ND Hn) as [ivs [L1 [L2 [L3 L4]]]].
  exists ivs. split; [congruence|]. split; [auto|]. split.
  - rewrite L3. apply project_full; auto.
  - intros rng bits pos Hr. specialize (L4 rng bits pos Hr). rewrite Len in L4. rewrite <- L4. split; intros H t Ht; apply H; apply Hl; auto.
Qed.

(** any value of the list of all qubits is met by some draws with probability 1 in total *)
Lemma born_total : forall n psi, norm2 n psi = 1 -> Rsum (fun k => Cnorm2 (psi k)) (seq 0 (2 ^ n)) = 1.
Proof. auto. Qed.
