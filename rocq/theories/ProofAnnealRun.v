(** Proofs: the runs of simulated annealing follow the Markov chain *)
From Coq Require Import List Arith ZArith Bool Reals Lia Lra FunctionalExtensionality.
Import ListNotations.
From Verif Require Import Cplx Bits SpecQuantum SpecMeasure SpecLaw SpecWq SpecAnneal ModelWq ProofLawStat ProofAnneal.
From Verif Require ProofWq ProofLaw.
Local Open Scope R_scope.

Lemma Rsum_prod : forall A B (f : A * B -> R) l m, Rsum f (list_prod l m) = Rsum (fun x => Rsum (fun y => f (x, y)) m) l.
Proof. induction l as [|a l IH]; intros m; cbn; auto. rewrite Rsum_app, IH, Rsum_map. reflexivity. Qed.

(** ** Histories *)
Definition fac (E : list bool -> R) (T : R) (b : list bool) (x : nat) (a : bool) : R := if a then accept E T b x else 1 - accept E T b x.
Lemma weight_cons : forall n E T ts x a hs b, 0 < T ->
  history_weight n E (T :: ts) ((x, a) :: hs) b = / INR n * fac E T b x a * history_weight n E ts hs (if a then flip_spin b x else b).
Proof.
  intros n E T ts x a hs b HT. unfold history_weight. cbn [turn_box List.length pow fac]. unfold fac, accept.
  destruct (Rlt_dec (rise E b x) 0) as [L|L].
  - assert (H : 1 < exp (- rise E b x / T)).
    { rewrite <- exp_0. apply exp_increasing. apply Rdiv_lt_0_compat; lra. }
    rewrite Rmin_left by lra. destruct a; ring.
  - assert (H : exp (- rise E b x / T) <= 1).
    { rewrite <- exp_0. destruct (Req_dec (rise E b x) 0) as [Z|Z]; [rewrite Z; right; f_equal; field; lra|].
      left. apply exp_increasing. unfold Rdiv. apply Ropp_lt_cancel. rewrite Ropp_0, <- Ropp_mult_distr_l, Ropp_involutive. apply Rdiv_lt_0_compat; lra. }
    rewrite Rmin_right by lra. destruct a; destruct (turn_box E ts hs _) as [ivs|]; cbn [option_map]; unfold box_volume; cbn [fold_right fst snd]; ring.
Qed.
Lemma history_law : forall n E ts b c, Forall (fun T => 0 < T) ts -> In b (values n) ->
  moves n E ts b c = Rsum (fun hs => history_weight n E ts hs b * is (path hs b) c) (histories n (List.length ts)).
Proof.
  intros n E ts b c F. revert b. induction F as [|T ts HT F IH]; intros b I.
  - cbn. unfold history_weight. cbn. ring.
  - cbn [moves]. rewrite move_sum by auto. unfold histories. cbn [List.length sequences]. rewrite Rsum_flat_map, Rsum_prod. apply Rsum_ext. intros x _.
    cbn [Rsum]. rewrite !Rsum_map, Rplus_0_r, Rmult_plus_distr_l, !IH by (auto; apply flip_values; auto). fold (histories n (List.length ts)).
    rewrite <- !Rsum_mul_l. f_equal; apply Rsum_ext; intros hs _; rewrite weight_cons by auto; cbn [path fac]; unfold fac; ring.
Qed.
Lemma history_total : forall n E ts b, (0 < n)%nat -> Forall (fun T => 0 < T) ts -> In b (values n) ->
  Rsum (fun hs => history_weight n E ts hs b) (histories n (List.length ts)) = 1.
Proof.
  intros n E ts b Hn F I. rewrite <- (moves_total n E Hn ts b I). rewrite (Rsum_ext _ _ (fun c => Rsum (fun hs => is (path hs b) c * history_weight n E ts hs b) (histories n (List.length ts)))).
  2:{ intros c _. rewrite history_law by auto. apply Rsum_ext. intros; ring. }
  rewrite Rsum_swap. apply Rsum_ext. intros hs _. symmetry. apply (sum_is n (path hs b) (fun _ => history_weight n E ts hs b)).
  clear - I. revert b I. induction hs as [|[x a] hs IH]; intros b I; cbn; auto. apply IH. destruct a; auto. apply flip_values; auto.
Qed.

(** the box of two parts *)
Lemma in_box_app : forall ivs jvs draws d, in_box ivs draws d -> in_box jvs draws (d + List.length ivs) -> in_box (ivs ++ jvs) draws d.
Proof.
  intros ivs jvs draws d A B i H. rewrite app_length in H. destruct (Nat.lt_ge_cases i (List.length ivs)) as [L|L].
  - rewrite app_nth1 by auto. apply A; auto.
  - rewrite app_nth2 by auto. replace (d + i)%nat with (d + List.length ivs + (i - List.length ivs))%nat by lia. apply B. lia.
Qed.
Lemma turn_box_app : forall E ts us hs gs b, List.length hs = List.length ts ->
  turn_box E (ts ++ us) (hs ++ gs) b =
  match turn_box E ts hs b with Some ivs => match turn_box E us gs (path hs b) with Some jvs => Some (ivs ++ jvs) | None => None end | None => None end.
Proof.
  induction ts as [|T ts IH]; intros us [|[x a] hs] gs b L; try discriminate; cbn [app turn_box path].
  - destruct (turn_box E us gs b); auto.
  - injection L as L. destruct (Rlt_dec (rise E b x) 0) as [G|G].
    + destruct a; auto.
    + rewrite IH by auto. destruct (turn_box E ts hs _); cbn; auto. destruct (turn_box E us gs _); auto.
Qed.
Lemma path_app : forall hs gs b, path (hs ++ gs) b = path gs (path hs b).
Proof. induction hs as [|[x a] hs IH]; intros; cbn; auto. Qed.

(** the draws decide *)
Lemma history_unique : forall E draws ts hs hs' b d ivs ivs', List.length hs = List.length ts -> map fst hs = map fst hs' ->
  turn_box E ts hs b = Some ivs -> in_box ivs draws d -> turn_box E ts hs' b = Some ivs' -> in_box ivs' draws d -> hs = hs' /\ ivs = ivs'.
Proof.
  induction ts as [|T ts IH]; intros [|[x a] hs] [|[x' a'] hs'] b d ivs ivs' L M A B A' B'; try discriminate.
  - cbn in A, A'. split; congruence.
  - cbn in L, M. injection L as L. injection M as <- M. cbn [turn_box] in A, A'. destruct (Rlt_dec (rise E b x) 0) as [G|G].
    + destruct a, a'; try discriminate. destruct (IH _ _ _ _ _ _ L M A B A' B') as [-> ->]. auto.
    + destruct (turn_box E ts hs _) as [r|] eqn:R; [|discriminate]. destruct (turn_box E ts hs' _) as [r'|] eqn:R'; [|discriminate].
      cbn in A, A'. injection A as <-. injection A' as <-. apply ProofLaw.in_box_cons in B as [B1 B2]. apply ProofLaw.in_box_cons in B' as [B1' B2'].
      assert (a = a') by (destruct a, a'; auto; cbn in B1, B1'; lra). subst a'.
      destruct (IH _ _ _ _ _ _ L M R B2 R' B2') as [-> ->]. auto.
Qed.
Lemma runs_unique : forall n E ts choices sites draws m c s d l, runs n E ts choices sites draws m c s d l ->
  forall l', runs n E ts choices sites draws m c s d l' -> l = l'.
Proof.
  induction 1 as [|m c s d hs ivs l A B D R IH]; intros l' R'; inversion R'; subst; auto.
  match goal with H1 : map fst ?h = _, H2 : turn_box _ _ ?h _ = Some ?i |- (_, hs) :: _ = (_, ?h) :: _ => assert (K : hs = h /\ ivs = i) end.
  { eapply history_unique; eauto; [|congruence]. apply (f_equal (@List.length _)) in A. rewrite !map_length, seq_length in A. auto. }
  destruct K as [-> ->]. f_equal. apply IH. auto.
Qed.

(** ** The code *)
Definition agree (n : nat) (q : nat -> R) (b : list bool) : Prop := List.length b = n /\ forall i, (i < n)%nat -> q i = spin b i.
Section Code.
Variables (n : nat) (Q : nat -> nat -> R).
Definition energy (b : list bool) : R := objective n Q (spin b).
Lemma agree_energy : forall q b, agree n q b -> objective n Q q = energy b.
Proof.
  intros q b [_ H]. unfold energy, objective, qubo_energy, total. apply Rsum_ext. intros i Hi. apply in_seq in Hi. apply Rsum_ext. intros j Hj. apply in_seq in Hj.
  rewrite !H by lia. reflexivity.
Qed.
Lemma agree_flip : forall q b x, (x < n)%nat -> agree n q b -> agree n (flipped q x) (flip_spin b x).
Proof.
  intros q b x Hx [L H]. split; [rewrite flip_length; auto|]. intros i Hi. unfold flipped, spin. rewrite flip_nth by lia. rewrite H by auto. unfold spin.
  destruct (i =? x)%nat; auto. destruct (nth i b false); cbn; lra.
Qed.
Lemma agree_rise : forall q b x, (x < n)%nat -> agree n q b -> difference (objective n Q) q x = rise energy b x.
Proof. intros q b x Hx H. unfold difference, rise. rewrite (agree_energy q b H), (agree_energy _ _ (agree_flip q b x Hx H)). reflexivity. Qed.
Variable draws : nat -> R.
Hypothesis Hd : draws_ok draws.
Lemma sweep_box : forall T xs q d q' d', sweep n (objective n Q) draws T xs q d q' d' -> forall b, agree n q b ->
  exists hs ivs, map fst hs = xs /\ turn_box energy (repeat T (List.length xs)) hs b = Some ivs /\ in_box ivs draws d /\ d' = (d + List.length ivs)%nat /\ agree n q' (path hs b).
Proof.
  induction 1 as [q d|x xs q d q1 d1 q2 d2 Hx P W IH]; intros b A.
  - exists [], []. cbn. split; auto. split; auto. split; [intros i L; cbn in L; lia|]. split; [lia|auto].
  - destruct P as [G|G D|G D]; rewrite (agree_rise q b x Hx A) in G; try rewrite (agree_rise q b x Hx A) in D.
    + destruct (IH _ (agree_flip q b x Hx A)) as (hs & ivs & I1 & I2 & I3 & I4 & I5). exists ((x, true) :: hs), ivs. cbn [map fst path List.length repeat turn_box].
      destruct (Rlt_dec (rise energy b x) 0); [|lra]. split; [congruence|]. auto.
    + destruct (IH _ (agree_flip q b x Hx A)) as (hs & ivs & I1 & I2 & I3 & I4 & I5). exists ((x, true) :: hs), ((0, exp (- rise energy b x / T)) :: ivs).
      cbn [map fst path List.length repeat turn_box]. destruct (Rlt_dec (rise energy b x) 0); [lra|]. rewrite I2. cbn [option_map]. split; [congruence|]. split; auto.
      split; [apply ProofLaw.in_box_cons; cbn; pose proof (Hd d); auto with real; split; auto; split; [apply Hd|auto]|]. split; [lia|auto].
    + destruct (IH _ A) as (hs & ivs & I1 & I2 & I3 & I4 & I5). exists ((x, false) :: hs), ((exp (- rise energy b x / T), 1) :: ivs).
      cbn [map fst path List.length repeat turn_box]. destruct (Rlt_dec (rise energy b x) 0); [lra|]. rewrite I2. cbn [option_map]. split; [congruence|]. split; auto.
      split; [apply ProofLaw.in_box_cons; cbn; pose proof (Hd d); split; auto; lra|]. split; [lia|auto].
Qed.
Lemma agree_spins : forall q b, agree n q b -> spins n q.
Proof. intros q b [_ H] i Hi. rewrite H by auto. unfold spin. destruct (nth i b false); auto. Qed.
Variable sites : nat -> nat.
Hypothesis HS : forall k, (sites k < n)%nat.
Lemma temps_length : forall k l, List.length (proposal_temperatures k l) = (List.length l * k)%nat.
Proof. clear. induction l as [|T l IH]; cbn; auto. rewrite app_length, repeat_length. unfold proposal_temperatures in IH. rewrite IH. auto. Qed.
Lemma cooling_box : forall fuel target r ite T q s d EE q' s' d' EE' b, agree n (real_spins q) b ->
  cooling sites draws fuel n (fst (qi n Q)) (snd (qi n Q)) target r ite T q s d EE = Some (q', s', d', EE') ->
  let ts := proposal_temperatures ite (temperatures fuel target r T) in
  exists hs ivs, map fst hs = map sites (seq s (List.length ts)) /\ turn_box energy ts hs b = Some ivs /\ in_box ivs draws d /\
    s' = (s + List.length ts)%nat /\ d' = (d + List.length ivs)%nat /\ agree n (real_spins q') (path hs b).
Proof.
  induction fuel as [|fuel IH]; intros target r ite T q s d EE q' s' d' EE' b A H ts; cbn [cooling] in H; [discriminate|].
  subst ts. cbn [temperatures]. destruct (Rlt_dec target T) as [L|L].
  - destruct (proposals _ _ _ _ _ _ _) as [q1 d1] eqn:P.
    assert (Sq : spins n (real_spins q)) by (eapply agree_spins; eauto).
    apply ProofWq.proposals_sweep in P as [P1 P2]; auto; [|intros x I; apply in_map_iff in I as [k [<- _]]; apply HS].
    destruct (sweep_box _ _ _ _ _ _ P1 b A) as (hs & ivs & I1 & I2 & I3 & I4 & I5). rewrite map_length, seq_length in I2.
    destruct (IH _ _ _ _ _ _ _ _ _ _ _ _ _ I5 H) as (gs & jvs & J1 & J2 & J3 & J4 & J5 & J6). clear IH.
    exists (hs ++ gs), (ivs ++ jvs). unfold proposal_temperatures in *. cbn [flat_map]. set (us := flat_map _ _) in *.
    assert (Lh : List.length hs = ite) by (apply (f_equal (@List.length _)) in I1; rewrite !map_length, seq_length in I1; auto).
    rewrite app_length, repeat_length. split; [rewrite map_app, I1, J1, seq_app, map_app; auto|].
    split; [rewrite turn_box_app by (rewrite repeat_length; auto); rewrite I2, J2; auto|].
    split; [apply in_box_app; auto; rewrite <- I4; auto|]. split; [lia|]. split; [rewrite app_length; lia|]. rewrite path_app. auto.
  - inversion H. subst. exists [], []. cbn. split; auto. split; auto. split; [intros i Hi; cbn in Hi; lia|]. split; [lia|]. split; [lia|auto].
Qed.
Lemma bits_list : forall q b, agree n (real_spins q) b -> to_bits n q = bit_list b.
Proof.
  intros q b [L H]. unfold to_bits, bit_list. rewrite <- L in *. clear - H. apply nth_ext with 0%Z 0%Z; [rewrite !map_length, seq_length; auto|].
  intros i Hi. rewrite map_length, seq_length in Hi. rewrite (nth_indep _ 0%Z (Z.quot (q 0%nat + 1) 2)) by (rewrite map_length, seq_length; auto).
  rewrite (map_nth (fun i => Z.quot (q i + 1) 2)), seq_nth, Nat.add_0_l by auto.
  pose proof (map_nth (fun s : bool => if s then 1%Z else 0%Z) b false i) as M. cbv beta iota in M. rewrite M.
  specialize (H i Hi). unfold real_spins, spin in H. destruct (nth i b false).
  - replace 1 with (IZR 1) in H by auto. apply eq_IZR in H. rewrite H. auto.
  - apply eq_IZR in H. rewrite H. auto.
Qed.
Variable choices : nat -> bool.
Lemma start_agree : forall c, agree n (real_spins (fun i => if choices (c + i)%nat then 1%Z else (-1)%Z)) (start_spins choices n c).
Proof.
  intros c. unfold start_spins. split; [rewrite map_length, seq_length; auto|]. intros i Hi. unfold real_spins, spin.
  rewrite (nth_indep _ false (choices (c + 0)%nat)) by (rewrite map_length, seq_length; auto). rewrite (map_nth (fun i => choices (c + i)%nat)), seq_nth, Nat.add_0_l by auto.
  destruct (choices (c + i)%nat); auto.
Qed.
Lemma shots_runs : forall fuel start target r ite shots c s d l,
  shots_loop choices sites draws fuel n (fst (qi n Q)) (snd (qi n Q)) start target r ite shots c s d = Some l ->
  exists ps, runs n energy (proposal_temperatures ite (temperatures fuel target r start)) choices sites draws shots c s d ps /\
    map snd l = map (fun p => bit_list (run_answer p)) ps.
Proof.
  induction shots as [|m IH]; intros c s d l H; cbn [shots_loop] in H; [inversion H; exists []; split; [constructor|auto]|].
  set (q := fun i => if choices (c + i)%nat then 1%Z else (-1)%Z) in *. pose proof (start_agree c) as A. fold q in A.
  destruct (cooling _ _ _ _ _ _ _ _ _ _ _ _ _ _) as [[[[q' s'] d'] EE]|] eqn:K; [|discriminate].
  destruct (shots_loop _ _ _ _ _ _ _ _ _ _ _ _ _ _ _) as [r'|] eqn:R'; [|discriminate]. inversion H. subst l.
  destruct (cooling_box _ _ _ _ _ _ _ _ _ _ _ _ _ _ A K) as (hs & ivs & I1 & I2 & I3 & I4 & I5 & I6).
  destruct (IH _ _ _ _ R') as (ps & P1 & P2). exists ((start_spins choices n c, hs) :: ps). split.
  - subst s' d'. eapply runs_shot; eauto.
  - cbn [map snd]. rewrite P2, (bits_list q' (path hs (start_spins choices n c))) by auto. reflexivity.
Qed.
End Code.
Definition answers (o : ModelWq.outcome) : list (list Z) := match o with ModelWq.Single _ b => [b] | ModelWq.Several _ bs => bs end.
Lemma opt_run_runs : forall choices sites draws fuel n Q Ts r ite shots fast target o, (forall k, (sites k < n)%nat) -> draws_ok draws ->
  opt_run choices sites draws fuel n Q Ts r ite shots fast target = Some o ->
  let ts := proposal_temperatures (if fast then 100%nat else ite) (temperatures fuel target (if fast then 3 / 4 else r) Ts) in
  exists ps, runs n (fun b => objective n Q (spin b)) ts choices sites draws shots 0 0 0 ps /\
    match o with Single _ b => [b] | Several _ bs => bs end = map (fun p => bit_list (run_answer p)) ps /\
    forall ps', runs n (fun b => objective n Q (spin b)) ts choices sites draws shots 0 0 0 ps' -> ps' = ps.
Proof.
  intros choices sites draws fuel n Q Ts r ite shots fast target o HS Hd H ts. unfold opt_run in H. destruct (qi n Q) as [J ep] eqn:E.
  replace J with (fst (qi n Q)) in H by (rewrite E; auto). replace ep with (snd (qi n Q)) in H by (rewrite E; auto).
  destruct (shots_loop _ _ _ _ _ _ _ _ _ _ _ _ _ _ _) as [l|] eqn:L; [|discriminate]. apply shots_runs in L as (ps & P1 & P2); auto. exists ps. split; [exact P1|]. split.
  - rewrite <- P2. destruct l as [|[E1 b] [|]]; inversion H; subst; auto.
  - intros ps' R. symmetry. eapply runs_unique; eauto.
Qed.

(** ** The law of the answers *)
Lemma temps_positive : forall fuel target r T k, 0 <= target -> Forall (fun t => 0 < t) (proposal_temperatures k (temperatures fuel target r T)).
Proof.
  induction fuel as [|fuel IH]; intros target r T k H; cbn [temperatures]; [constructor|]. destruct (Rlt_dec target T) as [L|L]; [|constructor].
  unfold proposal_temperatures. cbn [flat_map]. apply Forall_app. split; [|apply IH; auto]. apply Forall_forall. intros t I. apply repeat_spec in I. lra.
Qed.
Lemma start_in : forall choices n c, In (start_spins choices n c) (values n).
Proof. intros. apply values_spec. unfold start_spins. rewrite map_length, seq_length. auto. Qed.
Lemma answer_law : forall n E ts c, Forall (fun T => 0 < T) ts ->
  answer_chance n E ts c = Rsum (fun p => run_weight n E ts p * is (run_answer p) c) (all_runs n (List.length ts)).
Proof.
  intros n E ts c F. unfold answer_chance, all_runs. rewrite Rsum_prod. apply Rsum_ext. intros b I. rewrite history_law by auto. rewrite <- Rsum_mul_l.
  apply Rsum_ext. intros hs _. unfold run_weight, run_answer. cbn [fst snd]. ring.
Qed.
Lemma same_cons : forall p l c cs, same_answers (p :: l) (c :: cs) = is (run_answer p) c * same_answers l cs.
Proof.
  intros. unfold same_answers, is. cbn [map]. destruct (list_eq_dec (list_eq_dec bool_dec) (run_answer p :: map run_answer l) (c :: cs)) as [e|e].
  - injection e as -> ->. destruct (list_eq_dec bool_dec c c); [|congruence]. destruct (list_eq_dec (list_eq_dec bool_dec) cs cs); [ring|congruence].
  - destruct (list_eq_dec bool_dec (run_answer p) c); [|ring]. destruct (list_eq_dec (list_eq_dec bool_dec) (map run_answer l) cs); [exfalso; congruence|ring].
Qed.
Lemma answers_law : forall n E ts cs, Forall (fun T => 0 < T) ts ->
  Rsum (fun l => runs_weight n E ts l * same_answers l cs) (sequences (List.length cs) (all_runs n (List.length ts))) = fold_right (fun c v => answer_chance n E ts c * v) 1 cs.
Proof.
  intros n E ts cs F. induction cs as [|c cs IH]; cbn [List.length sequences fold_right].
  - cbn. unfold same_answers. cbn. ring.
  - rewrite Rsum_flat_map, answer_law, <- IH, <- Rsum_mul_r by auto. apply Rsum_ext. intros p _. rewrite Rsum_map, <- Rsum_mul_l. apply Rsum_ext. intros l _.
    rewrite same_cons. cbn [runs_weight fold_right]. unfold runs_weight. ring.
Qed.
Lemma answer_total : forall n E ts, (0 < n)%nat -> Rsum (answer_chance n E ts) (values n) = 1.
Proof.
  intros n E ts Hn. unfold answer_chance. rewrite Rsum_swap. rewrite (Rsum_ext _ _ (fun _ => / 2 ^ n)).
  - rewrite Rsum_const, sum_values_len, pow_INR. replace (INR 2) with 2 by (simpl; lra). apply Rinv_r. apply pow_nonzero. lra.
  - intros b I. rewrite Rsum_mul_l, moves_total by auto. ring.
Qed.
