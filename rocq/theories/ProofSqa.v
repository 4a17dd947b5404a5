(** Proofs: the runs of quantum annealing follow a Markov chain *)
From Coq Require Import List Arith ZArith Bool Reals Lia Lra.
Import ListNotations.
From Verif Require Import Base Cplx Bits SpecQuantum SpecMeasure SpecLaw SpecWq SpecOpt SpecAnneal SpecSqa ModelWq ModelOpt ProofLawStat ProofAnneal ProofAnnealConv ProofAnnealRun ProofAnnealLimit.
From Verif Require ProofWq ProofOpt ProofLaw.
Local Open Scope R_scope.

(** ** Chains whose energy changes *)
Lemma phase_weight_cons : forall m E T fs x a hs b, 0 < T ->
  phase_weight m ((E, T) :: fs) ((x, a) :: hs) b = / INR m * fac E T b x a * phase_weight m fs hs (if a then flip_spin b x else b).
Proof.
  intros m E T fs x a hs b HT. unfold phase_weight. cbn [phase_box List.length pow]. unfold fac, accept.
  destruct (Rlt_dec (rise E b x) 0) as [L|L].
  - assert (H : 1 < exp (- rise E b x / T)).
    { rewrite <- exp_0. apply exp_increasing. apply Rdiv_lt_0_compat; lra. }
    rewrite Rmin_left by lra. destruct a; ring.
  - assert (H : exp (- rise E b x / T) <= 1).
    { rewrite <- exp_0. destruct (Req_dec (rise E b x) 0) as [Z|Z]; [rewrite Z; right; f_equal; field; lra|].
      left. apply exp_increasing. unfold Rdiv. apply Ropp_lt_cancel. rewrite Ropp_0, <- Ropp_mult_distr_l, Ropp_involutive. apply Rdiv_lt_0_compat; lra. }
    rewrite Rmin_right by lra. destruct a; destruct (phase_box fs hs _) as [ivs|]; cbn [option_map]; unfold box_volume; cbn [fold_right fst snd]; ring.
Qed.
Lemma phase_law : forall m fs b c, Forall (fun f => 0 < snd f) fs -> In b (values m) ->
  phase_moves m fs b c = Rsum (fun hs => phase_weight m fs hs b * is (path hs b) c) (histories m (List.length fs)).
Proof.
  intros m fs b c F. revert b. induction F as [|[E T] fs HT F IH]; intros b I.
  - cbn. unfold phase_weight. cbn. ring.
  - cbn [phase_moves snd] in *. rewrite move_sum by auto. unfold histories. cbn [List.length sequences]. rewrite Rsum_flat_map, Rsum_prod. apply Rsum_ext. intros x _.
    cbn [Rsum]. rewrite !Rsum_map, Rplus_0_r, Rmult_plus_distr_l, !IH by (auto; apply flip_values; auto). fold (histories m (List.length fs)).
    rewrite <- !Rsum_mul_l. f_equal; apply Rsum_ext; intros hs _; rewrite phase_weight_cons by auto; cbn [path]; unfold fac; ring.
Qed.
Lemma phase_nonneg : forall m fs b c, (0 < m)%nat -> 0 <= phase_moves m fs b c.
Proof. intros m fs b c H. revert b. induction fs as [|[E T] fs IH]; intros; cbn [phase_moves]; [apply is_range|]. apply Rsum_nonneg. intros. apply Rmult_le_pos; [apply move_nonneg; auto|apply IH]. Qed.
Lemma phase_total : forall m fs b, (0 < m)%nat -> In b (values m) -> Rsum (phase_moves m fs b) (values m) = 1.
Proof.
  intros m fs b H. revert b. induction fs as [|[E T] fs IH]; intros b I; cbn [phase_moves].
  - rewrite (Rsum_ext _ _ (fun c => is b c * 1)) by (intros; ring). apply (sum_is m b (fun _ => 1) I).
  - rewrite Rsum_swap. rewrite (Rsum_ext _ _ (fun d => move m E T b d)); [apply move_total; auto|]. intros d Id. rewrite Rsum_mul_l, IH by auto. ring.
Qed.
Lemma phase_app : forall m fs gs b c, In b (values m) -> phase_moves m (fs ++ gs) b c = Rsum (fun d => phase_moves m fs b d * phase_moves m gs d c) (values m).
Proof.
  intros m fs gs. induction fs as [|[E T] fs IH]; intros b c I; cbn [phase_moves app].
  - symmetry. apply (sum_is m b (fun d => phase_moves m gs d c) I).
  - transitivity (Rsum (fun d => Rsum (fun e => move m E T b d * phase_moves m fs d e * phase_moves m gs e c) (values m)) (values m)).
    + apply Rsum_ext. intros d Id. rewrite IH by auto. rewrite <- Rsum_mul_l. apply Rsum_ext. intros; ring.
    + rewrite Rsum_swap. apply Rsum_ext. intros e _. rewrite <- Rsum_mul_r. reflexivity.
Qed.
Lemma phase_constant : forall m E T k b c, phase_moves m (repeat (E, T) k) b c = moves m E (repeat T k) b c.
Proof. intros m E T. induction k as [|k IH]; intros; cbn [repeat phase_moves moves]; auto. apply Rsum_ext. intros. rewrite IH. auto. Qed.
Lemma phase_history_total : forall m fs b, (0 < m)%nat -> Forall (fun f => 0 < snd f) fs -> In b (values m) ->
  Rsum (fun hs => phase_weight m fs hs b) (histories m (List.length fs)) = 1.
Proof.
  intros m fs b Hm F I. rewrite <- (phase_total m fs b Hm I). rewrite (Rsum_ext _ _ (fun c => Rsum (fun hs => is (path hs b) c * phase_weight m fs hs b) (histories m (List.length fs)))).
  2:{ intros c _. rewrite phase_law by auto. apply Rsum_ext. intros; ring. }
  rewrite Rsum_swap. apply Rsum_ext. intros hs _. symmetry. apply (sum_is m (path hs b) (fun _ => phase_weight m fs hs b)).
  clear - I. revert b I. induction hs as [|[x a] hs IH]; intros b I; cbn; auto. apply IH. destruct a; auto. apply flip_values; auto.
Qed.
Lemma chance_total : forall m fs, (0 < m)%nat -> Rsum (phase_chance m fs) (values m) = 1.
Proof.
  intros m fs Hm. unfold phase_chance. rewrite Rsum_swap. rewrite (Rsum_ext _ _ (fun _ => / 2 ^ m)).
  - rewrite Rsum_const, sum_values_len, pow_INR. replace (INR 2) with 2 by (simpl; lra). apply Rinv_r. apply pow_nonzero. lra.
  - intros b I. rewrite Rsum_mul_l, phase_total by auto. ring.
Qed.
Lemma phase_box_app : forall fs us hs gs b, List.length hs = List.length fs ->
  phase_box (fs ++ us) (hs ++ gs) b =
  match phase_box fs hs b with Some ivs => match phase_box us gs (path hs b) with Some jvs => Some (ivs ++ jvs) | None => None end | None => None end.
Proof.
  induction fs as [|[E T] fs IH]; intros us [|[x a] hs] gs b L; try discriminate; cbn [app phase_box path].
  - destruct (phase_box us gs b); auto.
  - injection L as L. destruct (Rlt_dec (rise E b x) 0) as [G|G].
    + destruct a; auto.
    + rewrite IH by auto. destruct (phase_box fs hs _); cbn; auto. destruct (phase_box us gs _); auto.
Qed.
Lemma phase_unique : forall draws fs hs hs' b d ivs ivs', List.length hs = List.length fs -> map fst hs = map fst hs' ->
  phase_box fs hs b = Some ivs -> in_box ivs draws d -> phase_box fs hs' b = Some ivs' -> in_box ivs' draws d -> hs = hs' /\ ivs = ivs'.
Proof.
  induction fs as [|[E T] fs IH]; intros [|[x a] hs] [|[x' a'] hs'] b d ivs ivs' L M A B A' B'; try discriminate.
  - cbn in A, A'. split; congruence.
  - cbn in L, M. injection L as L. injection M as <- M. cbn [phase_box] in A, A'. destruct (Rlt_dec (rise E b x) 0) as [G|G].
    + destruct a, a'; try discriminate. destruct (IH _ _ _ _ _ _ L M A B A' B') as [-> ->]. auto.
    + destruct (phase_box fs hs _) as [r|] eqn:R; [|discriminate]. destruct (phase_box fs hs' _) as [r'|] eqn:R'; [|discriminate].
      cbn in A, A'. injection A as <-. injection A' as <-. apply ProofLaw.in_box_cons in B as [B1 B2]. apply ProofLaw.in_box_cons in B' as [B1' B2'].
      assert (a = a') by (destruct a, a'; auto; cbn in B1, B1'; lra). subst a'.
      destruct (IH _ _ _ _ _ _ L M R B2 R' B2') as [-> ->]. auto.
Qed.

(** ** The code *)
Definition agree_at (n P : nat) (q : nat -> nat -> R) (b : list bool) : Prop := List.length b = (P * n)%nat /\ forall p i, (p < P)%nat -> (i < n)%nat -> q p i = slice_spin n b p i.
Lemma place_eq : forall n p i y x, (i < n)%nat -> (x < n)%nat -> (p * n + i =? y * n + x)%nat = ((p =? y) && (i =? x))%nat.
Proof.
  intros n p i y x Hi Hx. destruct (Nat.eqb_spec p y) as [->|N]; cbn.
  - destruct (Nat.eqb_spec i x); destruct (Nat.eqb_spec (y * n + i) (y * n + x)); auto; lia.
  - destruct (Nat.eqb_spec (p * n + i) (y * n + x)); auto. exfalso. apply N.
    apply (f_equal (fun z => z / n)%nat) in e. rewrite !Nat.div_add_l, !Nat.div_small in e by lia. lia.
Qed.
Lemma place_lt : forall n P p i, (p < P)%nat -> (i < n)%nat -> (p * n + i < P * n)%nat.
Proof. intros. nia. Qed.
Section Code.
Variables (n P : nat) (Q : nat -> nat -> R) (T : R).
Notation EE := (slices_energy n P (objective n Q) T).
Lemma objective_ext : forall q q', (forall i, (i < n)%nat -> q i = q' i) -> objective n Q q = objective n Q q'.
Proof.
  intros q q' H. unfold objective, qubo_energy, total. apply Rsum_ext. intros i Hi. apply in_seq in Hi. apply Rsum_ext. intros j Hj. apply in_seq in Hj.
  rewrite !H by lia. reflexivity.
Qed.
Lemma next_lt : forall p, (p < P)%nat -> (next P p < P)%nat.
Proof. intros p H. unfold next. destruct (Nat.eqb_spec (S p) P); lia. Qed.
Lemma agree_at_energy : forall G q b, agree_at n P q b -> path_energy n P (objective n Q) T G q = EE G b.
Proof.
  intros G q b [_ H]. unfold slices_energy, path_energy, mean, agreement, total. f_equal.
  - f_equal. apply Rsum_ext. intros p Hp. apply in_seq in Hp. apply objective_ext. intros i Hi. apply H; lia.
  - f_equal. apply Rsum_ext. intros p Hp. apply in_seq in Hp. apply Rsum_ext. intros i Hi. apply in_seq in Hi. rewrite !H by (try lia; apply next_lt; lia). reflexivity.
Qed.
Lemma agree_at_flip : forall q b y x, (y < P)%nat -> (x < n)%nat -> agree_at n P q b -> agree_at n P (flipped_at q y x) (flip_spin b (y * n + x)).
Proof.
  intros q b y x Hy Hx [L H]. split; [rewrite flip_length; auto|]. intros p i Hp Hi. unfold flipped_at, slice_spin, spin.
  rewrite flip_nth by (rewrite L; apply place_lt; auto). rewrite place_eq by auto. rewrite H by auto. unfold slice_spin, spin.
  destruct ((p =? y) && (i =? x))%nat; auto. destruct (nth _ b false); cbn; lra.
Qed.
Lemma agree_at_rise : forall G q b y x, (y < P)%nat -> (x < n)%nat -> agree_at n P q b ->
  difference_at (path_energy n P (objective n Q) T) G q y x = rise (EE G) b (y * n + x).
Proof. intros G q b y x Hy Hx H. unfold difference_at, rise. rewrite (agree_at_energy G q b H), (agree_at_energy _ _ _ (agree_at_flip q b y x Hy Hx H)). reflexivity. Qed.
Variables (draws : nat -> R) (sites slots : nat -> nat).
Hypothesis Hd : draws_ok draws.
Definition places : nat -> nat := fun k => (slots k * n + sites k)%nat.
Lemma sweep_at_box : forall G k q s d q' d', sweep_at n P (path_energy n P (objective n Q) T) draws sites slots T G k q s d q' d' -> forall b, agree_at n P q b ->
  exists hs ivs, map fst hs = map places (seq s k) /\ phase_box (repeat (EE G, T) k) hs b = Some ivs /\ in_box ivs draws d /\ d' = (d + List.length ivs)%nat /\ agree_at n P q' (path hs b).
Proof.
  induction 1 as [q s d|k q s d q1 d1 q2 d2 Hx Hy W' W IH]; intros b A.
  - exists [], []. cbn. split; auto. split; auto. split; [intros i L; cbn in L; lia|]. split; [lia|auto].
  - destruct W' as [D|D D'|D D']; rewrite (agree_at_rise G q b _ _ Hy Hx A) in D; try rewrite (agree_at_rise G q b _ _ Hy Hx A) in D'.
    + destruct (IH _ (agree_at_flip q b _ _ Hy Hx A)) as (hs & ivs & I1 & I2 & I3 & I4 & I5). exists ((places s, true) :: hs), ivs. cbn [map fst path List.length repeat phase_box seq].
      fold (places s) in *. destruct (Rlt_dec (rise (EE G) b (places s)) 0); [|lra]. split; [congruence|]. auto.
    + destruct (IH _ (agree_at_flip q b _ _ Hy Hx A)) as (hs & ivs & I1 & I2 & I3 & I4 & I5).
      exists ((places s, true) :: hs), ((0, exp (- rise (EE G) b (slots s * n + sites s) / T)) :: ivs).
      cbn [map fst path List.length repeat phase_box seq]. fold (places s) in *. destruct (Rlt_dec (rise (EE G) b (places s)) 0); [lra|]. rewrite I2. cbn [option_map]. split; [congruence|]. split; auto.
      split; [apply ProofLaw.in_box_cons; cbn; pose proof (Hd d); split; auto; lra|]. split; [lia|auto].
    + destruct (IH _ A) as (hs & ivs & I1 & I2 & I3 & I4 & I5). exists ((places s, false) :: hs), ((exp (- rise (EE G) b (slots s * n + sites s) / T), 1) :: ivs).
      cbn [map fst path List.length repeat phase_box seq]. fold (places s) in *. destruct (Rlt_dec (rise (EE G) b (places s)) 0); [lra|]. rewrite I2. cbn [option_map]. split; [congruence|]. split; auto.
      split; [apply ProofLaw.in_box_cons; cbn; pose proof (Hd d); split; auto; lra|]. split; [lia|auto].
Qed.
Hypothesis HS : forall k, (sites k < n)%nat.
Hypothesis HL : forall k, (slots k < P)%nat.
Hypothesis HP : (2 <= P)%nat.
Hypothesis HT : 0 < T.
Lemma agree_at_spins : forall q b, agree_at n P q b -> all_spins n P q.
Proof. intros q b [_ H] p Hp i Hi. rewrite H by auto. unfold slice_spin, spin. destruct (nth _ b false); auto. Qed.
Lemma sqa_loop_box : forall fuel target r ite G q s d Es ans Es' b, 0 <= target -> agree_at n P (real_slices q) b ->
  sqa_loop sites slots draws fuel n (reJ (fst (qi n Q))) (snd (qi n Q)) T P target r ite G q s d Es = Some (ans, Es') ->
  let fs := field_phases n P (objective n Q) T ite (temperatures fuel target r G) in
  exists q' hs ivs, ans = Ok q' /\ map fst hs = map places (seq s (List.length fs)) /\ phase_box fs hs b = Some ivs /\ in_box ivs draws d /\ agree_at n P (real_slices q') (path hs b).
Proof.
  induction fuel as [|fuel IH]; intros target r ite G q s d Es ans Es' b Ht A H fs; cbn [sqa_loop] in H; [discriminate|].
  subst fs. cbn [temperatures]. destruct (Rlt_dec target G) as [L|L].
  - destruct (ProofOpt.sqa_proposals_ok sites slots draws n P T HS HP ite (reJ (fst (qi n Q))) G q s d) as [[[q1 s1] d1] X].
    rewrite X in H. assert (Sq : all_spins n P (real_slices q)) by (eapply agree_at_spins; eauto).
    apply ProofOpt.sqa_proposals_sweep in X as [W1 [W2 W3]]; try lra; auto. subst s1.
    destruct (sweep_at_box _ _ _ _ _ _ _ W1 b A) as (hs & ivs & I1 & I2 & I3 & I4 & I5).
    destruct (IH _ _ _ _ _ _ _ _ _ _ _ Ht I5 H) as (q' & gs & jvs & J0 & J1 & J2 & J3 & J4). clear IH.
    exists q', (hs ++ gs), (ivs ++ jvs). unfold field_phases in *. cbn [flat_map]. set (us := flat_map _ _) in *.
    assert (Lh : List.length hs = ite) by (apply (f_equal (@List.length _)) in I1; rewrite !map_length, seq_length in I1; auto). split; auto.
    rewrite app_length, repeat_length. split; [rewrite map_app, I1, J1, seq_app, map_app; auto|].
    split; [rewrite phase_box_app by (rewrite repeat_length; auto); rewrite I2, J2; auto|].
    split; [apply in_box_app; auto; rewrite <- I4; auto|]. rewrite path_app. auto.
  - inversion H. subst. exists q, [], []. cbn. split; auto. split; auto. split; auto. split; [intros i Hi; cbn in Hi; lia|auto].
Qed.
Lemma start_agree_at : forall choices : nat -> bool, agree_at n P (real_slices (fun p i => if choices (p * n + i)%nat then 1%Z else (-1)%Z)) (start_spins choices (P * n) 0).
Proof.
  intros choices. unfold start_spins. split; [rewrite map_length, seq_length; auto|]. intros p i Hp Hi. unfold real_slices, slice_spin, spin.
  pose proof (place_lt n P p i Hp Hi). rewrite (nth_indep _ false (choices (0 + 0)%nat)) by (rewrite map_length, seq_length; auto).
  rewrite (map_nth (fun i => choices (0 + i)%nat)), seq_nth, !Nat.add_0_l by auto. destruct (choices _); auto.
Qed.
End Code.
Lemma sqa_runs : forall choices sites slots draws fuel o Gs Gf T r tro ite ans o', let n := attr_size (o_qubo o) in let Q := attr_mat (o_qubo o) in
  is_not_empty_list (o_qubo o) = true -> (forall k, (sites k < n)%nat) -> (forall k, (slots k < tro)%nat) -> (2 <= tro)%nat -> 0 < T -> 0 <= Gf -> draws_ok draws ->
  opt_sqa choices sites slots draws o fuel Gs Gf T r tro ite = Some (ans, o') ->
  let fs := field_phases n tro (objective n Q) T ite (temperatures fuel Gf r Gs) in
  exists q hs ivs, ans = Ok q /\ map fst hs = map (fun k => slots k * n + sites k)%nat (seq 0 (List.length fs)) /\
    phase_box fs hs (start_spins choices (tro * n) 0) = Some ivs /\ in_box ivs draws 0 /\
    (forall p i, (p < tro)%nat -> (i < n)%nat -> IZR (q p i) = slice_spin n (path hs (start_spins choices (tro * n) 0)) p i) /\
    (forall hs' ivs', map fst hs' = map (fun k => slots k * n + sites k)%nat (seq 0 (List.length fs)) ->
       phase_box fs hs' (start_spins choices (tro * n) 0) = Some ivs' -> in_box ivs' draws 0 -> hs' = hs).
Proof.
  intros choices sites slots draws fuel o Gs Gf T r tro ite ans o' n Q HQ HS HL HP HT HF Hd H fs. unfold opt_sqa in H. rewrite ProofOpt.prepare_qubo in H by auto.
  fold n Q in H. cbn [o_J o_ep o_size o_E] in H.
  destruct (sqa_loop _ _ _ _ _ _ _ _ _ _ _ _ _ _ _ _ _) as [[a E']|] eqn:L; [|discriminate]. inversion H. subst a o'.
  apply (sqa_loop_box n tro Q T draws sites slots Hd HS HL HP HT) with (b := start_spins choices (tro * n) 0) in L; [|exact HF|apply start_agree_at].
  destruct L as (q & hs & ivs & A1 & A2 & A3 & A4 & A5).
  exists q, hs, ivs. fold fs in A2, A3. split; auto. split; auto. split; auto. split; auto. split; [apply A5|].
  intros hs' ivs' B1 B2 B3. apply (phase_unique draws fs hs' hs (start_spins choices (tro * n) 0) 0%nat ivs' ivs); auto; [|unfold places in A2; congruence].
  apply (f_equal (@List.length _)) in B1. rewrite !map_length, seq_length in B1. auto.
Qed.
Lemma phases_positive : forall n P energy T k Gs, 0 < T -> Forall (fun f => 0 < snd f) (field_phases n P energy T k Gs).
Proof.
  intros n P energy T k Gs HT. unfold field_phases. apply Forall_forall. intros f I. apply in_flat_map in I as (G & _ & I). apply repeat_spec in I. subst f. auto.
Qed.

(** ** The limit *)
Section Limit.
Variables (n P : nat) (Q : nat -> nat -> R) (T : R).
Hypothesis Hn : (0 < n)%nat.
Hypothesis HP : (2 <= P)%nat.
Hypothesis HT : 0 < T.
Notation EE := (slices_energy n P (objective n Q) T).
Lemma size_pos : (0 < P * n)%nat. Proof. clear - Hn HP. nia. Qed.
(** a field always matters *)
Lemma field_varies : forall G, 0 < G -> exists b x, In b (values (P * n)) /\ (x < P * n)%nat /\ rise (EE G) b x <> 0.
Proof.
  intros G HG. assert (HP0 : (0 < P)%nat) by lia. pose proof (ProofOpt.bond_pos T P G HT HP0 HG) as HB.
  assert (C : forall f : nat -> bool, let b := map (fun j => f (j mod n)%nat) (seq 0 (P * n)) in In b (values (P * n)) /\ agree_at n P (fun _ i => if f i then 1 else -1) b).
  { intros f b. assert (L : List.length b = (P * n)%nat) by (unfold b; rewrite map_length, seq_length; auto). split; [apply values_spec; auto|]. split; auto.
    intros p i Hp Hi. unfold slice_spin, spin, b. pose proof (place_lt n P p i Hp Hi).
    rewrite (nth_indep _ false (f (0 mod n)%nat)) by (rewrite map_length, seq_length; auto). rewrite (map_nth (fun j => f (j mod n)%nat)), seq_nth, Nat.add_0_l by auto.
    rewrite Nat.add_comm, Nat.mod_add, Nat.mod_small by lia. auto. }
  assert (D : forall f : nat -> bool, rise (EE G) (map (fun j => f (j mod n)%nat) (seq 0 (P * n))) 0 =
    (objective n Q (flipped (fun i => if f i then 1 else -1) 0) - objective n Q (fun i => if f i then 1 else -1)) / INR P + 4 * bond T P G).
  { intros f. destruct (C f) as [_ A]. pose proof (agree_at_rise n P Q T G _ _ 0%nat 0%nat HP0 Hn A) as R. rewrite Nat.mul_0_l, Nat.add_0_l in R. rewrite <- R.
    unfold difference_at, path_energy. pose proof (ProofOpt.agreement_flip n P (fun _ i => if f i then 1 else -1) 0 0 HP HP0 Hn) as AF.
    pose proof (ProofOpt.mean_flip P (objective n Q) (fun _ i => if f i then 1 else -1) 0 0 HP0) as MF. cbv beta in AF, MF. rewrite <- MF.
    replace ((if f 0%nat then 1 else -1) * ((if f 0%nat then 1 else -1) + (if f 0%nat then 1 else -1))) with 2 in AF by (destruct (f 0%nat); lra).
    match type of AF with ?x - ?y = _ => assert (AE : x = y - 4) by lra; rewrite AE end. ring. }
  set (f := fun i : nat => negb (i =? 0)%nat). set (g := fun _ : nat => true).
  destruct (Req_dec (rise (EE G) (map (fun j => g (j mod n)%nat) (seq 0 (P * n))) 0) 0) as [Z|Z].
  - exists (map (fun j => f (j mod n)%nat) (seq 0 (P * n))), 0%nat. split; [apply C|]. split; [apply size_pos|]. rewrite D in *.
    assert (F1 : objective n Q (flipped (fun i => if f i then 1 else -1) 0) = objective n Q (fun i => if g i then 1 else -1)).
    { apply objective_ext. intros i _. unfold flipped, f, g. destruct (i =? 0)%nat; cbn; lra. }
    assert (F2 : objective n Q (flipped (fun i => if g i then 1 else -1) 0) = objective n Q (fun i => if f i then 1 else -1)).
    { apply objective_ext. intros i _. unfold flipped, f, g. destruct (i =? 0)%nat; cbn; lra. }
    rewrite F1. rewrite F2 in Z. intros Z'. unfold Rdiv in *. assert (8 * bond T P G = 0); [|lra].
    rewrite <- (Rplus_0_l 0). rewrite <- Z at 1. rewrite <- Z'. ring.
  - eexists _, 0%nat. split; [apply (C g)|]. split; [apply size_pos|exact Z].
Qed.
Lemma last_field : forall l G eps, 0 < G -> 0 < eps -> exists k0, forall k, (k0 <= k)%nat -> forall c, In c (values (P * n)) ->
  Rabs (phase_chance (P * n) (field_phases n P (objective n Q) T k (l ++ [G])) c - boltzmann (P * n) (EE G) T c) < eps.
Proof.
  intros l G eps HG He. pose proof size_pos as Hm. set (m := (P * n)%nat) in *. set (V := values m).
  destruct (converges m (EE G) T Hm HT (field_varies G HG) (eps / 2)) as [k0 K]; [lra|]. exists k0. intros k Hk c Ic. specialize (K k Hk).
  assert (W : Rsum (fun _ : list bool => / 2 ^ m) V = 1).
  { unfold V. rewrite Rsum_const, sum_values_len, pow_INR. replace (INR 2) with 2 by (simpl; lra). apply Rinv_r. apply pow_nonzero. lra. }
  assert (P2 : 0 < / 2 ^ m) by (apply Rinv_0_lt_compat, pow_lt; lra). set (fs := field_phases n P (objective n Q) T k l). set (B := boltzmann m (EE G) T c).
  replace (phase_chance m (field_phases n P (objective n Q) T k (l ++ [G])) c - B) with
    (Rsum (fun b => / 2 ^ m * Rsum (fun d => phase_moves m fs b d * (moves m (EE G) (repeat T k) d c - B)) V) V).
  - apply Rle_lt_trans with (eps / 2); [|lra]. apply Rle_trans with (1 := Rsum_abs _ _ _).
    apply Rle_trans with (Rsum (fun _ => / 2 ^ m * (eps / 2)) V); [|rewrite Rsum_mul_r, W; lra].
    apply Rsum_below. intros b Ib. rewrite Rabs_mult, (Rabs_pos_eq (/ 2 ^ m)) by lra. apply Rmult_le_compat_l; [lra|].
    apply Rle_trans with (1 := Rsum_abs _ _ _). apply Rle_trans with (Rsum (fun d => phase_moves m fs b d * (eps / 2)) V).
    + apply Rsum_below. intros d Id. rewrite Rabs_mult. rewrite (Rabs_pos_eq (phase_moves _ _ _ _)) by (apply phase_nonneg; auto). apply Rmult_le_compat_l; [apply phase_nonneg; auto|].
      left. apply K; auto.
    + rewrite Rsum_mul_r. unfold V. rewrite phase_total by auto. lra.
  - transitivity (Rsum (fun b => / 2 ^ m * phase_moves m (field_phases n P (objective n Q) T k (l ++ [G])) b c + / 2 ^ m * (- B)) V).
    + apply Rsum_ext. intros b Ib. unfold field_phases. rewrite flat_map_app. cbn [flat_map]. rewrite app_nil_r. change (flat_map _ l) with fs. rewrite phase_app by auto. fold V.
      rewrite (Rsum_ext _ _ (fun d => phase_moves m fs b d * phase_moves m (repeat (EE G, T) k) d c + phase_moves m fs b d * (- B))) by (intros; rewrite phase_constant; ring).
      rewrite Rsum_add, Rsum_mul_r. unfold V. rewrite phase_total by auto. ring.
    + rewrite Rsum_add, Rsum_mul_r, W. unfold phase_chance. fold V. ring.
Qed.
End Limit.
