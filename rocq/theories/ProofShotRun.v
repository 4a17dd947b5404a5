(** Proofs: get_energy with the measurement sampler is the estimate from the shots *)
From Coq Require Import List Arith ZArith Bool String Permutation Reals Lia Lra.
Import ListNotations.
From Verif Require Import Base Cplx Bits ModelTargets ModelGate ModelNumpy ModelNumba ModelCircuit ModelPauli ModelVqe
  SpecTargets SpecQuantum SpecCircuit SpecMeasure SpecRun SpecAPI SpecPauli SpecLaw SpecVqe SpecShots
  ProofTargets ProofArray ProofRun ProofUnitary ProofMeasure ProofBorn ProofWhole ProofLaw ProofLawStat ProofNumbaProps ProofAPI ProofProgram ProofReach ProofVqe ProofVqeRun ProofVqeSample
  ProofEvolution ProofShotLaw.
Local Open Scope R_scope.

Lemma list_same : forall (A : Type) (a b : list A), (forall i, nth_error a i = nth_error b i) -> a = b.
Proof.
  induction a as [|x a IH]; intros [|y b] H; [reflexivity|specialize (H 0%nat); discriminate|specialize (H 0%nat); discriminate|].
  pose proof (H 0%nat) as H0. simpl in H0. injection H0 as ->. f_equal. apply IH. intros i. apply (H (S i)).
Qed.

(** ** Counters *)
Lemma lookup_cons : forall k x c k', ProofBorn.lookup ((k, x) :: c) k' = if list_eq_dec Nat.eq_dec k k' then x else ProofBorn.lookup c k'.
Proof. intros. unfold ProofBorn.lookup. simpl. destruct (list_eq_dec Nat.eq_dec k k'); reflexivity. Qed.
Lemma lookup_absent : forall c k, ~ In k (map fst c) -> ProofBorn.lookup c k = 0%nat.
Proof.
  induction c as [|[a x] c IH]; intros k H; [reflexivity|]. rewrite lookup_cons. destruct (list_eq_dec Nat.eq_dec a k) as [->|]; [destruct H; left; reflexivity|]. apply IH. intros I. apply H. right. exact I.
Qed.
Lemma count_filter : forall (l : list (list nat)) k k', count_occ (list_eq_dec Nat.eq_dec) (filter (fun y => if list_eq_dec Nat.eq_dec y k then false else true) l) k' =
  if list_eq_dec Nat.eq_dec k k' then 0%nat else count_occ (list_eq_dec Nat.eq_dec) l k'.
Proof.
  induction l as [|y l IH]; intros k k'; simpl; [destruct (list_eq_dec Nat.eq_dec k k'); reflexivity|]. specialize (IH k k').
  destruct (list_eq_dec Nat.eq_dec y k) as [->|N]; simpl; rewrite IH; destruct (list_eq_dec Nat.eq_dec k k') as [->|N']; try reflexivity.
  destruct (list_eq_dec Nat.eq_dec y k'); [congruence|reflexivity].
Qed.
Lemma sum_filter : forall (g : list nat -> R) (l : list (list nat)) k,
  Rsum g l = g k * INR (count_occ (list_eq_dec Nat.eq_dec) l k) + Rsum g (filter (fun y => if list_eq_dec Nat.eq_dec y k then false else true) l).
Proof.
  intros g l k. induction l as [|y l IH]; [simpl; ring|]. cbn [Rsum count_occ filter]. destruct (list_eq_dec Nat.eq_dec y k) as [->|N]; [rewrite S_INR|cbn [Rsum]]; rewrite IH; ring.
Qed.
Lemma counter_sum : forall (g : list nat -> R) c l, NoDup (map fst c) -> (forall k, ProofBorn.lookup c k = count_occ (list_eq_dec Nat.eq_dec) l k) ->
  Rsum (fun kv => g (fst kv) * INR (snd kv)) c = Rsum g l.
Proof.
  intros g c. induction c as [|[k x] c IH]; intros l N H.
  - destruct l as [|y l]; [reflexivity|]. specialize (H y). simpl in H. destruct (list_eq_dec Nat.eq_dec y y); [discriminate|congruence].
  - simpl in N. inversion N as [|? ? Nk N']; subst. cbn [Rsum fst snd]. rewrite (sum_filter g l k).
    pose proof (H k) as Hk. rewrite lookup_cons in Hk. destruct (list_eq_dec Nat.eq_dec k k) as [_|]; [|congruence]. rewrite <- Hk. f_equal. apply IH; [exact N'|].
    intros k'. rewrite count_filter. destruct (list_eq_dec Nat.eq_dec k k') as [<-|Ne]; [apply lookup_absent, Nk|]. rewrite <- H, lookup_cons. destruct (list_eq_dec Nat.eq_dec k k'); [congruence|reflexivity].
Qed.

(** ** Records of the shots of a word *)
Definition one_zero (b : bool) : nat := if b then 1%nat else 0%nat.
Lemma recorded_outside : forall l s bits q, ~ In q l -> recorded (map EMeasure l) s bits q = bits q.
Proof.
  induction l as [|t r IH]; intros s bits q H; [reflexivity|]. cbn [map recorded]. destruct s as [|b s]; [reflexivity|]. rewrite IH by (intros I; apply H; right; exact I).
  unfold update. destruct (Nat.eqb_spec q t) as [->|]; [destruct H; left; reflexivity|reflexivity].
Qed.
Lemma recorded_inside : forall l s bits, NoDup l -> List.length s = List.length l -> map (recorded (map EMeasure l) s bits) l = map one_zero s.
Proof.
  induction l as [|t r IH]; intros [|b s] bits N L; try discriminate; [reflexivity|]. inversion N as [|? ? Nt N']; subst. cbn [map recorded]. f_equal.
  - rewrite recorded_outside by exact Nt. unfold update. rewrite Nat.eqb_refl. reflexivity.
  - apply IH; [exact N'|]. simpl in L. lia.
Qed.
Lemma parity_cons : forall b o, parity (b :: o) = (if Nat.even b then 1 else -1) * parity o.
Proof.
  intros b o. rewrite !parity_even. cbn [fold_left]. rewrite fold_add. cbn [Nat.add]. rewrite Nat.even_add. destruct (Nat.even b), (Nat.even (fold_left Nat.add o 0%nat)); simpl; lra.
Qed.
Lemma parity_reading : forall s, parity (map one_zero s) = reading s.
Proof.
  induction s as [|b s IH]; [reflexivity|]. cbn [map reading fold_right]. fold (reading s). rewrite parity_cons, IH. destruct b; cbn; ring.
Qed.
Lemma parity_perm : forall a b, Permutation a b -> parity a = parity b.
Proof.
  intros a b P. induction P; [reflexivity|rewrite !parity_cons, IHP; reflexivity|rewrite !parity_cons; ring|congruence].
Qed.
Lemma mirror_perm : forall n l, NoDup l -> (forall q, In q l -> (q < n)%nat) -> (forall q, In q l -> In (n - 1 - q)%nat l) -> Permutation (map (fun q => (n - 1 - q)%nat) l) l.
Proof.
  intros n l N B S. apply NoDup_Permutation; [|exact N|].
  - apply NoDup_map_inj; [exact N|]. intros a b Ia Ib E. pose proof (B a Ia). pose proof (B b Ib). lia.
  - intros q. rewrite in_map_iff. split; [intros [p [<- I]]; apply S, I|]. intros I. exists (n - 1 - q)%nat. split; [pose proof (B q I); lia|apply S, I].
Qed.
Section Word.
Variables (n : nat) (ops : list oper) (w : list pop).
Hypothesis Sw : separate_word n w.
Hypothesis Bw : balanced n w.
Notation meas := (map snd w).
Lemma inside_word : forall q, In q meas -> (q < n)%nat.
Proof. intros q I. apply in_map_iff in I. destruct I as [o [<- I]]. apply (proj2 Sw), I. Qed.
Lemma record_at : forall s q, (q < n)%nat -> nth q (record n (shot_events ops w) s) 0%nat = recorded (map EMeasure meas) s (fun _ => 0%nat) q.
Proof.
  intros s q Q. unfold record, shot_events. rewrite (nth_indep _ _ (recorded (map EOp (ops ++ flat_map turned w) ++ map EMeasure meas) s (fun _ => 0%nat) 0%nat)) by (rewrite map_length, seq_length; exact Q).
  rewrite map_nth, seq_nth by exact Q. cbn [Nat.add]. rewrite recorded_ops. reflexivity.
Qed.
Lemma record_reading : forall s, List.length s = List.length w -> parity (mirror n meas (record n (shot_events ops w) s)) = reading s.
Proof.
  intros s L. rewrite <- parity_reading, <- (recorded_inside meas s (fun _ => 0%nat) (proj1 Sw)) by (rewrite map_length; exact L). unfold mirror.
  transitivity (parity (map (recorded (map EMeasure meas) s (fun _ => 0%nat)) (map (fun q => (n - 1 - q)%nat) meas))).
  - f_equal. rewrite (map_map (fun q => (n - 1 - q)%nat)). apply map_ext_in. intros q I. apply record_at. pose proof (inside_word q I). lia.
  - apply parity_perm, Permutation_map, mirror_perm; [apply Sw|exact inside_word|exact Bw].
Qed.
Lemma mirror_once : forall s s', mirror n meas (record n (shot_events ops w) s) = mirror n meas (record n (shot_events ops w) s') -> record n (shot_events ops w) s = record n (shot_events ops w) s'.
Proof.
  intros s s' E. apply nth_ext with (d := 0%nat) (d' := 0%nat); [unfold record; rewrite !map_length; reflexivity|]. intros q Q. unfold record in Q. rewrite map_length, seq_length in Q.
  destruct (in_dec Nat.eq_dec q meas) as [I|O].
  - unfold mirror in E. assert (G : forall l, map (fun m => nth (n - 1 - m) (record n (shot_events ops w) s) 0%nat) l = map (fun m => nth (n - 1 - m) (record n (shot_events ops w) s') 0%nat) l ->
      forall m, In m l -> nth (n - 1 - m) (record n (shot_events ops w) s) 0%nat = nth (n - 1 - m) (record n (shot_events ops w) s') 0%nat).
    { induction l as [|a l IH]; intros E' m J; [destruct J|]. simpl in E'. injection E' as E1 E2. destruct J as [->|J]; auto. }
    specialize (G meas E (n - 1 - q)%nat (Bw q I)). replace (n - 1 - (n - 1 - q))%nat with q in G by lia. exact G.
  - rewrite !record_at by exact Q. rewrite !recorded_outside by exact O. reflexivity.
Qed.
End Word.

(** ** The sampler *)
Section Random.
Variable rng : nat -> R.
Lemma measured_law : forall seen h c v ops w gs N, let n := Z.to_nat (v_n v) in reachable rng seen h -> circuit_is h c v -> simulated rng h v -> draws_ok rng ->
  v_gates v = gs ++ basis_change w -> circuit_ops n gs ops -> (0 < n)%nat -> (0 < N)%nat -> separate_word n w -> balanced n w ->
  exists ss d h', measurement_sampler rng (Z.of_nat N) h c (map Z.of_nat (map snd w)) = (Ok d, h') /\ List.length ss = N /\ Forall (fun s => List.length s = List.length w) ss /\
    in_box (flat_map (fun s => box n (shot_events ops w) s (ket 0)) ss) rng (h_pos h) /\ h_pos h' = (h_pos h + N * List.length w)%nat /\
    (forall ss', List.length ss' = N -> Forall (fun s => List.length s = List.length w) ss' -> in_box (flat_map (fun s => box n (shot_events ops w) s (ket 0)) ss') rng (h_pos h) -> ss' = ss) /\
    Rsum (fun op => parity (fst op) * snd op) d = Rsum reading ss / INR N /\
    reachable rng seen h' /\ h_default h' = h_default h /\ (forall c' v', c' <> c -> circuit_is h c' v' -> circuit_is h' c' v').
Proof.
  intros seen h c v ops w gs N n Re Ci Si Dr Ga Co Pn PN Sw Bw. set (meas := map snd w). set (es := shot_events ops w).
  pose proof (width_nonneg rng _ _ _ _ Re Ci) as Wn.
  assert (Fm : Forall (fun m => m < n)%nat meas) by (apply Forall_forall; intros q I; apply (inside_word n w Sw q I)).
  destruct (gate_step rng seen h c v (measure_gate_of meas) Re Ci) as [h1 [E1 [R1 [P1 [D1 [C1 K1]]]]]].
  { simpl. apply Forall_map, Forall_map, Forall_forall. simpl. auto. }
  { simpl. apply Forall_map, Forall_map. eapply Forall_impl; [|exact Fm]. simpl. intros. lia. }
  set (v1 := VCirc (v_gates v ++ [measure_gate_of meas]) (v_n v) (v_default v)) in *.
  assert (Ce : circuit_events n (v_gates v1) es) by (simpl; rewrite Ga; apply shot_circuit; [exact Co|apply Sw]).
  assert (Va1 : valid n (v_gates v1)) by (eapply circuit_events_valid; exact Ce).
  assert (Si1 : simulated rng h1 v1) by (unfold simulated in *; simpl; rewrite D1; auto).
  destruct (run_agreed rng seen h1 c v1 (RunArgs (Some (Z.of_nat N)) (Some "shots"%string) false) R1 C1 Si1 Va1) as [r0 [b [r [h2 [X [E2 [Y [R2 [D2 K2]]]]]]]]]; [discriminate|].
  change (Z.to_nat (v_n v1)) with n in X.
  change (np_run rng new_backend (v_gates v1) n (RunArgs (Some (Z.of_nat N)) (Some "shots"%string) false) (h_pos h1))
    with (np_run rng new_backend (v_gates v1) n (RunArgs (Some (Z.of_nat N)) None false) (h_pos h1)) in X.
  destruct (run_counts rng n (v_gates v1) N (h_pos h1) new_backend Dr Pn Va1 (new_cache_ok _ _)) as [cnt [ws [b' [p [X' [Sh [Lw [Tc [Nc [Lk [Kk Ky]]]]]]]]]]].
  destruct (law_counts rng n (v_gates v1) es N (h_pos h1) new_backend Dr Pn Ce (new_cache_ok _ _)) as [ss [cnt' [b'' [X2 [Ls [Bx Hk]]]]]].
  rewrite X' in X2. injection X2 as <- <- Hp. subst p. rewrite X' in X. injection X as <- <- P2.
  assert (r = Ok (OutRun (RShots cnt))) as ->.
  { destruct r as [[]|]; simpl in Y; try contradiction. destruct r; simpl in Y; try contradiction; congruence. }
  assert (Fk : Forall (fun kv => List.length (fst kv) = n) cnt).
  { apply Forall_forall. intros [k x] I. apply Ky. apply in_map_iff. exists (k, x). auto. }
  unfold es in *. rewrite P1 in *.
  assert (Fs : Forall (fun s => List.length s = List.length w) ss).
  { apply Forall_forall. intros s I. apply In_nth_error in I. destruct I as [i I]. assert (i < N)%nat by (rewrite <- Ls; apply nth_error_Some; congruence).
    apply Bx in I; [|assumption]. rewrite shot_draws in I. apply I. }
  assert (Fd : forall l : list (list bool), Forall (fun s => List.length s = List.length w) l -> Forall (fun s => List.length s = draws (shot_events ops w)) l) by (intros l F; rewrite shot_draws; exact F).
  assert (Keys : forall k, In k (map fst cnt) -> exists s, In s ss /\ k = record n (shot_events ops w) s).
  { intros k I. apply Kk in I. apply (count_occ_In (list_eq_dec Nat.eq_dec)) in I. rewrite <- Lk, Hk in I. unfold hits in I. apply (count_occ_In (list_eq_dec Nat.eq_dec)) in I.
    apply in_map_iff in I. destruct I as [s [<- I]]. exists s. auto. }
  set (q := fold_left (fun d kv => dset key_eqb d (mirror n meas (fst kv)) (snd kv)) cnt []).
  assert (Q : q = map (fun kv => (mirror n meas (fst kv), snd kv)) cnt).
  { unfold q. rewrite (dset_all_new _ key_eqb_ok _ (fun kv => mirror n meas (fst kv)) snd); [reflexivity|].
    simpl. rewrite <- (map_map fst (mirror n meas)). apply NoDup_map_inj; [exact Nc|]. intros a b Ia Ib E.
    destruct (Keys a Ia) as [s [_ ->]]. destruct (Keys b Ib) as [s' [_ ->]]. apply (mirror_once n ops w Bw), E. }
  exists ss, (map (fun kv : list nat * nat => (fst kv, INR (snd kv) / IZR (Z.of_nat N))%R) q), h2.
  assert (PI : 0 < INR N) by (apply lt_0_INR; auto).
  split.
  { unfold measurement_sampler. fold meas. fold (measure_gate_of meas). rewrite E1, E2. rewrite (reduce_counter_ok n) by auto. fold q. cbn [bind]. reflexivity. }
  destruct (law_product n _ _ ss Ce (Fd ss Fs)) as [_ [_ LP]].
  split; [exact Ls|]. split; [exact Fs|]. split.
  { apply LP. intros i s I. assert (Li : (i < N)%nat) by (rewrite <- Ls; apply nth_error_Some; congruence). apply (proj1 (Bx i s Li)) in I. apply I. }
  split; [rewrite <- P2, shot_draws; reflexivity|]. split.
  { intros ss' Ls' Fs' J. destruct (law_product n _ _ ss' Ce (Fd ss' Fs')) as [_ [_ LP']]. pose proof (proj1 (LP' rng (h_pos h)) J) as J'. clear J. rename J' into J.
    apply list_same. intros i. destruct (lt_dec i N) as [Li|Li].
    - destruct (nth_error ss' i) as [s|] eqn:E'; [|apply nth_error_None in E'; lia]. symmetry. apply Bx; [exact Li|]. split; [|apply J, E'].
      rewrite Forall_forall in Fs'. rewrite shot_draws. apply Fs'. eapply nth_error_In, E'.
    - rewrite (proj2 (nth_error_None ss' i)), (proj2 (nth_error_None ss i)) by lia. reflexivity. }
  split.
  { rewrite Q, map_map, Rsum_map. cbn [fst snd]. rewrite <- INR_IZR_INZ.
    transitivity (/ INR N * Rsum (fun kv => parity (mirror n meas (fst kv)) * INR (snd kv)) cnt).
    - rewrite <- Rsum_mul_l. apply Rsum_ext. intros. unfold Rdiv. ring.
    - rewrite (counter_sum (fun k => parity (mirror n meas k)) cnt (map (record n (shot_events ops w)) ss) Nc) by (intros k; rewrite Hk; reflexivity).
      rewrite Rsum_map. unfold Rdiv. rewrite Rmult_comm. f_equal. apply Rsum_ext. intros s I. apply record_reading; [exact Sw|exact Bw|]. rewrite Forall_forall in Fs. apply Fs, I. }
  split; [exact R2|]. split; [congruence|]. intros c' v' Ne H. apply K2, K1; assumption.
Qed.

(** ** The energy *)
Definition term_shots (N : nat) (t : term) (ss : list (list bool)) : Prop := List.length ss = N /\ Forall (fun s => List.length s = List.length (t_ops t)) ss.
Lemma box_len : forall n ops t N ss gs, circuit_ops n gs ops -> fits n (t_ops t) -> term_shots N t ss ->
  List.length (flat_map (fun s => box n (shot_events ops (t_ops t)) s (ket 0)) ss) = (N * List.length (t_ops t))%nat.
Proof.
  intros n ops t N ss gs Co Ft [L F]. destruct (law_product n _ _ ss (shot_circuit n gs ops _ Co Ft)) as [H _]; [rewrite shot_draws; exact F|]. rewrite H, L, shot_draws. reflexivity.
Qed.
Lemma shots_cons : forall N t ham l, Forall2 (term_shots N) (t :: ham) l -> exists ss r, l = ss :: r /\ term_shots N t ss /\ Forall2 (term_shots N) ham r.
Proof. intros N t ham l H. inversion H; subst. eauto. Qed.
Lemma estimate_cons : forall N t ham ss sss, estimate N (t :: ham) (ss :: sss) = Cre (t_coeff t) * (Rsum reading ss / INR N) + estimate N ham sss.
Proof. reflexivity. Qed.
Lemma energy_shots : forall ham seen h c v ops N val, let n := Z.to_nat (v_n v) in reachable rng seen h -> circuit_is h c v -> simulated rng h v -> draws_ok rng ->
  circuit_ops n (v_gates v) ops -> (0 < n)%nat -> (0 < N)%nat -> Forall (fun t => separate_word n (t_ops t) /\ balanced n (t_ops t)) ham ->
  exists sss e h', energy_terms rng h ham c (measurement_sampler rng (Z.of_nat N)) val = (Ok e, h') /\ Cre e = Cre val + estimate N ham sss /\
    Forall2 (term_shots N) ham sss /\ in_box (energy_box n ops ham sss) rng (h_pos h) /\
    (forall sss', Forall2 (term_shots N) ham sss' -> in_box (energy_box n ops ham sss') rng (h_pos h) -> sss' = sss) /\
    h_pos h' = (h_pos h + N * list_sum (map (fun t => List.length (t_ops t)) ham))%nat /\
    reachable rng seen h' /\ h_default h' = h_default h /\ (forall c' v', circuit_is h c' v' -> circuit_is h' c' v').
Proof.
  induction ham as [|t ham IH]; intros seen h c v ops N val n Re Ci Si Dr Co Pn PN F.
  - exists [], val, h. cbn [energy_terms]. split; [reflexivity|]. split; [unfold estimate; simpl; ring|]. split; [constructor|]. split; [intros i Hi; simpl in Hi; lia|].
    split; [intros sss' F' _; inversion F'; reflexivity|]. split; [simpl; lia|]. auto.
  - inversion F as [|? ? [St Bt] F']; subst.
    destruct (copy_ok rng _ _ _ _ true true Re Ci) as [h1 [E1 [R1 [C1' P1]]]]. cbn [v_gates v_n v_default] in C1'. set (d := List.length (h_circs h)) in *.
    assert (D1 : h_default h1 = h_default h) by (eapply global_keep; eauto; intros name; discriminate).
    assert (K1 : forall c' v', circuit_is h c' v' -> circuit_is h1 c' v') by (intros c' v' H; exact (frame rng seen h (OCopy c true true) _ h1 c' v' Re I E1 (fun x => x) H)).
    assert (Nd : forall c' v', circuit_is h c' v' -> c' <> d).
    { intros c' v' [x [Hx _]] ->. apply nth_lt in Hx. unfold d in Hx. lia. }
    pose proof (width_nonneg rng _ _ _ _ Re Ci) as Wn.
    destruct (gates_steps rng (basis_change (t_ops t)) seen h1 d _ R1 C1') as [h2 [E2 [R2 [P2 [D2 [C2 K2]]]]]]; [apply basis_fits; auto; apply St|].
    cbn [v_gates v_n v_default] in C2.
    destruct (measured_law seen h2 d _ ops (t_ops t) (v_gates v) N R2 C2) as [ss [dd [h3 [E3 [Ls [Fs [B3 [P3 [U3 [S3 [R3 [D3 K3]]]]]]]]]]]]; auto.
    { unfold simulated in *. cbn [v_default v_n]. rewrite D2, D1. auto. }
    cbn [v_n] in B3, U3. fold n in B3, U3. rewrite map_map in E3.
    assert (K : forall c' v', circuit_is h c' v' -> circuit_is h3 c' v') by (intros c' v' H; apply K3; [eauto|]; apply K2; eauto).
    destruct (IH seen h3 c v ops N (add_measured dd (t_coeff t) val) R3 (K _ _ Ci)) as [sss [e [h4 [E4 [V4 [F4 [B4 [U4 [P4 [R4 [D4 K4]]]]]]]]]]]; auto.
    { unfold simulated in *. rewrite D3, D2, D1. auto. }
    fold n in B4, U4.
    assert (Q2 : h_pos h2 = h_pos h) by congruence. rewrite Q2 in *.
    exists (ss :: sss), e, h4. cbn [energy_terms]. rewrite E1. cbv iota. fold d. rewrite E2. cbv iota. rewrite E3, E4.
    split; [reflexivity|]. split.
    { rewrite V4, add_measured_eq, S3, estimate_cons. unfold Cadd, Cmul, RtoC. cbn [fst snd Cre]. unfold Cre. simpl. ring. }
    split; [constructor; [split; assumption|exact F4]|]. split.
    { cbn [energy_box combine flat_map fst snd]. apply in_box_app. split; [exact B3|]. rewrite (box_len n ops t N ss (v_gates v) Co (proj2 St)) by (split; assumption). rewrite <- P3. exact B4. }
    split.
    { intros sss' F2 J. apply shots_cons in F2. destruct F2 as [ss' [r' [-> [[Ls' Fs'] F2']]]]. cbn [energy_box combine flat_map fst snd] in J. apply in_box_app in J. destruct J as [J1 J2].
      rewrite (box_len n ops t _ ss' (v_gates v) Co (proj2 St) (conj Ls' Fs')) in J2.
      f_equal; [apply U3; auto|]. apply U4; [exact F2'|]. rewrite P3. exact J2. }
    split; [rewrite P4, P3; change (list_sum (map (fun t => List.length (t_ops t)) (t :: ham))) with (List.length (t_ops t) + list_sum (map (fun t => List.length (t_ops t)) ham))%nat; lia|]. split; [exact R4|]. split; [congruence|]. intros; auto.
Qed.
Lemma get_energy_shots : forall seen h c v ops ham N, let n := Z.to_nat (v_n v) in reachable rng seen h -> circuit_is h c v -> simulated rng h v -> draws_ok rng ->
  circuit_ops n (v_gates v) ops -> (0 < n)%nat -> (0 < N)%nat -> Forall (fun t => separate_word n (t_ops t) /\ balanced n (t_ops t)) ham ->
  exists sss h', get_energy rng h ham c (measurement_sampler rng (Z.of_nat N)) = (Ok (estimate N ham sss), h') /\
    shaped N ham sss /\ in_box (energy_box n ops ham sss) rng (h_pos h) /\
    (forall sss', shaped N ham sss' -> in_box (energy_box n ops ham sss') rng (h_pos h) -> sss' = sss) /\
    h_pos h' = (h_pos h + N * list_sum (map (fun t => List.length (t_ops t)) ham))%nat /\
    reachable rng seen h' /\ h_default h' = h_default h /\ (forall c' v', circuit_is h c' v' -> circuit_is h' c' v').
Proof.
  intros seen h c v ops ham N n Re Ci Si Dr Co Pn PN F. destruct (energy_shots ham seen h c v ops N C0 Re Ci Si Dr Co Pn PN F) as [sss [e [h' [E [V R]]]]]. exists sss, h'.
  unfold get_energy. rewrite E. split; [|exact R]. f_equal. f_equal. rewrite V. cbn. ring.
Qed.
End Random.
