(** Proofs: get_energy with the measurement sampler with words that the mirrored register has in other places *)
From Coq Require Import List Arith ZArith Bool String Permutation Reals Lia Lra.
Import ListNotations.
From Verif Require Import Base Cplx Bits ModelTargets ModelGate ModelNumpy ModelNumba ModelCircuit ModelPauli ModelVqe
  SpecTargets SpecQuantum SpecCircuit SpecMeasure SpecRun SpecAPI SpecPauli SpecLaw SpecVqe SpecShots
  ProofTargets ProofArray ProofRun ProofUnitary ProofMeasure ProofBorn ProofWhole ProofLaw ProofLawStat ProofNumbaProps ProofAPI ProofProgram ProofReach ProofVqe ProofVqeRun ProofVqeSample
  ProofEvolution ProofShotLaw ProofShotRun.
Local Open Scope R_scope.


Lemma same_key : forall (z : list nat) (f : list nat * nat -> list nat) l d, (forall kv, In kv l -> f kv = z) -> l <> [] -> (d = [] \/ exists x, d = [(z, x)]) ->
  exists kv, In kv l /\ fold_left (fun d kv => dset key_eqb d (f kv) (snd kv)) l d = [(z, snd kv)].
Proof.
  intros z f l. induction l as [|kv l IH]; intros d H Ne D; [congruence|]. cbn [fold_left].
  assert (D1 : dset key_eqb d (f kv) (snd kv) = [(z, snd kv)]).
  { rewrite (H kv (or_introl eq_refl)). destruct D as [->|[x ->]]; [reflexivity|]. simpl. destruct (key_eqb z z) eqn:E; [reflexivity|].
    pose proof (proj2 (key_eqb_ok z z) eq_refl). congruence. }
  rewrite D1. destruct l as [|kv' l].
  - exists kv. split; [left; reflexivity|reflexivity].
  - destruct (IH [(z, snd kv)]) as [e [Ie E]]; [intros; apply H; right; assumption|discriminate|right; eauto|]. exists e. split; [right; exact Ie|exact E].
Qed.
Lemma parity_abs : forall o, Rabs (parity o) = 1.
Proof. intros o. rewrite parity_even. destruct (Nat.even _); [apply Rabs_R1|rewrite Rabs_left; lra]. Qed.
Lemma zeros_parity : forall k, parity (repeat 0%nat k) = 1.
Proof. induction k as [|k IH]; [reflexivity|]. cbn [repeat]. rewrite parity_cons, IH. simpl. ring. Qed.

Section Random.
Variable rng : nat -> R.
Lemma measured_lost : forall seen h c v ops w gs N, let n := Z.to_nat (v_n v) in reachable rng seen h -> circuit_is h c v -> simulated rng h v -> draws_ok rng ->
  v_gates v = gs ++ basis_change w -> circuit_ops n gs ops -> (0 < n)%nat -> (0 < N)%nat -> separate_word n w ->
  exists p d h', measurement_sampler rng (Z.of_nat N) h c (map Z.of_nat (map snd w)) = (Ok d, h') /\ Rabs p <= 1 /\ (unpaired n w -> 0 < p) /\
    Rsum (fun op => parity (fst op) * snd op) d = p /\
    reachable rng seen h' /\ h_default h' = h_default h /\ (forall c' v', c' <> c -> circuit_is h c' v' -> circuit_is h' c' v').
Proof.
  intros seen h c v ops w gs N n Re Ci Si Dr Ga Co Pn PN Sw. set (meas := map snd w). set (es := shot_events ops w).
  pose proof (width_nonneg rng _ _ _ _ Re Ci) as Wn.
  assert (Fm : Forall (fun m => m < n)%nat meas) by (apply Forall_forall; intros q I; apply (inside_word n w Sw q I)).
  destruct (gate_step rng seen h c v (measure_gate_of meas) Re Ci) as [h1 [E1 [R1 [P1 [D1 [C1 K1]]]]]].
  { simpl. apply Forall_map, Forall_map, Forall_forall. simpl. auto. }
  { simpl. apply Forall_map, Forall_map. eapply Forall_impl; [|exact Fm]. simpl. intros. lia. }
  set (v1 := VCirc (v_gates v ++ [measure_gate_of meas]) (v_n v) (v_default v)) in *.
  assert (Ce : circuit_events n (v_gates v1) es) by (simpl; rewrite Ga; apply shot_circuit; [exact Co|apply Sw]).
  assert (Va1 : valid n (v_gates v1)) by (eapply circuit_events_valid; exact Ce).
  assert (Si1 : simulated rng h1 v1) by (unfold simulated in *; simpl; rewrite D1; auto).
  destruct (run_agreed rng seen h1 c v1 (RunArgs (Some (Z.of_nat N)) (Some "shots"%string) false) R1 C1 Si1 Va1) as [r0 [b [r [h2 [X [E2 [Y [R2 [D2 K2]]]]]]]]]; [discriminate|].
  change (Z.to_nat (v_n v1)) with n in X.
  change (np_run rng new_backend (v_gates v1) n (RunArgs (Some (Z.of_nat N)) (Some "shots"%string) false) (h_pos h1))
    with (np_run rng new_backend (v_gates v1) n (RunArgs (Some (Z.of_nat N)) None false) (h_pos h1)) in X.
  destruct (run_counts rng n (v_gates v1) N (h_pos h1) new_backend Dr Pn Va1 (new_cache_ok _ _)) as [cnt [ws [b' [p [X' [Sh [Lw [Tc [Nc [Lk [Kk Ky]]]]]]]]]]].
  destruct (law_counts rng n (v_gates v1) es N (h_pos h1) new_backend Dr Pn Ce (new_cache_ok _ _)) as [ss [cnt' [b'' [X2 [Ls [Bx Hk]]]]]].
  rewrite X' in X2. injection X2 as <- <- Hp. subst p. rewrite X' in X. injection X as <- <- P2.
  assert (r = Ok (OutRun (RShots cnt))) as ->.
  { destruct r as [[]|]; simpl in Y; try contradiction. destruct r; simpl in Y; try contradiction; congruence. }
  assert (Fk : Forall (fun kv => List.length (fst kv) = n) cnt).
  { apply Forall_forall. intros [k x] I. apply Ky. apply in_map_iff. exists (k, x). auto. }
  unfold es in *. rewrite P1 in *.
  assert (Fs : Forall (fun s => List.length s = List.length w) ss).
  { apply Forall_forall. intros s I. apply In_nth_error in I. destruct I as [i I]. assert (i < N)%nat by (rewrite <- Ls; apply nth_error_Some; congruence).
    apply Bx in I; [|assumption]. rewrite shot_draws in I. apply I. }
  assert (Fd : forall l : list (list bool), Forall (fun s => List.length s = List.length w) l -> Forall (fun s => List.length s = draws (shot_events ops w)) l) by (intros l F; rewrite shot_draws; exact F).
  assert (Keys : forall k, In k (map fst cnt) -> exists s, In s ss /\ k = record n (shot_events ops w) s).
  { intros k I. apply Kk in I. apply (count_occ_In (list_eq_dec Nat.eq_dec)) in I. rewrite <- Lk, Hk in I. unfold hits in I. apply (count_occ_In (list_eq_dec Nat.eq_dec)) in I.
    apply in_map_iff in I. destruct I as [s [<- I]]. exists s. auto. }
  assert (PI : 0 < INR N) by (apply lt_0_INR; auto).
  set (q := fold_left (fun d kv => dset key_eqb d (mirror n meas (fst kv)) (snd kv)) cnt []).
  set (d := map (fun kv : list nat * nat => (fst kv, INR (snd kv) / IZR (Z.of_nat N))%R) q).
  exists (Rsum (fun op => parity (fst op) * snd op) d), d, h2.
  split.
  { unfold measurement_sampler. fold meas. fold (measure_gate_of meas). rewrite E1, E2. rewrite (reduce_counter_ok n) by auto. fold q. cbn [bind]. reflexivity. }
  split.
  { apply Rle_trans with (mass d).
    - unfold d. clear -PI. induction q as [|kv q IH]; [simpl; rewrite Rabs_R0; unfold mass; simpl; lra|]. cbn [map Rsum fst snd mass].
      eapply Rle_trans; [apply Rabs_triang|]. unfold mass in *. cbn [map Rsum fst snd]. apply Rplus_le_compat; [|exact IH].
      rewrite Rabs_mult, parity_abs, Rmult_1_l, Rabs_right; [lra|]. rewrite <- INR_IZR_INZ. apply Rle_ge. apply Rmult_le_pos; [apply pos_INR|left; apply Rinv_0_lt_compat, PI].
    - unfold d. rewrite mass_div, <- INR_IZR_INZ. apply Rmult_le_reg_r with (INR N); [exact PI|]. unfold Rdiv. rewrite Rmult_assoc, Rinv_l, Rmult_1_r, Rmult_1_l by lra. apply le_INR.
      unfold q. eapply Nat.le_trans; [apply dfold_sum|]. simpl. rewrite <- total_sum. lia. }
  split.
  { intros Uw.
    assert (Zk : forall kv, In kv cnt -> mirror n meas (fst kv) = repeat 0%nat (List.length meas)).
    { intros kv I. destruct (Keys (fst kv) (in_map fst _ _ I)) as [s [_ ->]]. unfold mirror.
      assert (G : forall l, (forall q, In q l -> In q meas) -> map (fun m => nth (n - 1 - m) (record n (shot_events ops w) s) 0%nat) l = repeat 0%nat (List.length l)).
      { induction l as [|m l IHl]; intros Hl; [reflexivity|]. cbn [map List.length repeat]. rewrite IHl by (intros; apply Hl; right; assumption). f_equal.
        assert (Im : In m meas) by (apply Hl; left; reflexivity). pose proof (inside_word n w Sw m Im) as Lm.
        rewrite record_at by lia. apply recorded_outside. exact (Uw m Im). }
      apply G. auto. }
    assert (Nn : cnt <> []) by (intros E; rewrite E in Tc; simpl in Tc; lia).
    destruct (same_key _ (fun kv => mirror n meas (fst kv)) cnt [] Zk Nn (or_introl eq_refl)) as [[k x] [Ikx Q]]. cbn [snd] in Q. fold q in Q.
    assert (Ex : ProofBorn.lookup cnt k = x).
    { clear -Ikx Nc. induction cnt as [|[a y] cnt IH]; [destruct Ikx|]. rewrite lookup_cons. inversion Nc as [|? ? Na Nr]; subst. destruct Ikx as [I|I].
      - injection I as -> ->. destruct (list_eq_dec Nat.eq_dec k k); [auto|congruence].
      - destruct (list_eq_dec Nat.eq_dec a k) as [->|]; [|apply IH; auto]. exfalso. apply Na. apply in_map_iff. exists (k, x). auto. }
    assert (X1 : (0 < x)%nat).
    { rewrite <- Ex, Lk. apply (count_occ_In (list_eq_dec Nat.eq_dec)), Kk. apply in_map_iff. exists (k, x). auto. }
    unfold d. rewrite Q. cbn [map Rsum fst snd]. rewrite zeros_parity, <- INR_IZR_INZ, Rmult_1_l, Rplus_0_r. apply Rdiv_lt_0_compat; [apply lt_0_INR, X1|exact PI]. }
  split; [reflexivity|].
  split; [exact R2|]. split; [congruence|]. intros c' v' Ne H. apply K2, K1; assumption.
Qed.

Lemma energy_lost : forall ham seen h c v ops N val, let n := Z.to_nat (v_n v) in reachable rng seen h -> circuit_is h c v -> simulated rng h v -> draws_ok rng ->
  circuit_ops n (v_gates v) ops -> (0 < n)%nat -> (0 < N)%nat -> Forall (fun t => separate_word n (t_ops t)) ham ->
  exists ps e h', energy_terms rng h ham c (measurement_sampler rng (Z.of_nat N)) val = (Ok e, h') /\ Cre e = Cre val + Rsum (fun tp => Cre (t_coeff (fst tp)) * snd tp) (combine ham ps) /\
    Forall2 (fun t p => Rabs p <= 1 /\ (unpaired n (t_ops t) -> 0 < p)) ham ps /\ reachable rng seen h' /\ (forall c' v', circuit_is h c' v' -> circuit_is h' c' v').
Proof.
  induction ham as [|t ham IH]; intros seen h c v ops N val n Re Ci Si Dr Co Pn PN F.
  - exists [], val, h. cbn [energy_terms]. split; [reflexivity|]. split; [simpl; ring|]. auto.
  - inversion F as [|? ? St F']; subst.
    destruct (copy_ok rng _ _ _ _ true true Re Ci) as [h1 [E1 [R1 [C1' P1]]]]. cbn [v_gates v_n v_default] in C1'. set (d := List.length (h_circs h)) in *.
    assert (D1 : h_default h1 = h_default h) by (eapply global_keep; eauto; intros name; discriminate).
    assert (K1 : forall c' v', circuit_is h c' v' -> circuit_is h1 c' v') by (intros c' v' H; exact (frame rng seen h (OCopy c true true) _ h1 c' v' Re I E1 (fun x => x) H)).
    assert (Nd : forall c' v', circuit_is h c' v' -> c' <> d).
    { intros c' v' [x [Hx _]] ->. apply nth_lt in Hx. unfold d in Hx. lia. }
    pose proof (width_nonneg rng _ _ _ _ Re Ci) as Wn.
    destruct (gates_steps rng (basis_change (t_ops t)) seen h1 d _ R1 C1') as [h2 [E2 [R2 [P2 [D2 [C2 K2]]]]]]; [apply basis_fits; auto; apply St|].
    cbn [v_gates v_n v_default] in C2.
    destruct (measured_lost seen h2 d _ ops (t_ops t) (v_gates v) N R2 C2) as [p [dd [h3 [E3 [Pp [Up [S3 [R3 [D3 K3]]]]]]]]]; auto.
    { unfold simulated in *. cbn [v_default v_n]. rewrite D2, D1. auto. }
    rewrite map_map in E3.
    assert (K : forall c' v', circuit_is h c' v' -> circuit_is h3 c' v') by (intros c' v' H; apply K3; [eauto|]; apply K2; eauto).
    destruct (IH seen h3 c v ops N (add_measured dd (t_coeff t) val) R3 (K _ _ Ci)) as [ps [e [h4 [E4 [V4 [F4 [R4 K4]]]]]]]; auto.
    { unfold simulated in *. rewrite D3, D2, D1. auto. }
    exists (p :: ps), e, h4. cbn [energy_terms]. rewrite E1. cbv iota. fold d. rewrite E2. cbv iota. rewrite E3, E4.
    split; [reflexivity|]. split.
    { rewrite V4, add_measured_eq, S3. cbn [combine Rsum fst snd]. unfold Cadd, Cmul, RtoC, Cre. simpl. ring. }
    split; [constructor; [split; assumption|exact F4]|]. split; [exact R4|]. intros; auto.
Qed.
Lemma get_energy_lost : forall seen h c v ops ham N, let n := Z.to_nat (v_n v) in reachable rng seen h -> circuit_is h c v -> simulated rng h v -> draws_ok rng ->
  circuit_ops n (v_gates v) ops -> (0 < n)%nat -> (0 < N)%nat -> Forall (fun t => separate_word n (t_ops t)) ham ->
  exists ps h', get_energy rng h ham c (measurement_sampler rng (Z.of_nat N)) = (Ok (Rsum (fun tp => Cre (t_coeff (fst tp)) * snd tp) (combine ham ps)), h') /\
    Forall2 (fun t p => Rabs p <= 1 /\ (unpaired n (t_ops t) -> 0 < p)) ham ps.
Proof.
  intros seen h c v ops ham N n Re Ci Si Dr Co Pn PN F. destruct (energy_lost ham seen h c v ops N C0 Re Ci Si Dr Co Pn PN F) as [ps [e [h' [E [V [L _]]]]]]. exists ps, h'.
  unfold get_energy. rewrite E. split; [|exact L]. f_equal. f_equal. rewrite V. cbn. ring.
Qed.
End Random.

Lemma unpaired_case : separate_word 2 [(LZ, 0%nat)] /\ unpaired 2 [(LZ, 0%nat)] /\ separate_word 5 [(LX, 0%nat); (LZ, 3%nat)] /\ unpaired 5 [(LX, 0%nat); (LZ, 3%nat)].
Proof.
  split; [split; [repeat constructor; intros []|intros o [<-|[]]; simpl; lia]|]. split; [intros q [<-|[]] [H|[]]; simpl in H; discriminate|].
  split; [split; [repeat constructor; simpl; intuition discriminate|intros o [<-|[<-|[]]]; simpl; lia]|].
  intros q [<-|[<-|[]]]; simpl; intuition discriminate.
Qed.
