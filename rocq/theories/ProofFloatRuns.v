(** Rounded runs of both backends: what they count *)
From Coq Require Import String List Arith NArith ZArith Bool Reals Lia Lra.
Import ListNotations.
From Verif Require Import Base Cplx Bits ModelTargets ModelGate ModelNumpy ModelNumba ModelFloat ModelFloatMeasure ModelFloatNumba ModelFloatNumbaMeasure ModelFloatRun
  ProofFiniteRun ProofFiniteTop SpecTargets SpecQuantum SpecCircuit SpecMeasure ProofBorn SpecLaw SpecFloat SpecFloatMeasure SpecFinite SpecFloatNumba SpecFiniteMeasure SpecFloatRun
  ProofCache ProofLaw ProofLawStat ProofFloatTop ProofFloatMeas ProofFloatMeasRun ProofFloatMeasTop ProofFloatMeasCase ProofFiniteMeasRun ProofFiniteNbRun ProofFiniteSums ProofFiniteDouble ProofFloatShots ProofFloatNbShots ProofFloatAgree.
Local Open Scope R_scope.

Lemma repeated_spec : forall (shot : nat -> shot_result) d (rec : list bool -> list nat) (P : list bool -> carr -> Prop) ss pos last,
  (forall i s, nth_error ss i = Some s -> exists q, shot (pos + i * d)%nat = inl (q, rec s, (pos + S i * d)%nat) /\ P s q) ->
  exists q, repeated shot (List.length ss) pos last = inl (map rec ss, q, (pos + List.length ss * d)%nat) /\ forall ss' s, ss = ss' ++ [s] -> P s q.
Proof.
  intros shot d rec P. induction ss as [|s ss IH]; intros pos last H.
  - exists last. cbn. split; [rewrite Nat.add_0_r; reflexivity|]. intros [|? ?] ?; discriminate.
  - destruct (H 0%nat s eq_refl) as (q & E & Pq). rewrite Nat.add_0_r in E. replace (pos + 1 * d)%nat with (pos + d)%nat in E by lia.
    destruct (IH (pos + d)%nat q) as (q' & E' & Pq').
    { intros i s' N. destruct (H (S i) s' N) as (q' & E' & P'). exists q'. split; auto. replace (pos + d + i * d)%nat with (pos + S i * d)%nat by lia.
      replace (pos + d + S i * d)%nat with (pos + S (S i) * d)%nat by lia. exact E'. }
    exists q'. cbn [repeated List.length map]. rewrite E, E'. split; [rewrite <- Nat.add_assoc; reflexivity|].
    intros [|s1 ss1] s2 Q; cbn [app] in Q; injection Q as -> Q; [|exact (Pq' _ _ Q)].
    subst ss. cbn [List.length repeated] in E'. assert (q' = q) by congruence. subst q'. exact Pq.
Qed.

Lemma nth_error_same : forall A (l l' : list A), (forall i, nth_error l i = nth_error l' i) -> l = l'.
Proof.
  induction l as [|a l IH]; intros [|a' l'] H; auto; try (specialize (H 0%nat); discriminate). pose proof (H 0%nat) as E. injection E as <-. f_equal. apply IH. intros i. exact (H (S i)).
Qed.

(** the rest is the same for both backends *)
Section Any.
Variables (n : nat) (gs : list gate) (es : list event) (err : R).
Hypothesis HC : circuit_events n gs es.
Variable shot : (nat -> R) -> nat -> shot_result.
Definition target (s : list bool) (q : carr) : Prop :=
  exists phi, q = arr n phi /\ dist n phi (scl (RtoC (/ sqrt (weight n es s))) (branch es s (ket 0))) <= (14 * INR (draws es) + 2) * err / weight n es s.
Hypothesis HS : forall rng s pos, draws_ok rng -> sure n es err s rng pos -> exists q, shot rng pos = inl (q, record n es s, (pos + draws es)%nat) /\ target s q.
Lemma any_counts : forall rng ss pos returns f r p, draws_ok rng -> (forall i s, nth_error ss i = Some s -> sure n es err s rng (pos + i * draws es)) ->
  runs_as (shot rng) n (List.length ss) pos returns f r p -> p = (pos + List.length ss * draws es)%nat /\
  exists q c, gives returns (f q) c r /\ (forall k, lookup c k = hits n es k ss) /\ forall ss' s, ss = ss' ++ [s] -> target s q.
Proof.
  intros rng ss pos returns f r p Hr SS RA.
  destruct (repeated_spec (shot rng) (draws es) (record n es) target ss pos (zeros n)) as (q & E & T).
  { intros i s N. destruct (HS rng s _ Hr (SS i s N)) as (q & E & T). exists q. split; auto. rewrite E. rewrite <- Nat.add_assoc. replace (i * draws es + draws es)%nat with (S i * draws es)%nat by lia. reflexivity. }
  unfold runs_as in RA. rewrite E in RA. destruct RA as (-> & c & CT & G). split; auto. exists q, c. auto.
Qed.
Lemma any_found : forall rng N pos ss ss', draws_ok rng -> List.length ss = N -> (forall i s, nth_error ss i = Some s -> sure n es err s rng (pos + i * draws es)) ->
  List.length ss' = N -> (forall i s, (i < N)%nat -> (nth_error ss' i = Some s <-> List.length s = draws es /\ in_box (box n es s (ket 0)) rng (pos + i * draws es))) -> ss = ss'.
Proof.
  intros rng N pos ss ss' Hr L SS L' SS'. apply nth_error_same. intros i.
  destruct (nth_error ss i) as [s|] eqn:E.
  - assert (I : (i < N)%nat) by (rewrite <- L; apply nth_error_Some; congruence). symmetry. apply SS'; auto. destruct (SS i s E) as (A & _ & _ & B & _). auto.
  - apply nth_error_None in E. symmetry. apply nth_error_None. lia.
Qed.
End Any.

(** ** The NumPy backend *)
Lemma np_sure : forall A u eta B M N w g n gs es err, rounds_within A u eta B -> divides_within A u eta B -> ranges u eta B M n g ->
  norms_within N n w g -> u <= w <= 1 / 100 -> circuit_events n gs es -> Forall (angles_within M) gs -> shot_error u M g (6 * w) (List.length es) <= err ->
  forall rng s pos, draws_ok rng -> sure n es err s rng pos ->
  exists q, np_result (fl_shot A N rng gs n pos) = inl (q, record n es s, (pos + draws es)%nat) /\ target n es err s q.
Proof.
  intros A u eta B M N w g n gs es err HR HQ HG HN Hw C F HE rng s pos Hr (L & PW & HB & IB & CL).
  destruct (np_clear_shot A u eta B M N w g rng n gs es s pos err HR HQ HG HN Hw Hr C F L HE PW HB IB CL) as (ctx & phi & X1 & X2 & X3 & X4 & X5).
  rewrite X1. exists (x_qubits ctx). cbn [np_result]. rewrite X3, X4. split; auto. exists phi. auto.
Qed.
Lemma np_counts : forall A u eta B M N w g n gs es err, rounds_within A u eta B -> divides_within A u eta B -> ranges u eta B M n g ->
  norms_within N n w g -> u <= w <= 1 / 100 -> (0 < n)%nat -> circuit_events n gs es -> Forall (angles_within M) gs -> shot_error u M g (6 * w) (List.length es) <= err ->
  forall glob rng b ss returns ig pos, draws_ok rng -> np_cached A n gs b -> In returns ["statevector"; "shots"; "statevector_and_shots"]%string ->
  (forall i s, nth_error ss i = Some s -> sure n es err s rng (pos + i * draws es)) ->
  let r := fl_np_run A N glob rng b gs n (RunArgs (Some (Z.of_nat (List.length ss))) (Some returns) ig) pos in
  snd r = (pos + List.length ss * draws es)%nat /\ np_cached A n gs (snd (fst r)) /\
  exists q c, gives returns (if ig then glob q else q) c (fst (fst r)) /\ (forall k, lookup c k = hits n es k ss) /\
    forall ss' s, ss = ss' ++ [s] -> let W := weight n es s in
      exists phi, q = arr n phi /\ dist n phi (scl (RtoC (/ sqrt W)) (branch es s (ket 0))) <= (14 * INR (draws es) + 2) * err / W.
Proof.
  intros A u eta B M N w g n gs es err HR HQ HG HN Hw Hn C F HE glob rng b ss returns ig pos Hr Hb Hret SS. cbv zeta.
  destruct (np_run_shots A N glob rng n gs b (List.length ss) returns ig pos Hn Hb Hret) as [RA CA].
  destruct (any_counts n es err (fun rng p => np_result (fl_shot A N rng gs n p)) (np_sure A u eta B M N w g n gs es err HR HQ HG HN Hw C F HE) rng ss pos returns _ _ _ Hr SS RA) as (P & q & c & G & K & T).
  split; auto. split; auto. exists q, c. split; [destruct ig; exact G|]. auto.
Qed.
Lemma cache_new : forall n gs, cache_ok n gs (clear_cache_if_invalid new_backend n).
Proof. intros. apply cache_ok_clear. intros _. left. reflexivity. Qed.
Lemma np_agree : forall A u eta B M N w g n gs es err, rounds_within A u eta B -> divides_within A u eta B -> ranges u eta B M n g ->
  norms_within N n w g -> u <= w <= 1 / 100 -> (0 < n)%nat -> circuit_events n gs es -> Forall (angles_within M) gs -> shot_error u M g (6 * w) (List.length es) <= err ->
  forall glob b k, np_cached A n gs b -> let d := INR (draws es) in let a := RunArgs (Some (Z.of_nat k)) None false in
  mostly (k * draws es) (INR k * (28 * (1 + d + d * d) * 2 ^ draws es * err))
    (fun rng pos => same_counts (fl_np_run A N glob rng b gs n a pos) (np_run rng new_backend gs n a pos)).
Proof.
  intros A u eta B M N w g n gs es err HR HQ HG HN Hw Hn C F HE glob b k Hb d a.
  destruct (ranges_more A u eta B M n g HR HG) as (U3 & E0 & E1 & MB & G0 & GP). pose proof HG as (Hu & He & HB' & HM & Hs & G1 & G2).
  assert (EP : 0 <= err) by (eapply Rle_trans; [|exact HE]; apply shot_error_pos; lra).
  eapply mostly_impl; [apply (runs_mostly n gs es err C EP k)|apply Rle_refl|]. intros rng pos Hr (ss & L & SS).
  destruct (law_counts rng n gs es k pos new_backend Hr Hn C (cache_new n gs)) as (ss' & c' & b' & E' & L' & N' & K').
  assert (ss = ss') by (eapply any_found; eauto). subst ss'.
  destruct (np_counts A u eta B M N w g n gs es err HR HQ HG HN Hw Hn C F HE glob rng b ss "shots"%string false pos Hr Hb) as (P & _ & q & c & G & K & _); [cbn; auto|exact SS|].
  assert (EQ : fl_np_run A N glob rng b gs n (RunArgs (Some (Z.of_nat (List.length ss))) (Some "shots"%string) false) pos = fl_np_run A N glob rng b gs n a pos) by (rewrite L; reflexivity).
  rewrite EQ in P, G. destruct (fl_np_run A N glob rng b gs n a pos) as [[r b1] p1]. cbn [fst snd] in P, G. rewrite L in P. subst p1.
  destruct G as [[? _]|[[_ ->]|[? _]]]; try discriminate. exists c, c', b1, b', (pos + k * draws es)%nat. split; auto. split; auto. intros x. rewrite K, K'. reflexivity.
Qed.

(** ** The numba backend *)
Lemma nb_sure : forall c P u eta B M S w g n gs es err, compiles c u eta B -> scales c u eta -> divides_within (c_arith c) u eta B -> rounds_within P u eta B ->
  ranges u eta B M n g -> 1 / 10 ^ 16 <= u -> (n <= 64)%nat -> sums_within S n w g -> u <= w <= 1 / 100 -> circuit_events n gs es -> Forall (angles_within M) gs ->
  shot_error u M g (2 * w) (List.length es) <= err -> forall rng s pos, draws_ok rng -> sure n es err s rng pos ->
  exists q, nb_result (fn_shot c S P rng gs n pos) = inl (q, record n es s, (pos + draws es)%nat) /\ target n es err s q.
Proof.
  intros c P u eta B M S w g n gs es err HC HS HQ HP HG Hl Hn HN Hw C F HE rng s pos Hr (L & PW & HB & IB & CL).
  destruct (nb_clear_shot c P u eta B M S w g rng n gs es s pos err HC HS HQ HP HG Hl Hn HN Hw Hr C F L HE PW HB IB CL) as (phi & X1 & X2).
  rewrite X1. exists (arr n phi). cbn [nb_result]. split; auto. exists phi. auto.
Qed.
Lemma nb_counts : forall c P u eta B M S w g n gs es err, compiles c u eta B -> scales c u eta -> divides_within (c_arith c) u eta B -> rounds_within P u eta B ->
  ranges u eta B M n g -> 1 / 10 ^ 16 <= u -> (0 < n <= 64)%nat -> sums_within S n w g -> u <= w <= 1 / 100 -> circuit_events n gs es -> Forall (angles_within M) gs ->
  shot_error u M g (2 * w) (List.length es) <= err ->
  forall glob rng b ss returns ig ec pos, draws_ok rng -> (ec = true -> nb_cached c P n gs b) -> In returns ["statevector"; "shots"; "statevector_and_shots"]%string ->
  (forall i s, nth_error ss i = Some s -> sure n es err s rng (pos + i * draws es)) ->
  let r := fb_run c S P glob rng b gs n (NbArgs (RunArgs (Some (Z.of_nat (List.length ss))) (Some returns) ig) ec) pos in
  snd r = (pos + List.length ss * draws es)%nat /\ nb_cached c P n gs (snd (fst r)) /\
  exists q t, gives returns (if ig then glob q else q) t (fst (fst r)) /\ (forall k, lookup t k = hits n es k ss) /\
    forall ss' s, ss = ss' ++ [s] -> let W := weight n es s in
      exists phi, q = arr n phi /\ dist n phi (scl (RtoC (/ sqrt W)) (branch es s (ket 0))) <= (14 * INR (draws es) + 2) * err / W.
Proof.
  intros c P u eta B M S w g n gs es err HC HS HQ HP HG Hl [Hn Hn'] HN Hw C F HE glob rng b ss returns ig ec pos Hr Hb Hret SS. cbv zeta.
  destruct (nb_run_shots c S P glob rng n gs b ec (List.length ss) returns ig pos Hn Hb Hret) as [RA CA].
  destruct (any_counts n es err (fun rng p => nb_result (fn_shot c S P rng gs n p)) (nb_sure c P u eta B M S w g n gs es err HC HS HQ HP HG Hl Hn' HN Hw C F HE) rng ss pos returns _ _ _ Hr SS RA)
    as (X & q & t & G & K & T).
  split; auto. split.
  - apply CA. destruct G as [[_ ->]|[[_ ->]|[_ ->]]]; eauto.
  - exists q, t. split; [destruct ig; exact G|]. auto.
Qed.
Lemma nb_agree : forall c P u eta B M S w g n gs es err, compiles c u eta B -> scales c u eta -> divides_within (c_arith c) u eta B -> rounds_within P u eta B ->
  ranges u eta B M n g -> 1 / 10 ^ 16 <= u -> (0 < n <= 64)%nat -> sums_within S n w g -> u <= w <= 1 / 100 -> circuit_events n gs es -> Forall (angles_within M) gs ->
  shot_error u M g (2 * w) (List.length es) <= err ->
  forall glob b ec k, (ec = true -> nb_cached c P n gs b) -> let d := INR (draws es) in let a := NbArgs (RunArgs (Some (Z.of_nat k)) None false) ec in
  mostly (k * draws es) (INR k * (28 * (1 + d + d * d) * 2 ^ draws es * err))
    (fun rng pos => same_counts (fb_run c S P glob rng b gs n a pos) (nb_run rng new_backend gs n a pos)).
Proof.
  intros c P u eta B M S w g n gs es err HC HS HQ HP HG Hl Hn HN Hw C F HE glob b ec k Hb d a.
  destruct (ranges_more P u eta B M n g HP HG) as (U3 & E0 & E1 & MB & G0 & GP). pose proof HG as (Hu & He & HB' & HM & Hs & G1 & G2).
  assert (EP : 0 <= err) by (eapply Rle_trans; [|exact HE]; apply shot_error_pos; lra).
  eapply mostly_impl; [apply (runs_mostly n gs es err C EP k)|apply Rle_refl|]. intros rng pos Hr (ss & L & SS).
  destruct (law_counts_numba rng n gs es k pos ec (proj2 Hn) Hr (proj1 Hn) C) as (ss' & c' & b' & E' & L' & N' & K').
  assert (ss = ss') by (eapply any_found; eauto). subst ss'.
  destruct (nb_counts c P u eta B M S w g n gs es err HC HS HQ HP HG Hl Hn HN Hw C F HE glob rng b ss "shots"%string false ec pos Hr Hb) as (X & _ & q & t & G & K & _); [cbn; auto|exact SS|].
  assert (EQ : fb_run c S P glob rng b gs n (NbArgs (RunArgs (Some (Z.of_nat (List.length ss))) (Some "shots"%string) false) ec) pos = fb_run c S P glob rng b gs n a pos) by (rewrite L; reflexivity).
  rewrite EQ in X, G. destruct (fb_run c S P glob rng b gs n a pos) as [[r b1] p1]. cbn [fst snd] in X, G. rewrite L in X. subst p1.
  destruct G as [[? _]|[[_ ->]|[? _]]]; try discriminate. exists t, c', b1, b', (pos + k * draws es)%nat. split; auto. split; auto. intros x. rewrite K, K'. reflexivity.
Qed.

(** ** Doubles *)
Lemma double_err : forall L v, (L <= 1000)%nat -> 0 <= v <= 6 * / 2 ^ 29 -> shot_error DU 7 (powerRZ 2 (-400)) v L <= 1 / 50000000.
Proof.
  intros L v HL Hv. apply le_INR in HL. assert (I1 : INR 1000 = 1000) by (rewrite INR_IZR_INZ; reflexivity). rewrite I1 in HL. pose proof (pos_INR L) as P. unfold shot_error.
  assert (G : powerRZ 2 (-400) <= 1 / 10000).
  { apply Rle_trans with (powerRZ 2 (-14)); [apply pz_le; lia|]. change (-14)%Z with (- (14))%Z. rewrite powerRZ_neg'. simpl. lra. }
  destruct tiny_400 as [G0 _]. set (g := powerRZ 2 (-400)) in *.
  assert (I7 : INR (7 * L) = 7 * INR L) by (rewrite mult_INR; simpl INR; ring).
  assert (Q : (1 + 300 * (DU * 7)) ^ (7 * L) - 1 <= 2 * (7 * INR L) * (300 * (DU * 7))) by (rewrite <- I7; apply pow_linear; rewrite ?I7, pow53; lra).
  assert (Q1 : 2 * (7 * INR L) * (300 * (DU * 7)) <= 4 / 1000000000) by (rewrite pow53; lra).
  assert (V : 6 * / 2 ^ 29 <= 12 / 1000000000) by (replace (2 ^ 29) with 536870912 by (rewrite pow_IZR; reflexivity); lra).
  set (t := (1 + 300 * (DU * 7)) ^ (7 * L)) in *. apply Rle_trans with ((16 / 1000000000) * (1 + 2 * (1 / 10000))); [|lra].
  assert (T : 1 <= t) by (unfold t; apply pow_R1_Rle; rewrite pow53; lra).
  apply Rmult_le_compat; lra.
Qed.
Lemma double_np_agree : forall over N n gs es, norms_within N n (/ 2 ^ 29) (powerRZ 2 (-400)) -> (0 < n <= 64)%nat -> circuit_events n gs es -> Forall (angles_within 7) gs ->
  (List.length es <= 1000)%nat -> forall glob b k, np_cached (double_arith over) n gs b -> let d := INR (draws es) in let a := RunArgs (Some (Z.of_nat k)) None false in
  mostly (k * draws es) (INR k * (28 * (1 + d + d * d) * 2 ^ draws es * (1 / 50000000)))
    (fun rng pos => same_counts (fl_np_run (double_arith over) N glob rng b gs n a pos) (np_run rng new_backend gs n a pos)).
Proof.
  intros over N n gs es HN [Hn Hn'] C F HL. apply (np_agree (double_arith over) DU DE DB 7 N (/ 2 ^ 29) (powerRZ 2 (-400)) n gs es (1 / 50000000)); auto using double_rounds, double_divides, double_ranges, wbound.
  apply double_err; auto. pose proof wbound. pose proof du_pos. lra.
Qed.
Lemma double_nb_agree : forall c over S n gs es, compiles c DU DE DB -> scales c DU DE -> divides_within (c_arith c) DU DE DB ->
  sums_within S n (/ 2 ^ 29) (powerRZ 2 (-400)) -> (0 < n <= 64)%nat -> circuit_events n gs es -> Forall (angles_within 7) gs ->
  (List.length es <= 1000)%nat -> forall glob b ec k, (ec = true -> nb_cached c (double_arith over) n gs b) -> let d := INR (draws es) in let a := NbArgs (RunArgs (Some (Z.of_nat k)) None false) ec in
  mostly (k * draws es) (INR k * (28 * (1 + d + d * d) * 2 ^ draws es * (1 / 50000000)))
    (fun rng pos => same_counts (fb_run c S (double_arith over) glob rng b gs n a pos) (nb_run rng new_backend gs n a pos)).
Proof.
  intros c over S n gs es HC HS HQ HN Hn C F HL.
  apply (nb_agree c (double_arith over) DU DE DB 7 S (/ 2 ^ 29) (powerRZ 2 (-400)) n gs es (1 / 50000000)); auto using double_rounds, wbound.
  - apply double_ranges. lia.
  - rewrite pow53. lra.
  - apply double_err; auto. pose proof wbound. pose proof du_pos. lra.
Qed.

(** ** Cases *)
Lemma mostly_some : forall m delta Q, mostly m delta Q -> delta < 1 -> forall pos, exists rng, draws_ok rng /\ Q rng pos.
Proof.
  intros m delta Q (bs & F & _ & V & H) L pos.
  assert (E : exists b, In b bs /\ 0 < SpecFloatMeasure.volume b).
  { assert (P : 0 < Rsum SpecFloatMeasure.volume bs) by lra. clear V H F. induction bs as [|b bs IH]; [cbn in P; lra|].
    destruct (Rlt_le_dec 0 (SpecFloatMeasure.volume b)) as [X|X]; [exists b; cbn; auto|]. destruct IH as (b' & I & Y); [cbn [Rsum] in P; lra|]. exists b'. cbn. auto. }
  destruct E as (b & I & VB). rewrite Forall_forall in F. destruct (F b I) as [_ U].
  assert (G : Forall (fun iv => 0 <= fst iv < snd iv /\ snd iv <= 1) b).
  { clear - VB U. induction U as [|iv b [U1 U2] U IH]; [constructor|]. rewrite volume_cons in VB. pose proof (volume_nonneg b) as NV. pose proof (Rmax_l 0 (snd iv - fst iv)) as RM.
    assert (0 < SpecFloatMeasure.volume b) by (destruct NV as [?|Z]; auto; rewrite <- Z, Rmult_0_r in VB; lra).
    assert (0 < Rmax 0 (snd iv - fst iv)) by (destruct RM as [?|Z]; auto; rewrite <- Z, Rmult_0_l in VB; lra).
    constructor; auto. destruct (Rle_lt_dec (snd iv - fst iv) 0) as [Z|Z]; [rewrite Rmax_left in *; lra|lra]. }
  exists (fun i => fst (nth (i - pos) b (0, 0))). split.
  - intros i. destruct (nth_in_or_default (i - pos) b (0, 0)) as [J|J]; [|rewrite J; cbn; lra]. rewrite Forall_forall in G. destruct (G _ J). lra.
  - apply (H b); auto.
    + intros i. destruct (nth_in_or_default (i - pos) b (0, 0)) as [J|J]; [|rewrite J; cbn; lra]. rewrite Forall_forall in G. destruct (G _ J). lra.
    + intros i LI. replace (pos + i - pos)%nat with i by lia. rewrite Forall_forall in G. destruct (G _ (nth_In b (0, 0) LI)). lra.
Qed.
Lemma ex_sure : forall pos, sure 1 ex_events (1 / 300000) [true; true] ex_draws pos.
Proof.
  intros pos. unfold sure. destruct ex_weights as (_ & -> & _). change (INR (draws ex_events)) with (INR 2). replace (INR 2) with 2 by (simpl; lra).
  split; [reflexivity|]. split; [lra|]. split; [lra|]. split.
  - rewrite ex_box. intros [|[|i]] L; cbn [List.length] in L; [| |lia]; unfold ex_draws; cbn [nth fst snd]; lra.
  - apply clear_apart.
    + apply (circuit_events_ok _ _ _ ex_law_events).
    + reflexivity.
    + lra.
    + change (0 < weight 1 ex_events [true; true]). destruct ex_weights as (_ & -> & _). lra.
    + rewrite ex_thresholds. change (norm2 1 (branch ex_events [true; true] (ket 0))) with (weight 1 ex_events [true; true]). destruct ex_weights as (_ & -> & _).
      intros [|[|i]] L; cbn [List.length] in L; [| |lia]; unfold ex_draws; cbn [nth]; rewrite Rabs_pos_eq by lra; lra.
Qed.
Lemma ex_loss : INR (draws ex_events) = 2 /\ INR 1000 * (28 * (1 + 2 + 2 * 2) * 2 ^ draws ex_events * (1 / 50000000)) <= 16 / 1000.
Proof. split; [cbn; lra|]. replace (INR 1000) with 1000 by (rewrite INR_IZR_INZ; reflexivity). change (draws ex_events) with 2%nat. lra. Qed.
Lemma ex_prefix : forall A N glob rng, exists q, fl_np_run A N glob rng new_backend [GOne KH (TInt 0)] 1 (RunArgs (Some 1%Z) (Some "shots"%string) false) 0 = (Ok (RShots [([0%nat], 1%nat)]), Backend (Some q) 0, 0%nat).
Proof. intros. eexists. cbv -[fl_run_single]. reflexivity. Qed.
Lemma ex_prefix_cached : forall A N glob rng, exists q, fl_np_run A N glob rng new_backend (firstn 1 ex_law) 1 (RunArgs (Some 1%Z) (Some "shots"%string) false) 0 = (Ok (RShots [([0%nat], 1%nat)]), Backend (Some q) 0, 0%nat) /\
  np_cached A 1 ex_law (Backend (Some q) 0).
Proof.
  intros A N glob rng. destruct (ex_prefix A N glob rng) as [q E]. exists q. split; auto.
  destruct (np_run_shots A N glob rng 1 (firstn 1 ex_law) new_backend 1 "shots"%string false 0 ltac:(lia) (np_cached_new _ _ _) ltac:(cbn; auto)) as [_ H].
  change (Z.of_nat 1) with 1%Z in H. cbn [firstn ex_law] in H. rewrite E in H. apply (np_cached_more A 1 (firstn 1 ex_law) (skipn 1 ex_law)) in H. exact H.
Qed.
