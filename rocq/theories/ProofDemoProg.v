(** Proofs about running the programs in /repo/examples. *)
From Coq Require Import String List Arith ZArith Bool Reals Lra Lia FunctionalExtensionality.
Import ListNotations.
From Verif Require Import Base Cplx Bits ModelTargets ModelGate ModelNumpy ModelCircuit ModelPauli ModelPauliMatrix ModelVqe ModelVqeLoop ModelDemo SpecTargets SpecQuantum SpecCircuit
  SpecMeasure SpecRun SpecAPI SpecPauli SpecPauliMatrix SpecVqe SpecVqeLoop SpecWq SpecDemo ProofPauli ProofPauliExpr ProofPauliArith ProofWq ProofDemo ProofDemoRun ProofDemoEx ProofVqeEx.
Local Open Scope R_scope.

Section Programs.
Variables (rng random : nat -> R) (powell : list R -> strategy).
Definition exact_sampler (s : option sampler) : Prop := s = None \/ s = Some (non_sampling_sampler rng).
Lemma least_width : forall e d n, same_op (expr_op e) (diag_op d) -> least (fun k => of_bits k d) n -> expr_qubits (expr_simplify e) = n.
Proof. intros e d n Sd [P M]. apply Nat.le_antisymm; [apply (diag_width e d n Sd); auto|]. apply M, (diag_width e d _ Sd). auto. Qed.
Lemma run_cost : forall seen h ham d n steps m s verbose, reachable rng seen h -> simulated rng h (VCirc [] (Z.of_nat n) None) -> same_op (expr_op (v_expr ham)) (diag_op d) ->
  least (fun k => of_bits k d) n -> exact_sampler s ->
  exists v h1 ps l, make_vqe rng random powell h ham steps m s = (Ok v, h1) /\ qaoa_result rng h h1 v (minimizer_or random powell m) steps n d verbose ps l.
Proof.
  intros seen h ham d n steps m s verbose Re Si Sd L Hs. pose proof (least_width _ _ _ Sd L) as W. subst n.
  destruct (diag_run rng random powell seen h ham d steps m s verbose Re Si Sd Hs) as [v [h1 [ps [asked [r [h2 [a [l [h3 [r' [M [Q [P [V [G [D [Ma [K [Mc [_ Ci]]]]]]]]]]]]]]]]]]]].
  exists v, h1, ps, l. split; [exact M|]. exists (v_expr ham), asked, r, h2, a, h3, r'. cbv zeta. exact (conj Sd (conj Q (conj P (conj V (conj G (conj D (conj Ma (conj K (conj Mc Ci))))))))).
Qed.
Lemma result_keys : forall h h1 v minim steps n d verbose ps l, qaoa_result rng h h1 v minim steps n d verbose ps l ->
  mass l = 1 /\ Forall (fun op => List.length (fst op) = n /\ Forall is_bit (fst op) /\ 0 < snd op) l.
Proof. intros h h1 v minim steps n d verbose ps l [e [asked [r [h2 [a [h3 [r' [_ [_ [_ [_ [_ [_ [M [K _]]]]]]]]]]]]]]]. auto. Qed.
Lemma mean_linear : forall d f a b l, mass l = 1 -> (forall x, d x = a + b * f x) -> mean_cost d l = a + b * mean_cost f l.
Proof.
  intros d f a b l M H. unfold mean_cost. transitivity (Rsum (fun op => snd op * a + b * (snd op * f (number (fst op)))) l).
  - apply Rsum_ext. intros op _. rewrite H. ring.
  - rewrite Bits.Rsum_add, Bits.Rsum_mul_l. rewrite (Rsum_ext _ (fun op : list nat * R => snd op * a) (fun op => a * snd op)) by (intros; ring). rewrite Bits.Rsum_mul_l.
    unfold mass in M. rewrite M. ring.
Qed.
Lemma mean_ext : forall d f l, (forall op, In op l -> d (number (fst op)) = f (number (fst op))) -> mean_cost d l = mean_cost f l.
Proof. intros d f l H. unfold mean_cost. apply Rsum_ext. intros op I. rewrite H; auto. Qed.

(** ** maxcut_qaoa *)
Lemma maxcut_run : forall seen h steps edges n m s verbose, reachable rng seen h -> simulated rng h (VCirc [] (Z.of_nat n) None) -> least (joined edges) n -> exact_sampler s ->
  exists v h1 ps l, maxcut_qaoa rng random powell h steps edges m s = (Ok v, h1) /\ qaoa_result rng h h1 v (minimizer_or random powell m) steps n (cut_cost edges) verbose ps l /\
    mean_cost (cut_cost edges) l = INR (List.length edges) - 2 * mean_cost (fun x => INR (cut edges x)) l /\
    forall k, (forall x, (cut edges x <= k)%nat) -> mean_cost (fun x => INR (cut edges x)) l <= INR k /\
      (mean_cost (fun x => INR (cut edges x)) l = INR k -> Forall (fun op => cut edges (number (fst op)) = k) l).
Proof.
  intros seen h steps edges n m s verbose Re Si [L1 L2] Hs.
  destruct (run_cost seen h (maxcut_hamiltonian edges) (cut_cost edges) n steps (Some (minimizer_or random powell m)) (Some (match s with Some s => s | None => non_sampling_sampler rng end)) verbose Re Si)
    as [v [h1 [ps [l [M R]]]]].
  - intros psi x. rewrite v_expr_op. apply maxcut_cost.
  - split; [apply cut_bits; auto|]. intros k K. apply L2, cut_bits, K.
  - right. destruct Hs as [->| ->]; reflexivity.
  - exists v, h1, ps, l. split; [exact M|]. split; [exact R|]. destruct (result_keys _ _ _ _ _ _ _ _ _ _ R) as [Ma K].
    assert (Li : mean_cost (cut_cost edges) l = INR (List.length edges) + -2 * mean_cost (fun x => INR (cut edges x)) l) by (apply mean_linear; auto; intros x; unfold cut_cost; ring).
    split; [lra|]. intros k Hk. destruct (mean_bound (cut_cost edges) (INR (List.length edges) - 2 * INR k) l) as [B1 B2].
    + eapply Forall_impl; [|exact K]. intros op [_ [_ H]]. exact H.
    + exact Ma.
    + intros x. unfold cut_cost. pose proof (le_INR _ _ (Hk x)). lra.
    + split; [lra|]. intros E. eapply Forall_impl; [|apply B2; lra]. intros op H. cbv beta in H. unfold cut_cost in H. apply INR_eq. lra.
Qed.

(** ** numpartition_qaoa *)
Lemma idle_least : forall nums n, least (fun k => forall i, (k <= i)%nat -> idle nums i) n -> (n <= List.length nums)%nat.
Proof. intros nums n [_ M]. apply M. intros i L. left. apply nth_overflow, L. Qed.
Lemma partition_run : forall seen h steps nums n m s verbose, reachable rng seen h -> simulated rng h (VCirc [] (Z.of_nat n) None) -> 
  least (fun k => forall i, (k <= i)%nat -> idle nums i) n -> exact_sampler s ->
  exists v h1 ps l, numpartition_qaoa rng random powell h steps nums m s = (Ok v, h1) /\ qaoa_result rng h h1 v (minimizer_or random powell m) steps n (partition_cost nums) verbose ps l /\
    0 <= mean_cost (partition_cost nums) l /\
    (mean_cost (partition_cost nums) l = 0 -> Forall (fun op => total (fst (groups nums (fst op))) = total (snd (groups nums (fst op)))) l) /\
    ((exists i j, i <> j /\ nth i nums 0 <> 0 /\ nth j nums 0 <> 0) ->
      Forall (fun op => partition_cost nums (number (fst op)) = (total (fst (groups nums (fst op))) - total (snd (groups nums (fst op)))) ^ 2 /\
        total (fst (groups nums (fst op))) + total (snd (groups nums (fst op))) = total nums) l).
Proof.
  intros seen h steps nums n m s verbose Re Si L Hs. unfold numpartition_qaoa. destruct (partition_cost_ok nums) as [e [E Se]]. rewrite E.
  destruct (run_cost seen h (VExpr e) (partition_cost nums) n steps m s verbose Re Si Se) as [v [h1 [ps [l [M R]]]]].
  - destruct L as [L1 L2]. split; [apply partition_bits; auto|]. intros k K. apply L2, partition_bits, K.
  - exact Hs.
  - exists v, h1, ps, l. split; [exact M|]. split; [exact R|]. destruct (result_keys _ _ _ _ _ _ _ _ _ _ R) as [Ma K]. pose proof (idle_least _ _ L) as Ln.
    destruct (mean_bound (partition_cost nums) 0 l) as [B1 B2].
    + eapply Forall_impl; [|exact K]. intros op [_ [_ H]]. exact H.
    + exact Ma.
    + intros x. unfold partition_cost. apply pow2_ge_0.
    + split; [exact B1|]. split.
      * intros Z. specialize (B2 Z). rewrite Forall_forall in B2, K |- *. intros op I. destruct (K op I) as [K1 [K2 _]]. unfold total. apply groups_equal; [auto|lia| |apply B2; auto].
        intros i Li. apply (proj1 L). lia.
      * intros [a [b [N [A B]]]].
        assert (Z : forall i, (n <= i)%nat -> nth i nums 0 = 0).
        { intros i Li. destruct (proj1 L i Li) as [Y|Y]; auto. exfalso. destruct (Nat.eq_dec a i) as [->|Na]; [apply B, Y; auto|apply A, Y; auto]. }
        eapply Forall_impl; [|exact K]. intros op [K1 [K2 _]]. destruct (groups_side nums (fst op) K2 ltac:(lia)) as [G1 G0].
        assert (Z0 : Rsum (fun i => nth i nums 0) (seq (List.length (fst op)) (List.length nums - List.length (fst op))) = 0) by (apply Rsum_zero; intros i Ii; apply in_seq in Ii; apply Z; lia).
        rewrite Z0, Rplus_0_r in G0. unfold total. rewrite G1, G0. split; [reflexivity|]. 
        unfold side. rewrite <- Bits.Rsum_add. rewrite (Rsum_ext _ _ (fun i => nth i nums 0)).
        -- rewrite <- (Rsum_map _ _ (fun y => y) (fun i => nth i nums 0)). f_equal. symmetry. clear. induction nums as [|y nums IH]; auto. cbn [List.length seq map nth]. rewrite <- seq_shift, map_map. cbn [nth]. f_equal. exact IH.
        -- intros i _. destruct (bit (number (fst op)) i); cbn [Bool.eqb]; ring.
Qed.

(** ** factoring_qaoa *)
Lemma odd_parts : forall b x, (1 <= b)%nat -> (Nat.Odd (odd_part x 0 (b - 1)) /\ odd_part x 0 (b - 1) < 2 ^ b /\ Nat.Odd (odd_part x (b - 1) b) /\ odd_part x (b - 1) b < 2 ^ S b)%nat.
Proof.
  intros b x B. unfold odd_part. pose proof (Nat.mod_upper_bound (x / 2 ^ 0) (2 ^ (b - 1)) ltac:(apply Nat.pow_nonzero; lia)) as B1. pose proof (Nat.mod_upper_bound (x / 2 ^ (b - 1)) (2 ^ b) ltac:(apply Nat.pow_nonzero; lia)) as B2.
  assert (E : (2 ^ b = 2 * 2 ^ (b - 1))%nat) by (replace b with (S (b - 1)) at 1 by lia; reflexivity). rewrite Nat.pow_succ_r'.
  split; [eexists; rewrite Nat.add_comm; reflexivity|]. split; [lia|]. split; [eexists; rewrite Nat.add_comm; reflexivity|]. lia.
Qed.
Lemma factoring_run : forall seen h steps num m b s verbose, reachable rng seen h -> bits_for (Nat.sqrt num) b -> simulated rng h (VCirc [] (Z.of_nat (b - 1 + b)) None) -> num <> 2%nat -> exact_sampler s ->
  exists v sep h1 ps l, factoring_qaoa rng random powell h steps num m s = (Ok (v, sep), h1) /\
    qaoa_result rng h h1 v (minimizer_or random powell m) steps (b - 1 + b) (factor_cost num (b - 1) b) verbose ps l /\
    0 <= mean_cost (factor_cost num (b - 1) b) l /\
    Forall (fun op => exists p q, sep (fst op) = Ok (p, q) /\ factor_cost num (b - 1) b (number (fst op)) = (INR num - INR p * INR q) ^ 2 /\
      (Nat.Odd p /\ p < 2 ^ b /\ Nat.Odd q /\ q < 2 ^ S b)%nat /\
      (mean_cost (factor_cost num (b - 1) b) l = 0 -> (num = p * q /\ (3 < num -> 1 < p /\ 1 < q))%nat)) l.
Proof.
  intros seen h steps num m b s verbose Re Bb Si N2 Hs. unfold factoring_qaoa, n1_bits, n2_bits. destruct (get_nbit_ok (Nat.sqrt num)) as [b' [Eb Bb']].
  assert (b' = b) as ->. { destruct Bb as [X1 [X2 X3]], Bb' as [Y1 [Y2 Y3]]. apply Nat.le_antisymm; auto. }
  rewrite Eb. cbn [bind]. destruct (factoring_cost num (b - 1) b) as [e [E Se]]. rewrite E.
  assert (L : least (fun k => of_bits k (factor_cost num (b - 1) b)) (b - 1 + b)).
  { destruct Bb as [X1 _]. assert (F : forall k, of_bits k (factor_cost num (b - 1) b) <-> (b - 1 + b <= k)%nat \/ (num = 2 /\ b - 1 = 0)%nat).
    { intros k. pose proof (factor_bits num (b - 1) k) as F. replace (S (b - 1)) with b in F by lia. exact F. }
    split; [apply F; auto|]. intros k K. apply F in K. destruct K as [K|[K _]]; [exact K|contradiction]. }
  destruct (run_cost seen h (VExpr e) (factor_cost num (b - 1) b) (b - 1 + b) steps m s verbose Re Si Se L Hs) as [v [h1 [ps [l [M R]]]]]. rewrite M.
  exists v, (bitseparator (b - 1) b), h1, ps, l. split; [reflexivity|]. split; [exact R|]. destruct (result_keys _ _ _ _ _ _ _ _ _ _ R) as [Ma K].
  destruct (mean_bound (factor_cost num (b - 1) b) 0 l) as [B1 B2].
  - eapply Forall_impl; [|exact K]. intros op [_ [_ H]]. exact H.
  - exact Ma.
  - intros x. unfold factor_cost. apply pow2_ge_0.
  - split; [exact B1|]. rewrite Forall_forall in K |- *. intros op I. destruct (K op I) as [K1 [K2 _]]. exists (odd_part (number (fst op)) 0 (b - 1)), (odd_part (number (fst op)) (b - 1) b).
    split; [apply separator_ok; auto|]. split; [reflexivity|]. split; [apply odd_parts; apply Bb|]. intros Z. specialize (B2 Z). rewrite Forall_forall in B2. pose proof (B2 op I) as C. cbv beta in C.
    split; [apply factor_zero; auto|]. intros N3. apply (factor_proper num); auto.
Qed.
End Programs.
