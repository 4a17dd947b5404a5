(** Proofs: QAOA with enough steps reaches the lowest cost: parameters, more steps, probabilities and runs *)
From Coq Require Import List Arith ZArith Bool Reals Lia Lra FunctionalExtensionality.
Import ListNotations.
From Verif Require Import Base Cplx Bits ModelTargets ModelGate ModelNumpy ModelCircuit ModelPauli ModelPauliMatrix ModelVqe ModelVqeLoop ModelDemo SpecTargets SpecQuantum SpecCircuit
  SpecMeasure SpecRun SpecAPI SpecPauli SpecPauliMatrix SpecVqe SpecVqeLoop SpecWq SpecDemo SpecClimb ProofDemo ProofDemoRun ProofDemoEx.
From Verif Require ProofClimbQaoa ProofClimbEnd ProofDemoProg ProofGap ProofVqeEx ProofPauliExpr ProofPauliArith.
Local Open Scope R_scope.

(** ** Rounds with angles 0 *)
Lemma evolved_zero : forall t psi, evolved 0 t psi = psi.
Proof.
  intros t psi. unfold evolved. destruct (t_ops t) as [|o w]; [reflexivity|]. rewrite Rmult_0_r. unfold op_exp, op_add, op_scl, op_one. apply functional_extensionality. intros x.
  rewrite cos_0, sin_0. ceq.
Qed.
Lemma all_zero : forall ts psi, evolved_all 0 ts psi = psi.
Proof. unfold evolved_all. induction ts as [|t r IH]; intros psi; simpl; [reflexivity|]. rewrite evolved_zero. apply IH. Qed.
Lemma ap1_zero : forall q psi, ap1 (mRX 0) q psi = psi.
Proof.
  intros q psi. apply functional_extensionality. intros x. unfold ap1, mRX. replace (0 / 2) with 0 by field. rewrite cos_0, sin_0.
  pose proof (setb_id x q) as E. destruct (bit x q); simpl; rewrite ?E; ceq.
Qed.
Lemma everywhere_zero : forall n psi, everywhere n (mRX 0) psi = psi.
Proof. intros n. unfold everywhere. induction (seq 0 n) as [|q r IH]; intros psi; simpl; [reflexivity|]. rewrite ap1_zero. apply IH. Qed.
Lemma round_zero : forall n ham mixer psi, qaoa_round n ham mixer psi (0, 0) = psi.
Proof.
  intros n ham mixer psi. unfold qaoa_round, mixed. simpl. rewrite !Rmult_0_r, all_zero. destruct mixer as [ts|]; [apply all_zero|apply everywhere_zero].
Qed.
Lemma rounds_zero : forall n ham mixer k psi, fold_left (qaoa_round n ham mixer) (repeat (0, 0) k) psi = psi.
Proof. induction k as [|k IH]; intros psi; simpl; [reflexivity|]. rewrite round_zero. apply IH. Qed.

(** ** The angles as parameters *)
Lemma map_nth_seq : forall (A : Type) (l : list A) x0, map (fun i => nth i l x0) (seq 0 (length l)) = l.
Proof.
  intros A l x0. induction l as [|x r IH]; [reflexivity|]. simpl. f_equal. rewrite <- seq_shift, map_map. exact IH.
Qed.
Lemma angles_pairs : forall bgs, angles (length bgs) (map fst bgs ++ map snd bgs) = bgs.
Proof.
  intros bgs. unfold angles. rewrite app_length, !map_length. replace (Nat.min (length bgs) (length bgs + length bgs - length bgs)) with (length bgs) by lia.
  transitivity (map (fun i => nth i bgs (0, 0)) (seq 0 (length bgs))); [|apply map_nth_seq]. apply map_ext_in. intros i I. apply in_seq in I.
  rewrite app_nth1 by (rewrite map_length; lia). rewrite app_nth2 by (rewrite map_length; lia). rewrite map_length. replace (length bgs + i - length bgs)%nat with i by lia.
  rewrite (map_nth fst bgs (0, 0)), (map_nth snd bgs (0, 0)). destruct (nth i bgs (0, 0)); reflexivity.
Qed.
Lemma fst_combine : forall (A B : Type) (a : list A) (b : list B), length a = length b -> map fst (combine a b) = a.
Proof. induction a as [|x a IH]; intros [|y b] H; simpl in *; try discriminate; [reflexivity|]. f_equal. apply IH. lia. Qed.
Lemma snd_combine : forall (A B : Type) (a : list A) (b : list B), length a = length b -> map snd (combine a b) = b.
Proof. induction a as [|x a IH]; intros [|y b] H; simpl in *; try discriminate; [reflexivity|]. f_equal. apply IH. lia. Qed.
Lemma map_repeat : forall (A B : Type) (f : A -> B) x k, map f (repeat x k) = repeat (f x) k.
Proof. induction k as [|k IH]; simpl; [reflexivity|]. rewrite IH. reflexivity. Qed.
Lemma more_steps : forall n ham mixer P k psi betas gammas, length betas = P -> length gammas = P ->
  qaoa_state n ham mixer (P + k) psi ((betas ++ repeat 0 k) ++ gammas ++ repeat 0 k) = qaoa_state n ham mixer P psi (betas ++ gammas).
Proof.
  intros n ham mixer P k psi betas gammas Lb Lg. set (bgs := combine betas gammas).
  assert (F : map fst bgs = betas) by (apply fst_combine; lia). assert (S : map snd bgs = gammas) by (apply snd_combine; lia).
  assert (L : length bgs = P) by (unfold bgs; rewrite combine_length; lia).
  assert (L' : length (bgs ++ repeat (0, 0) k) = (P + k)%nat) by (rewrite app_length, repeat_length; lia).
  unfold qaoa_state.
  replace ((betas ++ repeat 0 k) ++ gammas ++ repeat 0 k) with (map fst (bgs ++ repeat (0, 0) k) ++ map snd (bgs ++ repeat (0, 0) k))
    by (rewrite !map_app, !map_repeat, F, S; reflexivity).
  rewrite <- L', angles_pairs, fold_left_app, rounds_zero, <- L. f_equal. rewrite <- F at 1. rewrite <- S at 1. symmetry. apply angles_pairs.
Qed.

(** ** All numbers *)
Lemma of_bits_mod : forall n d, of_bits n d -> forall x, d x = d (x mod 2 ^ n)%nat.
Proof.
  intros n d B x. assert (H : forall k x, (x < 2 ^ (n + k))%nat -> d x = d (x mod 2 ^ n)%nat).
  { induction k as [|k IH]; intros y Y.
    - rewrite Nat.add_0_r in Y. rewrite Nat.mod_small by exact Y. reflexivity.
    - destruct (lt_dec y (2 ^ (n + k))) as [S|S]; [apply IH, S|]. replace (n + Datatypes.S k)%nat with (Datatypes.S (n + k)) in Y by lia. rewrite Nat.pow_succ_r' in Y.
      assert (E : (y = 2 ^ (n + k) + (y - 2 ^ (n + k)))%nat) by lia. assert (Z : (y - 2 ^ (n + k) < 2 ^ (n + k))%nat) by lia.
      set (z := (y - 2 ^ (n + k))%nat) in *. transitivity (d (flip z (n + k))); [f_equal; rewrite <- (ProofGap.high_flip (n + k) z Z); exact E|]. rewrite B by lia. rewrite (IH z Z). f_equal.
      rewrite E, Nat.pow_add_r. rewrite Nat.mul_comm, Nat.add_comm, Nat.mod_add by (apply Nat.pow_nonzero; lia). reflexivity. }
  apply (H x). apply Nat.lt_le_trans with (2 ^ x)%nat; [apply Nat.pow_gt_lin_r; lia|apply Nat.pow_le_mono_r; lia].
Qed.

(** ** Enough steps *)
Lemma reach : forall e d, same_op (expr_op e) (diag_op d) -> let h := expr_simplify e in let n := expr_qubits h in forall eps, 0 < eps ->
  exists P0, forall P, (P0 <= P)%nat -> exists ps, length ps = (2 * P)%nat /\ forall x, mean_value n d (qaoa_state n h None P (everywhere n mH (ket 0)) ps) <= d x + eps.
Proof.
  intros e d Sd h n eps He. destruct (ProofClimbEnd.reach_rounds e d Sd eps He) as [bgs H]. change (expr_qubits (expr_simplify e)) with n in H.
  exists (length bgs). intros P HP. set (k := (P - length bgs)%nat).
  exists ((map fst bgs ++ repeat 0 k) ++ map snd bgs ++ repeat 0 k). split; [rewrite !app_length, !map_length, !repeat_length; unfold k; lia|].
  intros x. replace P with (length bgs + k)%nat by (unfold k; lia). rewrite more_steps by apply map_length. unfold qaoa_state. rewrite angles_pairs.
  assert (B : of_bits n d) by (apply (diag_width e d n Sd); unfold n, h; lia). rewrite (of_bits_mod n d B x). apply H. apply Nat.mod_upper_bound, Nat.pow_nonzero. lia.
Qed.

(** ** From the mean to the probability *)
Lemma value_gap : forall (d : nat -> R) c N, exists g, 0 < g /\ forall x, (x < N)%nat -> d x <= c \/ c + g <= d x.
Proof.
  intros d c N. induction N as [|N [g [G H]]].
  - exists 1. split; [lra|]. intros x X. lia.
  - destruct (Rle_dec (d N) c) as [L|L].
    + exists g. split; [exact G|]. intros x X. destruct (Nat.eq_dec x N) as [->|Nx]; [auto|apply H; lia].
    + exists (Rmin g (d N - c)). split; [apply Rmin_glb_lt; lra|]. intros x X. pose proof (Rmin_l g (d N - c)). pose proof (Rmin_r g (d N - c)).
      destruct (Nat.eq_dec x N) as [->|Nx]; [right; lra|]. destruct (H x) as [?|?]; [lia|auto|right; lra].
Qed.
Lemma mean_chance : forall n d x g eps l, 0 < g -> lowest d x -> (forall y, (y < 2 ^ n)%nat -> d y <= d x \/ d x + g <= d y) ->
  mass l = 1 -> Forall (fun op => length (fst op) = n /\ Forall is_bit (fst op) /\ 0 < snd op) l -> mean_cost d l <= d x + eps * g -> 1 - eps <= chance (low_bits d x) l.
Proof.
  intros n d x g eps l G Lo Gap M K Me.
  assert (H : d x * mass l + g * (mass l - chance (low_bits d x) l) <= mean_cost d l).
  { clear M Me. unfold mass, mean_cost, chance, low_bits. induction l as [|[k p] r IH]; [simpl; lra|]. apply Forall_cons_iff in K. destruct K as [[Lk [Bk Pk]] K].
    specialize (IH K). cbn [fst snd] in *. cbn [Rsum] in *. cbn [fst snd] in *.
    assert (Nk : (number k < 2 ^ n)%nat) by (rewrite <- Lk; apply number_bound, Bk). pose proof (Lo (number k)) as L1.
    destruct (Rle_dec (d (number k)) (d x)) as [L|L].
    - assert (p * d x <= p * d (number k)) by (apply Rmult_le_compat_l; lra). lra.
    - destruct (Gap _ Nk) as [?|Q]; [lra|]. assert (p * (d x + g) <= p * d (number k)) by (apply Rmult_le_compat_l; lra). lra. }
  rewrite M in H. assert (B : g * (1 - chance (low_bits d x) l) <= g * eps) by lra. apply Rmult_le_reg_l in B; lra.
Qed.

Lemma some_lowest : forall (d : nat -> R) N, exists x, (x < S N)%nat /\ forall y, (y < S N)%nat -> d x <= d y.
Proof.
  intros d N. induction N as [|N [x [X H]]].
  - exists 0%nat. split; [lia|]. intros y Y. replace y with 0%nat by lia. lra.
  - destruct (Rle_dec (d x) (d (S N))) as [L|L].
    + exists x. split; [lia|]. intros y Y. destruct (Nat.eq_dec y (S N)) as [->|Ny]; [exact L|apply H; lia].
    + exists (S N). split; [lia|]. intros y Y. destruct (Nat.eq_dec y (S N)) as [->|Ny]; [lra|]. apply Rle_trans with (d x); [lra|apply H; lia].
Qed.
Lemma bits_lowest : forall n d, of_bits n d -> exists x, lowest d x.
Proof.
  intros n d B. destruct (some_lowest d (2 ^ n - 1)) as [x [X H]]. assert (0 < 2 ^ n)%nat by (apply Nat.neq_0_lt_0, Nat.pow_nonzero; lia).
  exists x. intros y. rewrite (of_bits_mod n d B y). apply H. pose proof (Nat.mod_upper_bound y (2 ^ n)). lia.
Qed.
(** how close the mean must be for the probability *)
Lemma near_lowest : forall n d eps, of_bits n d -> 0 < eps -> exists tol, 0 < tol /\ forall l, mass l = 1 ->
  Forall (fun op => length (fst op) = n /\ Forall is_bit (fst op) /\ 0 < snd op) l -> (forall x, mean_cost d l <= d x + tol) ->
  forall x, mean_cost d l <= d x + eps /\ (lowest d x -> 1 - eps <= chance (low_bits d x) l).
Proof.
  intros n d eps B He. destruct (bits_lowest n d B) as [x0 L0]. destruct (value_gap d (d x0) (2 ^ n)) as [g [G H]]. assert (0 < eps * g) by (apply Rmult_lt_0_compat; lra).
  exists (Rmin eps (eps * g)). pose proof (Rmin_l eps (eps * g)). pose proof (Rmin_r eps (eps * g)).
  split; [apply Rmin_glb_lt; lra|]. intros l Ma K Me x. specialize (Me x). split; [lra|]. intros Lx.
  assert (Eq : d x = d x0) by (apply Rle_antisym; [apply Lx|apply L0]).
  apply (mean_chance n d x g eps l G Lx); [intros y Y; rewrite Eq; apply H, Y|exact Ma|exact K|lra].
Qed.

(** ** Runs *)
Section Run.
Variables (rng random : nat -> R) (powell : list R -> strategy).
Lemma reach_run : forall seen h ham d s verbose, let e := expr_simplify (v_expr ham) in let n := expr_qubits e in reachable rng seen h ->
  simulated rng h (VCirc [] (Z.of_nat n) None) -> same_op (expr_op (v_expr ham)) (diag_op d) -> s = None \/ s = Some (non_sampling_sampler rng) ->
  forall eps, 0 < eps -> exists tol P0, 0 < tol /\ forall P m, (P0 <= P)%nat ->
  let E := fun ps => mean_value n d (qaoa_state n e None P (everywhere n mH (ket 0)) ps) in
  exists v h1 ps asked r h2 a l h3 r', make_vqe rng random powell h ham P m s = (Ok v, h1) /\ plays E (minimizer_or random powell m (2 * P)%nat) ps asked /\
    vqe_run rng h1 v verbose = (Ok (ps, r), h2, a, if verbose then map (fun p => (p, E p)) asked else []) /\
    get_probs rng h2 r None None true = (Ok l, h3, r') /\ mass l = 1 /\ mean_cost d l = E ps /\
    ((forall p, length p = (2 * P)%nat -> E ps <= E p + tol) -> forall x, mean_cost d l <= d x + eps /\ (lowest d x -> 1 - eps <= chance (low_bits d x) l)).
Proof.
  intros seen h ham d s verbose e n Re Si Sd Hs eps He.
  assert (B : of_bits n d) by (apply (diag_width (v_expr ham) d n Sd); unfold n, e; lia).
  destruct (near_lowest n d eps B He) as [tol [Ht Near]]. destruct (reach (v_expr ham) d Sd (tol / 2)) as [P0 R0]; [lra|]. exists (tol / 2), P0. split; [lra|]. intros P m HP E.
  destruct (diag_run rng random powell seen h ham d P m s verbose Re Si Sd Hs) as [v [h1 [ps [asked [r [h2 [a [l [h3 [r' [M [_ [Pl [V [Gp [_ [Ma [K [Mc _]]]]]]]]]]]]]]]]]]].
  exists v, h1, ps, asked, r, h2, a, l, h3, r'. split; [exact M|]. split; [exact Pl|]. split; [exact V|]. split; [exact Gp|]. split; [exact Ma|]. split; [exact Mc|].
  intros Best. apply (Near l Ma K). intros x. destruct (R0 P HP) as [p [Lp Hp]]. specialize (Best p Lp). specialize (Hp x).
  change (E p <= d x + tol / 2) in Hp. change (mean_cost d l = E ps) in Mc. lra.
Qed.
Lemma reach_answer : forall seen h ham d s verbose, let e := expr_simplify (v_expr ham) in let n := expr_qubits e in reachable rng seen h ->
  simulated rng h (VCirc [] (Z.of_nat n) None) -> same_op (expr_op (v_expr ham)) (diag_op d) -> s = None \/ s = Some (non_sampling_sampler rng) ->
  forall eps, 0 < eps -> exists P0, forall P, (P0 <= P)%nat -> exists ps, length ps = (2 * P)%nat /\
  exists v h1 r h2 a l h3 r', make_vqe rng random powell h ham P (Some (fun _ => Answer ps)) s = (Ok v, h1) /\ vqe_run rng h1 v verbose = (Ok (ps, r), h2, a, []) /\
    get_probs rng h2 r None None true = (Ok l, h3, r') /\ mass l = 1 /\ Forall (fun op => length (fst op) = n /\ Forall is_bit (fst op) /\ 0 < snd op) l /\
    forall x, mean_cost d l <= d x + eps /\ (lowest d x -> 1 - eps <= chance (low_bits d x) l).
Proof.
  intros seen h ham d s verbose e n Re Si Sd Hs eps He.
  assert (B : of_bits n d) by (apply (diag_width (v_expr ham) d n Sd); unfold n, e; lia).
  destruct (near_lowest n d eps B He) as [tol [Ht Near]]. destruct (reach (v_expr ham) d Sd tol Ht) as [P0 R0]. exists P0. intros P HP.
  destruct (R0 P HP) as [ps [Lp Hp]]. exists ps. split; [exact Lp|].
  destruct (diag_run rng random powell seen h ham d P (Some (fun _ => Answer ps)) s verbose Re Si Sd Hs)
    as [v [h1 [ps' [asked [r [h2 [a [l [h3 [r' [M [_ [Pl [V [Gp [_ [Ma [K [Mc _]]]]]]]]]]]]]]]]]]].
  simpl in Pl. inversion Pl; subst ps' asked. exists v, h1, r, h2, a, l, h3, r'. split; [exact M|]. split; [rewrite V; destruct verbose; reflexivity|]. split; [exact Gp|]. split; [exact Ma|]. split; [exact K|].
  apply (Near l Ma K). intros x. rewrite Mc. apply Hp.
Qed.
Lemma reach_maxcut : forall seen h edges n s verbose, reachable rng seen h -> simulated rng h (VCirc [] (Z.of_nat n) None) -> least (joined edges) n ->
  s = None \/ s = Some (non_sampling_sampler rng) -> forall eps, 0 < eps -> exists P0, forall P, (P0 <= P)%nat -> exists ps, length ps = (2 * P)%nat /\
  exists v h1 r h2 a l h3 r', maxcut_qaoa rng random powell h P edges (Some (fun _ => Answer ps)) s = (Ok v, h1) /\ vqe_run rng h1 v verbose = (Ok (ps, r), h2, a, []) /\
    get_probs rng h2 r None None true = (Ok l, h3, r') /\ mass l = 1 /\
    forall x, INR (cut edges x) - eps <= mean_cost (fun y => INR (cut edges y)) l /\ (maximum_cut edges x -> 1 - eps <= chance (cut_bits_of edges x) l).
Proof.
  intros seen h edges n s verbose Re Si [L1 L2] Hs eps He.
  assert (Sd : same_op (expr_op (v_expr (maxcut_hamiltonian edges))) (diag_op (cut_cost edges))) by (intros psi x; rewrite ProofPauliArith.v_expr_op; apply maxcut_cost).
  assert (W : expr_qubits (expr_simplify (v_expr (maxcut_hamiltonian edges))) = n).
  { apply (ProofDemoProg.least_width _ _ _ Sd). split; [apply cut_bits; auto|]. intros k K. apply L2, cut_bits, K. }
  destruct (reach_answer seen h (maxcut_hamiltonian edges) (cut_cost edges) (Some (match s with Some s => s | None => non_sampling_sampler rng end)) verbose Re) with (eps := eps)
    as [P0 H0]; [rewrite W; exact Si|exact Sd|right; destruct Hs as [->| ->]; reflexivity|exact He|].
  exists P0. intros P HP. destruct (H0 P HP) as [ps [Lp [v [h1 [r [h2 [a [l [h3 [r' [M [V [Gp [Ma [_ Z]]]]]]]]]]]]]]]. exists ps. split; [exact Lp|].
  exists v, h1, r, h2, a, l, h3, r'. split; [exact M|]. split; [exact V|]. split; [exact Gp|]. split; [exact Ma|]. intros x. destruct (Z x) as [Z1 Z2].
  assert (Li : mean_cost (cut_cost edges) l = INR (List.length edges) + -2 * mean_cost (fun x => INR (cut edges x)) l) by (apply ProofDemoProg.mean_linear; auto; intros y; unfold cut_cost; ring).
  split; [unfold cut_cost in Z1 at 2; lra|]. intros Mx. assert (Lx : lowest (cut_cost edges) x) by (apply lowest_cut, Mx). eapply Rle_trans; [apply (Z2 Lx)|]. apply Req_le.
  unfold chance. apply Rsum_ext. intros op _. unfold low_bits, cut_bits_of, cut_cost.
  destruct (Rle_dec _ _) as [Q|Q]; destruct (Nat.leb_spec (cut edges x) (cut edges (number (fst op)))) as [Q'|Q']; try reflexivity.
  - apply lt_INR in Q'. lra.
  - apply le_INR in Q'. lra.
Qed.
Lemma chance_mono : forall g g' l, Forall (fun op : list nat * R => 0 < snd op /\ (g (fst op) = true -> g' (fst op) = true)) l -> chance g l <= chance g' l.
Proof.
  intros g g' l F. unfold chance. induction F as [|[k p] r [P H] F IH]; [simpl; lra|]. cbn [Rsum]. cbn [fst snd] in *.
  destruct (g k) eqn:E; [rewrite (H eq_refl); lra|]. destruct (g' k); lra.
Qed.
Lemma reach_partition : forall seen h nums n s verbose, reachable rng seen h -> simulated rng h (VCirc [] (Z.of_nat n) None) -> least (fun k => forall i, (k <= i)%nat -> idle nums i) n ->
  s = None \/ s = Some (non_sampling_sampler rng) -> forall eps, 0 < eps -> exists P0, forall P, (P0 <= P)%nat -> exists ps, length ps = (2 * P)%nat /\
  exists v h1 r h2 a l h3 r', numpartition_qaoa rng random powell h P nums (Some (fun _ => Answer ps)) s = (Ok v, h1) /\ vqe_run rng h1 v verbose = (Ok (ps, r), h2, a, []) /\
    get_probs rng h2 r None None true = (Ok l, h3, r') /\ mass l = 1 /\ (forall x, mean_cost (partition_cost nums) l <= partition_cost nums x + eps) /\
    ((exists x, partition_cost nums x = 0) -> 1 - eps <= chance (fun bits => equal_groups (groups nums bits)) l).
Proof.
  intros seen h nums n s verbose Re Si L Hs eps He. unfold numpartition_qaoa. destruct (partition_cost_ok nums) as [e [E Se]]. rewrite E.
  assert (W : expr_qubits (expr_simplify e) = n).
  { apply (ProofDemoProg.least_width _ _ _ Se). destruct L as [L1 L2]. split; [apply partition_bits; auto|]. intros k K. apply L2, partition_bits, K. }
  destruct (reach_answer seen h (VExpr e) (partition_cost nums) s verbose Re) with (eps := eps) as [P0 H0]; [simpl; rewrite W; exact Si|exact Se|exact Hs|exact He|].
  exists P0. intros P HP. destruct (H0 P HP) as [ps [Lp [v [h1 [r [h2 [a [l [h3 [r' [M [V [Gp [Ma [K Z]]]]]]]]]]]]]]]. exists ps. split; [exact Lp|].
  exists v, h1, r, h2, a, l, h3, r'. split; [exact M|]. split; [exact V|]. split; [exact Gp|]. split; [exact Ma|]. split; [intros x; apply Z|].
  intros [x X]. destruct (Z x) as [_ Z2]. assert (Lx : lowest (partition_cost nums) x) by (intros y; rewrite X; unfold partition_cost; apply pow2_ge_0).
  eapply Rle_trans; [apply (Z2 Lx)|]. apply chance_mono. rewrite Forall_forall in K |- *. intros op I. destruct (K op I) as [K1 [K2 K3]]. change (v_expr (VExpr e)) with e in K1. rewrite W in K1.
  split; [exact K3|]. unfold low_bits, equal_groups. rewrite X. destruct (Rle_dec _ _) as [Q|Q]; [|discriminate]. intros _.
  destruct (Req_EM_T _ _) as [|Ne]; [reflexivity|]. destruct Ne. unfold total. pose proof (ProofDemoProg.idle_least _ _ L).
  apply groups_equal; [exact K2|lia|intros i Li; apply (proj1 L); lia|]. apply Rle_antisym; [exact Q|]. unfold partition_cost. apply pow2_ge_0.
Qed.
Lemma reach_factors : forall seen h a b m s verbose, let num := ((1 + 2 * a) * (1 + 2 * b))%nat in reachable rng seen h -> simulated rng h (VCirc [] (Z.of_nat (m - 1 + m)) None) ->
  bits_for (Nat.sqrt num) m -> (a <= b)%nat -> (b < 2 ^ m)%nat -> s = None \/ s = Some (non_sampling_sampler rng) -> forall eps, 0 < eps ->
  exists P0, forall P, (P0 <= P)%nat -> exists ps, length ps = (2 * P)%nat /\
  exists v sep h1 r h2 c l h3 r', factoring_qaoa rng random powell h P num (Some (fun _ => Answer ps)) s = (Ok (v, sep), h1) /\ vqe_run rng h1 v verbose = (Ok (ps, r), h2, c, []) /\
    get_probs rng h2 r None None true = (Ok l, h3, r') /\ mass l = 1 /\ 1 - eps <= chance (fun bits => factors num (sep bits)) l.
Proof.
  intros seen h a b m s verbose num Re Si Bb Lab Lb Hs eps He. unfold factoring_qaoa, n1_bits, n2_bits. destruct (get_nbit_ok (Nat.sqrt num)) as [m' [Em Bm']].
  assert (m' = m) as ->. { destruct Bb as [X1 [X2 X3]], Bm' as [Y1 [Y2 Y3]]. apply Nat.le_antisymm; auto. }
  rewrite Em. cbn [bind]. destruct (factoring_cost num (m - 1) m) as [e [E Se]]. rewrite E.
  assert (W : expr_qubits (expr_simplify e) = (m - 1 + m)%nat).
  { apply (ProofDemoProg.least_width _ _ _ Se). destruct Bb as [X1 _].
    assert (F : forall k, of_bits k (factor_cost num (m - 1) m) <-> (m - 1 + m <= k)%nat \/ (num = 2 /\ m - 1 = 0)%nat).
    { intros k. pose proof (factor_bits num (m - 1) k) as F. replace (S (m - 1)) with m in F by lia. exact F. }
    split; [apply F; auto|]. intros k K. apply F in K. destruct K as [K|[K _]]; [exact K|exfalso; unfold num in K; lia]. }
  destruct (reach_answer seen h (VExpr e) (factor_cost num (m - 1) m) s verbose Re) with (eps := eps) as [P0 H0]; [simpl; rewrite W; exact Si|exact Se|exact Hs|exact He|].
  exists P0. intros P HP. destruct (H0 P HP) as [ps [Lp [v [h1 [r [h2 [c [l [h3 [r' [M [V [Gp [Ma [K Z]]]]]]]]]]]]]]]. exists ps. split; [exact Lp|]. rewrite M.
  exists v, (bitseparator (m - 1) m), h1, r, h2, c, l, h3, r'. split; [reflexivity|]. split; [exact V|]. split; [exact Gp|]. split; [exact Ma|].
  destruct (factor_exists a b m Bb Lab Lb) as [_ [_ [_ X]]]. destruct (Z (a + 2 ^ (m - 1) * b)%nat) as [_ Z2]. fold num in X.
  assert (Pos : forall y, 0 <= factor_cost num (m - 1) m y) by (intros y; unfold factor_cost; apply pow2_ge_0).
  eapply Rle_trans; [apply Z2; intros y; rewrite X; apply Pos|]. apply chance_mono. rewrite Forall_forall in K |- *. intros op I. destruct (K op I) as [K1 [K2 K3]].
  change (v_expr (VExpr e)) with e in K1. rewrite W in K1. split; [exact K3|]. unfold low_bits, factors. rewrite X. destruct (Rle_dec _ _) as [Q|Q]; [|discriminate]. intros _.
  rewrite separator_ok by assumption. apply Nat.eqb_eq. symmetry. apply factor_zero. apply Rle_antisym; [exact Q|apply Pos].
Qed.
End Run.
