(** Proofs about Opt.qaoa. *)
From Coq Require Import String List Arith ZArith Bool Reals Lra Lia.
Import ListNotations.
From Verif Require Import Base Cplx Bits ModelTargets ModelGate ModelNumpy ModelCircuit ModelPauli ModelPauliMatrix ModelVqe ModelVqeLoop ModelDemo ModelWq ModelOpt ModelOptQaoa
  SpecTargets SpecQuantum SpecCircuit SpecMeasure SpecRun SpecAPI SpecPauli SpecPauliMatrix SpecVqe SpecVqeLoop SpecDemo SpecWq SpecOpt SpecOptQaoa
  ProofPauli ProofPauliExpr ProofPauliArith ProofWq ProofDemo ProofDemoRun ProofDemoEx ProofDemoProg ProofDemoCase.
Local Open Scope R_scope.

Lemma total_ext : forall n f g, (forall i, (i < n)%nat -> f i = g i) -> total n f = total n g.
Proof. intros n f g H. apply Bits.Rsum_ext. intros i I. apply in_seq in I. apply H. lia. Qed.
Lemma total_add : forall n f g, total n (fun i => f i + g i) = total n f + total n g.
Proof. intros. apply Bits.Rsum_add. Qed.
Lemma total_l : forall n k f, total n (fun i => k * f i) = k * total n f.
Proof. intros. apply Bits.Rsum_mul_l. Qed.
Lemma total_at : forall n i v, (i < n)%nat -> total n (fun j => if (j =? i)%nat then v j else 0) = v i.
Proof.
  intros n i v L. unfold total. rewrite (Bits.Rsum_single _ (seq 0 n) i).
  - rewrite Nat.eqb_refl. reflexivity.
  - apply seq_NoDup.
  - apply in_seq. lia.
  - intros y _ N. destruct (Nat.eqb_spec y i); congruence.
Qed.
(** turning bit [i] *)
Lemma energy_turn : forall n Q x y i, (i < n)%nat -> x i * x i = x i -> y i = 1 - x i -> (forall j, j <> i -> y j = x j) ->
  qubo_energy n Q y = qubo_energy n Q x + (1 - 2 * x i) * (Q i i + total n (fun j => if (j =? i)%nat then 0 else (Q i j + Q j i) * x j)).
Proof.
  intros n Q x y i L Hb Hi Hj. set (e := fun j => if (j =? i)%nat then 1 - 2 * x i else 0).
  assert (Hy : forall j, y j = x j + e j). { intros j. unfold e. destruct (Nat.eqb_spec j i); [subst; rewrite Hi; ring | rewrite Hj by auto; ring]. }
  unfold qubo_energy.
  transitivity (total n (fun a => total n (fun b => Q a b * x a * x b) + (e a * total n (fun b => Q a b * y b) + x a * total n (fun b => Q a b * e b)))).
  - apply total_ext. intros a _. rewrite <- !total_l, <- !total_add. apply total_ext. intros b _. rewrite !Hy. ring.
  - rewrite total_add. f_equal. rewrite total_add. unfold e at 1.
    rewrite (total_ext n (fun a => (if (a =? i)%nat then 1 - 2 * x i else 0) * total n (fun b => Q a b * y b)) (fun a => if (a =? i)%nat then (1 - 2 * x i) * total n (fun b => Q a b * y b) else 0))
      by (intros a _; destruct (a =? i)%nat; ring). rewrite total_at by auto.
    rewrite (total_ext n (fun a => x a * total n (fun b => Q a b * e b)) (fun a => (1 - 2 * x i) * (x a * Q a i))).
    2:{ intros a _. unfold e. rewrite (total_ext n (fun b => Q a b * (if (b =? i)%nat then 1 - 2 * x i else 0)) (fun b => if (b =? i)%nat then Q a b * (1 - 2 * x i) else 0))
          by (intros b _; destruct (b =? i)%nat; ring). rewrite total_at by auto. ring. }
    rewrite total_l.
    assert (S1 : total n (fun b => Q i b * y b) = Q i i * (1 - x i) + total n (fun j => if (j =? i)%nat then 0 else Q i j * x j)).
    { rewrite <- Hi, <- (total_at n i (fun j => Q i j * y j) L), <- total_add.
      apply total_ext. intros j _. destruct (Nat.eqb_spec j i) as [->|N]; [ring | rewrite Hj by auto; ring]. }
    assert (S2 : total n (fun a => x a * Q a i) = x i * Q i i + total n (fun j => if (j =? i)%nat then 0 else Q j i * x j)).
    { rewrite <- (total_at n i (fun j => x j * Q j i) L), <- total_add. apply total_ext. intros j _. destruct (Nat.eqb_spec j i); ring. }
    rewrite S1, S2. rewrite (total_ext n (fun j => if (j =? i)%nat then 0 else (Q i j + Q j i) * x j)
      (fun j => (if (j =? i)%nat then 0 else Q i j * x j) + (if (j =? i)%nat then 0 else Q j i * x j))) by (intros j _; destruct (j =? i)%nat; ring).
    rewrite total_add. ring.
Qed.

Lemma bit_flip : forall x i j, bit_value (flip x i) j = if (j =? i)%nat then 1 - bit_value x i else bit_value x j.
Proof.
  intros x i j. unfold bit_value. destruct (Nat.eqb_spec j i) as [->|N].
  - rewrite testbit_flip, Nat.eqb_refl. destruct (bit x i); cbn [negb]; ring.
  - rewrite testbit_flip. destruct (Nat.eqb_spec i j); [congruence|]. reflexivity.
Qed.
Lemma bits_turn : forall n Q x i, (i < n)%nat ->
  bits_energy n Q (flip x i) = bits_energy n Q x + (1 - 2 * bit_value x i) * (Q i i + total n (fun j => if (j =? i)%nat then 0 else (Q i j + Q j i) * bit_value x j)).
Proof.
  intros n Q x i L. apply energy_turn; auto.
  - unfold bit_value. destruct (bit x i); ring.
  - rewrite bit_flip, Nat.eqb_refl. reflexivity.
  - intros j N. rewrite bit_flip. destruct (Nat.eqb_spec j i); congruence.
Qed.
Lemma bits_above : forall n Q x i, (n <= i)%nat -> bits_energy n Q (flip x i) = bits_energy n Q x.
Proof.
  intros n Q x i L. unfold bits_energy, qubo_energy. apply total_ext. intros a La. apply total_ext. intros b Lb. rewrite !bit_flip.
  destruct (Nat.eqb_spec a i); [lia|]. destruct (Nat.eqb_spec b i); [lia|]. reflexivity.
Qed.
Lemma energy_bits : forall n Q k, of_bits k (bits_energy n Q) <-> covers n Q k.
Proof.
  intros n Q k. split.
  - intros H i [Ln M]. destruct (le_lt_dec k i) as [Lk|]; auto. exfalso.
    assert (D : forall x, Q i i + total n (fun j => if (j =? i)%nat then 0 else (Q i j + Q j i) * bit_value x j) = 0).
    { intros x. pose proof (H x i Lk) as E. rewrite bits_turn in E by auto. assert (1 - 2 * bit_value x i <> 0) by (unfold bit_value; destruct (bit x i); lra).
      assert ((1 - 2 * bit_value x i) * (Q i i + total n (fun j => if (j =? i)%nat then 0 else (Q i j + Q j i) * bit_value x j)) = 0) as Z by lra.
      apply Rmult_integral in Z. destruct Z; [contradiction|assumption]. }
    assert (D0 : Q i i = 0).
    { pose proof (D 0%nat) as E. rewrite (total_ext n _ (fun _ => 0)) in E; [|intros j _; unfold bit_value; rewrite Nat.bits_0; destruct (j =? i)%nat; ring].
      unfold total in E. rewrite Bits.Rsum_0 in E by auto. lra. }
    destruct M as [M|[j [Lj [Nj M]]]]; [auto|]. apply M. pose proof (D (flip 0 j)) as E.
    rewrite (total_ext n _ (fun a => if (a =? j)%nat then Q i a + Q a i else 0)) in E.
    + rewrite total_at in E by auto. lra.
    + intros a _. rewrite bit_flip. unfold bit_value. rewrite !Nat.bits_0. destruct (Nat.eqb_spec a i), (Nat.eqb_spec a j); subst; try congruence; ring.
  - intros H x i L. destruct (le_lt_dec n i) as [Ln|Ln]; [apply bits_above; auto|]. rewrite bits_turn by auto.
    assert (N : ~ matters n Q i) by (intros M; apply H in M; lia).
    assert (Q i i = 0) as -> by (destruct (Req_dec (Q i i) 0); auto; exfalso; apply N; split; auto).
    rewrite (total_ext n _ (fun _ => 0)).
    + unfold total. rewrite Bits.Rsum_0 by auto. ring.
    + intros j Lj. destruct (Nat.eqb_spec j i) as [|Nj]; auto. destruct (Req_dec (Q i j + Q j i) 0) as [->|Nz]; [ring|]. exfalso. apply N. split; auto. right. exists j. auto.
Qed.
Lemma least_covers : forall n Q, exists k, least (covers n Q) k /\ (k <= n)%nat.
Proof.
  intros n Q. assert (D : forall k, (k <= n)%nat -> covers n Q k \/ ~ covers n Q k).
  { assert (Dm : forall i, matters n Q i \/ ~ matters n Q i).
    { intros i. unfold matters. destruct (lt_dec i n) as [L|]; [|right; tauto]. destruct (Req_dec (Q i i) 0) as [E|]; [|left; auto].
      assert (X : forall m, (m <= n)%nat -> (exists j, (j < m)%nat /\ j <> i /\ Q i j + Q j i <> 0) \/ ~ exists j, (j < m)%nat /\ j <> i /\ Q i j + Q j i <> 0).
      { induction m as [|m IH]; intros Lm; [right; intros [j [? _]]; lia|]. destruct IH as [[j J]|IH]; [lia|left; exists j; intuition lia|].
        destruct (Nat.eq_dec m i) as [->|Nm].
        - right. intros [j [L1 [N1 Z]]]. apply IH. exists j. intuition lia.
        - destruct (Req_dec (Q i m + Q m i) 0) as [Z|Z]; [|left; exists m; auto]. right. intros [j [L1 [N1 Zj]]]. destruct (Nat.eq_dec j m) as [->|]; [auto|]. apply IH. exists j. intuition lia. }
      destruct (X n (le_n n)) as [Y|Y]; [left; auto|right; intros [_ [Z|Z]]; auto]. }
    intros k Lk. remember (n - k)%nat as g. revert k Lk Heqg. induction g as [|g IH]; intros k Lk Eg.
    - left. intros i [Li _]. lia.
    - destruct (IH (S k)) as [H|H]; [lia|lia| |right; intros C; apply H; intros i M; apply C in M; lia].
      destruct (Dm k) as [M|M]; [right; intros C; apply C in M; lia|]. left. intros i Mi. apply H in Mi as Li. destruct (Nat.eq_dec i k) as [->|]; [contradiction|lia]. }
  assert (G : forall m, (m <= n)%nat -> (exists k, least (covers n Q) k /\ (k <= m)%nat) \/ forall k, (k <= m)%nat -> ~ covers n Q k).
  { induction m as [|m IH]; intros Lm.
    - destruct (D 0%nat) as [C|C]; [lia|left; exists 0%nat; split; [split; [auto|intros; lia]|lia]|]. right. intros k L. assert (k = 0%nat) as -> by lia. auto.
    - destruct IH as [[k [K L]]|IH]; [lia|left; exists k; split; auto|]. destruct (D (S m) Lm) as [C|C].
      + left. exists (S m). split; [|lia]. split; auto. intros k K. destruct (le_lt_dec k m) as [L|]; [|lia]. exfalso. exact (IH k L K).
      + right. intros k L. destruct (Nat.eq_dec k (S m)) as [->|]; [auto|]. apply IH. lia. }
  destruct (G n (le_n n)) as [[k K]|K]; [exists k; exact K|]. exfalso. apply (K n (le_n n)). intros i [L _]. exact L.
Qed.

Definition is_expr (v : pval) : Prop := exists e, v = VExpr e.
Lemma add_expr : forall a e, is_expr (v_add a (VExpr e)).
Proof. intros a e. destruct a; eexists; reflexivity. Qed.
Lemma fold_keeps : forall S (P : S -> Prop) (f : nat -> S -> S) l s, P s -> (forall i s, P s -> P (f i s)) -> P (fold_left (fun s i => f i s) l s).
Proof. intros S P f l. induction l as [|i l IH]; intros s Hs Hf; cbn [fold_left]; auto. Qed.
Lemma for_range_keeps : forall S (P : S -> Prop) a b s f, P s -> (forall i s, P s -> P (f i s)) -> P (for_range a b s f).
Proof. intros S P a b s f Hs Hf. exact (fold_keeps S P f _ s Hs Hf). Qed.
Lemma pauli_expr : forall n Q, (0 < n)%nat -> is_expr (wq_pauli n Q).
Proof.
  intros [|n] Q L; [lia|]. unfold wq_pauli.
  set (f := fun i h => for_range (i + 1) (S n) (v_add h (v_mul (qubo_bit i) (VNum (NumR (Q i i)))))
      (fun j h => v_add h (v_mul (v_mul (qubo_bit i) (qubo_bit j)) (VNum (NumR (Q i j + Q j i)))))).
  assert (F : forall i h, is_expr (f i h)) by (intros i h; apply for_range_keeps; [apply add_expr|intros; apply add_expr]).
  unfold for_range at 1. rewrite Nat.sub_0_r. cbn [seq fold_left]. apply (fold_keeps pval is_expr f); auto.
Qed.

Section Programs.
Variables (rng random : nat -> R) (powell : list R -> strategy).
Lemma qaoa_empty : forall h o step, attr_size (o_qubo o) = 0%nat -> opt_qaoa rng random powell h o step = (Err AttributeError, h).
Proof. intros h o step E. unfold opt_qaoa. rewrite E. reflexivity. Qed.
Lemma qaoa_run : forall seen h o step k, let n := attr_size (o_qubo o) in let Q := attr_mat (o_qubo o) in (0 < n)%nat -> reachable rng seen h ->
  least (covers n Q) k -> simulated rng h (VCirc [] (Z.of_nat k) None) ->
  exists ps asked r h2 l h3 r' e, let E := fun ps => mean_value k (bits_energy n Q) (qaoa_state k (expr_simplify e) None step (everywhere k mH (ket 0)) ps) in
    opt_qaoa rng random powell h o step = (Ok (ps, r), h2) /\ same_op (expr_op e) (diag_op (bits_energy n Q)) /\
    plays E (scipy_minimizer random powell (2 * step)%nat) ps asked /\ get_probs rng h2 r None None true = (Ok l, h3, r') /\
    mass l = 1 /\ Forall (fun op => List.length (fst op) = k /\ Forall is_bit (fst op) /\ 0 < snd op) l /\ mean_cost (bits_energy n Q) l = E ps /\
    (forall g, (forall x, g <= bits_energy n Q x) -> g <= E ps /\ (E ps = g -> Forall (fun op => bits_energy n Q (number (fst op)) = g) l)) /\
    (forall c' v', circuit_is h c' v' -> circuit_is h3 c' v').
Proof.
  intros seen h o step k n Q L Re [K1 K2] Si. destruct (pauli_expr n Q L) as [e He].
  assert (Sd : same_op (expr_op (v_expr (VExpr e))) (diag_op (bits_energy n Q))). { intros psi x. rewrite v_expr_op, <- He. apply pauli_energy. }
  assert (Lk : least (fun k => of_bits k (bits_energy n Q)) k). { split; [apply energy_bits, K1|]. intros j J. apply K2, energy_bits, J. }
  pose proof (least_width _ _ _ Sd Lk) as W. subst k.
  destruct (diag_run rng random powell seen h (VExpr e) _ step None None false Re Si Sd (or_introl eq_refl))
    as [v [h1 [ps [asked [r [h2 [a [l [h3 [r' [M [Qn [P [V [G [D [Ma [K [Mc [B Ci]]]]]]]]]]]]]]]]]]]].
  exists ps, asked, r, h2, l, h3, r', e. cbv zeta. split.
  - unfold opt_qaoa. fold n Q. rewrite He, M, V. reflexivity.
  - exact (conj Sd (conj P (conj G (conj Ma (conj K (conj Mc (conj B Ci))))))).
Qed.
End Programs.

(** ** Cases *)
Definition loose (i j : nat) : R := match i, j with 0%nat, 0%nat => 1 | _, _ => 0 end.
Lemma loose_covers : least (covers 2 loose) 1.
Proof.
  split.
  - intros [|i] [L M]; [lia|]. exfalso. destruct M as [M|[j [_ [_ M]]]]; apply M; [reflexivity|]. destruct j; cbn; ring.
  - intros k K. destruct k; [|lia]. assert (0 < 0)%nat; [|lia]. apply K. split; [lia|]. left. cbn. lra.
Qed.
Lemma qaoa_loose : forall rng random powell step, exists ps r h2 l h3 r', let o := opt_add opt_init 2 loose 1 in attr_size (o_qubo o) = 2%nat /\
  opt_qaoa rng random powell (empty_heap 0) o step = (Ok (ps, r), h2) /\ get_probs rng h2 r None None true = (Ok l, h3, r') /\ l <> [] /\ Forall (fun op => List.length (fst op) = 1%nat) l.
Proof.
  intros rng random powell step.
  assert (C : least (covers 2 (mtimes 1 loose)) 1).
  { assert (X : forall k, covers 2 (mtimes 1 loose) k <-> covers 2 loose k) by (intros k; unfold covers, matters, mtimes; split; intros H i; specialize (H i); rewrite ?Rmult_1_l in *;
      intros [L M]; apply H; split; auto; destruct M as [M|[j [Lj [Nj M]]]]; auto; right; exists j; rewrite ?Rmult_1_l in *; auto).
    destruct loose_covers as [A B]. split; [apply X, A|]. intros k K. apply B, X, K. }
  destruct (qaoa_run rng random powell [] (empty_heap 0) (opt_add opt_init 2 loose 1) step 1) as [ps [asked [r [h2 [l [h3 [r' [e [A [_ [_ [G [Ma [K _]]]]]]]]]]]]]].
  - cbn. lia.
  - apply start_reachable.
  - exact C.
  - apply start_simulated.
  - exists ps, r, h2, l, h3, r'. cbv zeta. split; [reflexivity|]. split; [exact A|]. split; [exact G|]. split.
    + intros ->. unfold mass in Ma. cbn in Ma. lra.
    + eapply Forall_impl; [|exact K]. intros op [X _]. exact X.
Qed.
Definition pair2 (i j : nat) : R := match i, j with 0%nat, 0%nat => -1 | 0%nat, 1%nat => 2 | 1%nat, 1%nat => -1 | _, _ => 0 end.
Lemma qaoa_case : forall rng, let o := opt_add opt_init 2 pair2 1 in let Q := attr_mat (o_qubo o) in
  reachable rng [] (empty_heap 0) /\ least (covers 2 Q) 2 /\ simulated rng (empty_heap 0) (VCirc [] 2 None) /\ (forall x, -1 <= bits_energy 2 Q x) /\ bits_energy 2 Q 1 = -1.
Proof.
  intros rng o Q. split; [apply start_reachable|]. split; [|split; [apply start_simulated|split]].
  - split; [intros i [L _]; exact L|]. intros k K. assert (1 < k)%nat; [|lia]. apply K. split; [lia|]. left. change (1 * -1 <> 0). lra.
  - intros x. unfold bits_energy, qubo_energy, total, Q, o, bit_value. cbn [seq Rsum opt_add opt_init attr_size o_qubo with_qubo is_empty_list Nat.eqb attr_mat]. unfold mtimes. cbn [pair2].
    destruct (bit x 0), (bit x 1); lra.
  - change Q with (mtimes 1 pair2). unfold bits_energy, qubo_energy, total, mtimes, bit_value. cbn. lra.
Qed.
Lemma sa_last : forall choices sites draws fuel n Q Ts r ite shots fast o, (forall k, (sites k < n)%nat) -> upper_triangular n Q ->
  opt_sa choices sites draws fuel n Q Ts r ite shots fast = Some o ->
  let good := fun E b => List.length b = n /\ Forall (fun z => z = 0%Z \/ z = 1%Z) b /\ last E 0 = qubo_energy n Q (fun i => IZR (nth i b 0%Z)) in
  match o with
  | Single E b => shots = 1%nat /\ good E b
  | Several Es bs => shots <> 1%nat /\ List.length Es = shots /\ Forall2 good Es bs
  end.
Proof. intros choices sites draws fuel n Q Ts r ite shots fast o. apply run_last. Qed.
Lemma sa_ends : forall choices sites draws n Q Ts r ite shots fast, 0 <= r < 1 -> exists fuel, opt_sa choices sites draws fuel n Q Ts r ite shots fast <> None.
Proof. intros. apply run_ends; [lra|auto]. Qed.
Lemma sa_cooled : forall choices sites draws fuel n Q Ts r ite shots fast o, (forall k, (sites k < n)%nat) -> opt_sa choices sites draws fuel n Q Ts r ite shots fast = Some o ->
  exists l, anneals n (objective n Q) draws sites choices Ts (2 / 100) (if fast then 3 / 4 else r) (if fast then 100%nat else ite) shots 0 0 0 l /\
    match o with Single E b => shots = 1%nat /\ l = [(E, b)] | Several Es bs => shots <> 1%nat /\ Es = map fst l /\ bs = map snd l end.
Proof. intros choices sites draws fuel n Q Ts r ite shots fast o. apply run_anneals. Qed.
