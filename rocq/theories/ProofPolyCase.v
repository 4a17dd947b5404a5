(** Concrete polynomials. *)
From Coq Require Import List Arith Bool Reals Lra Lia Sorted Permutation.
Import ListNotations.
From Verif Require Import Base Cplx Bits ModelWq ModelOpt ModelPoly SpecWq SpecNbody SpecPoly ProofPoly ProofPolySubs ProofPolyFlat ProofPolyMatrix ProofPolyRun.
Local Open Scope R_scope.

Lemma present_in : forall s m, present s m -> exists t, In t s /\ same_product (snd t) m = true.
Proof.
  intros s m H. unfold present, coefficient in H. induction s as [|t s IH]; [exfalso; apply H; reflexivity|]. cbn [Rsum] in H.
  destruct (same_product (snd t) m) eqn:E; [exists t; split; [left|]; auto|]. destruct IH as (t' & I & X); [lra|]. exists t'. split; [right|]; auto.
Qed.
Lemma product_power : forall a m, same_product a m = true -> forall v, power m v = power a v.
Proof. intros a m H v. apply same_product_iff in H. rewrite <- !exponent_mono_of, H. auto. Qed.
Lemma product_in : forall a m, same_product a m = true -> forall v, In v m -> In v a.
Proof. intros a m H v I. apply power_in. rewrite <- (product_power a m H v). apply power_in. auto. Qed.
Lemma reduced_in : forall s l, reduced s l <> 0 -> exists t, In t s /\ same_set (snd t) l = true.
Proof.
  intros s l H. unfold reduced in H. induction s as [|t s IH]; [exfalso; apply H; reflexivity|]. cbn [Rsum] in H.
  destruct (same_set (snd t) l) eqn:E; [exists t; split; [left|]; auto|]. destruct IH as (t' & I & X); [lra|]. exists t'. split; [right|]; auto.
Qed.
Lemma uses_in : forall s i, uses s i -> exists t, In t s /\ In i (snd t).
Proof. intros s i (l & I & H). apply reduced_in in H as (t & J & E). exists t. split; auto. rewrite same_set_iff in E. apply E. auto. Qed.
Lemma two_of : forall s, Forall (fun t => exists i j, incl (snd t) [i; j]) s -> at_most_two s.
Proof.
  intros s F m H. apply present_in in H as (t & I & E). rewrite Forall_forall in F. destruct (F t I) as (i & j & X). exists i, j. intros v J. apply X.
  apply (product_in _ _ E). auto.
Qed.
Lemma squares_of : forall s, Forall (fun t => forall w, (power (snd t) w <= 2)%nat) s -> squares s.
Proof.
  intros s F m w H. apply present_in in H as (t & I & E). rewrite (product_power _ _ E). rewrite Forall_forall in F. apply F. auto.
Qed.
Lemma led_of : forall s v m0 d, present s m0 -> In v m0 -> power m0 v = d -> Forall (fun t => forall w, In w (snd t) -> (v <= w)%nat) s ->
  Forall (fun t => forall w, (power (snd t) w <= d)%nat) s -> led s.
Proof.
  intros s v m0 d H I D A B. rewrite Forall_forall in A, B. exists v, m0. split; auto. split; auto. split.
  - intros m w P J. apply present_in in P as (t & K & E). apply (A t K). apply (product_in _ _ E). auto.
  - intros m w P. apply present_in in P as (t & K & E). rewrite (product_power _ _ E), D. auto.
Qed.
Ltac forall_list := repeat (apply Forall_cons); try apply Forall_nil.
Ltac powers := let w := fresh "w" in cbn [snd]; intros w; unfold power; cbn [count_occ]; repeat (let E := fresh in destruct (Nat.eq_dec _ w) as [E|E]); lia.

(** (q0 + q1 - 1)^2 *)
Definition square_sum : list (R * list nat) := [(1, [0; 0]%nat); (2, [0; 1]%nat); (1, [1; 1]%nat); (-2, [0]%nat); (-2, [1]%nat); (1, [])].
Lemma square_led : led square_sum.
Proof.
  apply (led_of square_sum 0%nat [0; 0]%nat 2%nat); [unfold present; cbn; lra|left; auto|reflexivity| |]; unfold square_sum; forall_list; try powers; cbn [snd]; intros w I; lia.
Qed.
Lemma square_two : at_most_two square_sum.
Proof. apply two_of. unfold square_sum. forall_list; exists 0%nat, 1%nat; cbn; intros v; cbn; tauto. Qed.
Lemma square_numbered : numbered square_sum 2.
Proof.
  intros i. split.
  - intros U. apply uses_in in U as (t & I & J). unfold square_sum in I. cbn in I. repeat (destruct I as [<-|I]); try contradiction; cbn in J; lia.
  - intros H. exists [0; 1]%nat. split; [cbn; lia|]. cbn. lra.
Qed.
Lemma square_squares : squares square_sum.
Proof. apply squares_of. unfold square_sum. forall_list; powers. Qed.
Lemma square_beside : forall i, (i < 2)%nat -> exists j, j <> i /\ reduced square_sum [i; j] <> 0.
Proof. intros i H. exists (1 - i)%nat. split; [lia|]. destruct i as [|[|i]]; [cbn; lra|cbn; lra|lia]. Qed.

(** q0 + (q1 - 1)^2 *)
Definition late_square : list (R * list nat) := [(1, [0]%nat); (1, [1; 1]%nat); (-2, [1]%nat); (1, [])].
Lemma late_two : at_most_two late_square.
Proof. apply two_of. unfold late_square. forall_list; exists 0%nat, 1%nat; cbn; intros v; cbn; tauto. Qed.
Lemma late_numbered : numbered late_square 2.
Proof.
  intros i. split.
  - intros U. apply uses_in in U as (t & I & J). unfold late_square in I. cbn in I. repeat (destruct I as [<-|I]); try contradiction; cbn in J; lia.
  - intros H. exists [i]. split; [left; auto|]. destruct i as [|[|i]]; [cbn; lra|cbn; lra|lia].
Qed.
Lemma Reqb_no : forall a b, a <> b -> Reqb a b = false.
Proof. intros a b H. destruct (Reqb a b) eqn:E; auto. apply Reqb_true in E. contradiction. Qed.
Lemma late_expand : expand late_square = [([(0, 1)]%nat, 1); ([(1, 2)]%nat, 1); ([(1, 1)]%nat, -2); ([], 1)].
Proof.
  assert (A : Reqb 1 0 = false) by (apply Reqb_no; lra). assert (B : Reqb (-2) 0 = false) by (apply Reqb_no; lra).
  unfold expand, late_square, collect. cbn [map fold_left mono_of fold_right times fst snd Nat.ltb Nat.leb Nat.eqb add_term]. rewrite A.
  cbn [add_term mono_eq_dec]. repeat (cbn [add_term]; first [rewrite A|rewrite B|destruct (mono_eq_dec _ _) as [X|X]; [discriminate X|clear X]]). reflexivity.
Qed.
Section Sets.
Variable order : list nat -> list nat.
Hypothesis Ho : forall l, Permutation (order l) l.
Lemma late_matrix : exists M, qubo_to_matrix order late_square = POk (2%nat, M) /\ M 0%nat 0%nat = 1 /\ M 0%nat 1%nat = 0 /\ M 1%nat 0%nat = 0 /\ M 1%nat 1%nat = -2.
Proof.
  assert (D : degree (expand late_square) = POk 1%nat) by (rewrite late_expand; reflexivity).
  destruct (expand_ok order _ _ D) as (q & E). destruct (expand_step order Ho _ q (expand_normal _) E) as (deg & D' & N & W). rewrite D in D'. injection D' as <-.
  assert (W' : forall f, weight f q = 1 * f [(0, 1)]%nat + (1 * f [(1, 2)]%nat + (-2 * f [(1, 1)]%nat + (1 * f [] + 0)))).
  { intros f. rewrite W, late_expand. reflexivity. }
  assert (Mq : forall m c, In (m, c) q -> m = [(0, 1)]%nat \/ m = [(1, 2)]%nat \/ m = [(1, 1)]%nat \/ m = []).
  { intros m c I. destruct (member_weight q m c N I) as [X Z]. rewrite W' in X. unfold ind in X.
    destruct (mono_eq_dec m [(0, 1)]%nat); auto. destruct (mono_eq_dec m [(1, 2)]%nat); auto. destruct (mono_eq_dec m [(1, 1)]%nat); auto.
    destruct (mono_eq_dec m []); auto. exfalso. apply Z. lra. }
  assert (Fi : forall i, In i (free_symbols q) <-> (i < 2)%nat).
  { intros i. rewrite in_free. split.
    - intros (m & c & I & J). destruct (Mq m c I) as [->|[->|[->| ->]]]; cbn in J; lia.
    - intros H. destruct i as [|[|i]]; [| |lia].
      + destruct (weight_member q [(0, 1)]%nat) as (c & I); [rewrite W'; unfold ind; repeat (destruct (mono_eq_dec _ _); try congruence); lra|]. exists [(0, 1)]%nat, c. split; auto. left. auto.
      + destruct (weight_member q [(1, 1)]%nat) as (c & I); [rewrite W'; unfold ind; repeat (destruct (mono_eq_dec _ _); try congruence); lra|]. exists [(1, 1)]%nat, c. split; auto. left. auto. }
  assert (L : length (free_symbols q) = 2%nat) by (apply numbered_length; auto; apply nodup_free).
  assert (En : forall i j, (i < 2)%nat -> (j < 2)%nat -> entry q i j = Some (if (i =? j)%nat then (if (i =? 0)%nat then 1 else -2) else 0)).
  { assert (P : forall i j, i <> j -> to_float (coeff q [i; j]) = Some 0).
    { intros i j H. destruct (coeff q [i; j]) as [|[m c] r] eqn:X; auto. exfalso. assert (I : In (m, c) (coeff q [i; j])) by (rewrite X; left; auto).
      apply coeff_keys in I as (m' & c' & I & F & _); auto. cbn [map forallb] in F. rewrite !andb_true_iff in F. destruct F as (F1 & F2 & _).
      apply has_factor_in in F1, F2. destruct (Mq m' c' I) as [->|[->|[->| ->]]]; cbn in F1, F2; try tauto.
      - destruct F1 as [F1|[]], F2 as [F2|[]]. congruence.
      - destruct F1 as [F1|[]]. discriminate.
      - destruct F1 as [F1|[]], F2 as [F2|[]]. congruence. }
    intros i j Hi Hj. unfold entry. destruct (i =? j)%nat eqn:X; [|apply Nat.eqb_neq in X; apply P; auto]. rewrite constant_weight, coeff_weight, W'. f_equal.
    destruct i as [|[|i]]; [| |lia]; cbn; unfold ind; repeat (destruct (mono_eq_dec _ _); try congruence); lra. }
  destruct (put_ok 2 q (fun i j => if (i =? j)%nat then (if (i =? 0)%nat then 1 else -2) else 0) (list_prod (order (free_symbols q)) (order (free_symbols q))) zeros) as (m & Em & Y).
  { intros i j I. apply (in_pairs_order order Ho) in I as [I J]. apply Fi in I, J. split; auto. }
  exists (triu 0 m). split.
  - unfold qubo_to_matrix. rewrite (matrix_fill order _ q) by auto. unfold fill. rewrite L, Em. auto.
  - unfold triu. cbn [Nat.add Nat.leb]. rewrite !Y. assert (Z : forall i j, (i < 2)%nat -> (j < 2)%nat -> In (i, j) (list_prod (order (free_symbols q)) (order (free_symbols q)))).
    { intros i j A B. apply (in_pairs_order order Ho). rewrite !Fi. auto. }
    repeat (destruct (in_dec _ _ _) as [Q|Q]; [|exfalso; apply Q, Z; lia]; clear Q). auto.
Qed.
Lemma late_wrong : exists M a, qubo_to_matrix order late_square = POk (2%nat, M) /\ binary a /\ qubo_energy 2 M a + reduced late_square [] <> value a late_square.
Proof.
  destruct late_matrix as (M & E & A & B & D & G). exists M, (fun v => if (v =? 1)%nat then 1 else 0). split; auto. split.
  - intros v. destruct (v =? 1)%nat; auto.
  - unfold qubo_energy, total, value, reduced, late_square, product. cbn. rewrite A, B, D, G. lra.
Qed.
(** q1 alone *)
Lemma single_symbol : led [(1, [1]%nat)] /\ at_most_two [(1, [1]%nat)] /\ qubo_to_matrix order [(1, [1]%nat)] = PErr (Raised IndexError).
Proof.
  assert (H : led [(1, [1]%nat)]) by (apply (led_of _ 1%nat [1]%nat 1%nat); [unfold present; cbn; lra|left; auto|reflexivity| |]; forall_list; try powers; cbn [snd]; intros w [<-|[]]; lia).
  assert (T : at_most_two [(1, [1]%nat)]) by (apply two_of; forall_list; exists 1%nat, 1%nat; cbn; intros v; cbn; tauto).
  split; auto. split; auto. apply matrix_index; auto. intros (n & U). assert (A : uses [(1, [1]%nat)] 1) by (exists [1]%nat; split; [left; auto|cbn; lra]).
  apply U in A. assert (B : uses [(1, [1]%nat)] 0) by (apply U; lia). apply uses_in in B as (t & [<-|[]] & J). cbn in J. lia.
Qed.
(** q0^4 *)
Lemma fourth_power : ~ flat (optx order [(1, [0; 0; 0; 0]%nat)]).
Proof.
  intros F. assert (W := subs_all_weight order Ho (ind [(0, 2)]%nat) 2 (expand [(1, [0; 0; 0; 0]%nat)])). fold (optx order [(1, [0; 0; 0; 0]%nat)]) in W.
  rewrite expand_weight in W. unfold weight at 2 in W. cbn [raw map Rsum fst snd] in W. change (on_exps (subs_exp 2) (mono_of [0; 0; 0; 0]%nat)) with [(0, 2)]%nat in W. rewrite ind_self in W.
  destruct (weight_member (optx order [(1, [0; 0; 0; 0]%nat)]) [(0, 2)]%nat) as (c & I); [rewrite W; lra|]. unfold flat in F. rewrite Forall_forall in F. specialize (F _ I).
  inversion F as [|? ? X _]. discriminate X.
Qed.
(** q0*q1 + q0*q2 in a matrix for two symbols *)
Lemma third_symbol : exists M a, optm order [(1, [0; 1]%nat); (1, [0; 2]%nat)] 2 = POk M /\ binary a /\
  qubo_energy 2 M a + reduced [(1, [0; 1]%nat); (1, [0; 2]%nat)] [] <> value a [(1, [0; 1]%nat); (1, [0; 2]%nat)].
Proof.
  set (s := [(1, [0; 1]%nat); (1, [0; 2]%nat)]). assert (Q : squares s) by (apply squares_of; unfold s; forall_list; powers).
  assert (T : at_most_two s) by (apply two_of; unfold s; forall_list; [exists 0%nat, 1%nat|exists 0%nat, 2%nat]; cbn; intros v; cbn; tauto).
  assert (Rq := optx_led order Ho s Q). unfold optm. destruct (rows_ok s (optx order s) 2 (seq 0 2) zeros Rq T) as (M & E & Y).
  - intros i I. apply in_seq in I. split; [lia|]. exists (1 - i)%nat. split; [lia|]. destruct i as [|[|i]]; [cbn; lra|cbn; lra|lia].
  - exists M, (fun v => if (v =? 1)%nat then 0 else 1). split; auto. split; [intros v; destruct (v =? 1)%nat; auto|].
    unfold qubo_energy, total, value, reduced, s, product. cbn. rewrite !Y. cbn. lra.
Qed.
(** q0 + q1 *)
Lemma linear_refused : optm order [(1, [0]%nat); (1, [1]%nat)] 2 = PErr GeneratorsNeeded.
Proof.
  apply (optm_alone order Ho _ 2 0%nat); [apply squares_of; forall_list; powers|apply two_of; forall_list; exists 0%nat, 1%nat; cbn; intros v; cbn; tauto|lia|].
  intros j H. destruct (Req_EM_T (reduced [(1, [0]%nat); (1, [1]%nat)] [0; j]%nat) 0) as [Z|Z]; auto. exfalso. apply reduced_in in Z as (t & I & X). rewrite same_set_iff in X.
  destruct I as [<-|[<-|[]]]; cbn in X.
  - specialize (X j). lia.
  - specialize (X 0%nat). lia.
Qed.
End Sets.

(** q0*q1*q2 *)
Lemma cubic_case : led [(1, [0; 1; 2]%nat)] /\ numbered [(1, [0; 1; 2]%nat)] 3 /\ reduced [(1, [0; 1; 2]%nat)] [0; 1; 2]%nat <> 0.
Proof.
  split; [|split].
  - apply (led_of _ 0%nat [0; 1; 2]%nat 1%nat); [unfold present; cbn; lra|left; auto|reflexivity| |]; forall_list; try powers; cbn [snd]; intros w I; lia.
  - intros i. split.
    + intros U. apply uses_in in U as (t & [<-|[]] & J). cbn in J. lia.
    + intros H. exists [0; 1; 2]%nat. split; [cbn; lia|cbn; lra].
  - cbn. lra.
Qed.
Lemma constant_case : forall m, present [(2, []); (1, [0]%nat); (-1, [0]%nat)] m -> m = [].
Proof.
  intros m H. unfold present, coefficient in H. destruct m as [|v m]; auto. exfalso. apply H. cbn [Rsum fst snd].
  destruct (same_product [] (v :: m)) eqn:E; [|destruct (same_product [0%nat] (v :: m)); lra]. apply product_power with (v := v) in E. unfold power in E. cbn in E. destruct (Nat.eq_dec v v); [discriminate|congruence].
Qed.

(** make_qs *)
Lemma seq_sorted : forall k a, StronglySorted lt (seq a k).
Proof. induction k as [|k IH]; intros a; cbn; constructor; auto. apply Forall_forall. intros x I. apply in_seq in I. lia. Qed.
Lemma make_qs_ok : (forall n, (0 < n)%nat -> exists l, make_qs n None = Ok l /\ StronglySorted lt l /\ forall i, In i l <-> (i < n)%nat) /\
  (forall n m, (n < m)%nat -> exists l, make_qs n (Some m) = Ok l /\ StronglySorted lt l /\ forall i, In i l <-> (n <= i < m)%nat) /\
  make_qs 0 None = Err ValueError /\ (forall n m, (m <= n)%nat -> make_qs n (Some m) = Err ValueError).
Proof.
  split; [|split; [|split]].
  - intros n H. exists (seq 0 n). split; [unfold make_qs; destruct n; [lia|reflexivity]|]. split; [apply seq_sorted|]. intros i. rewrite in_seq. lia.
  - intros n m H. exists (seq n (m - n)). split; [unfold make_qs; destruct (m - n)%nat eqn:E; [lia|reflexivity]|]. split; [apply seq_sorted|]. intros i. rewrite in_seq. lia.
  - reflexivity.
  - intros n m H. unfold make_qs. replace (m - n)%nat with 0%nat by lia. reflexivity.
Qed.
Lemma make_qs_last : forall n l, make_qs n None = Ok l -> ~ In n l.
Proof. intros n l H I. unfold make_qs in H. destruct n; [discriminate|]. cbn [seq] in H. injection H as <-. change (0%nat :: seq 1 n) with (seq 0 (S n)) in I. apply in_seq in I. lia. Qed.
