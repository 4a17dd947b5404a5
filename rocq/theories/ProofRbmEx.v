(** Cases of the theorems about Boltzmann machines. *)
From Coq Require Import Ascii String List Arith ZArith Bool Reals Lia Lra.
Import ListNotations.
From Verif Require Import Base Cplx ModelWq ModelQasm ModelRbm SpecWq SpecRbm ProofWq ProofRbm.
Local Open Scope R_scope.

Definition coupled : nat -> nat -> R := fun i j => if ((i =? 0) && (j =? 1))%nat then 1 else 0.
Lemma coupled_restricted : restricted 2 1 coupled.
Proof.
  split; [intros i j H|intros i j H1 H2 H3]; unfold coupled.
  - assert (i = 1 /\ j = 0)%nat as [-> ->] by lia. reflexivity.
  - lia.
Qed.
Lemma sign_wrong : exists n Q v k, restricted n (length v) Q /\ binary v /\ (length v <= n)%nat /\ (k < n - length v)%nat /\
  nth k (rbm_hmodel v n Q) 0 <> expectation n (fun x => - qubo_energy n Q x) v (fun x => x (length v + k)%nat).
Proof.
  exists 2%nat, coupled, [1], 0%nat. split; [apply coupled_restricted|]. split; [constructor; auto|]. split; [cbn; lia|]. split; [cbn; lia|].
  rewrite hmodel_nth by (cbn; lia). rewrite hsum_total. unfold expectation. cbn [length Nat.sub bit_lists map app Nat.add].
  set (s := fun l => exp (- qubo_energy 2 coupled (state ([1] ++ l)))).
  assert (E0 : s [0] = 1). { unfold s. replace (qubo_energy _ _ _) with 0; [rewrite Ropp_0; apply exp_0|]. unfold qubo_energy, total, coupled, state. cbn. lra. }
  assert (E1 : s [1] = exp (- (1))). { unfold s. f_equal. f_equal. unfold qubo_energy, total, coupled, state. cbn. lra. }
  change (Rsum (fun h => exp (- qubo_energy 2 coupled (state ([1] ++ h)))) [[0]; [1]]) with (s [0] + (s [1] + 0)).
  change (Rsum (fun h => exp (- qubo_energy 2 coupled (state (1 :: h)))) [[0]; [1]]) with (s [0] + (s [1] + 0)).
  change (Rsum _ _) with (s [0] * 0 + (s [1] * 1 + 0)) at 1. rewrite E0, E1.
  replace (coupled 1%nat 1%nat + total 1 (fun j => coupled j 1%nat * nth j [1] 0)) with 1 by (unfold total, coupled; cbn; lra).
  unfold sigm. pose proof (exp_pos (- (1))) as P. pose proof (exp_increasing (- (1)) 0 ltac:(lra)) as L. rewrite exp_0 in L.
  set (t := exp (- (1))) in *. replace (1 + (t + 0)) with (1 + t) by lra. unfold Rdiv. intros X. apply Rmult_eq_reg_r in X; [lra|]. apply Rinv_neq_0_compat. lra.
Qed.
Lemma layers_case : adjacent [2; 3; 1]%nat 1 4 /\ adjacent [2; 3; 1]%nat 4 5 /\ ~ adjacent [2; 3; 1]%nat 1 5 /\ ~ adjacent [2; 3; 1]%nat 2 3.
Proof.
  split; [exists 0%nat; split; reflexivity|]. split; [exists 1%nat; split; reflexivity|]. split; intros [k [A B]]; cbn in A, B; congruence.
Qed.
Lemma case_data : Forall (fun row => length row = 2%nat /\ Forall (fun z => z = 0%Z \/ z = 1%Z) row) [[1; 0]; [0; 1]; [1; 1]]%Z.
Proof. repeat (apply Forall_cons; [split; [reflexivity|repeat (apply Forall_cons; [auto|]); apply Forall_nil]|]). apply Forall_nil. Qed.
Lemma fit_case : exists fuel Q', fit (fun e => e mod 3)%nat (fun e k => Nat.even (e + k)) (fun e k => (e + k) mod 5)%nat (fun e k => / INR (k + 2)) 10 0 fuel 5 2 3 5 (19 / 20) 1000
  [[1; 0]; [0; 1]; [1; 1]]%Z 20 (1 / 50) (9 / 10) (1 / 10) (dbms (fun k => / INR (k + 1)) [2; 3]%nat 0) = Some (Ok Q').
Proof.
  destruct (fit_ends 5 (1 / 50) ltac:(lra)) as [fuel F]. exists fuel. apply F; try lia.
  - intros. apply Nat.mod_upper_bound. lia.
  - intros. apply Nat.mod_upper_bound. cbn. lia.
  - exact case_data.
Qed.
Lemma fit_default : forall rand rows choices sites draws k e fuel V H Ts r ite data shots target Q n v h Q', (forall u, 0 <= rand u <= 1) ->
  (forall e k, (sites e k < V + H)%nat) -> (forall e, (rows e < length data)%nat) -> Forall (fun row => length row = V /\ zbits row) data ->
  set_rbm rand [V; H] = Ok (Q, n, v, h) -> fit rows choices sites draws k e fuel n v h Ts r ite data shots target (9 / 10) (1 / 10) Q = Some (Ok Q') ->
  bipartite (V + H) V Q' /\ forall i j, (i < V + H)%nat -> (j < V + H)%nat -> -1 <= Q' i j <= 1.
Proof.
  intros rand rows choices sites draws k e fuel V H Ts r ite data shots target Q n v h Q' HR HS HW HD E F. inversion E. subst. clear E.
  assert (EN : list_sum [v; h] = (v + h)%nat) by (cbn; lia). change (fold_right Nat.add 0%nat [v; h]) with (list_sum [v; h]) in F. rewrite ?EN in F. 
  replace (v + (h + 0))%nat with (v + h)%nat in F by lia. split.
  - eapply (fit_bipartite rows choices sites draws fuel (v + h) v h ite shots Ts r target (9 / 10) (1 / 10) data); eauto. apply dbms_bipartite.
  - intros i j Hi Hj. assert (A : Rabs (Q' i j) <= 1).
    { eapply (fit_bounded rows choices sites draws fuel (v + h) v h ite shots Ts r target (9 / 10) (1 / 10) data); eauto; try lra; [apply dbms_bipartite|].
      intros a b _ _. destruct (dbms_random rand [v; h]) as [idx [H1 [H2 _]]]. destruct (Nat.eq_dec a b) as [N|N].
      - rewrite H1 by auto. rewrite Rabs_right; [apply HR|apply Rle_ge, HR].
      - destruct (adjacent_dec [v; h] a b) as [A|A]; [rewrite H1 by auto; rewrite Rabs_right; [apply HR|apply Rle_ge, HR]|]. rewrite H2 by auto. rewrite Rabs_R0. lra. }
    revert A. unfold Rabs. destruct (Rcase_abs (Q' i j)); lra.
Qed.
Lemma counter_wrong : exists l a b, In a l /\ In b l /\ a <> b /\ List.length (counter l) = 1%nat.
Proof. exists [[1; 11]; [11; 1]]%Z, [1; 11]%Z, [11; 1]%Z. rewrite counter_digits. repeat split; cbn; auto. discriminate. Qed.
Lemma few_wrong : forall rows choices sites draws k e fuel n V H Ts r ite data shots target alpha epsilon Q o, n = (V + H)%nat -> (forall e k, (sites e k < n)%nat) ->
  (shots < 2)%nat -> fit rows choices sites draws (S k) e fuel n V H Ts r ite data shots target alpha epsilon Q = Some o -> o = Err ValueError.
Proof. intros until o. intros HN HS S2 F. exact (fit_few rows choices sites draws fuel n V H ite shots Ts r target alpha epsilon data HN HS k e Q o S2 F). Qed.
Lemma layers_error : forall rand arr, (length arr < 2)%nat <-> set_rbm rand arr = Err IndexError.
Proof.
  intros rand arr. split; [apply set_rbm_short|]. intros H. destruct arr as [|a [|b r]]; cbn in *; try lia. discriminate.
Qed.
