(** Repeated measurement, reset, the Born rule, shot counts and whole runs. *)
From Coq Require Import List Arith ZArith Bool String Reals Lia Lra FunctionalExtensionality.
Import ListNotations.
From Verif Require Import Base Cplx Bits ModelTargets ModelGate ModelNumpy SpecTargets SpecQuantum SpecCircuit SpecMeasure
  SpecRun ProofTargets ProofArray ProofNumpy ProofFallback ProofRun ProofUnitary ProofCache ProofMeasure.
Local Open Scope R_scope.

Lemma project_idem : forall t b psi, project t b (project t b psi) = project t b psi.
Proof. intros. apply functional_extensionality; intro x. unfold project. destruct (Bool.eqb (bit x t) b); auto. Qed.
Lemma project_other : forall t b psi, project t (negb b) (project t b psi) = (fun _ => C0).
Proof. intros. apply functional_extensionality; intro x. unfold project. destruct (bit x t), b; auto. Qed.
Lemma project_scl : forall t b k psi, project t b (scl k psi) = scl k (project t b psi).
Proof. intros. apply functional_extensionality; intro x. unfold project, scl. destruct (Bool.eqb (bit x t) b); auto. ring. Qed.
Lemma norm2_zero : forall n, norm2 n (fun _ => C0) = 0.
Proof. intros. apply Rsum_0. intros. apply Cnorm2_C0. Qed.
Lemma prob_scl : forall n t b k psi, prob n t b (scl k psi) = Cnorm2 k * prob n t b psi.
Proof. intros. unfold prob. rewrite project_scl. apply norm2_scl. Qed.

Lemma project_collapse : forall n t b psi, project t b (collapse n t b psi) = collapse n t b psi.
Proof. intros. unfold collapse. rewrite project_scl, project_idem. reflexivity. Qed.
Lemma prob_collapse_same : forall n t b psi, 0 < prob n t b psi -> prob n t b (collapse n t b psi) = 1.
Proof. intros. unfold prob. rewrite project_collapse. apply norm2_collapse; auto. Qed.
Lemma prob_collapse_other : forall n t b psi, prob n t (negb b) (collapse n t b psi) = 0.
Proof.
  intros. unfold collapse. rewrite prob_scl. unfold prob at 2. rewrite project_other, norm2_zero. ring.
Qed.
Lemma collapse_again : forall n t b psi, 0 < prob n t b psi -> collapse n t b (collapse n t b psi) = collapse n t b psi.
Proof.
  intros. unfold collapse at 1. rewrite prob_collapse_same, project_collapse by auto.
  rewrite sqrt_1, Rinv_1. apply scl_1.
Qed.

Section Rng.
Variable rng : nat -> R.
Hypothesis Hrng : draws_ok rng.

(** the outcome when one of the two values is certain *)
Lemma outcome_certain : forall n t b w, prob n t b (w_psi w) = 1 -> norm2 n (w_psi w) = 1 -> outcome rng n t w = b.
Proof.
  intros n t b w Hp Hn. unfold outcome. pose proof (Hrng (w_pos w)). pose proof (prob_total n t (w_psi w)).
  destruct b.
  - replace (prob n t false (w_psi w)) with 0 by lra.
    destruct (Rltb (rng (w_pos w)) 0) eqn:E; auto. apply Rltb_true in E. lra.
  - rewrite Hp. destruct (Rltb (rng (w_pos w)) 1) eqn:E; auto. apply Rltb_false in E. lra.
Qed.

Lemma measure_twice : forall n t w, norm2 n (w_psi w) = 1 ->
  let w1 := measure1 rng n t w in let w2 := measure1 rng n t w1 in
  w_psi w2 = w_psi w1 /\ (forall q, w_bits w2 q = w_bits w1 q).
Proof.
  intros n t w Hw w1 w2.
  pose proof (outcome_prob rng Hrng n t w Hw) as Hp.
  assert (E : outcome rng n t w1 = outcome rng n t w).
  { apply outcome_certain; [|apply measure1_norm; auto]. unfold w1, measure1. simpl. apply prob_collapse_same; auto. }
  unfold w2, measure1. rewrite E. split.
  - simpl. apply collapse_again; auto.
  - intros q. simpl. unfold update. destruct (q =? t); auto.
Qed.

Lemma reset_zero : forall n t w, (t < n)%nat -> norm2 n (w_psi w) = 1 ->
  let w1 := reset1 rng n t w in
  (forall x, bit x t = true -> w_psi w1 x = C0) /\ norm2 n (w_psi w1) = 1 /\ outcome rng n t w1 = false.
Proof.
  intros n t w Ht Hw w1.
  assert (Z : forall x, bit x t = true -> w_psi w1 x = C0).
  { intros x Hx. unfold w1, reset1. simpl. destruct (outcome rng n t w).
    - rewrite ap1_flip, Hx. unfold mX, mk2. simpl. unfold collapse, scl, project. rewrite testbit_flip, Nat.eqb_refl, Hx. simpl. ring.
    - unfold collapse, scl, project. rewrite Hx. simpl. ring. }
  assert (N : norm2 n (w_psi w1) = 1) by (apply reset1_norm; auto).
  split; auto. split; auto. apply outcome_certain; auto.
  rewrite <- N. unfold prob, norm2. apply Rsum_ext. intros x _. unfold project. destruct (bit x t) eqn:E; auto.
  rewrite Z by auto. reflexivity.
Qed.
End Rng.

(** ** Born rule *)
(** the part of the state that agrees with [s] on the qubits of [l] *)
Fixpoint project_all (l : list nat) (s : nat -> bool) (psi : state) : state :=
  match l with [] => psi | t :: r => project_all r s (project t (s t) psi) end.

Lemma project_all_scl : forall l s k psi, project_all l s (scl k psi) = scl k (project_all l s psi).
Proof. induction l; intros; simpl; auto. rewrite project_scl. apply IHl. Qed.
Lemma project_all_spec : forall l s psi x, project_all l s psi x = if forallb (fun t => Bool.eqb (bit x t) (s t)) l then psi x else C0.
Proof.
  induction l as [|t l IH]; intros; simpl; auto. rewrite IH. unfold project.
  destruct (Bool.eqb (bit x t) (s t)), (forallb _ l); auto.
Qed.

Definition b2n (b : bool) : nat := if b then 1 else 0.

Definition in_interval (iv : R * R) (r : R) : Prop := fst iv <= r < snd iv.
Definition volume (ivs : list (R * R)) : R := fold_right (fun iv v => (snd iv - fst iv) * v) 1 ivs.

Lemma each_bits_other : forall rng n l w q, ~ In q l -> w_bits (each (measure1 rng n) (map Z.of_nat l) w) q = w_bits w q.
Proof.
  intros rng n. induction l as [|t l IH]; intros w q Hq; simpl; auto.
  unfold each in *. simpl. rewrite IH by (intro; apply Hq; right; auto).
  unfold measure1. simpl. rewrite Nat2Z.id. unfold update. destruct (Nat.eqb_spec q t); auto. subst. exfalso. apply Hq. left; auto.
Qed.

Lemma each_cons : forall step t l w, each step (map Z.of_nat (t :: l)) w = each step (map Z.of_nat l) (step t w).
Proof. intros. unfold each. cbn [map fold_left]. rewrite Nat2Z.id. reflexivity. Qed.

Lemma b2n_inj : forall a b, b2n a = b2n b -> a = b.
Proof. destruct a, b; simpl; auto; discriminate. Qed.

Lemma norm2_project_le : forall n l s psi, norm2 n (project_all l s psi) <= norm2 n psi.
Proof.
  intros. unfold norm2.
  assert (forall L, Rsum (fun x => Cnorm2 (project_all l s psi x)) L <= Rsum (fun x => Cnorm2 (psi x)) L).
  { induction L; simpl; [lra|]. rewrite project_all_spec. pose proof (Cnorm2_pos (psi a)).
    destruct (forallb _ l); rewrite ?Cnorm2_C0; lra. }
  apply H.
Qed.

(** The draws that lead to outcomes [s] on the qubits [l] form a box, whose volume is the Born probability. *)
Lemma born_list : forall n l s psi, NoDup l -> norm2 n psi = 1 ->
  exists ivs, List.length ivs = List.length l /\
    (forall iv, In iv ivs -> 0 <= fst iv /\ snd iv <= 1 /\ fst iv <= snd iv) /\
    volume ivs = norm2 n (project_all l s psi) /\
    forall rng bits pos, draws_ok rng ->
      ((forall t, In t l -> w_bits (each (measure1 rng n) (map Z.of_nat l) (World psi bits pos)) t = b2n (s t)) <->
       (forall i, (i < List.length l)%nat -> in_interval (nth i ivs (0, 0)) (rng (pos + i)%nat))).
Proof.
  intros n l. induction l as [|t l IH]; intros s psi ND Hn.
  - exists []. simpl. split; [auto|]. split; [intros iv []|]. split; [lra|]. intros. split; intros; [lia|contradiction].
  - inversion ND as [|? ? Hnotin ND']; subst.
    pose proof (prob_total n t psi) as Tot. rewrite Hn in Tot.
    pose proof (prob_nonneg n t false psi) as P0. pose proof (prob_nonneg n t true psi) as P1.
    set (iv := if s t then (prob n t false psi, 1) else (0, prob n t false psi)).
    assert (Len : snd iv - fst iv = prob n t (s t) psi) by (unfold iv; destruct (s t); simpl; lra).
    assert (Out : forall rng bits pos, draws_ok rng -> (outcome rng n t (World psi bits pos) = s t <-> in_interval iv (rng pos))).
    { intros rng bits pos Hr. pose proof (Hr pos). unfold outcome, in_interval, iv. simpl.
      destruct (Rltb (rng pos) (prob n t false psi)) eqn:E; simpl.
      - apply Rltb_true in E. destruct (s t); simpl; split; intros; try discriminate; auto; lra.
      - apply Rltb_false in E. destruct (s t); simpl; split; intros; try discriminate; auto; lra. }
    assert (Bit : forall rng bits pos, w_bits (each (measure1 rng n) (map Z.of_nat (t :: l)) (World psi bits pos)) t
                  = b2n (outcome rng n t (World psi bits pos))).
    { intros. rewrite each_cons.
      rewrite each_bits_other by auto. unfold measure1. simpl. unfold update. rewrite Nat.eqb_refl. reflexivity. }
    destruct (Req_dec (prob n t (s t) psi) 0) as [Hz|Hnz].
    + (* impossible outcome *)
      exists (iv :: repeat (0, 0) (List.length l)). split; [simpl; rewrite repeat_length; auto|].
      split; [|split].
      * intros i [<-|Hi]; [unfold iv; destruct (s t); simpl; lra|]. apply repeat_spec in Hi. subst. simpl. lra.
      * simpl. rewrite Len, Hz. simpl. rewrite Rmult_0_l. symmetry.
        pose proof (norm2_project_le n l s (project t (s t) psi)) as Le. unfold prob in Hz. rewrite Hz in Le.
        pose proof (norm2_nonneg n (project_all l s (project t (s t) psi))). lra.
      * intros rng bits pos Hr. split.
        -- intros H. exfalso. specialize (H t (or_introl eq_refl)). rewrite Bit in H. apply b2n_inj in H.
           apply Out in H; auto. unfold in_interval in H. lra.
        -- intros H. exfalso. specialize (H 0%nat ltac:(simpl; lia)). simpl in H. unfold in_interval in H. lra.
    + assert (Hp : 0 < prob n t (s t) psi) by (pose proof (prob_nonneg n t (s t) psi); lra).
      destruct (IH s (collapse n t (s t) psi) ND' (norm2_collapse n t (s t) psi Hp)) as [ivs [L1 [L2 [L3 L4]]]].
      exists (iv :: ivs). split; [simpl; auto|]. split; [|split].
      * intros i [<-|Hi]; [unfold iv; destruct (s t); simpl; lra|auto].
      * simpl. rewrite Len. fold (volume ivs). rewrite L3. unfold collapse. rewrite project_all_scl, norm2_scl, Cnorm2_RtoC.
        rewrite <- Rinv_mult, sqrt_sqrt by lra. field. lra.
      * intros rng bits pos Hr.
        set (w1 := measure1 rng n t (World psi bits pos)).
        assert (Step : each (measure1 rng n) (map Z.of_nat (t :: l)) (World psi bits pos) = each (measure1 rng n) (map Z.of_nat l) w1).
        { apply each_cons. }
        assert (W1 : outcome rng n t (World psi bits pos) = s t -> w1 = World (collapse n t (s t) psi) (w_bits w1) (S pos)).
        { intros E. unfold w1, measure1. rewrite E. reflexivity. }
        split.
        -- intros H. pose proof (H t (or_introl eq_refl)) as Ht. rewrite Bit in Ht. apply b2n_inj in Ht.
           intros [|i] Hi; simpl.
           ++ rewrite Nat.add_0_r. apply (Out rng bits pos Hr). auto.
           ++ replace (pos + S i)%nat with (S pos + i)%nat by lia. simpl in Hi.
              apply (proj1 (L4 rng (w_bits w1) (S pos) Hr)); [|lia]. intros u Hu. rewrite <- W1 by auto. rewrite <- Step. apply H. right; auto.
        -- intros H. pose proof (H 0%nat ltac:(simpl; lia)) as H0. simpl in H0. rewrite Nat.add_0_r in H0.
           apply (Out rng bits pos Hr) in H0.
           intros u [<-|Hu].
           ++ rewrite Bit, H0. reflexivity.
           ++ rewrite Step, W1 by auto. revert u Hu. apply (proj2 (L4 rng (w_bits w1) (S pos) Hr)). intros i Hi.
              specialize (H (S i) ltac:(simpl; lia)). simpl in H. replace (S pos + i)%nat with (pos + S i)%nat by lia. exact H.
Qed.

(** all qubits of the register *)
Lemma project_full : forall n l s psi k, (forall t, In t l <-> (t < n)%nat) -> (k < 2 ^ n)%nat ->
  (forall t, (t < n)%nat -> s t = bit k t) -> norm2 n (project_all l s psi) = Cnorm2 (psi k).
Proof.
  intros n l s psi k Hl Hk Hs. unfold norm2. rewrite (Rsum_single _ _ k).
  - rewrite project_all_spec. assert (E : forallb (fun t => Bool.eqb (bit k t) (s t)) l = true).
    { apply forallb_forall. intros t Ht. apply Hl in Ht. rewrite Hs by auto. apply eqb_reflx. }
    rewrite E. reflexivity.
  - apply seq_NoDup.
  - apply in_seq. lia.
  - intros y Hy Hne. apply in_seq in Hy. rewrite project_all_spec.
    destruct (forallb (fun t => Bool.eqb (bit y t) (s t)) l) eqn:E; [|apply Cnorm2_C0].
    exfalso. apply Hne. apply Nat.bits_inj. intro t. destruct (Nat.lt_ge_cases t n) as [Ht|Ht].
    + rewrite forallb_forall in E. apply Hl in Ht. pose proof (E t Ht) as Et. apply eqb_prop in Et.
      rewrite Et. apply Hs. apply Hl; auto.
    + rewrite (proj1 (lt_pow2_bits n y)), (proj1 (lt_pow2_bits n k)); auto; lia.
Qed.

(** ** Counting *)
Definition lookup (c : counter) (k : list nat) : nat :=
  match find (fun p => if list_eq_dec Nat.eq_dec (fst p) k then true else false) c with Some p => snd p | None => 0%nat end.
Definition total (c : counter) : nat := fold_right (fun p a => (snd p + a)%nat) 0%nat c.

Lemma lookup_incr : forall d k k', lookup (counter_incr d k) k' =
  (lookup d k' + (if list_eq_dec Nat.eq_dec k k' then 1 else 0))%nat.
Proof.
  induction d as [|[q v] d IH]; intros k k'; unfold lookup in *; simpl.
  - destruct (list_eq_dec Nat.eq_dec k k'); reflexivity.
  - destruct (list_eq_dec Nat.eq_dec q k); simpl.
    + subst. destruct (list_eq_dec Nat.eq_dec k k'); simpl; [lia|]. rewrite Nat.add_0_r. reflexivity.
    + destruct (list_eq_dec Nat.eq_dec q k'); simpl.
      * subst. destruct (list_eq_dec Nat.eq_dec k k'); [congruence|lia].
      * apply IH.
Qed.
Lemma total_incr : forall d k, total (counter_incr d k) = S (total d).
Proof.
  induction d as [|[q v] d IH]; intros k; simpl; auto.
  destruct (list_eq_dec Nat.eq_dec q k); simpl; auto. rewrite IH. lia.
Qed.
Lemma keys_incr : forall d k q, In q (map fst (counter_incr d k)) <-> In q (map fst d) \/ q = k.
Proof.
  induction d as [|[r v] d IH]; intros k q; simpl.
  - intuition.
  - destruct (list_eq_dec Nat.eq_dec r k); simpl; [subst; intuition|]. rewrite IH. intuition.
Qed.
Lemma nodup_incr : forall d k, NoDup (map fst d) -> NoDup (map fst (counter_incr d k)).
Proof.
  induction d as [|[r v] d IH]; intros k H; simpl; [constructor; auto|].
  inversion H; subst. destruct (list_eq_dec Nat.eq_dec r k); simpl; [constructor; auto|].
  constructor; auto. rewrite keys_incr. intros [|]; auto.
Qed.

Definition tally_list (d : counter) (ks : list (list nat)) : counter := fold_left counter_incr ks d.
Lemma tally_list_spec : forall ks d,
  (forall k, lookup (tally_list d ks) k = (lookup d k + count_occ (list_eq_dec Nat.eq_dec) ks k)%nat) /\
  total (tally_list d ks) = (total d + List.length ks)%nat /\
  (NoDup (map fst d) -> NoDup (map fst (tally_list d ks))) /\
  (forall q, In q (map fst (tally_list d ks)) <-> In q (map fst d) \/ In q ks).
Proof.
  induction ks as [|k ks IH]; intros d; simpl.
  - unfold tally_list; simpl. repeat split; intros; auto; try lia; intuition.
  - destruct (IH (counter_incr d k)) as [A [B [C D]]]. unfold tally_list in *. simpl. repeat split; intros.
    + rewrite A, lookup_incr. destruct (list_eq_dec Nat.eq_dec k k0); lia.
    + rewrite B, total_incr. lia.
    + apply C, nodup_incr; auto.
    + apply D in H. rewrite keys_incr in H. intuition.
    + apply D. rewrite keys_incr. intuition.
Qed.

Lemma tally_as_list : forall n ws d, (0 < n)%nat -> tally n d ws = tally_list d (map (outcomes n) ws).
Proof.
  intros n ws d Hn. destruct n as [|m]; [lia|]. unfold tally, tally_list.
  revert d. induction ws; intros d; simpl; auto.
Qed.

(** ** Whole runs *)
Section Rng2.
Variable rng : nat -> R.
Hypothesis Hrng : draws_ok rng.

Definition result_of (n : nat) (returns : string) (ig : bool) (ws : list world) (pos : nat) : run_result :=
  let v := match ws with [] => zeros n | _ => arr n (w_psi (last ws (start pos))) end in
  let v := if ig then ignore_global_phase v else v in
  if String.eqb returns "statevector" then RState v
  else if String.eqb returns "shots" then RShots (tally n [] ws)
  else RBoth v (tally n [] ws).

Lemma ideal_run_ok : forall n gs a pos N returns ig ws, parse_run_args a = Ok (N, returns, ig) ->
  returns <> "_inner_ctx"%string -> shots rng n gs pos ws -> List.length ws = Z.to_nat N ->
  ideal_run rng gs n a pos = (Ok (result_of n returns ig ws pos), w_pos (last ws (start pos))).
Proof.
  intros n gs a pos N returns ig ws Hp Hret Hsh HL. unfold ideal_run. rewrite Hp, <- HL.
  destruct (ideal_shots_ok rng Hrng n gs ws pos Hsh (new_ctx n pos)) as [c [E [N1 [T1 [P1 [Q1 L1]]]]]]; auto.
  { unfold new_ctx; simpl. apply repeat_length. }
  rewrite E. unfold result_of.
  assert (R3 : String.eqb returns "statevector" = false -> String.eqb returns "shots" = false -> String.eqb returns "statevector_and_shots" = true).
  { intros E1 E2. unfold parse_run_args in Hp.
    set (rt := match a_returns a with Some r => r | None => match a_shots a with None => "statevector" | Some _ => "shots" end end%string) in *.
    destruct (negb _) eqn:En; [discriminate|]. injection Hp; intros _ Hr _. clearbody rt. subst rt.
    rewrite E1, E2 in En. simpl in En. destruct (String.eqb returns "statevector_and_shots"); auto. simpl in En.
    destruct (String.eqb_spec returns "_inner_ctx"); [contradiction|discriminate]. }
  assert (V : x_qubits c = match ws with [] => zeros n | _ => arr n (w_psi (last ws (start pos))) end).
  { destruct ws; [rewrite (L1 eq_refl); reflexivity|apply Q1; discriminate]. }
  simpl in T1. unfold return_type. rewrite <- V, <- T1, <- P1.
  destruct ig; simpl; destruct (String.eqb returns "statevector"); auto; destruct (String.eqb returns "shots"); auto; rewrite R3; auto.
Qed.
End Rng2.
