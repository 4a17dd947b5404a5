(** Proofs: means and scatter of the energies from shots *)
From Coq Require Import List Arith ZArith Bool String Reals Lia Lra.
Import ListNotations.
From Verif Require Import Base Cplx Bits ModelTargets ModelGate ModelNumpy ModelCircuit ModelPauli ModelVqe
  SpecTargets SpecQuantum SpecCircuit SpecMeasure SpecRun SpecAPI SpecPauli SpecLaw SpecVqe SpecShots
  ProofVqe ProofVqeRun ProofVqeEx ProofShotLaw ProofShotRun SpecShots.
Local Open Scope R_scope.

Lemma NoDup_app_intro : forall (A : Type) (a b : list A), NoDup a -> NoDup b -> (forall x, In x a -> In x b -> False) -> NoDup (a ++ b).
Proof.
  intros A a b Na Nb D. induction Na as [|x a Nx Na IH]; [exact Nb|]. simpl. constructor.
  - rewrite in_app_iff. intros [I|I]; [exact (Nx I)|]. apply (D x); [left; reflexivity|exact I].
  - apply IH. intros y I J. apply (D y); [right; exact I|exact J].
Qed.
Lemma values_all : forall d s, In s (values d) <-> List.length s = d.
Proof.
  induction d as [|d IH]; intros s; simpl; [split; [intros [<-|[]]; reflexivity|destruct s; [left; reflexivity|discriminate]]|].
  rewrite in_app_iff, !in_map_iff. split.
  - intros [[r [<- I]]|[r [<- I]]]; simpl; f_equal; apply IH, I.
  - destruct s as [|[] s]; intros H; [discriminate| |]; injection H as H; [right|left]; exists s; (split; [reflexivity|apply IH, H]).
Qed.
Lemma values_once : forall d, NoDup (values d).
Proof.
  induction d as [|d IH]; simpl; [repeat constructor; intros []|]. apply NoDup_app_intro.
  - apply NoDup_map_inj; [exact IH|]. intros x y _ _ E. injection E as E. exact E.
  - apply NoDup_map_inj; [exact IH|]. intros x y _ _ E. injection E as E. exact E.
  - intros x I J. apply in_map_iff in I, J. destruct I as [a [<- _]], J as [b [E _]]. discriminate.
Qed.
Lemma heads_once : forall (A : Type) (l : list A) (ls : list (list A)), NoDup l -> NoDup ls -> NoDup (flat_map (fun a => map (cons a) ls) l).
Proof.
  intros A l ls N M. induction N as [|a l Na N IH]; simpl; [constructor|]. apply NoDup_app_intro; [|exact IH|].
  - apply NoDup_map_inj; [exact M|]. intros x y _ _ E. injection E as E. exact E.
  - intros x I J. apply in_map_iff in I. destruct I as [r [<- _]]. apply in_flat_map in J. destruct J as [b [Ib J]]. apply in_map_iff in J. destruct J as [r' [E _]]. injection E as -> _. exact (Na Ib).
Qed.
Lemma sequences_all : forall (A : Type) (l : list A) N s, In s (sequences N l) <-> List.length s = N /\ Forall (fun a => In a l) s.
Proof.
  intros A l. induction N as [|N IH]; intros s; simpl.
  - split; [intros [<-|[]]; auto|]. intros [H _]. destruct s; [left; reflexivity|discriminate].
  - rewrite in_flat_map. split.
    + intros [a [Ia I]]. apply in_map_iff in I. destruct I as [r [<- I]]. apply IH in I. destruct I as [L F]. split; [simpl; congruence|constructor; assumption].
    + intros [L F]. destruct s as [|a s]; [discriminate|]. inversion F; subst. exists a. split; [assumption|]. apply in_map, IH. split; [simpl in L; lia|assumption].
Qed.
Lemma sequences_once : forall (A : Type) (l : list A) N, NoDup l -> NoDup (sequences N l).
Proof. intros A l N H. induction N as [|N IH]; simpl; [repeat constructor; intros []|]. apply heads_once; assumption. Qed.
Lemma all_shots_all : forall N ham sss, In sss (all_shots N ham) <-> shaped N ham sss.
Proof.
  intros N. unfold shaped. induction ham as [|t ham IH]; intros sss; simpl.
  - split; [intros [<-|[]]; constructor|intros H; inversion H; left; reflexivity].
  - rewrite in_flat_map. split.
    + intros [ss [I J]]. apply in_map_iff in J. destruct J as [r [<- J]]. apply sequences_all in I. destruct I as [L F]. constructor; [|apply IH, J]. split; [exact L|].
      eapply Forall_impl; [|exact F]. intros s. apply values_all.
    + intros H. apply shots_cons in H. destruct H as [ss [r [-> [[L F] F']]]]. exists ss. split; [|apply in_map, IH, F']. apply sequences_all. split; [exact L|].
      eapply Forall_impl; [|exact F]. intros s. apply values_all.
Qed.
Lemma all_shots_once : forall N ham, NoDup (all_shots N ham).
Proof. intros N. induction ham as [|t ham IH]; simpl; [repeat constructor; intros []|]. apply heads_once; [apply sequences_once, values_once|exact IH]. Qed.

Section Means.
Variables (n : nat) (gs : list gate) (ops : list oper) (N : nat) (ham : expr).
Hypothesis Co : circuit_ops n gs ops.
Hypothesis F : Forall (fun t => separate_word n (t_ops t)) ham.
Lemma shots_total : NoDup (all_shots N ham) /\ (forall sss, In sss (all_shots N ham) <-> shaped N ham sss) /\ mean_shots n ops N ham (fun _ => 1) = 1.
Proof. split; [apply all_shots_once|]. split; [apply all_shots_all|]. exact (M_one n ops gs N Co ham F). Qed.
Lemma shots_mean : (0 < N)%nat -> mean_shots n ops N ham (estimate N ham) = Cre (expval_y n ham (apply_all ops (ket 0))).
Proof. intros P. rewrite <- (all_mean_energy n ops ham F). exact (law_estimate n ops gs N Co P ham F). Qed.
Lemma shots_spread : (0 < N)%nat -> mean_shots n ops N ham (fun sss => Rsqr (estimate N ham sss - Cre (expval_y n ham (apply_all ops (ket 0))))) <= squares ham / INR N.
Proof. intros P. rewrite <- (all_mean_energy n ops ham F). exact (law_deviation n ops gs N Co P ham F). Qed.
Lemma shots_far : forall eps, (0 < N)%nat -> 0 < eps ->
  mean_shots n ops N ham (fun sss => if Rle_dec eps (Rabs (estimate N ham sss - Cre (expval_y n ham (apply_all ops (ket 0))))) then 1 else 0) <= squares ham / (INR N * Rsqr eps).
Proof. intros eps P He. rewrite <- (all_mean_energy n ops ham F). exact (law_far n ops gs N Co P ham eps F He). Qed.
Lemma shots_even : (0 < N)%nat -> Forall (fun t => Nat.even (ycount (t_ops t)) = true) ham -> mean_shots n ops N ham (estimate N ham) = Cre (expval n (expr_op ham) (apply_all ops (ket 0))).
Proof. intros P E. rewrite shots_mean by exact P. rewrite expval_even by exact E. reflexivity. Qed.
End Means.

Lemma shots_enough : forall n gs ops ham, circuit_ops n gs ops -> Forall (fun t => separate_word n (t_ops t)) ham -> forall eps delta, 0 < eps -> 0 < delta ->
  exists N0, (0 < N0)%nat /\ forall N, (N0 <= N)%nat ->
    mean_shots n ops N ham (fun sss => if Rle_dec eps (Rabs (estimate N ham sss - Cre (expval_y n ham (apply_all ops (ket 0))))) then 1 else 0) <= delta.
Proof.
  intros n gs ops ham Co F eps delta He Hd. assert (E2 : 0 < Rsqr eps) by (apply Rsqr_pos_lt; lra). set (q := squares ham / (delta * Rsqr eps)).
  destruct (archimed q) as [A _]. exists (S (Z.to_nat (up q))). split; [lia|]. intros N L.
  assert (P : 0 < INR N) by (apply lt_0_INR; lia).
  assert (Q : q <= INR N).
  { apply Rle_trans with (IZR (up q)); [lra|]. rewrite INR_IZR_INZ. apply IZR_le. lia. }
  apply Rle_trans with (squares ham / (INR N * Rsqr eps)); [apply (shots_far n gs ops N ham Co F); [lia|exact He]|].
  assert (D2 : 0 < delta * Rsqr eps) by (apply Rmult_lt_0_compat; assumption). assert (P2 : 0 < INR N * Rsqr eps) by (apply Rmult_lt_0_compat; assumption).
  apply Rmult_le_reg_r with (INR N * Rsqr eps); [exact P2|]. unfold Rdiv. rewrite Rmult_assoc, Rinv_l, Rmult_1_r by lra.
  apply Rle_trans with (q * (delta * Rsqr eps)); [unfold q; right; field; split; lra|].
  apply Rle_trans with (INR N * (delta * Rsqr eps)); [apply Rmult_le_compat_r; lra|right; ring].
Qed.

(** one shot for Z0*Z1 after x[0] *)
Definition half_rng : nat -> R := fun _ => / 2.
Lemma zz_shots : exists h c, draws_ok half_rng /\ reachable half_rng [] h /\ circuit_is h c x0 /\ simulated half_rng h x0 /\ circuit_ops 2 (v_gates x0) [sem1 KX 0] /\
  Forall (fun t => separate_word 2 (t_ops t) /\ balanced 2 (t_ops t)) zz /\ Forall (fun t => Nat.even (ycount (t_ops t)) = true) zz /\ squares zz = 1 /\
  ~ balanced 2 [(LZ, 0%nat)] /\ shaped 2 zz [[[true; false]; [false; false]]] /\ estimate 2 zz [[[true; false]; [false; false]]] = 0.
Proof.
  destruct (zz_case half_rng) as [h [c [m [Re [Ci [Si [Co [Sw [Ev _]]]]]]]]]. exists h, c. split; [intros i; unfold half_rng; lra|].
  split; [exact Re|]. split; [exact Ci|]. split; [exact Si|]. split; [exact Co|]. split.
  { inversion Sw; subst. constructor; [|constructor]. split; [assumption|]. intros q I. simpl in *. destruct I as [<-|[<-|[]]]; simpl; auto. }
  split; [exact Ev|]. split; [unfold squares, zz, Rsqr; simpl; ring|]. split.
  { intros B. specialize (B 0%nat). simpl in B. destruct B as [B|[]]; [left; reflexivity|discriminate]. }
  split; [unfold shaped, zz; repeat constructor|]. unfold estimate, reading, zz. simpl. lra.
Qed.
