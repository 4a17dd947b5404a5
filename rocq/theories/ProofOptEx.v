(** Cases for the theorems about the object Opt. *)
From Coq Require Import List Arith ZArith Bool Reals Lia Lra.
Import ListNotations.
From Verif Require Import Base Cplx ModelWq ModelOpt SpecWq SpecOpt ProofWq ProofOpt ProofDwave.
Local Open Scope R_scope.

Lemma sqa_case : exists fuel q o', opt_sqa Nat.even (fun k => k mod 2)%nat (fun k => k mod 8)%nat (fun k => / INR (k + 2)) (opt2 1 2 3) fuel 10 (1 / 50) (1 / 50) (19 / 20) 8 1000 = Some (Ok q, o').
Proof.
  destruct (sqa_ends Nat.even (fun k => k mod 2)%nat (fun k => k mod 8)%nat (fun k => / INR (k + 2)) (opt2 1 2 3) 10 (1 / 50) (1 / 50) (19 / 20) 8 1000) as [fuel H]; try lra.
  destruct (opt_sqa _ _ _ _ _ _ _ _ _ _ _ _) as [[a o']|] eqn:E; [|contradiction]. pose proof E as E'. apply sqa_run in E'.
  - destruct E' as [q [l [-> _]]]. exists fuel, q, o'. exact E.
  - reflexivity.
  - intros k. cbn [attr_size o_qubo opt2 with_qubo]. apply Nat.mod_upper_bound. lia.
  - intros k. apply Nat.mod_upper_bound. lia.
  - lia.
  - lra.
  - lra.
  - lra.
Qed.
Lemma mat2_upper : forall a b c, upper_triangular 2 (mat2 a b c).
Proof. intros a b c i j H. assert (i = 1 /\ j = 0)%nat as [-> ->] by lia. reflexivity. Qed.
Lemma add_case : Forall (fun p => upper_triangular 2 (fst p)) [(mat2 1 2 3, 1); (mat2 0 (-1) 4, 5)] /\
  exists fuel b o', opt_run1 Nat.even (fun k => k mod 2)%nat (fun k => / INR (k + 2))
    (fold_left (fun o p => opt_add o 2 (fst p) (snd p)) [(mat2 1 2 3, 1); (mat2 0 (-1) 4, 5)] opt_init) fuel 5 (19 / 20) 1000 (1 / 50) = Some (Ok b, o').
Proof.
  assert (U : Forall (fun p => upper_triangular 2 (fst p)) [(mat2 1 2 3, 1); (mat2 0 (-1) 4, 5)]).
  { apply Forall_cons; [apply mat2_upper|]. apply Forall_cons; [apply mat2_upper|]. constructor. }
  split; auto. destruct (power_below 5 (19 / 20) (1 / 50)) as [k Hk]; try lra.
  assert (HS : forall k, ((fun k => k mod 2) k < 2)%nat) by (intros; apply Nat.mod_upper_bound; lia).
  assert (X : exists r o', opt_run1 Nat.even (fun k => k mod 2)%nat (fun k => / INR (k + 2))
    (fold_left (fun o p => opt_add o 2 (fst p) (snd p)) [(mat2 1 2 3, 1); (mat2 0 (-1) 4, 5)] opt_init) (S k) 5 (19 / 20) 1000 (1 / 50) = Some (r, o')).
  { unfold opt_run1. cbv zeta. set (o := prepare _). assert (No : o_size o = 2%nat) by (unfold o; rewrite prepare_qubo by reflexivity; reflexivity). rewrite No.
    change ((2 =? 0)%nat) with false. cbn [andb].
    destruct (cooling _ _ _ _ _ _ _ _ _ _ _ _ _ _) as [[[[q s] d] EE]|] eqn:C; [eauto|]. exfalso. revert C. apply cooling_ends. exact Hk. }
  destruct X as [r [o' X]]. pose proof X as X'. apply (add_run _ _ _ (S k) 2) in X' as [b [-> _]]; auto; [|discriminate]. exists (S k), b, o'. exact X.
Qed.
Lemma suitable_case : suitable 2 (mat2 (-1) 3 (-1)) [0; 1; 5]%nat [(0, 5); (0, 1); (5, 1)]%nat.
Proof.
  split; [reflexivity|]. split.
  - apply NoDup_cons; [cbn; intuition congruence|]. apply NoDup_cons; [cbn; intuition congruence|]. apply NoDup_cons; [cbn; tauto|constructor].
  - split.
    + intros i j H. cbn in H. destruct H as [H|[H|[H|[]]]]; inversion H; subst; lia.
    + intros i j H _. assert (i = 0 /\ j = 1)%nat as [-> ->] by lia. cbn. auto.
Qed.
