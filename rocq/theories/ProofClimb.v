(** Proofs: QAOA rounds follow the highest eigenvector of "flips minus cost" from the uniform state to states of minimal cost *)
From Coq Require Import List Arith ZArith Bool Reals Lia Lra.
Import ListNotations.
From Verif Require Import Base Cplx Bits ProofGap ProofPerron.
From Verif Require ProofFloat ProofAnneal ProofAnnealConv.
Local Open Scope R_scope.

Lemma count_const : forall n (c : R), Rsum (fun _ : nat => c) (seq 0 (2 ^ n)) = 2 ^ n * c.
Proof. intros. rewrite ProofAnneal.Rsum_const, seq_length, pow_INR. reflexivity. Qed.
Lemma ip_small : forall n f b, 0 <= b -> (forall x, (x < 2 ^ n)%nat -> Rabs (f x) <= b) -> ip n f f <= (2 ^ n * b) * (2 ^ n * b).
Proof.
  intros n f b B H. apply Rle_trans with (2 ^ n * (b * b)).
  - rewrite <- count_const. apply Rsum_mono. intros x I. apply in_seq in I. specialize (H x ltac:(lia)).
    pose proof (Rabs_pos (f x)). replace (f x * f x) with (Rabs (f x) * Rabs (f x)) by (rewrite <- Rabs_mult; apply Rabs_pos_eq, Rle_0_sqr). apply Rmult_le_compat; assumption.
  - assert (1 <= 2 ^ n) by (apply pow_R1_Rle; lra). assert (0 <= 2 ^ n * (b * b)) by (apply Rmult_le_pos; [lra|apply Rle_0_sqr]).
    replace (2 ^ n * b * (2 ^ n * b)) with (2 ^ n * (2 ^ n * (b * b))) by ring. rewrite <- (Rmult_1_l (2 ^ n * (b * b))) at 1. apply Rmult_le_compat_r; assumption.
Qed.
Lemma ip_bound : forall n v f b, (forall x, (x < 2 ^ n)%nat -> 0 <= v x <= 1) -> 0 <= b -> (forall x, (x < 2 ^ n)%nat -> Rabs (f x) <= b) -> Rabs (ip n v f) <= 2 ^ n * b.
Proof.
  intros n v f b V B H. apply Rle_trans with (1 := ProofAnnealConv.Rsum_abs _ _ _). rewrite <- count_const. apply Rsum_mono. intros x I. apply in_seq in I.
  rewrite Rabs_mult. pose proof (V x ltac:(lia)). rewrite (Rabs_pos_eq (v x)) by lra. specialize (H x ltac:(lia)). pose proof (Rabs_pos (f x)). rewrite <- (Rmult_1_l b). apply Rmult_le_compat; lra.
Qed.
Lemma top_entries : forall n d s m mu v x, 0 < m -> top n d s m mu v -> (x < 2 ^ n)%nat -> 0 <= v x <= 1.
Proof.
  intros n d s m mu v x M (U & Lo & _) X. pose proof (Lo x X). split; [lra|]. pose proof (ip_at n v x X) as H1. rewrite U in H1. destruct (Rle_dec (v x) 1) as [L|L]; [exact L|].
  assert (1 * 1 < v x * v x) by (apply Rmult_le_0_lt_compat; lra). lra.
Qed.
Lemma top_kills : forall n d s m mu v f, top n d s m mu v -> ip n v (fun x => hop n d s f x - mu * f x) = 0.
Proof.
  intros n d s m mu v f (_ & _ & Ei). rewrite (ip_ext n v _ v (fun x => hop n d s f x + (- mu) * f x)); [|reflexivity|intros; ring]. rewrite ip_add, ip_scl, hop_sym.
  rewrite (ip_ext n (hop n d s v) f (fun x => mu * v x) f Ei (fun x _ => eq_refl)), (ip_sym n _ f), ip_scl, (ip_sym n f v). ring.
Qed.

(** ** The mean over many small steps *)
Fixpoint added (a : nat -> nat -> R) (J : nat) : nat -> R := match J with O => fun _ => 0 | S J => fun x => 1 * added a J x + 1 * a J x end.
Lemma ip_added : forall n u a J, ip n u (added a J) = Rsum (fun j => ip n u (a j)) (seq 0 J).
Proof.
  intros n u a. induction J as [|J IH].
  - cbn [added seq Rsum]. apply Rsum_0. intros. ring.
  - cbn [added]. rewrite ip_add, !ip_scl, IH, seq_S, Rsum_app. cbn [plus Rsum]. ring.
Qed.
Lemma mean_steps : forall n d s m mu v u sg h e1 a b J, 0 < m -> top n d s m mu v -> ip n u u = 1 -> sg * sg = 1 -> 0 < h -> 0 <= e1 ->
  (forall j x, (x < 2 ^ n)%nat -> Rabs (a (S j) x - a j x - sg * h * (hop n d s (b j) x - mu * b j x)) <= e1 * h) ->
  (forall j x, (x < 2 ^ n)%nat -> Rabs (b (S j) x - b j x + sg * h * (hop n d s (a j) x - mu * a j x)) <= e1 * h) ->
  (forall j x, (x < 2 ^ n)%nat -> Rabs (b j x) <= 1) -> (0 < J)%nat ->
  Rabs (Rsum (fun j => ip n u (a j)) (seq 0 J) - INR J * (ip n u v * ip n v (a 0%nat))) <= INR J * (2 ^ n * (2 / (INR J * h) + e1) / gap n m + INR J * h * (2 ^ n * e1)).
Proof.
  intros n d s m mu v u sg h e1 a b J M T Uu Sg Hh He Ha Hb Bb HJ. pose proof (gap_pos n m M) as G. assert (JP : 0 < INR J) by (apply lt_0_INR; exact HJ). assert (P2 : 0 < 2 ^ n) by (apply pow_lt; lra).
  set (Y := added a J).
  assert (SgA : Rabs sg = 1). { assert (Q : Rabs sg * Rabs sg = 1) by (rewrite <- Rabs_mult, Sg; apply Rabs_R1). pose proof (Rabs_pos sg). assert ((Rabs sg - 1) * (Rabs sg + 1) = 0) by lra. apply Rmult_integral in H0. lra. }
  assert (Te : forall J x, (x < 2 ^ n)%nat -> Rabs (b J x - b 0%nat x + sg * h * (hop n d s (added a J) x - mu * added a J x)) <= INR J * (e1 * h)).
  { clear HJ JP Y J. induction J as [|J IH]; intros x X.
    - cbn [added INR]. replace (hop n d s (fun _ => 0) x) with 0 by (unfold hop; rewrite Rsum_0 by reflexivity; ring). replace (b 0%nat x - b 0%nat x + sg * h * (0 - mu * 0)) with 0 by ring. rewrite Rabs_R0. lra.
    - specialize (IH x X). specialize (Hb J x X). rewrite S_INR. cbn [added]. rewrite (hop_lin n d s 1 (added a J) 1 (a J) x).
      replace (b (S J) x - b 0%nat x + sg * h * (1 * hop n d s (added a J) x + 1 * hop n d s (a J) x - mu * (1 * added a J x + 1 * a J x))) with
        ((b J x - b 0%nat x + sg * h * (hop n d s (added a J) x - mu * added a J x)) + (b (S J) x - b J x + sg * h * (hop n d s (a J) x - mu * a J x))) by ring.
      apply Rle_trans with (1 := Rabs_triang _ _). lra. }
  set (B := (2 + INR J * (e1 * h)) / h).
  assert (B0 : 0 <= B). { apply Rmult_le_pos; [|left; apply Rinv_0_lt_compat; exact Hh]. assert (0 <= INR J * (e1 * h)) by (apply Rmult_le_pos; [lra|apply Rmult_le_pos; lra]). lra. }
  assert (YB : forall x, (x < 2 ^ n)%nat -> Rabs (hop n d s Y x - mu * Y x) <= B).
  { intros x X. specialize (Te J x X). fold Y in Te. pose proof (Bb J x X) as B1. pose proof (Bb 0%nat x X) as B2. set (r := hop n d s Y x - mu * Y x) in *.
    assert (Q : Rabs (sg * h * r) <= 2 + INR J * (e1 * h)).
    { replace (sg * h * r) with ((b J x - b 0%nat x + sg * h * r) + (b 0%nat x + - b J x)) by ring. apply Rle_trans with (1 := Rabs_triang _ _).
      pose proof (Rabs_triang (b 0%nat x) (- b J x)) as Q. rewrite Rabs_Ropp in Q. lra. }
    rewrite !Rabs_mult, SgA, (Rabs_pos_eq h) in Q by lra. unfold B. apply Rmult_le_reg_l with h; [exact Hh|]. replace (h * ((2 + INR J * (e1 * h)) / h)) with (2 + INR J * (e1 * h)) by (field; lra). lra. }
  assert (R1 : Rabs (ip n u Y - ip n u v * ip n v Y) <= 2 ^ n * B / gap n m).
  { apply (top_rest n d s m mu v u Y (2 ^ n * B) M T Uu); [apply Rmult_le_pos; lra|]. apply ip_small; [exact B0|exact YB]. }
  assert (Dr : forall j, Rabs (ip n v (a j) - ip n v (a 0%nat)) <= INR j * (2 ^ n * (e1 * h))).
  { induction j as [|j IH]; [cbn [INR]; unfold Rminus; rewrite Rplus_opp_r, Rabs_R0; lra|]. rewrite S_INR.
    assert (Q : Rabs (ip n v (fun x => a (S j) x - a j x - sg * h * (hop n d s (b j) x - mu * b j x))) <= 2 ^ n * (e1 * h)).
    { apply ip_bound; [intros x X; apply (top_entries n d s m mu v x M T X)|apply Rmult_le_pos; lra|intros x X; apply Ha; exact X]. }
    replace (ip n v (fun x => a (S j) x - a j x - sg * h * (hop n d s (b j) x - mu * b j x))) with (ip n v (a (S j)) - ip n v (a j)) in Q.
    - replace (ip n v (a (S j)) - ip n v (a 0%nat)) with ((ip n v (a (S j)) - ip n v (a j)) + (ip n v (a j) - ip n v (a 0%nat))) by ring. apply Rle_trans with (1 := Rabs_triang _ _). lra.
    - rewrite (ip_ext n v (fun x => a (S j) x - a j x - sg * h * (hop n d s (b j) x - mu * b j x)) v (fun x => (a (S j) x + (-1) * a j x) + (- (sg * h)) * (hop n d s (b j) x - mu * b j x))); [|reflexivity|intros; ring].
      rewrite (ip_add n v (fun x => a (S j) x + -1 * a j x) (fun x => - (sg * h) * (hop n d s (b j) x - mu * b j x))), ip_add, !ip_scl, (top_kills n d s m mu v (b j) T). ring. }
  assert (R2 : Rabs (ip n v Y - INR J * ip n v (a 0%nat)) <= INR J * (INR J * (2 ^ n * (e1 * h)))).
  { unfold Y. rewrite ip_added. assert (E0 : 0 <= 2 ^ n * (e1 * h)) by (apply Rmult_le_pos; [lra|apply Rmult_le_pos; lra]).
    replace (INR J * ip n v (a 0%nat)) with (Rsum (fun _ : nat => ip n v (a 0%nat)) (seq 0 J)) by (rewrite ProofAnneal.Rsum_const, seq_length; reflexivity). rewrite <- Rsum_sub.
    apply Rle_trans with (1 := ProofAnnealConv.Rsum_abs _ _ _). apply Rle_trans with (Rsum (fun _ : nat => INR J * (2 ^ n * (e1 * h))) (seq 0 J)).
    - apply Rsum_mono. intros j I. apply in_seq in I. apply Rle_trans with (1 := Dr j). apply Rmult_le_compat_r; [exact E0|]. apply le_INR. lia.
    - rewrite ProofAnneal.Rsum_const, seq_length. lra. }
  assert (Ou : Rabs (ip n u v) <= 1). { rewrite <- (Rmult_1_l 1). apply ip_cs_abs; try lra. destruct T as (U & _). lra. }
  rewrite <- ip_added. fold Y. replace (ip n u Y - INR J * (ip n u v * ip n v (a 0%nat))) with ((ip n u Y - ip n u v * ip n v Y) + ip n u v * (ip n v Y - INR J * ip n v (a 0%nat))) by ring.
  apply Rle_trans with (1 := Rabs_triang _ _). rewrite (Rabs_mult (ip n u v)).
  assert (R3 : Rabs (ip n u v) * Rabs (ip n v Y - INR J * ip n v (a 0%nat)) <= 1 * (INR J * (INR J * (2 ^ n * (e1 * h))))) by (apply Rmult_le_compat; try apply Rabs_pos; assumption).
  assert (R4 : 2 ^ n * B / gap n m = INR J * (2 ^ n * (2 / (INR J * h) + e1) / gap n m)). { unfold B. field. repeat split; lra. }
  lra.
Qed.
Lemma some_above : forall (f : nat -> R) J t, (0 < J)%nat -> INR J * t <= Rsum f (seq 0 J) -> exists j, (j < J)%nat /\ t <= f j.
Proof.
  intros f J t HJ H.
  assert (G : forall l, l <> [] -> INR (List.length l) * t <= Rsum f l -> exists j, In j l /\ t <= f j).
  { induction l as [|a l IH]; intros N Q; [congruence|]. cbn [List.length Rsum] in Q. rewrite S_INR in Q. destruct (Rle_dec t (f a)) as [L|L]; [exists a; split; [left; reflexivity|exact L]|].
    destruct l as [|b l]; [cbn in Q; lra|]. destruct (IH ltac:(discriminate) ltac:(lra)) as (j & I & Tj). exists j. split; [right; exact I|exact Tj]. }
  destruct (G (seq 0 J)) as (j & I & Tj); [destruct J; [lia|discriminate]|rewrite seq_length; exact H|]. apply in_seq in I. exists j. split; [lia|exact Tj].
Qed.
(** some step keeps the overlap *)
Lemma some_step : forall n d s m mu v u h e1 a b J E, 0 < m -> top n d s m mu v -> ip n u u = 1 -> 0 < h -> 0 <= e1 ->
  (forall j x, (x < 2 ^ n)%nat -> Rabs (a (S j) x - a j x - h * (hop n d s (b j) x - mu * b j x)) <= e1 * h) ->
  (forall j x, (x < 2 ^ n)%nat -> Rabs (b (S j) x - b j x + h * (hop n d s (a j) x - mu * a j x)) <= e1 * h) ->
  (forall j, ip n (a j) (a j) <= 1) -> (forall j, ip n (b j) (b j) <= 1) -> (0 < J)%nat ->
  2 ^ n * (2 / (INR J * h) + e1) / gap n m + INR J * h * (2 ^ n * e1) <= E ->
  exists j, (j < J)%nat /\ ip n u v * ip n u v * (ip n v (a 0%nat) * ip n v (a 0%nat) + ip n v (b 0%nat) * ip n v (b 0%nat)) - 4 * E <= ip n u (a j) * ip n u (a j) + ip n u (b j) * ip n u (b j).
Proof.
  intros n d s m mu v u h e1 a b J E M T Uu Hh He Ha Hb Na Nb HJ HE.
  assert (Bd : forall f : nat -> nat -> R, (forall j, ip n (f j) (f j) <= 1) -> forall j x, (x < 2 ^ n)%nat -> Rabs (f j x) <= 1).
  { intros f Nf j x X. pose proof (ip_at n (f j) x X) as Q. specialize (Nf j). rewrite <- (Rabs_pos_eq 1) by lra. apply Rsqr_le_abs_0. unfold Rsqr. lra. }
  assert (JP : 0 < INR J) by (apply lt_0_INR; exact HJ).
  pose proof (mean_steps n d s m mu v u 1 h e1 a b J M T Uu ltac:(ring) Hh He) as M1. pose proof (mean_steps n d s m mu v u (-1) h e1 b a J M T Uu ltac:(ring) Hh He) as M2.
  specialize (M1 ltac:(intros j x X; rewrite Rmult_1_l; apply Ha; exact X) ltac:(intros j x X; rewrite Rmult_1_l; apply Hb; exact X) (Bd b Nb) HJ).
  specialize (M2 ltac:(intros j x X; replace (b (S j) x - b j x - -1 * h * (hop n d s (a j) x - mu * a j x)) with (b (S j) x - b j x + h * (hop n d s (a j) x - mu * a j x)) by ring; apply Hb; exact X)
    ltac:(intros j x X; replace (a (S j) x - a j x + -1 * h * (hop n d s (b j) x - mu * b j x)) with (a (S j) x - a j x - h * (hop n d s (b j) x - mu * b j x)) by ring; apply Ha; exact X) (Bd a Na) HJ).
  set (c1 := ip n u v * ip n v (a 0%nat)) in *. set (c2 := ip n u v * ip n v (b 0%nat)) in *.
  assert (Uv : ip n v v = 1) by apply T.
  assert (Cs : forall f, ip n f f <= 1 -> Rabs (ip n u v * ip n v f) <= 1).
  { intros f F. rewrite Rabs_mult, <- (Rmult_1_l 1). apply Rmult_le_compat; try apply Rabs_pos; rewrite <- (Rmult_1_l 1); apply ip_cs_abs; lra. }
  pose proof (Cs _ (Na 0%nat)) as C1. pose proof (Cs _ (Nb 0%nat)) as C2. fold c1 in C1. fold c2 in C2.
  set (s1 := Rsum (fun j => ip n u (a j)) (seq 0 J)) in *. set (s2 := Rsum (fun j => ip n u (b j)) (seq 0 J)) in *.
  assert (JE : INR J * (2 ^ n * (2 / (INR J * h) + e1) / gap n m + INR J * h * (2 ^ n * e1)) <= INR J * E) by (apply Rmult_le_compat_l; lra).
  assert (E0 : 0 <= INR J * E) by (pose proof (Rabs_pos (s1 - INR J * c1)); lra).
  destruct (some_above (fun j => c1 * ip n u (a j) + c2 * ip n u (b j)) J (c1 * c1 + c2 * c2 - 2 * E) HJ) as (j & Lj & Q).
  - rewrite Rsum_add, !Rsum_mul_l. fold s1 s2.
    assert (X : forall c t, Rabs c <= 1 -> Rabs (t - INR J * c) <= INR J * E -> INR J * (c * c) - INR J * E <= c * t).
    { intros c t Hc Ht. assert (Q : Rabs (c * (t - INR J * c)) <= 1 * (INR J * E)) by (rewrite Rabs_mult; apply Rmult_le_compat; try apply Rabs_pos; assumption).
      pose proof (Rle_abs (- (c * (t - INR J * c)))) as Q2. rewrite Rabs_Ropp in Q2. lra. }
    pose proof (X c1 s1 C1 ltac:(lra)). pose proof (X c2 s2 C2 ltac:(lra)). lra.
  - exists j. split; [exact Lj|]. pose proof (Rle_0_sqr (ip n u (a j) - c1)) as Q1. pose proof (Rle_0_sqr (ip n u (b j) - c2)) as Q2. unfold Rsqr in Q1, Q2.
    replace (ip n u v * ip n u v * (ip n v (a 0%nat) * ip n v (a 0%nat) + ip n v (b 0%nat) * ip n v (b 0%nat))) with (c1 * c1 + c2 * c2) by (unfold c1, c2; ring). lra.
Qed.
