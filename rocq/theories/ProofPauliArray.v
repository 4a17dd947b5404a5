(** Proofs about the arrays of Pauli matrices. *)
From Coq Require Import String List Arith Bool Reals Lia.
Import ListNotations.
From Verif Require Import Base Cplx Bits SpecQuantum ModelPauli SpecPauli ModelPauliMatrix SpecPauliMatrix ModelPauliArray SpecPauliArray ProofPauliMatrix.
Local Open Scope nat_scope.

Lemma put_at_spec : forall {A} (l : list A) i x l', put_at l i x = Ok l' -> List.length l' = List.length l /\ i < List.length l /\ nth_error l' i = Some x /\
  forall j, j <> i -> nth_error l' j = nth_error l j.
Proof.
  induction l as [|a l IH]; intros i x l' H; [destruct i; discriminate H|]. destruct i as [|i]; cbn in H.
  - injection H as <-. cbn. repeat split; auto; [lia|]. intros [|j] J; [congruence|reflexivity].
  - destruct (put_at l i x) as [r|e] eqn:E; [|discriminate H]. cbn in H. injection H as <-. destruct (IH _ _ _ E) as (L & B & N & O). cbn.
    repeat split; auto; [lia|]. intros [|j] J; [reflexivity|]. apply O. lia.
Qed.
Lemma frame_lemma : forall m k r m' b, astep m k = (r, m') -> b < List.length m -> (forall i j z, k <> Write b i j z) -> nth_error m' b = nth_error m b.
Proof.
  intros m k r m' b H B N. destruct k as [o|a i j z|a i j]; cbn [astep] in H.
  - destruct (table (key_of o)) as [a|e]; [|injection H as <- <-; reflexivity]. destruct (nth_error m a); injection H as <- <-; [|reflexivity].
    apply nth_error_app1. exact B.
  - assert (D : b <> a) by (intros ->; apply (N i j z); reflexivity).
    destruct (at_index m a) as [x|e]; [|injection H as <- <-; reflexivity]. cbn in H.
    destruct (at_index x i) as [row|e]; [|injection H as <- <-; reflexivity]. cbn in H.
    destruct (put_at row j z) as [row'|e]; [|injection H as <- <-; reflexivity]. cbn in H.
    destruct (put_at x i row') as [x'|e]; [|injection H as <- <-; reflexivity]. cbn in H.
    destruct (put_at m a x') as [m1|e] eqn:E; injection H as <- <-; [|reflexivity]. apply (put_at_spec _ _ _ _ E). exact D.
  - injection H as <- <-. reflexivity.
Qed.
Lemma length_lemma : forall m k r m', astep m k = (r, m') -> List.length m <= List.length m' /\ forall a, r = Ok (ANew a) -> a = List.length m /\ List.length m' = S (List.length m).
Proof.
  intros m k r m' H. destruct k as [o|a i j z|a i j]; cbn [astep] in H.
  - destruct (table (key_of o)) as [a|e]; [|injection H as <- <-; split; [lia|discriminate]]. destruct (nth_error m a); injection H as <- <-; [|split; [lia|discriminate]].
    rewrite app_length. cbn. split; [lia|]. intros b [= <-]. lia.
  - destruct (at_index m a) as [x|e]; [|injection H as <- <-; split; [lia|discriminate]]. cbn in H.
    destruct (at_index x i) as [row|e]; [|injection H as <- <-; split; [lia|discriminate]]. cbn in H.
    destruct (put_at row j z) as [row'|e]; [|injection H as <- <-; split; [lia|discriminate]]. cbn in H.
    destruct (put_at x i row') as [x'|e]; [|injection H as <- <-; split; [lia|discriminate]]. cbn in H.
    destruct (put_at m a x') as [m1|e] eqn:E; injection H as <- <-; [|split; [lia|discriminate]].
    rewrite (proj1 (put_at_spec _ _ _ _ E)). split; [lia|discriminate].
  - injection H as <- <-. split; [lia|]. intros b E. destruct (at_index m a) as [x|e]; [|discriminate E]. cbn in E.
    destruct (at_index x i) as [row|e]; [|discriminate E]. cbn in E. destruct (at_index row j); discriminate E.
Qed.

(** the table is as it was made *)
Definition intact (m : list array) : Prop := forall a, a < 4 -> nth_error m a = nth_error table_arrays a.
Lemma intact_length : forall m, intact m -> 4 <= List.length m.
Proof. intros m I. destruct (Nat.le_gt_cases 4 (List.length m)) as [H|H]; [exact H|]. pose proof (I 3 ltac:(lia)) as E. rewrite (proj2 (nth_error_None m 3)) in E; [discriminate E|lia]. Qed.
Lemma intact_steps : forall ks m rs m', intact m -> Forall leaves_table ks -> asteps m ks = (rs, m') ->
  intact m' /\ List.length m <= List.length m' /\ forall a, given rs a -> List.length m <= a < List.length m'.
Proof.
  induction ks as [|k ks IH]; intros m rs m' I F H; cbn [asteps] in H.
  - injection H as <- <-. repeat split; auto; contradiction.
  - destruct (astep m k) as [r m1] eqn:E. destruct (asteps m1 ks) as [rs1 m2] eqn:E1. injection H as <- <-. inversion F as [|? ? Fk F']; subst.
    destruct (length_lemma _ _ _ _ E) as (L & Lr).
    assert (I1 : intact m1).
    { intros a A. rewrite (frame_lemma m k r m1 a E); [apply I; exact A|pose proof (intact_length m I); lia|]. intros i j z ->. apply Fk. cbn. lia. }
    destruct (IH _ _ _ I1 F' E1) as (I2 & L2 & G2). split; [exact I2|]. split; [lia|]. intros a [Ea|Ga].
    + subst r. destruct (Lr a eq_refl). lia.
    + specialize (G2 a Ga). lia.
Qed.

Definition table_place (l : option letter) : nat := match l with None => 0 | Some LX => 1 | Some LY => 2 | Some LZ => 3 end.
Lemma key_place : forall o, table (key_of o) = Ok (table_place (letter_of o)).
Proof. intros [[|[[] n]]|[]]; reflexivity. Qed.
Lemma table_right : forall l, exists x, nth_error table_arrays (table_place l) = Some x /\ array_of l x.
Proof.
  assert (Q : forall x : array, List.length x = 2 -> Forall (fun row => List.length row = 2) x -> sdim (SDense 2 x) = 2 ^ 1 /\ stored_ok (SDense 2 x)).
  { intros x A B. split; [reflexivity|]. split; assumption. }
  intros [[]|]; eexists; (split; [reflexivity|]); (split; [reflexivity|]; split; [split; [reflexivity|repeat constructor]|]);
    intros [|[|r]] [|[|c]] R C; try (cbn in R; lia); try (cbn in C; lia); cbn; try reflexivity; ceq.
Qed.

Lemma right_lemma : forall ks rs m o, Forall leaves_table ks -> asteps table_arrays ks = (rs, m) ->
  exists a x m', astep m (GetMatrix o) = (Ok (ANew a), m') /\ ~ given rs a /\ ~ In a [0; 1; 2; 3] /\ nth_error m' a = Some x /\ array_of (letter_of o) x.
Proof.
  intros ks rs m o F H. destruct (intact_steps ks table_arrays rs m (fun a _ => eq_refl) F H) as (I & L & G).
  destruct (table_right (letter_of o)) as (x & Ex & Ax). exists (List.length m), x, (m ++ [x])%list.
  assert (P : table_place (letter_of o) < 4) by (destruct (letter_of o) as [[]|]; cbn; lia).
  split; [cbn [astep]; rewrite key_place, (I _ P), Ex; reflexivity|]. split; [intros A; specialize (G _ A); lia|].
  split; [cbn in L |- *; lia|]. split; [|exact Ax]. rewrite nth_error_app2, Nat.sub_diag; [reflexivity|lia].
Qed.
Lemma kept_lemma : forall ks m rs m' b, asteps m ks = (rs, m') -> b < List.length m -> (forall i j z, ~ In (Write b i j z) ks) -> nth_error m' b = nth_error m b.
Proof.
  induction ks as [|k ks IH]; intros m rs m' b H B N; cbn [asteps] in H; [injection H as <- <-; reflexivity|].
  destruct (astep m k) as [r m1] eqn:E. destruct (asteps m1 ks) as [rs1 m2] eqn:E1. injection H as <- <-.
  rewrite (IH _ _ _ b E1); [| |intros i j z I; apply (N i j z); right; exact I].
  - apply (frame_lemma _ _ _ _ _ E B). intros i j z ->. apply (N i j z). left. reflexivity.
  - destruct (length_lemma _ _ _ _ E) as (L & _). lia.
Qed.
Lemma pauli_term_letter : forall a q, pauli_term (PP (a, q)) = Term [(a, q)] C1.
Proof. intros a q. unfold pauli_term, from_pauli. destruct (Ceqb C1 C0) eqn:E; [|reflexivity]. apply Ceqb_true in E. destruct (C1_neq_C0 E). Qed.
Lemma matrix_agrees : forall l x sp, array_of l x -> exists sm,
  pauli_matrix (match l with None => PId | Some a => PP (a, 0) end) (Some 1) sp = Ok (sp, sm) /\ forall r c, r < 2 -> c < 2 -> entry sm r c = elem x r c.
Proof.
  intros l x sp (_ & _ & A). set (p := match l with None => PId | Some a => PP (a, 0) end).
  destruct (term_matrix_qubits (pauli_term p) 1 sp) as (sm & E & (_ & _ & M)); [unfold p; destruct l as [a|]; [rewrite pauli_term_letter|]; cbn; lia|].
  exists sm. split; [exact E|]. intros r c R C. change (elem x r c) with (entry (SDense 2 x) r c). rewrite (M r c R C), (A r c R C).
  destruct l as [a|]; unfold p; [rewrite pauli_term_letter|]; unfold term_op, op_scl; cbn [t_ops t_coeff word_op pauli_term from_pauli one_qubit]; unfold op_mul, op_one; ring.
Qed.
Lemma product_lemma : forall a b x y z, array_of (Some a) x -> array_of (Some b) y -> array_of (snd (mul_map a b)) z ->
  forall i j, i < 2 -> j < 2 -> product x y i j = (fst (mul_map a b) * elem z i j)%C.
Proof.
  intros a b x y z (_ & _ & X) (_ & _ & Y) (_ & _ & Z) i j I J. unfold product.
  change (elem x i 0) with (entry (SDense 2 x) i 0). change (elem x i 1) with (entry (SDense 2 x) i 1).
  change (elem y 0 j) with (entry (SDense 2 y) 0 j). change (elem y 1 j) with (entry (SDense 2 y) 1 j). change (elem z i j) with (entry (SDense 2 z) i j).
  rewrite X, X, Y, Y, Z by (cbn; lia). destruct i as [|[|i]]; [| |lia]; (destruct j as [|[|j]]; [| |lia]); destruct a, b; cbn; ceq.
Qed.

Lemma put_at_ok : forall {A} (l : list A) i x, i < List.length l -> exists l', put_at l i x = Ok l'.
Proof.
  induction l as [|a l IH]; intros i x H; [cbn in H; lia|]. destruct i as [|i]; [eexists; reflexivity|]. cbn in H. destruct (IH i x) as (l' & E); [lia|].
  exists (a :: l'). cbn. rewrite E. reflexivity.
Qed.
Lemma put_at_err : forall {A} (l : list A) i x, ~ i < List.length l -> put_at l i x = Err IndexError.
Proof. induction l as [|a l IH]; intros i x H; [destruct i; reflexivity|]. destruct i as [|i]; cbn in H; [lia|]. cbn. rewrite IH; [reflexivity|lia]. Qed.
Lemma nth_error_nth : forall {A} (l : list A) i d x, nth_error l i = Some x -> nth i l d = x.
Proof. intros A l i d x H. apply List.nth_error_nth. exact H. Qed.

Lemma write_lemma : forall m a x i j z, nth_error m a = Some x ->
  (has_elem x i j -> exists m' x', astep m (Write a i j z) = (Ok ADone, m') /\ nth_error m' a = Some x' /\ elem_set x x' i j z) /\
  (~ has_elem x i j -> astep m (Write a i j z) = (Err IndexError, m)).
Proof.
  intros m a x i j z H. cbn [astep]. unfold at_index. rewrite H. cbn. split.
  - intros (row & R & J). rewrite R. cbn. destruct (put_at_ok row j z J) as (row' & Er). rewrite Er. cbn.
    assert (I : i < List.length x) by (apply nth_error_Some; congruence). destruct (put_at_ok x i row' I) as (x' & Ex). rewrite Ex. cbn.
    assert (A : a < List.length m) by (apply nth_error_Some; congruence). destruct (put_at_ok m a x' A) as (m' & Em). rewrite Em.
    exists m', x'. split; [reflexivity|]. split; [apply (put_at_spec _ _ _ _ Em)|].
    destruct (put_at_spec _ _ _ _ Er) as (Lr & _ & Nr & Or). destruct (put_at_spec _ _ _ _ Ex) as (Lx & _ & Nx & Ox).
    split; [|split].
    + unfold elem. rewrite (nth_error_nth _ _ [] _ Nx). apply (nth_error_nth _ _ _ _ Nr).
    + intros i' j' D. unfold elem. destruct (Nat.eq_dec i' i) as [->|Di].
      * rewrite (nth_error_nth _ _ [] _ Nx), (nth_error_nth _ _ [] _ R). assert (Dj : j' <> j) by (intros ->; apply D; auto).
        specialize (Or j' Dj). destruct (nth_error row j') as [w|] eqn:W.
        { rewrite (nth_error_nth _ _ C0 _ Or), (nth_error_nth _ _ C0 _ W). reflexivity. }
        { rewrite !nth_overflow; [reflexivity| |]; apply nth_error_None; assumption. }
      * specialize (Ox i' Di). destruct (nth_error x i') as [w|] eqn:W.
        { rewrite (nth_error_nth _ _ [] _ Ox), (nth_error_nth _ _ [] _ W). reflexivity. }
        { rewrite (nth_overflow x), (nth_overflow x'); [reflexivity| |]; apply nth_error_None; assumption. }
    + intros i' j'. unfold has_elem. destruct (Nat.eq_dec i' i) as [->|Di].
      * rewrite Nx, R. split; intros (w & [= <-] & B); eexists; (split; [reflexivity|lia]).
      * rewrite (Ox i' Di). reflexivity.
  - intros N. destruct (nth_error x i) as [row|] eqn:R; [|reflexivity]. cbn. rewrite put_at_err; [reflexivity|]. intros J. apply N. exists row. auto.
Qed.
Lemma read_lemma : forall m a x i j, nth_error m a = Some x ->
  (has_elem x i j -> astep m (Read a i j) = (Ok (AElement (elem x i j)), m)) /\ (~ has_elem x i j -> astep m (Read a i j) = (Err IndexError, m)).
Proof.
  intros m a x i j H. cbn [astep]. unfold at_index. rewrite H. cbn. split.
  - intros (row & R & J). rewrite R. cbn. unfold elem. rewrite (nth_error_nth _ _ [] _ R). rewrite (nth_error_nth' row C0 J). reflexivity.
  - intros N. destruct (nth_error x i) as [row|] eqn:R; [|reflexivity]. cbn. destruct (nth_error row j) eqn:W; [|reflexivity].
    destruct N. exists row. split; [exact R|]. apply nth_error_Some. congruence.
Qed.
