(** Energies by sparse matrices. *)
From Coq Require Import List Arith ZArith Bool String Reals Lia Lra.
Import ListNotations.
From Verif Require Import Base Cplx Bits ModelTargets ModelGate ModelNumpy ModelNumba ModelCircuit ModelPauli ModelPauliMatrix ModelVqe
  SpecTargets SpecQuantum SpecCircuit SpecMeasure SpecRun SpecAPI SpecPauli SpecPauliMatrix SpecVqe
  ProofArray ProofUnitary ProofPauli ProofPauliExpr ProofPauliComm ProofEvolution ProofKron ProofPauliMatrix ProofVqe ProofVqeRun.
Local Open Scope nat_scope.

(** ** Products *)
Lemma add_at_nth : forall l k z i, i < List.length l -> nth i (add_at l k z) C0 = (nth i l C0 + (if Nat.eqb k i then z else C0))%C.
Proof.
  induction l as [|x l IH]; intros k z i L; [simpl in L; lia|]. destruct k, i; simpl; try ring.
  apply IH. simpl in L. lia.
Qed.
Lemma add_at_length : forall l k z, List.length (add_at l k z) = List.length l.
Proof. induction l as [|x l IH]; intros [|k] z; simpl; auto. Qed.
Lemma fold_add_length : forall A (f : A -> nat) (g : A -> C) l y, List.length (fold_left (fun y a => add_at y (f a) (g a)) l y) = List.length y.
Proof. induction l as [|a l IH]; intros y; simpl; auto. rewrite IH, add_at_length. auto. Qed.
Lemma fold_add_nth : forall A (f : A -> nat) (g : A -> C) l y i, i < List.length y ->
  nth i (fold_left (fun y a => add_at y (f a) (g a)) l y) C0 = (nth i y C0 + Csum (fun a => if Nat.eqb (f a) i then g a else C0) l)%C.
Proof.
  induction l as [|a l IH]; intros y i L; simpl; [ring|]. rewrite IH by (rewrite add_at_length; auto). rewrite add_at_nth by auto. ring.
Qed.
Lemma nth_repeat0 : forall i n, nth i (repeat C0 n) C0 = C0.
Proof. intros i n. revert i. induction n; intros [|i]; simpl; auto. Qed.
Lemma csc_dot_ok : forall m vec, stored_ok m -> (match m with SDense _ _ | SCsc _ _ _ _ => True | _ => False end) -> List.length vec = sdim m ->
  exists y, csc_dot m vec = Ok y /\ List.length y = sdim m /\ forall r, r < sdim m -> nth r y C0 = Csum (fun c => entry m r c * nth c vec C0)%C (seq 0 (sdim m)).
Proof.
  intros m vec St Sh L. destruct m as [dim rows|dim data inds ptr|dim data inds ptr|dim data rows cols]; try contradiction; simpl in *; rewrite L, Nat.eqb_refl; cbn [negb].
  - eexists. split; [reflexivity|]. destruct St as [S1 S2]. rewrite map_length. split; auto. intros r Lr.
    set (f := fun row => Csum (fun j => nth j row C0 * nth j vec C0)%C (seq 0 dim)).
    rewrite (nth_indep _ C0 (f [])) by (rewrite map_length; lia). rewrite (map_nth f). auto.
  - eexists. split; [reflexivity|].
    set (F := fun j => fun (y : carr) => fold_left (fun y k => add_at y (nth k inds 0%nat) (nth k data C0 * nth j vec C0)%C) (seq (nth j ptr 0%nat) (nth (S j) ptr 0%nat - nth j ptr 0%nat)) y).
    assert (Fl : forall j y, List.length (F j y) = List.length y) by (intros; apply fold_add_length).
    assert (G : forall js y, List.length (fold_left (fun y j => F j y) js y) = List.length y /\ forall r, r < List.length y ->
      nth r (fold_left (fun y j => F j y) js y) C0 = (nth r y C0 + Csum (fun c => entry (SCsc dim data inds ptr) r c * nth c vec C0)%C js)%C).
    { induction js as [|j js IH]; intros y; [split; auto; intros; cbn [fold_left Csum]; change (Csum ?f []) with C0; ring|]. cbn [fold_left]. destruct (IH (F j y)) as [I1 I2]. rewrite Fl in *. split; auto.
      intros r Lr. rewrite I2 by auto. unfold F. rewrite fold_add_nth by auto.
      change (Csum ?f (j :: js)) with (f j + Csum f js)%C. cbv beta. rewrite Cadd_assoc. f_equal. f_equal.
      cbn [entry]. unfold at0. rewrite <- Csum_mul_r. apply Csum_ext. intros k _. destruct (nth k inds 0 =? r); ring. }
    destruct (G (seq 0 dim) (repeat C0 dim)) as [G1 G2]. rewrite repeat_length in *. split; [exact G1|]. intros r Lr.
    etransitivity; [apply (G2 r Lr)|]. rewrite nth_repeat0. unfold entry. ring.
Qed.
Lemma csc_dot_err : forall m vec, (match m with SDense _ _ | SCsc _ _ _ _ => True | _ => False end) -> List.length vec <> sdim m -> csc_dot m vec = Err ValueError.
Proof. intros [] vec Sh L; try contradiction; simpl in *; destruct (Nat.eqb_spec (List.length vec) dim); auto; contradiction. Qed.
Lemma combine_nth_sum : forall a b n, List.length a = n -> List.length b = n -> vdot a b = Csum (fun x => Cconj (nth x a C0) * nth x b C0)%C (seq 0 n).
Proof.
  unfold vdot. induction a as [|x a IH]; intros [|y b] n La Lb; simpl in *; subst; simpl in *; try discriminate; auto. injection Lb as Lb. f_equal.
  rewrite (IH b (List.length a)) by auto. rewrite <- seq_shift, Csum_map. auto.
Qed.

(** ** Operators given by their columns *)
Lemma term_columns : forall n t psi r, NoDup (map snd (t_ops t)) -> fits n (t_ops t) -> r < 2 ^ n ->
  term_op t psi r = Csum (fun c => term_op t (ket c) r * psi c)%C (seq 0 (2 ^ n)).
Proof.
  intros n t psi r N F L. set (k := Nat.lxor r (maskr (t_ops t))). assert (Lk : k < 2 ^ n) by (apply mask_lt; auto).
  rewrite (Csum_single _ (seq 0 (2 ^ n)) k).
  - rewrite term_entry by auto. fold k. rewrite Nat.eqb_refl. unfold term_op, op_scl. rewrite word_row by auto. fold k. ring.
  - apply seq_NoDup.
  - apply in_seq. lia.
  - intros c _ Nc. rewrite term_entry by auto. fold k. destruct (Nat.eqb_spec k c); [congruence|]. ring.
Qed.
Lemma expr_columns : forall n e psi r, expr_qubits e <= n -> r < 2 ^ n -> expr_op e psi r = Csum (fun c => expr_op e (ket c) r * psi c)%C (seq 0 (2 ^ n)).
Proof.
  intros n e psi r Q L. pose proof (expr_simplify_fit e n Q) as F. pose proof (expr_simplify_canonical e) as Cn.
  rewrite <- (expr_simplify_op e psi r). rewrite (Csum_ext _ _ (fun c => expr_op (expr_simplify e) (ket c) r * psi c)%C) by (intros c _; rewrite (expr_simplify_op e (ket c) r); auto).
  revert F Cn. generalize (expr_simplify e) as l. induction l as [|t l IH]; intros F Cn.
  - simpl. rewrite Csum_0; auto. intros. ring.
  - inversion F; subst. inversion Cn; subst. cbn [expr_op]. unfold op_add. rewrite IH by auto.
    rewrite (term_columns n t psi r) by (auto; apply canonical_NoDup; auto). rewrite <- Csum_add. apply Csum_ext. intros. ring.
Qed.

Lemma expval_columns : forall n e psi m, expr_qubits e <= n -> matrix_of n (expr_op e) m -> (match m with SDense _ _ | SCsc _ _ _ _ => True | _ => False end) ->
  sparse_expectation m (arr n psi) = Ok (Cre (expval n (expr_op e) psi)).
Proof.
  intros n e psi m Q [D [St En]] Sh. unfold sparse_expectation. destruct (csc_dot_ok m (arr n psi) St Sh) as [y [E [Ly Ny]]]; [rewrite arr_length, D; auto|].
  rewrite E. cbn [bind]. f_equal. f_equal. rewrite (combine_nth_sum _ _ (2 ^ n)) by (rewrite ?arr_length; congruence). unfold expval, inner.
  apply Csum_ext. intros r I. apply in_seq in I. rewrite arr_nth by lia. f_equal. rewrite Ny by (rewrite D; lia). rewrite (expr_columns n e psi r) by lia. rewrite D.
  apply Csum_ext. intros c Ic. apply in_seq in Ic. rewrite arr_nth by lia. rewrite En by lia. auto.
Qed.
Lemma make_sparse_ok : forall e, expr_qubits e = 0 \/ expr_simplify e <> [] -> exists m, make_sparse e = Ok m /\ matrix_of (expr_qubits e) (expr_op e) m /\
  (match m with SDense _ _ | SCsc _ _ _ _ => True | _ => False end).
Proof.
  intros e H. destruct (expr_matrix_default e (Some Lcsc) H) as [m [E M]]. exists m. unfold make_sparse. rewrite E. split; auto. split; auto.
  revert E. unfold expr_matrix. destruct (expr_qubits e =? 0) eqn:Z.
  - intros E. injection E as <-. auto.
  - cbn [layout_is]. repeat match goal with |- context [bind ?r _] => destruct r; cbn [bind]; try discriminate end.
    all: repeat match goal with |- context [if ?b then _ else _] => destruct b end; try discriminate;
      repeat match goal with |- context [bind ?r _] => destruct r; cbn [bind]; try discriminate end; intros E; injection E as <-; auto.
Qed.

Section Random.
Variable rng : nat -> R.
Lemma energy_sparse : forall seen h c v ops ham m, reachable rng seen h -> circuit_is h c v -> simulated rng h v ->
  circuit_ops (Z.to_nat (v_n v)) (v_gates v) ops -> make_sparse ham = Ok m ->
  exists h', get_energy_sparse rng h m c = ((if Nat.eq_dec (Z.to_nat (v_n v)) (expr_qubits ham) then Ok (Cre (expval (expr_qubits ham) (expr_op ham) (apply_all ops (ket 0)))) else Err ValueError), h') /\
    reachable rng seen h' /\ h_pos h' = h_pos h /\ h_default h' = h_default h /\ (forall c' v', circuit_is h c' v' -> circuit_is h' c' v').
Proof.
  intros seen h c v ops ham m Re Ci Si Co Ma.
  assert (H : expr_qubits ham = 0 \/ expr_simplify ham <> []).
  { destruct (expr_qubits ham) eqn:Q; auto. right. intro Z. unfold make_sparse in Ma.
    assert (X : expr_matrix ham None (Some Lcsc) = Err ZeroDivisionError). { pose proof (expr_matrix_zero ham (S n) (Some Lcsc)) as Y. unfold expr_matrix in *. rewrite Q. apply Y; auto. lia. }
    rewrite X in Ma. discriminate. }
  destruct (make_sparse_ok ham H) as [m' [E [M Sh]]]. rewrite Ma in E. injection E as <-.
  destruct (circuit_run rng _ _ _ _ _ None Re Ci Si Co (or_introl eq_refl)) as [h' [E [R1 [P1 [D1 K1]]]]].
  exists h'. unfold get_energy_sparse, run_state. rewrite E. split; auto. destruct (Nat.eq_dec (Z.to_nat (v_n v)) (expr_qubits ham)) as [Q|Q].
  - rewrite Q. rewrite (expval_columns (expr_qubits ham) ham); auto.
  - unfold sparse_expectation. rewrite csc_dot_err; auto. destruct M as [-> _]. rewrite arr_length. intro X. apply Q. eapply Nat.pow_inj_r; eauto.
Qed.
End Random.
