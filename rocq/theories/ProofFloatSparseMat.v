(** Proofs: rounded sparse matrices and their products with states *)
From Coq Require Import List Arith NArith ZArith Bool Reals Lia Lra.
Import ListNotations.
From Verif Require Import Base Cplx Bits ModelTargets ModelGate ModelNumpy ModelPauli ModelPauliMatrix ModelVqe ModelFloat ModelFloatVqe ModelFloatSparse
  SpecQuantum SpecPauli SpecPauliMatrix SpecVqe SpecFloat SpecFinite SpecFloatNumba SpecFloatSparse ProofArray ProofLawStat ProofFloat ProofFinite ProofKron ProofPauliMatrix ProofFloatVqe ProofFloatVqeEnergy ProofFloatSparse.
Local Open Scope nat_scope.

(** ** Folds *)
Lemma fold_index : forall X Y (F : Y -> nat -> Y) (H : Y -> X -> Y) l s y, (forall j a y, nth_error l j = Some a -> F y (s + j) = H y a) -> fold_left F (seq s (List.length l)) y = fold_left H l y.
Proof.
  induction l as [|a l IH]; intros s y E; auto. cbn [List.length seq fold_left]. rewrite <- (E 0 a y eq_refl), Nat.add_0_r. apply IH. intros j b z J. rewrite <- (E (S j) b z J). f_equal. lia.
Qed.
Lemma fold_pairs : forall X Y Z (F : Z -> X -> Y -> Z) (m : list Y) l z, fold_left (fun z a => fold_left (fun z b => F z a b) m z) l z =
  fold_left (fun z ab => F z (fst ab) (snd ab)) (flat_map (fun a => map (pair a) m) l) z.
Proof.
  induction l as [|a l IH]; intros z; auto. cbn [fold_left flat_map]. rewrite fold_left_app, <- IH. f_equal. clear. revert z. induction m as [|b m IH]; intros z; auto. cbn [map fold_left fst snd]. apply IH.
Qed.
Lemma sum_pairs : forall X Y (f : X * Y -> R) (m : list Y) l, Rsum f (flat_map (fun a => map (pair a) m) l) = Rsum (fun a => Rsum (fun b => f (a, b)) m) l.
Proof. intros. rewrite Rsum_flat_map. apply Rsum_ext. intros a _. apply Rsum_map. Qed.
Lemma Csum_filter : forall X (f : X -> C) p l, Csum f (filter p l) = Csum (fun a => if p a then f a else C0) l.
Proof. induction l as [|a l IH]; auto. cbn [filter]. change (Csum ?g (a :: l)) with (g a + Csum g l)%C. cbv beta. rewrite <- IH. destruct (p a); [reflexivity|ring]. Qed.
Lemma Csum_pairs : forall X Y (f : X * Y -> C) (m : list Y) l, Csum f (flat_map (fun a => map (pair a) m) l) = Csum (fun a => Csum (fun b => f (a, b)) m) l.
Proof. intros. induction l as [|a l IH]; auto. cbn [flat_map]. rewrite Csum_app, IH, Csum_map. reflexivity. Qed.

Section Matrix.
Variable A : arith.
Lemma fl_add_at_nth : forall l k z i, i < List.length l -> nth i (fl_add_at A l k z) C0 = if k =? i then fc_add A (nth i l C0) z else nth i l C0.
Proof. induction l as [|x l IH]; intros k z i L; [simpl in L; lia|]. destruct k, i; cbn [fl_add_at nth Nat.eqb]; auto. apply IH. simpl in L. lia. Qed.
Lemma fl_add_at_length : forall l k z, List.length (fl_add_at A l k z) = List.length l.
Proof. induction l as [|x l IH]; intros [|k] z; simpl; auto. Qed.
Lemma fl_fold_at : forall X (f : X -> nat) (g : X -> C) l y, List.length (fold_left (fun y a => fl_add_at A y (f a) (g a)) l y) = List.length y /\
  forall i, i < List.length y -> nth i (fold_left (fun y a => fl_add_at A y (f a) (g a)) l y) C0 = fold_left (fun s a => fc_add A s (g a)) (filter (fun a => f a =? i) l) (nth i y C0).
Proof.
  induction l as [|a l IH]; intros y; [split; auto|]. cbn [fold_left filter]. destruct (IH (fl_add_at A y (f a) (g a))) as [I1 I2]. rewrite fl_add_at_length in I1, I2. split; auto.
  intros i Li. rewrite I2, fl_add_at_nth by auto. destruct (f a =? i); auto.
Qed.

(** ** The matrix *)
Variable n : nat.
Variable dat : list term -> list C.
Definition fl_step (G : nat) (ig : nat * list term) (st : list (option C) * list (option nat)) : res (list (option C) * list (option nat)) :=
  let* acc := fl_group_data A (snd ig) n false in
  let* inds := put_slice (snd st) (fst ig) G (indices (2 ^ n) (gmask (snd ig))) in
  let* vals := put_slice (fst st) (fst ig) G acc in
  Ok (vals, inds).
Definition dat_ok (g : list term) : Prop := fl_group_data A g n false = Ok (dat g) /\ List.length (dat g) = 2 ^ n.
Lemma fl_fill_loop : forall G gs s (st : list (option C) * list (option nat)), s + List.length gs = G ->
  List.length (fst st) = G * 2 ^ n -> List.length (snd st) = G * 2 ^ n -> Forall dat_ok gs -> exists st',
  for_list (combine (seq s (List.length gs)) gs) (fl_step G) st = Ok st' /\ List.length (fst st') = G * 2 ^ n /\ List.length (snd st') = G * 2 ^ n /\
  (forall j k, j < s -> k < 2 ^ n -> nth_error (fst st') (j + k * G) = nth_error (fst st) (j + k * G) /\ nth_error (snd st') (j + k * G) = nth_error (snd st) (j + k * G)) /\
  (forall j g k, nth_error gs j = Some g -> k < 2 ^ n ->
    nth_error (fst st') (s + j + k * G) = Some (Some (nth k (dat g) C0)) /\
    nth_error (snd st') (s + j + k * G) = Some (Some (Nat.lxor k (gmask g)))).
Proof.
  intros G. induction gs as [|g gs IH]; intros s st E L1 L2 F.
  - exists st. split; auto. split; auto. split; auto. split; auto. intros [|j] g k; discriminate.
  - inversion F as [|x y [Eg Lg] F2]; subst x y. simpl in E. cbn [List.length seq combine for_list]. unfold fl_step at 1. cbn [fst snd].
    pose proof (pow2_pos n) as P2. rewrite Eg. cbn [bind].
    assert (Hn : s + (2 ^ n - 1) * G < G * 2 ^ n) by (replace (G * 2 ^ n) with (G + (2 ^ n - 1) * G) by nia; lia).
    destruct (put_slice_ok _ (indices (2 ^ n) (gmask g)) (snd st) s G 0) as [i' [Ei [Li [Ki Ki']]]]; [lia|rewrite indices_length; lia|]. rewrite Ei. cbn [bind].
    destruct (put_slice_ok _ (dat g) (fst st) s G C0) as [v' [Ev [Lv [Kv Kv']]]]; [lia|rewrite Lg; lia|]. rewrite Ev. cbn [bind].
    rewrite indices_length in Ki, Ki'. rewrite Lg in Kv, Kv'.
    destruct (IH (S s) (v', i')) as [st' [Es [M1 [M2 [O1 O2]]]]]; cbn [fst snd]; auto; try lia.
    exists st'. split; auto. split; auto. split; auto. split.
    + intros j k J K. destruct (O1 j k) as [X Y]; auto. cbn [fst snd] in X, Y. rewrite X, Y. split; [apply Kv'|apply Ki'];
        intros k' K' Q; apply pos_inj in Q; lia.
    + intros [|j] g' k J K; cbn [nth_error] in J.
      * injection J as <-. rewrite Nat.add_0_r. destruct (O1 s k) as [X Y]; auto. cbn [fst snd] in X, Y. rewrite X, Y. rewrite Kv, Ki by auto.
        rewrite <- (indices_at (2 ^ n)) by auto. auto.
      * replace (s + S j) with (S s + j) by lia. apply O2; auto.
Qed.
Definition sorted_groups (ham : expr) : list (list term) := groups (sort_by (fun a b => xy_mask (t_ops a) <=? xy_mask (t_ops b)) ham).
Lemma fl_matrix : forall ham, expr_qubits ham = n -> 0 < n -> Forall dat_ok (sorted_groups ham) -> sorted_groups ham <> [] ->
  let gs := sorted_groups ham in let G := List.length gs in exists vals inds, fl_make_sparse A ham = Ok (SCsc (2 ^ n) vals inds (map (fun k => k * G) (seq 0 (2 ^ n + 1)))) /\
  forall j g c, nth_error gs j = Some g -> c < 2 ^ n -> nth (c * G + j) vals C0 = nth c (dat g) C0 /\ nth (c * G + j) inds 0 = Nat.lxor c (gmask g).
Proof.
  intros ham Q P F N gs G. unfold fl_make_sparse. rewrite Q. destruct (Nat.eqb_spec n 0); [lia|]. cbv zeta. fold (sorted_groups ham). fold gs. fold G.
  assert (PG : 0 < G) by (unfold G; fold gs in N; destruct gs; [congruence|simpl; lia]).
  destruct (fl_fill_loop G gs 0 (repeat None (G * 2 ^ n), repeat None (G * 2 ^ n)) eq_refl) as [st [E [L1 [L2 [_ K]]]]]; cbn [fst snd]; try apply repeat_length; auto.
  match goal with |- context [for_list ?a ?b ?c] => change (for_list a b c) with (for_list a (fl_step G) c) end.
  fold G in E. rewrite E. cbn [bind]. destruct (Nat.eqb_spec G 0); [lia|].
  assert (Ix : forall i, i < G * 2 ^ n -> exists g k, nth_error gs (i mod G) = Some g /\ k < 2 ^ n /\ i = 0 + i mod G + k * G).
  { intros i I. pose proof (Nat.mod_upper_bound i G ltac:(lia)) as B. destruct (nth_error gs (i mod G)) as [g|] eqn:X; [|apply nth_error_None in X; unfold G in *; lia].
    exists g, (i / G). split; auto. split; [apply Nat.div_lt_upper_bound; lia|]. pose proof (Nat.div_mod i G). lia. }
  destruct (filled_ok _ (fst st) C0) as [vals [Ev [Lv Kv]]].
  { intros i I. rewrite L1 in I. destruct (Ix i I) as [g [k [X [Y Z]]]]. rewrite Z. eexists. apply (K _ _ _ X Y). }
  destruct (filled_ok _ (snd st) 0) as [inds [Ei [Li Ki]]].
  { intros i I. rewrite L2 in I. destruct (Ix i I) as [g [k [X [Y Z]]]]. rewrite Z. eexists. apply (K _ _ _ X Y). }
  rewrite Ev, Ei. cbn [bind]. exists vals, inds. split; auto. intros j g c J Lc. destruct (K j g c J Lc) as [K1 K2]. replace (c * G + j) with (0 + j + c * G) by lia. auto.
Qed.
(** a row of the product *)
Definition row_pairs (gs : list (list term)) (r : nat) : list (nat * list term) := filter (fun cg => Nat.lxor (fst cg) (gmask (snd cg)) =? r) (flat_map (fun c => map (pair c) gs) (seq 0 (2 ^ n))).
Lemma fl_dot_rows : forall gs vals inds vec, let G := List.length gs in List.length vec = 2 ^ n ->
  (forall j g c, nth_error gs j = Some g -> c < 2 ^ n -> nth (c * G + j) vals C0 = nth c (dat g) C0 /\ nth (c * G + j) inds 0 = Nat.lxor c (gmask g)) ->
  exists y, fl_csc_dot A (SCsc (2 ^ n) vals inds (map (fun k => k * G) (seq 0 (2 ^ n + 1)))) vec = Ok y /\ List.length y = 2 ^ n /\
  forall r, r < 2 ^ n -> nth r y C0 = fold_left (fun s cg => fc_add A s (fc_mul A (nth (fst cg) (dat (snd cg)) C0) (nth (fst cg) vec C0))) (row_pairs gs r) C0.
Proof.
  intros gs vals inds vec G L K. unfold fl_csc_dot. rewrite L, Nat.eqb_refl. cbn [negb]. eexists. split; [reflexivity|].
  match goal with |- List.length ?t = _ /\ _ => assert (E : t = fold_left (fun y cg => fl_add_at A y (Nat.lxor (fst cg) (gmask (snd cg))) (fc_mul A (nth (fst cg) (dat (snd cg)) C0) (nth (fst cg) vec C0))) (flat_map (fun c => map (pair c) gs) (seq 0 (2 ^ n))) (repeat C0 (2 ^ n))) end.
  { rewrite <- (fold_pairs _ _ _ (fun y c g => fl_add_at A y (Nat.lxor c (gmask g)) (fc_mul A (nth c (dat g) C0) (nth c vec C0)))).
    assert (Gl : forall l y, Forall (fun c => c < 2 ^ n) l ->
      fold_left (fun y j => fold_left (fun y k => fl_add_at A y (nth k inds 0) (fc_mul A (nth k vals C0) (nth j vec C0)))
         (seq (nth j (map (fun k => k * G) (seq 0 (2 ^ n + 1))) 0) (nth (S j) (map (fun k => k * G) (seq 0 (2 ^ n + 1))) 0 - nth j (map (fun k => k * G) (seq 0 (2 ^ n + 1))) 0)) y) l y =
      fold_left (fun y c => fold_left (fun y g => fl_add_at A y (Nat.lxor c (gmask g)) (fc_mul A (nth c (dat g) C0) (nth c vec C0))) gs y) l y).
    { induction l as [|c l IH]; intros y F; auto. inversion F as [|x z Hc Hl]; subst x z. cbn [fold_left]. rewrite IH by auto. f_equal.
      rewrite !nth_map_seq by lia. replace (S c * G - c * G) with G by lia. unfold G at 2. apply fold_index. intros j g z J. destruct (K j g c J Hc) as [-> ->]. auto. }
    apply Gl. apply Forall_forall. intros c I. apply in_seq in I. lia. }
  rewrite E. destruct (fl_fold_at _ (fun cg : nat * list term => Nat.lxor (fst cg) (gmask (snd cg))) (fun cg => fc_mul A (nth (fst cg) (dat (snd cg)) C0) (nth (fst cg) vec C0))
    (flat_map (fun c => map (pair c) gs) (seq 0 (2 ^ n))) (repeat C0 (2 ^ n))) as [F1 F2]. rewrite repeat_length in F1, F2. split; [exact F1|].
  intros r Lr. rewrite F2 by auto. rewrite nth_repeat. auto.
Qed.
(** each group has one entry in each row *)
Lemma xor_eqb : forall c m r, (Nat.lxor c m =? r) = (c =? Nat.lxor r m).
Proof. intros. rewrite lxor_swap. apply Nat.eqb_sym. Qed.
Lemma row_Rsum : forall gs r (h : nat -> list term -> R), (forall g, In g gs -> Nat.lxor r (gmask g) < 2 ^ n) ->
  Rsum (fun cg => h (fst cg) (snd cg)) (row_pairs gs r) = Rsum (fun g => h (Nat.lxor r (gmask g)) g) gs.
Proof.
  intros gs r h H. unfold row_pairs. rewrite Rsum_filter, sum_pairs, Rsum_swap. apply Rsum_ext. intros g I. cbn [fst snd].
  rewrite (Rsum_single _ _ (Nat.lxor r (gmask g))).
  - rewrite mask_involutive, Nat.eqb_refl. auto.
  - apply seq_NoDup.
  - apply in_seq. specialize (H g I). lia.
  - intros c _ Nc. rewrite xor_eqb. destruct (Nat.eqb_spec c (Nat.lxor r (gmask g))); [contradiction|auto].
Qed.
Lemma row_Csum : forall gs r (h : nat -> list term -> C), (forall g, In g gs -> Nat.lxor r (gmask g) < 2 ^ n) ->
  Csum (fun cg => h (fst cg) (snd cg)) (row_pairs gs r) = Csum (fun g => h (Nat.lxor r (gmask g)) g) gs.
Proof.
  intros gs r h H. unfold row_pairs. rewrite Csum_filter, Csum_pairs, Csum_swap. apply Csum_ext. intros g I. cbn [fst snd].
  rewrite (Csum_single _ _ (Nat.lxor r (gmask g))).
  - rewrite mask_involutive, Nat.eqb_refl. auto.
  - apply seq_NoDup.
  - apply in_seq. specialize (H g I). lia.
  - intros c _ Nc. rewrite xor_eqb. destruct (Nat.eqb_spec c (Nat.lxor r (gmask g))); [contradiction|auto].
Qed.
Lemma row_length : forall gs r, (forall g, In g gs -> Nat.lxor r (gmask g) < 2 ^ n) -> List.length (row_pairs gs r) = List.length gs.
Proof.
  intros gs r H. apply INR_eq. pose proof (row_Rsum gs r (fun _ _ => 1%R) H) as E. cbv beta in E. rewrite !sum_const in E. lra.
Qed.
Lemma row_in : forall gs r c g, In (c, g) (row_pairs gs r) -> In g gs /\ c < 2 ^ n /\ Nat.lxor c (gmask g) = r.
Proof.
  intros gs r c g I. apply filter_In in I as [I E]. apply in_flat_map in I as (c' & Ic & I). apply in_map_iff in I as (g' & X & Ig). injection X as <- <-. apply in_seq in Ic. apply Nat.eqb_eq in E. cbn [fst snd] in E. repeat split; auto; lia.
Qed.
End Matrix.
