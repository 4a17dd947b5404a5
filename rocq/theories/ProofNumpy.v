(** The loop bodies of the numpy backend apply the textbook matrices. *)
From Coq Require Import List Arith ZArith Bool Reals Lia Lra.
Import ListNotations.
From Verif Require Import Base Cplx Bits ModelTargets ModelGate ModelNumpy SpecTargets SpecQuantum SpecCircuit
  ProofTargets ProofArray.

(** [f] maps the pair of buffers holding [psi] to one holding [U psi]. *)
Definition acts (n : nat) (f : bufs -> res bufs) (U : oper) : Prop :=
  forall psi beta, exists beta', f (arr n psi, arr n beta) = Ok (arr n (U psi), arr n beta').

Lemma ap1_flip : forall M t psi x,
  ap1 M t psi x = (M (bit x t) (bit x t) * psi x + M (bit x t) (negb (bit x t)) * psi (flip x t))%C.
Proof.
  intros. unfold ap1. rewrite flip_setb. destruct (bit x t) eqn:E; simpl; rewrite (setb_same x t _ E); ring.
Qed.

Lemma get_10 : forall n t psi, t < n ->
  np_get (arr n psi) (map (b1 t) (seq 0 (2 ^ n))) = map (fun i => psi (flip i t)) (filter (b0 t) (seq 0 (2 ^ n))).
Proof. intros. unfold arr. rewrite np_get_map, filter_flip1, map_map by auto. reflexivity. Qed.
Lemma get_01 : forall n t psi, t < n ->
  np_get (arr n psi) (map (b0 t) (seq 0 (2 ^ n))) = map (fun i => psi (flip i t)) (filter (b1 t) (seq 0 (2 ^ n))).
Proof. intros. unfold arr. rewrite np_get_map, filter_flip1', map_map by auto. reflexivity. Qed.
Lemma get_same : forall n f psi,
  np_get (arr n psi) (map f (seq 0 (2 ^ n))) = map psi (filter f (seq 0 (2 ^ n))).
Proof. intros. unfold arr. apply np_get_map. Qed.
Lemma put_arr : forall n f a b,
  np_put (arr n a) (map f (seq 0 (2 ^ n))) (map b (filter f (seq 0 (2 ^ n)))) =
  Ok (arr n (fun i => if f i then b i else a i)).
Proof. intros. unfold arr. apply np_put_map. Qed.
Lemma imul_arr : forall n f a s,
  np_imul (arr n a) (map f (seq 0 (2 ^ n))) s = Ok (arr n (fun i => if f i then (s * a i)%C else a i)).
Proof. intros. unfold arr. apply np_imul_map. Qed.
Lemma scale_arr : forall n s a, np_scale s (arr n a) = arr n (fun i => (s * a i)%C).
Proof. intros. unfold arr. apply np_scale_map. Qed.
Lemma put_scalar_arr : forall n f a s,
  np_put_scalar (arr n a) (map f (seq 0 (2 ^ n))) s = Ok (arr n (fun i => if f i then s else a i)).
Proof. intros. unfold arr. apply np_put_scalar_map. Qed.

Section Steps.
Variable n : nat.
Variable t : Z.
Hypothesis Ht : inside n t.
Let u := Z.to_nat t.

Lemma u_lt : u < n. Proof. unfold u, inside in *. lia. Qed.
Lemma t_pos : (0 <= t)%Z. Proof. unfold inside in *. lia. Qed.

Ltac start := intros; intros psi beta; eexists; cbn -[np_put np_get np_add np_sub mask_and np_imul np_scale arr];
  rewrite ?(mask_eq0_ok n t t_pos), ?(mask_ne0_ok n t t_pos); fold u;
  cbn -[np_put np_get np_add np_sub mask_and np_imul np_scale arr].
Ltac fin := match goal with |- Ok (?a, ?b) = Ok (?c, ?d) => replace c with a; [reflexivity|] end;
  apply arr_ext; intros x Hx; rewrite ap1_flip; unfold b0, b1; destruct (bit x u); simpl; try ring.

Lemma step_x_acts : acts n (step_x n t) (ap1 mX u).
Proof.
  start. rewrite get_10, put_arr by apply u_lt. simpl bind.
  rewrite get_01, put_arr by apply u_lt. simpl bind. fin.
Qed.

Lemma step_y_acts : acts n (step_y n t) (ap1 mY u).
Proof.
  start. rewrite get_10, np_scale_map, put_arr by apply u_lt. simpl bind.
  rewrite get_01, np_scale_map, put_arr by apply u_lt. simpl bind. fin.
Qed.

Lemma step_mat_acts : forall a00 a01 a10 a11, acts n (step_mat a00 a01 a10 a11 n t) (ap1 (mk2 a00 a01 a10 a11) u).
Proof.
  start. rewrite get_10, get_same, !np_scale_map, np_add_map by apply u_lt. simpl bind. rewrite put_arr. simpl bind.
  rewrite <- !np_scale_map, <- get_same, <- get_10 by apply u_lt.
  rewrite get_01, get_same, !np_scale_map, np_add_map by apply u_lt. simpl bind. rewrite put_arr. simpl bind. fin.
Qed.

Lemma step_h_acts : acts n (step_h n t) (ap1 mH u).
Proof.
  start. rewrite get_10, get_same, np_add_map by apply u_lt. simpl bind. rewrite put_arr. simpl bind.
  rewrite <- get_same, <- get_10 by apply u_lt.
  rewrite get_01, get_same, np_sub_map by apply u_lt. simpl bind. rewrite put_arr. simpl bind.
  rewrite scale_arr.
  unfold Rdiv. rewrite Rmult_1_l. fin.
  all: unfold mH, mscale; simpl; ring.
Qed.

Lemma step_u3_acts : forall a00 a01 a10 a11, acts n (step_u3 a00 a01 a10 a11 n t) (ap1 (mk2 a00 (- a01)%C a10 a11) u).
Proof.
  start. rewrite get_same, np_scale_map, put_arr. simpl bind.
  rewrite get_same. rewrite get_10, np_scale_map, np_sub_map by apply u_lt. simpl bind. rewrite put_arr. simpl bind.
  rewrite <- (get_same n (b0 u) psi).
  rewrite get_01, np_scale_map, put_arr by apply u_lt. simpl bind.
  rewrite <- (get_10 n u psi) by apply u_lt.
  rewrite !get_same, np_scale_map, np_add_map. simpl bind. rewrite put_arr. simpl bind. fin.
Qed.

Lemma step_diag1_acts : forall a, acts n (step_diag1 a n t) (ap1 (mk2 C1 C0 C0 a) u).
Proof. start. rewrite imul_arr. simpl bind. fin. Qed.

Lemma step_diag01_acts : forall a b, acts n (step_diag01 a b n t) (ap1 (mk2 a C0 C0 b) u).
Proof.
  start. rewrite imul_arr. simpl bind.
  rewrite imul_arr. simpl bind. fin.
Qed.
End Steps.

Section CSteps.
Variable n : nat.
Variables c t : Z.
Hypothesis Hc : inside n c.
Hypothesis Ht : inside n t.
Hypothesis Hct : c <> t.
Let v := Z.to_nat c.
Let u := Z.to_nat t.

Lemma cu_lt : u < n. Proof. unfold u, inside in *. lia. Qed.
Lemma ct_pos : (0 <= t)%Z. Proof. unfold inside in *. lia. Qed.
Lemma cc_pos : (0 <= c)%Z. Proof. unfold inside in *. lia. Qed.
Lemma vu : v <> u. Proof. unfold v, u, inside in *. lia. Qed.

Definition c1t0 i := b1 v i && b0 u i.
Definition c1t1 i := b1 v i && b1 u i.

Lemma cfilter : filter c1t1 (seq 0 (2 ^ n)) = map (fun i => flip i u) (filter c1t0 (seq 0 (2 ^ n))).
Proof.
  unfold c1t1, c1t0.
  rewrite (filter_ext _ (fun i => b1 u i && b1 v i)) by (intros; apply andb_comm).
  rewrite (filter_ext (fun i => b1 v i && b0 u i) (fun i => b0 u i && b1 v i)) by (intros; apply andb_comm).
  apply filter_flip; [apply cu_lt|].
  intros. unfold b1. rewrite testbit_flip. destruct (Nat.eqb_spec u v); auto. exfalso; apply vu; auto.
Qed.
Lemma cfilter' : filter c1t0 (seq 0 (2 ^ n)) = map (fun i => flip i u) (filter c1t1 (seq 0 (2 ^ n))).
Proof.
  rewrite cfilter, map_map. rewrite <- (map_id (filter _ _)) at 1. apply map_ext. intros. symmetry. apply flip_flip.
Qed.

Lemma cget_10 : forall psi, np_get (arr n psi) (map c1t1 (seq 0 (2 ^ n))) =
  map (fun i => psi (flip i u)) (filter c1t0 (seq 0 (2 ^ n))).
Proof. intros. unfold arr. rewrite np_get_map, cfilter, map_map by auto. reflexivity. Qed.
Lemma cget_01 : forall psi, np_get (arr n psi) (map c1t0 (seq 0 (2 ^ n))) =
  map (fun i => psi (flip i u)) (filter c1t1 (seq 0 (2 ^ n))).
Proof. intros. unfold arr. rewrite np_get_map, cfilter', map_map by auto. reflexivity. Qed.

Lemma mask_c0 : mask_and (map (b0 u) (seq 0 (2 ^ n))) (map (b1 v) (seq 0 (2 ^ n))) = map c1t0 (seq 0 (2 ^ n)).
Proof. rewrite mask_and_map. apply map_ext. intros. apply andb_comm. Qed.
Lemma mask_c1 : mask_and (map (b1 u) (seq 0 (2 ^ n))) (map (b1 v) (seq 0 (2 ^ n))) = map c1t1 (seq 0 (2 ^ n)).
Proof. rewrite mask_and_map. apply map_ext. intros. apply andb_comm. Qed.
Lemma mask_c0' : mask_and (map (b1 v) (seq 0 (2 ^ n))) (map (b0 u) (seq 0 (2 ^ n))) = map c1t0 (seq 0 (2 ^ n)).
Proof. rewrite mask_and_map. reflexivity. Qed.
Lemma mask_c1' : mask_and (map (b1 v) (seq 0 (2 ^ n))) (map (b1 u) (seq 0 (2 ^ n))) = map c1t1 (seq 0 (2 ^ n)).
Proof. rewrite mask_and_map. reflexivity. Qed.

Ltac start := intros; intros psi beta; eexists; cbn -[np_put np_get np_add np_sub mask_and np_imul np_scale arr];
  rewrite ?(mask_eq0_ok n t ct_pos), ?(mask_ne0_ok n t ct_pos), ?(mask_ne0_ok n c cc_pos); fold u; fold v;
  cbn -[np_put np_get np_add np_sub mask_and np_imul np_scale arr];
  rewrite ?(mask_eq0_ok n t ct_pos), ?(mask_ne0_ok n t ct_pos), ?(mask_ne0_ok n c cc_pos); fold u; fold v;
  cbn -[np_put np_get np_add np_sub mask_and np_imul np_scale arr];
  rewrite ?(mask_eq0_ok n t ct_pos), ?(mask_ne0_ok n t ct_pos), ?(mask_ne0_ok n c cc_pos); fold u; fold v;
  cbn -[np_put np_get np_add np_sub mask_and np_imul np_scale arr];
  rewrite ?mask_c0, ?mask_c1, ?mask_c0', ?mask_c1'.
Ltac fin := match goal with |- Ok (?a, ?b) = Ok (?c, ?d) => replace c with a; [reflexivity|] end;
  apply arr_ext; intros x Hx; unfold ctl; rewrite ap1_flip; unfold c1t0, c1t1, b0, b1;
  destruct (bit x v), (bit x u); simpl; try ring.

Lemma step_cx_acts : acts n (step_cx n (c, t)) (ctl v (ap1 mX u)).
Proof.
  start. rewrite cget_10, put_arr. simpl bind. rewrite cget_01, put_arr. simpl bind. fin.
Qed.

Lemma step_cmat_acts : forall a00 a01 a10 a11,
  acts n (step_cmat a00 a01 a10 a11 n (c, t)) (ctl v (ap1 (mk2 a00 a01 a10 a11) u)).
Proof.
  start. rewrite cget_10, get_same, !np_scale_map, np_add_map. simpl bind. rewrite put_arr. simpl bind.
  rewrite <- !np_scale_map, <- get_same, <- cget_10.
  rewrite cget_01, get_same, !np_scale_map, np_add_map. simpl bind. rewrite put_arr. simpl bind. fin.
Qed.

Lemma step_cdiag1_acts : forall a, acts n (step_cdiag1 a n (c, t)) (ctl v (ap1 (mk2 C1 C0 C0 a) u)).
Proof. start. rewrite imul_arr. simpl bind. fin. Qed.

Lemma step_cdiag01_acts : forall a b, acts n (step_cdiag01 a b n (c, t)) (ctl v (ap1 (mk2 a C0 C0 b) u)).
Proof. start. rewrite imul_arr. simpl bind. rewrite imul_arr. simpl bind. fin. Qed.
End CSteps.
