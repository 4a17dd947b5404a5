(** The numpy backend with its cache returns what a run without any cache returns. *)
From Coq Require Import List Arith ZArith Bool String Reals Lia Lra.
Import ListNotations.
From Verif Require Import Base Cplx Bits ModelTargets ModelGate ModelNumpy ProofArray.
Local Open Scope nat_scope.

(** ** The scratch buffer has no influence *)
Lemma np_scatter_length : forall A (a : list A) m v, List.length (np_scatter a m v) = List.length a.
Proof.
  induction a; intros [|[] m] v; simpl; auto.
  destruct v; simpl; auto.
Qed.
Lemma np_put_length : forall a m v a', np_put a m v = Ok a' -> List.length a' = List.length a.
Proof.
  intros a m v a' H. unfold np_put in H. destruct (_ =? _); [|discriminate]. injection H; intros <-.
  apply np_scatter_length.
Qed.
Lemma np_imul_length : forall a m s a', np_imul a m s = Ok a' -> List.length a' = List.length a.
Proof. intros. eapply np_put_length; eauto. Qed.
Lemma np_scale_length : forall s a, List.length (np_scale s a) = List.length a.
Proof. intros. unfold np_scale. apply map_length. Qed.
Lemma np_put_scalar_length : forall a m s a', np_put_scalar a m s = Ok a' -> List.length a' = List.length a.
Proof. intros. eapply np_put_length; eauto. Qed.

(** writing two complementary halves forgets what was there *)
Lemma scatter2_indep : forall A (m : list bool) (b b' v0 v1 : list A),
  List.length b = List.length m -> List.length b' = List.length m ->
  List.length v0 = count_true m -> List.length v1 = count_true (map negb m) ->
  np_scatter (np_scatter b m v0) (map negb m) v1 = np_scatter (np_scatter b' m v0) (map negb m) v1.
Proof.
  induction m as [|[] m IH]; intros [|x b] [|x' b'] v0 v1 Hb Hb' H0 H1; simpl in *; try discriminate; auto.
  - destruct v0 as [|y v0]; simpl in *; [discriminate|]. f_equal. apply IH; auto.
  - destruct v1 as [|y v1]; simpl in *; [discriminate|]. f_equal. apply IH; auto.
Qed.

Lemma put2_indep : forall m b b' v0 v1 c, List.length b = List.length m -> List.length b' = List.length m ->
  (let* x := np_put b m v0 in np_put x (map negb m) v1) = Ok c ->
  (let* x := np_put b' m v0 in np_put x (map negb m) v1) = Ok c.
Proof.
  intros m b b' v0 v1 c Hb Hb'. unfold np_put. simpl.
  destruct (Nat.eqb_spec (List.length v0) (count_true m)); simpl; [|discriminate].
  destruct (Nat.eqb_spec (List.length v1) (count_true (map negb m))); simpl; [|discriminate].
  intros H. injection H; intros <-. f_equal. apply scatter2_indep; auto.
Qed.

(** a value computed with one buffer can be computed with the other *)
Definition bsim (n : nat) (f : bufs -> res bufs) : Prop :=
  forall q b b' : carr, List.length q = 2 ^ n -> List.length b = 2 ^ n -> List.length b' = 2 ^ n ->
  match f (@pair carr carr q b) with
  | Ok (q1, b1) => List.length q1 = 2 ^ n /\ List.length b1 = 2 ^ n /\
      exists b1' : carr, f (@pair carr carr q b') = Ok (q1, b1') /\ List.length b1' = 2 ^ n
  | Err e => f (@pair carr carr q b') = Err e
  end.

Lemma mask_length : forall n t m, mask_eq0 n t = Ok m \/ mask_ne0 n t = Ok m -> List.length m = 2 ^ n.
Proof.
  intros n t m [H|H]; unfold mask_eq0, mask_ne0 in H; destruct (t <? 0)%Z; try discriminate;
  injection H; intros <-; unfold indices; rewrite map_length, seq_length; auto.
Qed.
Lemma mask_negb : forall n t m0 m1, mask_eq0 n t = Ok m0 -> mask_ne0 n t = Ok m1 -> m1 = map negb m0.
Proof.
  intros n t m0 m1 H0 H1. unfold mask_eq0, mask_ne0 in *. destruct (t <? 0)%Z; try discriminate.
  injection H0; intros <-. injection H1; intros <-. rewrite map_map. reflexivity.
Qed.

Ltac len := repeat match goal with
  | H : np_put _ _ _ = Ok _ |- _ => apply np_put_length in H
  | H : np_put_scalar _ _ _ = Ok _ |- _ => apply np_put_scalar_length in H
  | H : np_imul _ _ _ = Ok _ |- _ => apply np_imul_length in H end; rewrite ?np_scale_length; try congruence.

(** the shape that the loop bodies of x, y, h, rx and ry share *)
Lemma put2_bsim : forall n t (v0 v1 : carr -> list bool -> list bool -> res carr) (post : carr -> carr),
  (forall a, List.length (post a) = List.length a) ->
  bsim n (fun s : bufs => let (qubits, newq) := s in
    let* t0 := mask_eq0 n t in
    let* t1 := mask_ne0 n t in
    let* v := v0 qubits t0 t1 in
    let* newq := np_put newq t0 v in
    let* v := v1 qubits t0 t1 in
    let* newq := np_put newq t1 v in
    Ok (post newq, qubits)).
Proof.
  intros n t v0 v1 post Hpost q b b' Hq Hb Hb'.
  destruct (mask_eq0 n t) as [m0|e] eqn:E0; simpl; [|reflexivity].
  destruct (mask_ne0 n t) as [m1|e] eqn:E1; simpl; [|reflexivity].
  destruct (v0 q m0 m1) as [w0|]; simpl; [|reflexivity].
  pose proof (mask_length n t m0 (or_introl E0)) as Lm.
  pose proof (mask_negb n t m0 m1 E0 E1) as ->.
  destruct (np_put b m0 w0) as [c|e] eqn:P1; simpl.
  - destruct (v1 q m0 (map negb m0)) as [w1|e] eqn:V1; simpl.
    + pose proof (np_put_length _ _ _ _ P1) as L1.
      destruct (np_put c (map negb m0) w1) as [d|e] eqn:P2; simpl.
      * pose proof (np_put_length _ _ _ _ P2) as L2.
        rewrite Hpost. split; [lia|]. split; [auto|].
        exists q. split; [|auto].
        pose proof (put2_indep m0 b b' w0 w1 d) as I. rewrite P1 in I. simpl in I.
        specialize (I ltac:(lia) ltac:(lia) P2).
        destruct (np_put b' m0 w0) as [c'|] eqn:P1'; simpl in *; [|discriminate].
        rewrite I. reflexivity.
      * unfold np_put in P1 |- *. destruct (_ =? _); [|discriminate]. simpl.
        unfold np_put in P2. destruct (List.length w1 =? _); [discriminate|]. injection P2; intros <-. reflexivity.
    + unfold np_put in P1 |- *. destruct (_ =? _); [|discriminate]. simpl. reflexivity.
  - unfold np_put in P1 |- *. destruct (_ =? _); [discriminate|]. simpl. injection P1; intros <-. reflexivity.
Qed.

Lemma bsim_ext : forall n f g, (forall s, f s = g s) -> bsim n f -> bsim n g.
Proof. intros n f g E H q b b' Hq Hb Hb'. rewrite <- !E. apply H; auto. Qed.

Lemma step_x_bsim : forall n t, bsim n (step_x n t).
Proof.
  intros. apply (bsim_ext n _ _) with (2 := put2_bsim n t (fun q t0 t1 => Ok (np_get q t1)) (fun q t0 t1 => Ok (np_get q t0))
    (fun a => a) (fun a => eq_refl)). intros []. reflexivity.
Qed.
Lemma step_y_bsim : forall n t, bsim n (step_y n t).
Proof.
  intros. apply (bsim_ext n _ _) with (2 := put2_bsim n t (fun q t0 t1 => Ok (np_scale (- Ci)%C (np_get q t1)))
    (fun q t0 t1 => Ok (np_scale Ci (np_get q t0))) (fun a => a) (fun a => eq_refl)). intros []. reflexivity.
Qed.
Lemma step_h_bsim : forall n t, bsim n (step_h n t).
Proof.
  intros. apply (bsim_ext n _ _) with (2 := put2_bsim n t (fun q t0 t1 => np_add (np_get q t0) (np_get q t1))
    (fun q t0 t1 => np_sub (np_get q t0) (np_get q t1)) (np_scale (RtoC (1 / sqrt 2)))
    (np_scale_length (RtoC (1 / sqrt 2)))). intros []. reflexivity.
Qed.
Lemma step_mat_bsim : forall a00 a01 a10 a11 n t, bsim n (step_mat a00 a01 a10 a11 n t).
Proof.
  intros. apply (bsim_ext n _ _) with (2 := put2_bsim n t
    (fun q t0 t1 => np_add (np_scale a00 (np_get q t0)) (np_scale a01 (np_get q t1)))
    (fun q t0 t1 => np_add (np_scale a10 (np_get q t0)) (np_scale a11 (np_get q t1))) (fun a => a) (fun a => eq_refl)).
  intros []. reflexivity.
Qed.

(** the bodies that overwrite the scratch buffer first, or do not use it *)
Ltac easy_bsim := intros; intros q bb bb' Hq Hb Hb'; simpl;
  repeat match goal with
  | |- context [bind ?e _] => destruct e eqn:?; simpl; try reflexivity
  end;
  (split; [len|split; [len|eexists; split; [reflexivity|len]]]).

Lemma step_diag1_bsim : forall a n t, bsim n (step_diag1 a n t).
Proof. easy_bsim. Qed.
Lemma step_diag01_bsim : forall a b n t, bsim n (step_diag01 a b n t).
Proof. easy_bsim. Qed.
Lemma step_u3_bsim : forall a00 a01 a10 a11 n t, bsim n (step_u3 a00 a01 a10 a11 n t).
Proof. easy_bsim. Qed.
Lemma step_cx_bsim : forall n ct, bsim n (step_cx n ct).
Proof. intros n [c t]. easy_bsim. Qed.
Lemma step_cmat_bsim : forall a00 a01 a10 a11 n ct, bsim n (step_cmat a00 a01 a10 a11 n ct).
Proof. intros a00 a01 a10 a11 n [c t]. easy_bsim. Qed.
Lemma step_cdiag1_bsim : forall a n ct, bsim n (step_cdiag1 a n ct).
Proof. intros a n [c t]. easy_bsim. Qed.
Lemma step_cdiag01_bsim : forall a b n ct, bsim n (step_cdiag01 a b n ct).
Proof. intros a b n [c t]. easy_bsim. Qed.
Lemma ccz_bsim : forall n tg, bsim n (np_ccz n tg).
Proof.
  intros n tg. unfold np_ccz. intros q bb bb' Hq Hb Hb'.
  destruct (unpack3 tg) as [[[c1 c2] t]|]; simpl; [|reflexivity].
  repeat match goal with
  | |- context [bind ?e _] => destruct e eqn:?; simpl; try reflexivity
  end.
  split; [len|split; [len|eexists; split; [reflexivity|len]]].
Qed.

Lemma bsim_bind : forall n f g, bsim n f -> bsim n g -> bsim n (fun s => bind (f s) g).
Proof.
  intros n f g Hf Hg q bb bb' Hq Hb Hb'. specialize (Hf q bb bb' Hq Hb Hb').
  destruct (f (q, bb)) as [[q1 b1]|e]; simpl; [|rewrite Hf; reflexivity].
  destruct Hf as [L1 [L2 [b1' [-> L3]]]]. simpl. apply Hg; auto.
Qed.
Lemma bsim_for : forall A n (f : A -> bufs -> res bufs) l, (forall a, bsim n (f a)) -> bsim n (for_list l f).
Proof.
  induction l; intros H.
  - intros q bb bb' Hq Hb Hb'. simpl. split; [auto|split; [auto|]]. exists bb'; auto.
  - apply (bsim_bind n (f a) (for_list l f)); auto.
Qed.
Lemma bsim_raise : forall n (o : option exn) (f : bufs -> res bufs), bsim n f ->
  bsim n (fun s => let* s' := f s in match o with Some e => Err e | None => Ok s' end).
Proof.
  intros n o f H. apply bsim_bind; auto. intros q bb bb' Hq Hb Hb'.
  destruct o; simpl; [reflexivity|]. split; [auto|split; [auto|]]. exists bb'; auto.
Qed.
Lemma loop1_bsim : forall n tg f, (forall t, bsim n (f n t)) -> bsim n (loop1 n tg f).
Proof.
  intros. unfold loop1, for_gen. apply (bsim_raise n (raised (slicing tg (Z.of_nat n)))). apply bsim_for; auto.
Qed.
Lemma loop2_bsim : forall n tg f, (forall ct, bsim n (f n ct)) -> bsim n (loop2 n tg f).
Proof.
  intros. unfold loop2. destruct (qubit_pairs tg (Z.of_nat n)); simpl.
  - apply bsim_for; auto.
  - intros q bb bb' Hq Hb Hb'. reflexivity.
Qed.
Lemma np_h_bsim : forall n tg, bsim n (np_h n tg).
Proof. intros. apply (loop1_bsim n tg step_h). intros; apply step_h_bsim. Qed.
Lemma ccx_bsim : forall n tg, bsim n (np_ccx n tg).
Proof.
  intros. unfold np_ccx. destruct (unpack3 tg) as [[[c1 c2] t]|]; simpl.
  - apply (bsim_bind n (np_h n t)); [apply np_h_bsim|]. apply bsim_bind; [apply ccz_bsim|apply np_h_bsim].
  - intros q bb bb' Hq Hb Hb'. reflexivity.
Qed.

Lemma unitary_bsim : forall g n f, np_unitary g n = Some f -> bsim n f.
Proof.
  intros g n f H. destruct g as [k tg|k tg|k tg|tg|tg]; try destruct k; simpl in H; try discriminate;
  injection H; intros <-;
  first [apply np_h_bsim | apply ccx_bsim | apply ccz_bsim | apply loop1_bsim; intros | apply loop2_bsim; intros];
  auto using step_x_bsim, step_y_bsim, step_mat_bsim, step_diag1_bsim, step_diag01_bsim, step_u3_bsim, step_cx_bsim,
    step_cmat_bsim, step_cdiag1_bsim, step_cdiag01_bsim.
Qed.

(** ** Unitary gates as functions of the two buffers *)
From Verif Require Import SpecRun.

Definition unitary (g : gate) : bool := match g with GMeasure _ | GReset _ => false | _ => true end.

Fixpoint urun (fuel : nat) (g : gate) (n : nat) (s : bufs) : res bufs :=
  match np_unitary g n with
  | Some f => f s
  | None => match fuel with
            | O => Err RecursionError
            | S f => match fallback g (Z.of_nat n) with
                     | Err e => Err e
                     | Ok gs => for_list gs (fun g => urun f g n) s
                     end
            end
  end.

Definition lift (ctx : npctx) (r : res bufs) : sres :=
  match r with Ok s => SOk (set_bufs ctx s) | Err e => SErr e (x_pos ctx) end.

Lemma fallback_unitary : forall g n gs, fallback g n = Ok gs -> forallb unitary gs = true.
Proof.
  intros g n gs H.
  assert (FM : forall A (f : A -> list gate) l, (forall a, forallb unitary (f a) = true) -> forallb unitary (flat_map f l) = true).
  { induction l; intros Hf; simpl; auto. rewrite forallb_app, Hf; auto. }
  destruct g as [k tg|k tg|k tg|tg|tg]; try discriminate.
  - destruct k; simpl in H; try discriminate; try (injection H; intros <-; reflexivity);
    destruct (gen_list (slicing tg n)); simpl in H; try discriminate; injection H; intros <-; apply FM; reflexivity.
  - destruct k; simpl in H; try discriminate;
    destruct (qubit_pairs tg n); simpl in H; try discriminate; injection H; intros <-; apply FM; reflexivity.
  - destruct k; simpl in H; try discriminate; destruct (unpack3 tg) as [[[a b] c]|]; simpl in H; try discriminate;
    injection H; intros <-; reflexivity.
Qed.

Lemma set_bufs_id : forall ctx, set_bufs ctx (x_qubits ctx, x_buf ctx) = ctx.
Proof. intros []. reflexivity. Qed.

Lemma run_list_app : forall f l1 l2 c, run_list f (l1 ++ l2) c =
  match run_list f l1 c with SOk c' => run_list f l2 c' | SErr e p => SErr e p end.
Proof. induction l1; intros; simpl; auto. destruct (f a c); auto. Qed.

Section Rng.
Variable rng : nat -> R.
Notation single := (np_run_single rng).

Lemma action_unitary : forall g n, unitary g = true ->
  np_action rng g n = match np_unitary g n with
    | Some f => Some (fun ctx => lift ctx (f (x_qubits ctx, x_buf ctx)))
    | None => None end.
Proof. intros g n U. destruct g; try discriminate; reflexivity. Qed.

Lemma run_single_lift : forall fuel g ctx, unitary g = true ->
  single fuel g ctx = lift ctx (urun fuel g (x_n ctx) (x_qubits ctx, x_buf ctx)).
Proof.
  induction fuel as [|fuel IH]; intros g ctx Hu; cbn [np_run_single urun]; rewrite (action_unitary g _ Hu);
    destruct (np_unitary g (x_n ctx)); try reflexivity.
  pose proof (fallback_unitary g (Z.of_nat (x_n ctx))) as FU.
  destruct (fallback g (Z.of_nat (x_n ctx))) as [gs|e]; [|reflexivity]. specialize (FU gs eq_refl).
  clear - FU IH. revert ctx. induction gs as [|g gs IHg]; intros ctx; cbn [run_list for_list].
  - unfold lift. rewrite set_bufs_id. reflexivity.
  - simpl in FU. apply andb_true_iff in FU. destruct FU as [Hg FU]. rewrite (IH g ctx Hg).
    destruct (urun fuel g (x_n ctx) (x_qubits ctx, x_buf ctx)) as [[q b]|e]; cbn [bind lift]; [|reflexivity].
    rewrite (IHg FU). unfold set_bufs at 2 3 4. cbn [x_n x_qubits x_buf fst snd].
    destruct (for_list gs _ _); reflexivity.
Qed.

Lemma urun_bsim : forall fuel g n, bsim n (urun fuel g n).
Proof.
  induction fuel as [|fuel IH]; intros g n.
  - cbn [urun]. destruct (np_unitary g n) as [f|] eqn:E.
    + eapply unitary_bsim; eauto.
    + intros q b b' _ _ _. reflexivity.
  - cbn [urun]. destruct (np_unitary g n) as [f|] eqn:E.
    + eapply unitary_bsim; eauto.
    + destruct (fallback g (Z.of_nat n)) as [gs|e].
      * apply bsim_for. intros; apply IH.
      * intros q b b' _ _ _. reflexivity.
Qed.

(** ** Contexts that differ in their scratch buffer only *)
Definition ctx_sim (n : nat) (a b : npctx) : Prop :=
  ctx_same a b /\ x_n a = n /\ List.length (x_qubits a) = 2 ^ n /\
  List.length (x_buf a) = 2 ^ n /\ List.length (x_buf b) = 2 ^ n.
Definition sres_sim (n : nat) (a b : sres) : Prop :=
  match a, b with
  | SOk a, SOk b => ctx_sim n a b
  | SErr e p, SErr e' p' => e = e' /\ p = p'
  | _, _ => False
  end.

Lemma ctx_same_eq : forall a b, ctx_same a b -> b = set_bufs a (x_qubits a, x_buf b).
Proof. intros [] [] [A [B [C [D [E F]]]]]; simpl in *; subst. reflexivity. Qed.

Lemma loop_state_length : forall n (step : Z -> carr * list nat * nat -> (carr * list nat * nat) * option exn) l q c p q' c' p' e,
  (forall t (q : carr) (c : list nat) (p : nat) q' c' p' e, step t (q, c, p) = ((q', c', p'), e) -> List.length q = 2 ^ n -> List.length q' = 2 ^ n) ->
  loop_state l step (q, c, p) = ((q', c', p'), e) -> List.length q = 2 ^ n -> List.length q' = 2 ^ n.
Proof.
  induction l as [|t l IH]; intros q c p q' c' p' e Hs H Hq; simpl in H.
  - injection H; intros; subst; auto.
  - destruct (step t (q, c, p)) as [[[q1 c1] p1] [e1|]] eqn:E.
    + injection H; intros; subst. eapply Hs; eauto.
    + eapply IH; [exact Hs|exact H|]. eapply Hs; eauto.
Qed.

Lemma step_measure_length : forall n t q c p q' c' p' e,
  step_measure rng n t (q, c, p) = ((q', c', p'), e) -> List.length q = 2 ^ n -> List.length q' = 2 ^ n.
Proof.
  intros n t q c p q' c' p' e H Hq. unfold step_measure in H.
  destruct (mask_eq0 n t) as [m0|]; [|injection H; intros; subst; auto].
  destruct (mask_ne0 n t) as [m1|]; [|injection H; intros; subst; auto].
  destruct (Rltb _ _).
  - destruct (np_put_scalar q m1 C0) as [q1|] eqn:P; simpl in H; [|injection H; intros; subst; auto].
    destruct (list_set c (Z.to_nat t) 0) as [c1|]; simpl in H; injection H; intros; subst; auto.
    rewrite map_length. len.
  - destruct (np_put_scalar q m0 C0) as [q1|] eqn:P; simpl in H; [|injection H; intros; subst; auto].
    destruct (list_set c (Z.to_nat t) 1) as [c1|]; simpl in H; injection H; intros; subst; auto.
    rewrite map_length. len.
Qed.
Lemma step_reset_length : forall n t q c p q' c' p' e,
  step_reset rng n t (q, c, p) = ((q', c', p'), e) -> List.length q = 2 ^ n -> List.length q' = 2 ^ n.
Proof.
  intros n t q c p q' c' p' e H Hq. unfold step_reset in H.
  destruct (mask_eq0 n t) as [m0|]; [|injection H; intros; subst; auto].
  destruct (mask_ne0 n t) as [m1|]; [|injection H; intros; subst; auto].
  destruct (Rltb _ _).
  - destruct (np_put_scalar q m1 C0) as [q1|] eqn:P; simpl in H; injection H; intros; subst; auto.
    rewrite map_length. len.
  - destruct (np_put q m0 (np_get q m1)) as [q1|] eqn:P; simpl in H; [|injection H; intros; subst; auto].
    destruct (np_put_scalar q1 m1 C0) as [q2|] eqn:P2; simpl in H; injection H; intros; subst; auto.
    rewrite map_length. len.
Qed.

Lemma collapse_sim : forall (step : nat -> Z -> carr * list nat * nat -> (carr * list nat * nat) * option exn) n tg a b,
  (forall t (q : carr) (c : list nat) (p : nat) q' c' p' e, step n t (q, c, p) = ((q', c', p'), e) -> List.length q = 2 ^ n -> List.length q' = 2 ^ n) ->
  ctx_sim n a b -> sres_sim n (np_collapse step tg a) (np_collapse step tg b).
Proof.
  intros step n tg a b Hs [Hsame [Hn [Hq [Hb1 Hb2]]]].
  rewrite (ctx_same_eq a b Hsame). unfold np_collapse. simpl. rewrite Hn.
  destruct (loop_state (yields (slicing tg (Z.of_nat n))) (step n) (x_qubits a, x_cregs a, x_pos a)) as [[[q c] p] e] eqn:E.
  destruct e; simpl; auto. destruct (raised (slicing tg (Z.of_nat n))); simpl; auto.
  repeat split; simpl; auto. eapply (loop_state_length n (step n)); [exact Hs|exact E|auto].
Qed.

Lemma single_sim : forall fuel g n a b, ctx_sim n a b -> sres_sim n (single fuel g a) (single fuel g b).
Proof.
  intros fuel g n a b H. destruct (unitary g) eqn:U.
  - rewrite !run_single_lift by auto. destruct H as [Hsame [Hn [Hq [Hb1 Hb2]]]].
    rewrite (ctx_same_eq a b Hsame). simpl. rewrite Hn.
    pose proof (urun_bsim fuel g n (x_qubits a) (x_buf a) (x_buf b) Hq Hb1 Hb2) as S.
    destruct (urun fuel g n (x_qubits a, x_buf a)) as [[q1 b1]|e] eqn:Eu.
    + destruct S as [L1 [L2 [b1' [-> L3]]]]. simpl. repeat split; auto.
    + rewrite S. simpl. auto.
  - destruct g; try discriminate; destruct fuel; simpl;
    apply collapse_sim; auto; intros; eauto using step_measure_length, step_reset_length.
Qed.

Lemma list_sim : forall fuel gs n a b, ctx_sim n a b ->
  sres_sim n (run_list (single fuel) gs a) (run_list (single fuel) gs b).
Proof.
  induction gs as [|g gs IH]; intros n a b H; simpl; auto.
  pose proof (single_sim fuel g n a b H) as S.
  destruct (single fuel g a), (single fuel g b); simpl in S; try contradiction; auto.
Qed.

(** measurements and resets stop the caching *)
Lemma collapse_save : forall fuel g ctx ctx', unitary g = false -> single fuel g ctx = SOk ctx' -> x_save ctx' = false.
Proof.
  intros fuel g ctx ctx' U H. destruct g; try discriminate; destruct fuel; simpl in H; unfold np_collapse in H;
  destruct (loop_state _ _ _) as [[[q c] p] []]; try discriminate; destruct (raised _); try discriminate;
  injection H; intros <-; reflexivity.
Qed.

(** ** The cache *)
Arguments np_run_single : simpl never.
Arguments urun : simpl never.

Section Gates.
Variable n : nat.
Variable gs : list gate.

(** [c] is the state after the first [k] gates, none of which measures or resets *)
Definition prefix_state (k : nat) (c : carr) : Prop :=
  forallb unitary (firstn k gs) = true /\
  exists bb, for_list (firstn k gs) (fun g => urun recursion_limit g n) (basis0 n, zeros n) = Ok (c, bb).

(** The invariant of a backend object that has only been used to run prefixes of [gs]. *)
Definition cache_ok (b : backend) : Prop :=
  b = new_backend \/
  exists k c, 1 <= k <= List.length gs /\ b = Backend (Some c) (Z.of_nat k - 1) /\
    List.length c = 2 ^ n /\ prefix_state k c.

Lemma basis0_length : List.length (basis0 n) = 2 ^ n.
Proof.
  unfold basis0, zeros. pose proof (pow2_pos n). destruct (2 ^ n) as [|k]; [lia|]. simpl. rewrite repeat_length. reflexivity.
Qed.
Lemma zeros_length : List.length (zeros n) = 2 ^ n.
Proof. apply repeat_length. Qed.

Lemma for_list_lift : forall l ctx, forallb unitary l = true -> x_n ctx = n ->
  run_list (single recursion_limit) l ctx =
  lift ctx (for_list l (fun g => urun recursion_limit g n) (x_qubits ctx, x_buf ctx)).
Proof.
  induction l as [|g l IH]; intros ctx U Hn; cbn [run_list for_list].
  - simpl. rewrite set_bufs_id. reflexivity.
  - simpl in U. apply andb_true_iff in U. destruct U as [Ug U].
    rewrite run_single_lift by auto. rewrite Hn.
    destruct (urun recursion_limit g n (x_qubits ctx, x_buf ctx)) as [[q b]|e]; cbn [lift bind]; [|reflexivity].
    rewrite IH by auto. unfold set_bufs at 2 3. cbn [x_n x_qubits x_buf fst snd].
    destruct (for_list l (fun g0 => urun recursion_limit g0 n) (q, b)); reflexivity.
Qed.

Lemma for_list_bsim : forall l, bsim n (for_list l (fun g => urun recursion_limit g n)).
Proof. intros. apply bsim_for. intros. apply urun_bsim. Qed.

Lemma skipn_cons_firstn : forall A (l : list A) k g r, skipn k l = g :: r -> firstn (S k) l = firstn k l ++ [g] /\ skipn (S k) l = r /\ S k <= List.length l.
Proof.
  induction l as [|a l IH]; intros k g r H; [destruct k; discriminate|].
  destruct k as [|k].
  - simpl in H. injection H; intros; subst. simpl. repeat split. lia.
  - simpl in H. destruct (IH k g r H) as [A1 [A2 A3]]. split; [|split; [exact A2|simpl; lia]].
    change (a :: firstn (S k) l = a :: firstn k l ++ [g]). rewrite A1. reflexivity.
Qed.

Lemma run_gates_spec : forall rest k ctx b, rest = skipn k gs -> x_n ctx = n -> List.length (x_qubits ctx) = 2 ^ n ->
  List.length (x_buf ctx) = 2 ^ n -> k <= List.length gs ->
  cache_ok b ->
  (x_save ctx = true -> b_idx b = (Z.of_nat k - 1)%Z /\ prefix_state k (x_qubits ctx)) ->
  fst (np_run_gates rng rest ctx b) = run_list (single recursion_limit) rest ctx /\
  cache_ok (snd (np_run_gates rng rest ctx b)).
Proof.
  induction rest as [|g rest IH]; intros k ctx b Hr Hn Hq Hb Hk Hok Hsave; cbn [np_run_gates run_list].
  - simpl. auto.
  - symmetry in Hr. destruct (skipn_cons_firstn _ _ _ _ _ Hr) as [F1 [F2 F3]].
    destruct (single recursion_limit g ctx) as [ctx'|e p] eqn:E; [|simpl; auto].
    assert (S : ctx_sim n ctx' ctx').
    { pose proof (single_sim recursion_limit g n ctx ctx) as S. rewrite E in S. apply S. repeat split; auto. }
    destruct S as [_ [Hn' [Hq' [Hb' _]]]].
    destruct (x_save ctx') eqn:Es.
    + assert (U : unitary g = true).
      { destruct (unitary g) eqn:U; auto. rewrite (collapse_save _ _ _ _ U E) in Es. discriminate. }
      rewrite run_single_lift in E by auto. rewrite Hn in E.
      destruct (urun recursion_limit g n (x_qubits ctx, x_buf ctx)) as [[q1 b1]|] eqn:Eu; [|discriminate].
      simpl in E. injection E; intros <-. clear E. simpl in Es.
      destruct (Hsave Es) as [Hidx [Hpu [bb Hpf]]].
      assert (PS : prefix_state (S k) q1).
      { unfold prefix_state. rewrite F1. split.
        - rewrite forallb_app, Hpu. simpl. rewrite U. reflexivity.
        - rewrite for_list_app, Hpf. cbn [bind for_list].
          assert (Lbb : List.length bb = 2 ^ n).
          { pose proof (for_list_bsim (firstn k gs) (basis0 n) (zeros n) (zeros n) basis0_length zeros_length zeros_length) as S.
            rewrite Hpf in S. tauto. }
          pose proof (urun_bsim recursion_limit g n (x_qubits ctx) (x_buf ctx) bb Hq Hb Lbb) as S.
          rewrite Eu in S. destruct S as [_ [_ [b1' [-> _]]]]. exists b1'. reflexivity. }
      apply IH with (k := S k); auto.
      * right. exists (S k), q1. simpl in Hq'. repeat split; auto; try lia.
        -- replace (b_idx b + 1)%Z with (Z.of_nat (S k) - 1)%Z by lia. reflexivity.
        -- apply PS.
        -- apply PS.
      * intros _. cbn [b_idx x_qubits set_bufs fst]. split; [lia|exact PS].
    + apply IH with (k := S k); auto. congruence.
Qed.

Lemma cache_ok_cases : forall b, cache_ok b ->
  exists k q, k <= List.length gs /\ b_idx b = (Z.of_nat k - 1)%Z /\ prefix_state k q /\ List.length q = 2 ^ n /\
    match b_cache b with Some c => c | None => basis0 n end = q.
Proof.
  intros b [->|[k [c [Hk [-> [Hl PS]]]]]].
  - exists 0, (basis0 n). simpl. repeat split; auto; try lia.
    + exists (zeros n). reflexivity.
    + apply basis0_length.
  - exists k, c. simpl. repeat split; auto; try lia; apply PS.
Qed.

Lemma shots_spec : forall N a b bk, ctx_sim n a b -> cache_ok bk ->
  sres_sim n (fst (np_shots rng N gs a bk)) (ideal_shots rng N gs b) /\ cache_ok (snd (np_shots rng N gs a bk)).
Proof.
  induction N as [|N IH]; intros a b bk Hs Hok; cbn [np_shots ideal_shots].
  - simpl. auto.
  - destruct (cache_ok_cases bk Hok) as [k [q [Hk [Hidx [PS [Hlq Hq]]]]]].
    destruct Hs as [Hsame [Hn [HL [Hb1 Hb2]]]].
    assert (Hnb : x_n b = n) by (destruct Hsame; congruence).
    set (pa := prepare a (b_cache bk)) in *. set (pb := prepare b None) in *.
    assert (Hpa : x_qubits pa = q) by (unfold pa, prepare; simpl; rewrite <- Hq; destruct (b_cache bk); auto; rewrite Hn; auto).
    destruct (run_gates_spec (skipn k gs) k pa bk eq_refl) as [E1 E2]; auto.
    { rewrite Hpa; auto. }
    { rewrite Hpa. auto. }
    replace (Z.to_nat (b_idx bk + 1)) with k by (rewrite Hidx; lia).
    destruct (np_run_gates rng (skipn k gs) pa bk) as [r bk'] eqn:Er. simpl in E1, E2. subst r.
    (* the run without cache *)
    assert (Sim : sres_sim n (run_list (single recursion_limit) (skipn k gs) pa) (run_list (single recursion_limit) gs pb)).
    { rewrite <- (firstn_skipn k gs) at 2.
      rewrite run_list_app. destruct PS as [PU [bb PF]].
      rewrite (for_list_lift (firstn k gs) pb PU Hnb).
      replace (x_qubits pb) with (basis0 n) by (unfold pb; simpl; rewrite Hnb; reflexivity).
      pose proof (for_list_bsim (firstn k gs) (basis0 n) (zeros n) (x_buf pb) basis0_length zeros_length Hb2) as S.
      rewrite PF in S. destruct S as [_ [_ [b1' [-> L1]]]]. simpl lift.
      apply list_sim. repeat split; simpl; auto.
      - congruence.
      - destruct Hsame as [_ [_ [H _]]]. exact H.
      - destruct Hsame as [_ [_ [_ [H _]]]]. exact H.
      - congruence.
      - destruct Hsame as [_ [_ [_ [_ [_ H]]]]]. exact H.
      - unfold pa in Hpa; simpl in Hpa. rewrite Hpa. auto. }
    destruct (run_list (single recursion_limit) (skipn k gs) pa) as [ca|ea pa'] eqn:Ea;
    destruct (run_list (single recursion_limit) gs pb) as [cb|eb pb'] eqn:Eb; simpl in Sim; try contradiction.
    + apply IH; auto.
      destruct Sim as [Hsm [H1 [H2 [H3 H4]]]]. pose proof Hsm as [A [B [C [D [E F]]]]].
      rewrite <- E. destruct (x_cregs ca) eqn:Ec.
      * repeat split; auto. congruence.
      * unfold store_shot. repeat split; simpl; auto; congruence.
    + simpl. auto.
Qed.
End Gates.

Lemma cache_ok_clear : forall n gs b, (List.length (match b_cache b with Some c => c | None => [] end) = 2 ^ n -> cache_ok n gs b) ->
  cache_ok n gs (clear_cache_if_invalid b n).
Proof.
  intros n gs b H. unfold clear_cache_if_invalid. destruct (b_cache b) as [c|]; [|left; auto].
  destruct (Nat.eqb_spec (List.length c) (2 ^ n)); [auto|left; auto].
Qed.

Lemma cache_ok_extend : forall n gs more b, cache_ok n gs b -> cache_ok n (gs ++ more) b.
Proof.
  intros n gs more b [->|[k [c [Hk [-> [Hl [PU [bb PF]]]]]]]]; [left; auto|].
  right. exists k, c. assert (E : firstn k (gs ++ more) = firstn k gs).
  { rewrite firstn_app. replace (k - List.length gs) with 0 by lia. simpl. apply app_nil_r. }
  repeat split; auto; try lia.
  - rewrite app_length. lia.
  - rewrite E. auto.
  - rewrite E. exists bb. auto.
Qed.

Lemma return_same : forall returns a b, ctx_same a b -> result_same (return_type returns a) (return_type returns b).
Proof.
  intros returns a b H. pose proof H as [A [B [C [D [E F]]]]]. unfold return_type.
  destruct (String.eqb returns "statevector"); [simpl; rewrite B; auto|].
  destruct (String.eqb returns "shots"); [simpl; rewrite D; auto|].
  destruct (String.eqb returns "statevector_and_shots"); [simpl; rewrite B, D; auto|].
  exact H.
Qed.

(** A run with a backend object that has only seen prefixes of the same gates *)
Lemma run_ideal : forall n gs b a pos, cache_ok n gs (clear_cache_if_invalid b n) ->
  outcome_same (fst (fst (np_run rng b gs n a pos))) (fst (ideal_run rng gs n a pos)) /\
  snd (np_run rng b gs n a pos) = snd (ideal_run rng gs n a pos) /\
  (cache_ok n gs (snd (fst (np_run rng b gs n a pos))) \/ snd (fst (np_run rng b gs n a pos)) = b).
Proof.
  intros n gs b a pos Hok. unfold np_run, ideal_run.
  destruct (parse_run_args a) as [[[shots returns] ig]|e]; [|simpl; auto].
  assert (Hs : ctx_sim n (new_ctx n pos) (new_ctx n pos)).
  { repeat split; auto; unfold new_ctx; simpl; apply zeros_length. }
  destruct (shots_spec n gs (Z.to_nat shots) _ _ _ Hs Hok) as [S Ok'].
  destruct (np_shots rng (Z.to_nat shots) gs (new_ctx n pos) (clear_cache_if_invalid b n)) as [r bk].
  destruct (ideal_shots rng (Z.to_nat shots) gs (new_ctx n pos)) as [ci|e p]; destruct r as [cr|e' p']; simpl in S; try contradiction.
  - destruct S as [Hsm _]. destruct ig; simpl.
    + split; [|split; [|auto]].
      * apply return_same. destruct Hsm as [A [B [C [D [E F]]]]]. repeat split; simpl; auto. rewrite B. auto.
      * destruct Hsm as [A [B [C [D [E F]]]]]. auto.
    + split; [|split; [|auto]].
      * apply return_same. auto.
      * destruct Hsm as [A [B [C [D [E F]]]]]. auto.
  - destruct S as [-> ->]. simpl. auto.
Qed.
End Rng.
