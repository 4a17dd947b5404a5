From Coq Require Import List Arith ZArith Bool String Reals Lia Permutation.
Import ListNotations.
From Verif Require Import Base Cplx ModelTargets ModelGate ModelNumpy ModelCircuit ModelMemory SpecMemory ProofAPI.
Local Open Scope nat_scope.

(** ** Reading and writing *)
Lemma wr_length : forall m l v, List.length (wr m l v) = List.length m.
Proof. intros. apply put_length. Qed.
Lemma rd_wr_eq : forall m l v, l < List.length m -> rd (wr m l v) l = v.
Proof. induction m; intros [|l] v H; simpl in *; try lia; auto. apply IHm. lia. Qed.
Lemma rd_wr_neq : forall m l k v, l <> k -> rd (wr m l v) k = rd m k.
Proof. induction m; intros [|l] [|k] v H; simpl; auto; try congruence. apply IHm. congruence. Qed.
Lemma rd_app : forall m v l, l < List.length m -> rd (m ++ v) l = rd m l.
Proof. intros. unfold rd. apply app_nth1. auto. Qed.
Lemma rd_new : forall m v, rd (m ++ [v]) (List.length m) = v.
Proof. intros. unfold rd. rewrite app_nth2 by lia. rewrite Nat.sub_diag. reflexivity. Qed.

(** ** One run: the arrays [M] and [S M] are its own *)
Definition two (M q b : nat) : Prop := (q = M /\ b = S M) \/ (q = S M /\ b = M).
Definition other (M : nat) (m m' : mem) : Prop :=
  List.length m <= List.length m' /\ forall l, l < List.length m -> l <> M -> l <> S M -> rd m' l = rd m l.
Lemma other_refl : forall M m, other M m m.
Proof. split; auto. Qed.
Lemma other_trans : forall M a b c, other M a b -> other M b c -> other M a c.
Proof. intros M a b c [L1 F1] [L2 F2]. split; [lia|]. intros l H N1 N2. rewrite F2 by (auto; lia). apply F1; auto. Qed.
Lemma other_wr : forall M m l v, l = M \/ l = S M -> other M m (wr m l v).
Proof. intros M m l v H. split; [rewrite wr_length; lia|]. intros k K N1 N2. apply rd_wr_neq. lia. Qed.
Lemma other_app : forall M m v, other M m (m ++ v).
Proof. intros. split; [rewrite app_length; lia|]. intros. apply rd_app. auto. Qed.

Definition sim_bufs (M : nat) (m0 : mem) (r : res places) (v : res bufs) : Prop :=
  match r, v with
  | Ok (q, b, m), Ok (x, y) => two M q b /\ List.length m = List.length m0 /\ rd m q = x /\ rd m b = y /\ other M m0 m
  | Err e, Err e' => e = e'
  | _, _ => False
  end.
Definition sim_step (how : (bufs -> res bufs) -> places -> res places) (f : bufs -> res bufs) : Prop :=
  forall M q b m, two M q b -> S M < List.length m -> sim_bufs M m (how f (q, b, m)) (f (rd m q, rd m b)).
Definition sim_fun (F : places -> res places) (f : bufs -> res bufs) : Prop :=
  forall M q b m, two M q b -> S M < List.length m -> sim_bufs M m (F (q, b, m)) (f (rd m q, rd m b)).

Lemma exchange_sim : forall f, (forall q b x y, f (q, b) = Ok (x, y) -> y = q) -> sim_step exchange f.
Proof.
  intros f K M q b m T L. unfold exchange. destruct (f (rd m q, rd m b)) as [[x y]|e] eqn:E; simpl; auto.
  apply K in E. subst y.
  assert (q <> b) by (destruct T as [[-> ->]|[-> ->]]; lia).
  assert (b < List.length m) by (destruct T as [[-> ->]|[-> ->]]; lia).
  split; [destruct T as [[-> ->]|[-> ->]]; [right|left]; auto|]. rewrite wr_length. split; auto.
  rewrite rd_wr_eq by auto. rewrite rd_wr_neq by auto. repeat split; auto.
  - rewrite wr_length. auto.
  - intros l L1 N1 N2. apply rd_wr_neq. destruct T as [[-> ->]|[-> ->]]; auto.
Qed.
Lemma in_place_sim : forall f, (forall q b x y, f (q, b) = Ok (x, y) -> y = b) -> sim_step in_place f.
Proof.
  intros f K M q b m T L. unfold in_place. destruct (f (rd m q, rd m b)) as [[x y]|e] eqn:E; simpl; auto.
  apply K in E. subst y.
  assert (q <> b) by (destruct T as [[-> ->]|[-> ->]]; lia).
  assert (q < List.length m) by (destruct T as [[-> ->]|[-> ->]]; lia).
  split; [exact T|]. rewrite wr_length. split; auto.
  rewrite rd_wr_eq by auto. rewrite rd_wr_neq by auto. repeat split; auto.
  - rewrite wr_length. auto.
  - intros l L1 N1 N2. apply rd_wr_neq. destruct T as [[-> ->]|[-> ->]]; auto.
Qed.

Lemma sim_shift : forall M m m' r v, other M m m' -> List.length m' = List.length m -> sim_bufs M m' r v -> sim_bufs M m r v.
Proof.
  intros M m m' [[[q b] w]|e] [[x y]|e'] O L; simpl; auto. intros (T & L1 & A & B & F). repeat split; auto; try congruence.
  - destruct F. destruct O. lia.
  - intros l K N1 N2. apply (other_trans _ _ _ _ O F); auto.
Qed.
Lemma for_sim : forall A how (f : A -> bufs -> res bufs) l, (forall a, sim_step how (f a)) ->
  sim_fun (for_list l (fun a => how (f a))) (for_list l f).
Proof.
  intros A how f l K. induction l as [|a l IH]; intros M q b m T L; cbn [for_list].
  - simpl. repeat split; auto.
  - generalize (K a M q b m T L). destruct (how (f a) (q, b, m)) as [[[q1 b1] m1]|e]; destruct (f a (rd m q, rd m b)) as [[x y]|e']; simpl; try tauto.
    intros (T1 & L1 & A1 & B1 & F). subst x y. apply (sim_shift M m m1); auto. apply IH; auto. congruence.
Qed.
Lemma gen_sim : forall A how (f : A -> bufs -> res bufs) g, (forall a, sim_step how (f a)) ->
  sim_fun (for_gen g (fun a => how (f a))) (for_gen g f).
Proof.
  intros A how f g K M q b m T L. unfold for_gen. generalize (for_sim A how f (yields g) K M q b m T L).
  destruct (for_list (yields g) (fun a => how (f a)) (q, b, m)) as [[[q1 b1] m1]|e]; destruct (for_list (yields g) f (rd m q, rd m b)) as [[x y]|e']; simpl; try tauto.
  intros H. destruct (raised g); simpl; auto.
Qed.
Lemma then_sim : forall F f G g, sim_fun F f -> sim_fun G g -> sim_fun (fun s => bind (F s) G) (fun s => bind (f s) g).
Proof.
  intros F f G g HF HG M q b m T L. generalize (HF M q b m T L). destruct (F (q, b, m)) as [[[q1 b1] m1]|e]; destruct (f (rd m q, rd m b)) as [[x y]|e']; simpl; try tauto.
  intros (T1 & L1 & A1 & B1 & O). subst x y. apply (sim_shift M m m1); auto. apply HG; auto. congruence.
Qed.

Ltac peel := let q := fresh in let b := fresh in let x := fresh in let y := fresh in intros q b x y; repeat match goal with
  | |- context [bind ?r _] => destruct r; cbn [bind]; [|discriminate]
  | |- context [let (_, _) := ?p in _] => destruct p end; intros E; injection E; congruence.
Lemma sim_x : forall n t, sim_step exchange (step_x n t). Proof. intros. apply exchange_sim. unfold step_x. peel. Qed.
Lemma sim_y : forall n t, sim_step exchange (step_y n t). Proof. intros. apply exchange_sim. unfold step_y. peel. Qed.
Lemma sim_h : forall n t, sim_step exchange (step_h n t). Proof. intros. apply exchange_sim. unfold step_h. peel. Qed.
Lemma sim_mat : forall a b c d n t, sim_step exchange (step_mat a b c d n t). Proof. intros. apply exchange_sim. unfold step_mat. peel. Qed.
Lemma sim_u3 : forall a b c d n t, sim_step exchange (step_u3 a b c d n t). Proof. intros. apply exchange_sim. unfold step_u3. peel. Qed.
Lemma sim_cx : forall n t, sim_step exchange (step_cx n t). Proof. intros. apply exchange_sim. unfold step_cx. peel. Qed.
Lemma sim_cmat : forall a b c d n t, sim_step exchange (step_cmat a b c d n t). Proof. intros. apply exchange_sim. unfold step_cmat. peel. Qed.
Lemma sim_diag1 : forall a n t, sim_step in_place (step_diag1 a n t). Proof. intros. apply in_place_sim. unfold step_diag1. peel. Qed.
Lemma sim_diag01 : forall a b n t, sim_step in_place (step_diag01 a b n t). Proof. intros. apply in_place_sim. unfold step_diag01. peel. Qed.
Lemma sim_cdiag1 : forall a n t, sim_step in_place (step_cdiag1 a n t). Proof. intros. apply in_place_sim. unfold step_cdiag1. peel. Qed.
Lemma sim_cdiag01 : forall a b n t, sim_step in_place (step_cdiag01 a b n t). Proof. intros. apply in_place_sim. unfold step_cdiag01. peel. Qed.
Lemma sim_ccz : forall n tg, sim_step in_place (np_ccz n tg). Proof. intros. apply in_place_sim. unfold np_ccz. peel. Qed.

Lemma loop1_sim : forall how n tg f, (forall t, sim_step how (f n t)) -> sim_fun (mloop1 how n tg f) (loop1 n tg f).
Proof. intros. apply gen_sim. auto. Qed.
Lemma loop2_sim : forall how n tg f, (forall t, sim_step how (f n t)) -> sim_fun (mloop2 how n tg f) (loop2 n tg f).
Proof. intros how n tg f K M q b m T L. unfold mloop2, loop2. destruct (qubit_pairs tg (Z.of_nat n)); simpl; auto. apply for_sim; auto. Qed.
Lemma h_sim : forall n tg, sim_fun (mem_h n tg) (np_h n tg).
Proof. intros. apply (gen_sim _ exchange (step_h n)). apply sim_h. Qed.
Lemma ccx_sim : forall n tg, sim_fun (mem_ccx n tg) (np_ccx n tg).
Proof.
  intros n tg M q b m T L. unfold mem_ccx, np_ccx. destruct (unpack3 tg) as [[[a c] t]|e]; cbn [bind]; [|reflexivity].
  apply (then_sim (mem_h n t) (np_h n t) (fun s => bind (in_place (np_ccz n tg) s) (mem_h n t)) (fun s => bind (np_ccz n tg s) (np_h n t))); auto.
  - apply h_sim.
  - apply then_sim; [apply sim_ccz|apply h_sim].
Qed.

Lemma unitary_sim : forall g n, match mem_unitary g n, np_unitary g n with Some F, Some f => sim_fun F f | None, None => True | _, _ => False end.
Proof.
  intros g n. destruct g as [k tg|k tg|k tg|tg|tg]; try exact I; destruct k; cbn [mem_unitary np_unitary]; try exact I;
    first [apply loop1_sim; intros; first [apply sim_x|apply sim_y|apply sim_mat|apply sim_u3|apply sim_diag1|apply sim_diag01]
          |apply loop2_sim; intros; first [apply sim_cx|apply sim_cmat|apply sim_cdiag1|apply sim_cdiag01]
          |apply h_sim|apply sim_ccz|apply ccx_sim].
Qed.

(** ** Gates, shots, runs *)
Definition ok_ctx (M : nat) (c : mctx) (m : mem) : Prop := two M (mc_q c) (mc_b c) /\ S M < List.length m.
Definition sim_ctx (M : nat) (m0 : mem) (r : mres) (v : sres) : Prop :=
  match r, v with
  | MOk c m, SOk x => ok_ctx M c m /\ view c m = x /\ other M m0 m
  | MErr e p m, SErr e' p' => e = e' /\ p = p' /\ other M m0 m
  | _, _ => False
  end.
Lemma sim_ctx_shift : forall M m m' r v, other M m m' -> sim_ctx M m' r v -> sim_ctx M m r v.
Proof.
  intros M m m' [c w|e p w] [x|e' p'] O; simpl; auto.
  - intros (A & B & F). repeat split; auto; try apply A; apply (other_trans _ _ _ _ O F).
  - intros (A & B & F). repeat split; auto; apply (other_trans _ _ _ _ O F).
Qed.

Section Random.
Variable rng : nat -> R.

Lemma collapse_sim : forall step tg M c m, ok_ctx M c m -> sim_ctx M m (mem_collapse step tg c m) (np_collapse step tg (view c m)).
Proof.
  intros step tg M c m [T L]. unfold mem_collapse. generalize (eq_refl (np_collapse step tg (view c m))). unfold np_collapse at 2.
  destruct (loop_state _ _ _) as [[[q cr] p] e]. cbv beta iota zeta.
  assert (Q : mc_q c < List.length m) by (destruct T as [[-> _]|[-> _]]; lia).
  assert (N : mc_q c <> mc_b c) by (destruct T as [[-> ->]|[-> ->]]; lia).
  destruct e as [e|]; [intros E; rewrite E; simpl; repeat split; auto|].
  destruct (raised _) as [e|]; intros E; rewrite E; [simpl; repeat split; auto|].
  cbn [sim_ctx x_save x_cregs x_pos x_qubits]. split; [split; [exact T|rewrite wr_length; exact L]|].
  split; [|apply other_wr; destruct T as [[-> _]|[-> _]]; auto].
  unfold view. cbn [mc_n mc_q mc_b mc_save mc_shots mc_cregs mc_pos x_n x_buf x_shots].
  rewrite rd_wr_eq by auto. rewrite rd_wr_neq by auto. reflexivity.
Qed.

Lemma action_sim : forall g n, match mem_action rng g n, np_action rng g n with
  | Some F, Some f => forall M c m, ok_ctx M c m -> sim_ctx M m (F c m) (f (view c m))
  | None, None => True | _, _ => False end.
Proof.
  intros g n. generalize (unitary_sim g n). destruct g as [k tg|k tg|k tg|tg|tg]; cbn [mem_action np_action].
  1,2,3: destruct (mem_unitary _ n) as [F|]; destruct (np_unitary _ n) as [f|]; auto; intros K M c m [T L];
    generalize (K M (mc_q c) (mc_b c) m T L); cbn [view x_qubits x_buf];
    destruct (F (mc_q c, mc_b c, m)) as [[[q b] w]|e]; destruct (f (rd m (mc_q c), rd m (mc_b c))) as [[x y]|e']; cbn [sim_bufs sim_ctx]; try tauto;
    [intros (T1 & L1 & A1 & B1 & O); split; [split; [exact T1|lia]|]; split; [|exact O]; unfold view, set_bufs; cbn; congruence
    |intros ->; repeat split; auto].
  all: intros _ M c m O; apply collapse_sim; exact O.
Qed.

Lemma view_n : forall c m, x_n (view c m) = mc_n c. Proof. reflexivity. Qed.
Lemma view_pos : forall c m, x_pos (view c m) = mc_pos c. Proof. reflexivity. Qed.

Lemma list_sim : forall F f l, (forall g M c m, ok_ctx M c m -> sim_ctx M m (F g c m) (f g (view c m))) ->
  forall M c m, ok_ctx M c m -> sim_ctx M m (mrun_list F l c m) (run_list f l (view c m)).
Proof.
  intros F f l K. induction l as [|g l IH]; intros M c m O; cbn [mrun_list run_list].
  - simpl. repeat split; auto; apply O.
  - generalize (K g M c m O). destruct (F g c m) as [c1 m1|e p m1]; destruct (f g (view c m)) as [x|e' p']; cbn [sim_ctx]; try tauto.
    intros (O1 & <- & H). apply (sim_ctx_shift M m m1); auto.
Qed.
Lemma single_sim : forall fuel g M c m, ok_ctx M c m -> sim_ctx M m (mrun_single rng fuel g c m) (np_run_single rng fuel g (view c m)).
Proof.
  assert (Hd : forall fuel g M c m, ok_ctx M c m ->
    (forall f, fuel = S f -> forall g M c m, ok_ctx M c m -> sim_ctx M m (mrun_single rng f g c m) (np_run_single rng f g (view c m))) ->
    sim_ctx M m (mrun_single rng fuel g c m) (np_run_single rng fuel g (view c m))).
  { intros fuel g M c m O IH. generalize (action_sim g (mc_n c)). destruct fuel as [|fuel]; cbn [mrun_single np_run_single]; rewrite view_n;
      destruct (mem_action rng g (mc_n c)) as [F|]; destruct (np_action rng g (mc_n c)) as [f|]; try tauto; auto; intros _.
    - rewrite view_pos. simpl. repeat split; auto.
    - destruct (fallback g (Z.of_nat (mc_n c))) as [gs|e].
      + apply list_sim; auto.
      + rewrite view_pos. simpl. repeat split; auto. }
  induction fuel; intros; apply Hd; auto; intros f E; [discriminate|]. injection E as <-. auto.
Qed.

(** the cache of a backend, in an array that is not one of the two of a running run *)
Definition sim_back (own : list nat) (m : mem) (b : mback) (v : backend) : Prop :=
  mb_idx b = b_idx v /\
  match mb_cache b, b_cache v with
  | None, None => True
  | Some l, Some a => l < List.length m /\ ~ In l own /\ rd m l = a
  | _, _ => False
  end.
Lemma sim_back_other : forall mine M m m' b v, other M m m' -> sim_back (M :: S M :: mine) m b v -> sim_back (M :: S M :: mine) m' b v.
Proof.
  intros mine M m m' b v [L F] [E H]. split; auto. destruct (mb_cache b) as [l|]; destruct (b_cache v); auto.
  destruct H as (A & B & <-). repeat split; auto; [lia|]. apply F; auto; intros ->; apply B; simpl; auto.
Qed.

Lemma gates_sim : forall mine gs M c b m v, (forall l, In l mine -> l < M) -> ok_ctx M c m -> sim_back (M :: S M :: mine) m b v ->
  match mrun_gates rng gs c b m, np_run_gates rng gs (view c m) v with
  | (r, b'), (x, v') => sim_ctx M m r x /\ match r with MOk _ m' | MErr _ _ m' => sim_back (M :: S M :: mine) m' b' v' end
  end.
Proof.
  intros mine. induction gs as [|g gs IH]; intros M c b m v MI O B; cbn [mrun_gates np_run_gates].
  - simpl. repeat split; auto; try apply O; apply B.
  - generalize (single_sim recursion_limit g M c m O).
    destruct (mrun_single rng recursion_limit g c m) as [c1 m1|e p m1]; destruct (np_run_single rng recursion_limit g (view c m)) as [x|e' p']; cbn [sim_ctx]; try tauto.
    + intros (O1 & <- & H).
      change (x_save (view c1 m1)) with (mc_save c1). change (x_qubits (view c1 m1)) with (rd m1 (mc_q c1)).
      destruct (mc_save c1).
      * cbn [new_array].
        assert (E : view c1 m1 = view c1 (m1 ++ [rd m1 (mc_q c1)])).
        { unfold view. destruct O1 as [T L]. rewrite !rd_app; auto; destruct T as [[A1 A2]|[A1 A2]]; lia. }
        rewrite E.
        assert (O2 : ok_ctx M c1 (m1 ++ [rd m1 (mc_q c1)])). { destruct O1. split; auto. rewrite app_length. simpl. lia. }
        specialize (IH M c1 (MBack (Some (List.length m1)) (mb_idx b + 1)) (m1 ++ [rd m1 (mc_q c1)]) (Backend (Some (rd m1 (mc_q c1))) (b_idx v + 1)) MI O2).
        destruct (mrun_gates rng gs c1 _ _) as [r b']. destruct (np_run_gates rng gs _ _) as [x v'].
        destruct IH as [I1 I2].
        { destruct B as [B1 B2]. split; [cbn; congruence|]. cbn [mb_cache b_cache]. rewrite app_length. cbn [List.length].
          split; [lia|]. split; [|apply rd_new]. destruct O1. simpl. intros [K|[K|K]]; try lia. apply MI in K. lia. }
        split; auto. apply (sim_ctx_shift M m (m1 ++ [rd m1 (mc_q c1)])); auto. apply (other_trans _ _ _ _ H). apply other_app.
      * specialize (IH M c1 b m1 v MI O1 (sim_back_other _ _ _ _ _ _ H B)).
        destruct (mrun_gates rng gs c1 b m1) as [r b']. destruct (np_run_gates rng gs (view c1 m1) v) as [x v'].
        destruct IH as [I1 I2]. split; auto. apply (sim_ctx_shift M m m1); auto.
    + intros (-> & -> & H). split; [simpl; repeat split; auto; apply H|]. apply (sim_back_other _ _ _ _ _ _ H B).
Qed.

Lemma prepare_sim : forall mine M c m b v, ok_ctx M c m -> sim_back (M :: S M :: mine) m b v ->
  let (c', m') := mprepare c (mb_cache b) m in ok_ctx M c' m' /\ view c' m' = prepare (view c m) (b_cache v) /\ other M m m' /\ sim_back (M :: S M :: mine) m' b v.
Proof.
  intros mine M c m b v [T L] B. unfold mprepare.
  assert (Q : mc_q c < List.length m) by (destruct T as [[-> _]|[-> _]]; lia).
  assert (N : mc_q c <> mc_b c) by (destruct T as [[-> ->]|[-> ->]]; lia).
  set (m' := match mb_cache b with Some l => wr m (mc_q c) (rd m l) | None => wr m (mc_q c) (basis0 (mc_n c)) end).
  assert (O : other M m m'). { unfold m'. destruct (mb_cache b); apply other_wr; destruct T as [[-> _]|[-> _]]; auto. }
  split; [split; [exact T|unfold m'; destruct (mb_cache b); rewrite wr_length; exact L]|].
  split; [|split; [exact O|apply (sim_back_other _ _ _ _ _ _ O B)]].
  unfold view, prepare. cbn [mc_n mc_q mc_b mc_save mc_shots mc_cregs mc_pos x_n x_buf x_save x_shots x_pos]. unfold m'.
  destruct B as [_ B]. destruct (mb_cache b) as [l|]; destruct (b_cache v) as [a|]; try tauto; rewrite rd_wr_eq by auto; rewrite rd_wr_neq by auto; auto.
  destruct B as (_ & _ & ->). reflexivity.
Qed.

Lemma shots_sim : forall mine k gs M c b m v, (forall l, In l mine -> l < M) -> ok_ctx M c m -> sim_back (M :: S M :: mine) m b v ->
  match mshots rng k gs c b m, np_shots rng k gs (view c m) v with
  | (r, b'), (x, v') => sim_ctx M m r x /\ match r with MOk _ m' | MErr _ _ m' => sim_back (M :: S M :: mine) m' b' v' end
  end.
Proof.
  intros mine. induction k as [|k IH]; intros gs M c b m v MI O B; cbn [mshots np_shots].
  - simpl. repeat split; auto; try apply O; apply B.
  - generalize (prepare_sim mine M c m b v O B). destruct (mprepare c (mb_cache b) m) as [c1 m1]. intros (O1 & <- & H1 & B1).
    replace (b_idx v) with (mb_idx b) by apply B.
    generalize (gates_sim mine (skipn (Z.to_nat (mb_idx b + 1)) gs) M c1 b m1 v MI O1 B1).
    destruct (mrun_gates rng _ c1 b m1) as [r b']. destruct (np_run_gates rng _ (view c1 m1) v) as [x v']. intros [S1 B2].
    destruct r as [c2 m2|e p m2]; destruct x as [x|e' p']; cbn [sim_ctx] in S1; try tauto.
    + destruct S1 as (O2 & <- & H2).
      assert (E : (match x_cregs (view c2 m2) with [] => view c2 m2 | _ => store_shot (view c2 m2) end) = view (match mc_cregs c2 with [] => c2 | _ => mstore_shot c2 end) m2).
      { change (x_cregs (view c2 m2)) with (mc_cregs c2). destruct (mc_cregs c2) eqn:E; auto. }
      cbv zeta. rewrite E.
      assert (O3 : ok_ctx M (match mc_cregs c2 with [] => c2 | _ => mstore_shot c2 end) m2). { destruct (mc_cregs c2); exact O2. }
      specialize (IH gs M _ b' m2 v' MI O3 B2).
      destruct (mshots rng k gs _ b' m2) as [r b'']. destruct (np_shots rng k gs _ v') as [x v'']. destruct IH as [I1 I2].
      split; auto. apply (sim_ctx_shift M m m2); auto. apply (other_trans _ _ _ _ H1 H2).
    + destruct S1 as (-> & -> & H2). split; auto. simpl. repeat split; auto; apply (other_trans _ _ _ _ H1 H2).
Qed.

Definition kept_below (m m' : mem) : Prop := List.length m <= List.length m' /\ forall l, l < List.length m -> rd m' l = rd m l.

Lemma run_sim : forall mine b gs n a pos m v, (forall l, In l mine -> l < List.length m) -> sim_back mine m b v ->
  let '(r, b', p, m') := mrun rng b gs n a pos m in
  let '(x, v', p') := np_run rng v gs n a pos in
  p = p' /\ kept_below m m' /\ rmap (seen m') r = x /\
  (forall l, In l (handed (rmap ARun r)) -> List.length m <= l < List.length m') /\ NoDup (handed (rmap ARun r)) /\
  sim_back (handed (rmap ARun r) ++ mine) m' b' v'.
Proof.
  intros mine b gs n a pos m v MI B. unfold mrun, np_run. destruct (parse_run_args a) as [[[k returns] ig]|e].
  2:{ simpl. repeat split; auto; try constructor; try (intros; tauto); apply B. }
  cbv zeta.
  set (b1 := mclear_cache_if_invalid b n m). set (v1 := clear_cache_if_invalid v n).
  assert (B1 : sim_back mine m b1 v1).
  { unfold b1, v1, mclear_cache_if_invalid, clear_cache_if_invalid. generalize B. intros [B0 B2].
    destruct (mb_cache b) as [l|]; destruct (b_cache v) as [c|]; try tauto; [|split; reflexivity].
    destruct B2 as (_ & _ & ->). destruct (Nat.eqb _ _); [exact B|split; reflexivity]. }
  clearbody b1 v1. clear b v B.
  unfold new_mctx, new_array. cbv beta iota zeta.
  set (M := List.length m).
  replace (List.length (m ++ [zeros n])) with (S M) by (rewrite app_length; simpl; unfold M; lia).
  rewrite <- app_assoc. cbn [app].
  set (m1 := m ++ [zeros n; zeros n]). set (c1 := MCtx n M (S M) true [] [] pos).
  assert (L1 : List.length m1 = S (S M)) by (unfold m1; rewrite app_length; simpl; unfold M; lia).
  assert (V1 : view c1 m1 = new_ctx n pos).
  { unfold view, c1, new_ctx. cbn. unfold m1, rd. rewrite !app_nth2 by (unfold M; lia). unfold M. rewrite Nat.sub_diag. replace (S (List.length m) - List.length m) with 1 by lia. reflexivity. }
  assert (K1 : kept_below m m1). { split; [rewrite L1; unfold M; lia|]. intros. apply rd_app. auto. }
  assert (B2 : sim_back (M :: S M :: mine) m1 b1 v1).
  { destruct B1 as [E H]. split; auto. destruct (mb_cache b1) as [l|]; destruct (b_cache v1); auto. destruct H as (A & A' & <-). repeat split; [rewrite L1; unfold M; lia| |apply K1; auto].
    simpl. unfold M. intros [K|[K|K]]; try lia. auto. }
  generalize (shots_sim mine (Z.to_nat k) gs M c1 b1 m1 v1 MI ltac:(split; [left; split; reflexivity|rewrite L1; lia]) B2). rewrite V1.
  destruct (mshots rng (Z.to_nat k) gs c1 b1 m1) as [r b']. destruct (np_shots rng (Z.to_nat k) gs (new_ctx n pos) v1) as [x v']. intros [S1 B3].
  assert (KB : forall m2, other M m1 m2 -> kept_below m m2).
  { intros m2 [L F]. split; [rewrite L1 in L; unfold M in L; lia|]. intros l Hl. rewrite F by (rewrite ?L1; unfold M; lia). apply K1. auto. }
  destruct r as [c2 m2|e p m2]; destruct x as [x|e' p']; cbn [sim_ctx] in S1; try tauto.
  2:{ destruct S1 as (-> & -> & H2). cbv beta iota zeta. cbn [rmap handed app]. split; [reflexivity|]. split; [apply (KB _ H2)|]. split; [reflexivity|]. split; [intros l []|].
      split; [constructor|]. destruct B3 as [B30 B3]. split; auto. destruct (mb_cache b'); destruct (b_cache v'); auto.
      destruct B3 as (A1 & A2 & A3). repeat split; auto. intros K. apply A2. right. right. exact K. }
  destruct S1 as ((T & L2) & <- & H2).
  assert (Q : mc_q c2 < List.length m2) by (destruct T as [[-> _]|[-> _]]; lia).
  assert (N : mc_q c2 <> mc_b c2) by (destruct T as [[-> ->]|[-> ->]]; lia).
  set (m3 := if ig then wr m2 (mc_q c2) (ignore_global_phase (rd m2 (mc_q c2))) else m2).
  assert (V3 : (if ig then set_bufs (view c2 m2) (ignore_global_phase (x_qubits (view c2 m2)), x_buf (view c2 m2)) else view c2 m2) = view c2 m3).
  { unfold m3. destruct ig; auto. unfold view, set_bufs. cbn. rewrite rd_wr_eq by auto. rewrite rd_wr_neq by auto. reflexivity. }
  rewrite V3.
  assert (O3 : other M m2 m3). { unfold m3. destruct ig; [|apply other_refl]. apply other_wr. destruct T as [[-> _]|[-> _]]; auto. }
  assert (B4 := sim_back_other _ _ _ _ _ _ O3 B3).
  assert (L3 : List.length m2 <= List.length m3) by apply O3.
  split; [reflexivity|]. split; [apply KB; apply (other_trans _ _ _ _ H2 O3)|].
  split. { unfold mreturn, return_type. simpl. repeat match goal with |- context [if ?c then _ else _] => destruct c end; reflexivity. }
  assert (I : forall l, In l (handed (rmap ARun (Ok (mreturn returns c2)))) -> l = M \/ l = S M).
  { unfold mreturn. intros l. simpl. repeat match goal with |- context [if ?c then _ else _] => destruct c end; simpl; destruct T as [[T1 T2]|[T1 T2]]; rewrite ?T1, ?T2; intuition. }
  split. { intros l H. apply I in H. unfold M in *. lia. }
  split. { unfold mreturn. simpl. repeat match goal with |- context [if ?c then _ else _] => destruct c end; simpl; repeat constructor; simpl; intuition. }
  destruct B4 as [E B4]. split; auto. destruct (mb_cache b') as [l|]; destruct (b_cache v'); auto. destruct B4 as (A1 & A2 & A3). repeat split; auto.
  intros H. apply in_app_or in H. destruct H as [H|H]; [apply I in H|]; apply A2; simpl; intuition.
Qed.

(** ** Programs *)
Definition inv (s : mstate) (mine : list nat) (bs : list backend) : Prop :=
  Forall2 (sim_back mine (s_mem s)) (s_backs s) bs /\ (forall l, In l mine -> l < List.length (s_mem s)) /\ NoDup mine.

Lemma sim_back_grow : forall own own' m m' b v, kept_below m m' -> (forall l, l < List.length m -> In l own' -> In l own) -> sim_back own m b v -> sim_back own' m' b v.
Proof.
  intros own own' m m' b v [L F] K [E H]. split; auto. destruct (mb_cache b) as [l|]; destruct (b_cache v); auto.
  destruct H as (A & B & <-). repeat split; auto; lia.
Qed.
Lemma sim_back_wr : forall own m l w b v, In l own -> sim_back own m b v -> sim_back own (wr m l w) b v.
Proof.
  intros own m l w b v K [E H]. split; auto. destruct (mb_cache b) as [k|]; destruct (b_cache v); auto.
  destruct H as (A & B & <-). rewrite wr_length. repeat split; auto. apply rd_wr_neq. intros ->. auto.
Qed.
Lemma Forall2_impl : forall A B (P Q : A -> B -> Prop) l l', (forall a b, P a b -> Q a b) -> Forall2 P l l' -> Forall2 Q l l'.
Proof. intros A B P Q l l' K H. induction H; constructor; auto. Qed.
Lemma NoDup_two : forall A (l l' : list A), NoDup l -> NoDup l' -> (forall x, In x l -> In x l' -> False) -> NoDup (l ++ l').
Proof.
  intros A l l' H. induction H as [|x l N H IH]; simpl; auto. intros H' K. constructor; [|apply IH; eauto].
  intros I. apply in_app_or in I. destruct I; eauto.
Qed.
Lemma Forall2_nth : forall A B (P : A -> B -> Prop) l l' i, Forall2 P l l' ->
  match nth_error l i, nth_error l' i with Some a, Some b => P a b | None, None => True | _, _ => False end.
Proof. intros A B P l l' i H. revert i. induction H; intros [|i]; simpl; auto; apply IHForall2. Qed.
Lemma put_skip : forall A (l : list A) i v, i < List.length l -> put l i v = firstn i l ++ v :: skipn (S i) l.
Proof. induction l; intros [|i] v H; simpl in *; try lia; auto. f_equal. apply IHl. lia. Qed.
Lemma Forall2_put : forall A B (P : A -> B -> Prop) l l' i a b, Forall2 P l l' -> P a b -> Forall2 P (put l i a) (put l' i b).
Proof. intros A B P l l' i a b H K. revert i. induction H; intros [|i]; simpl; auto. Qed.

Definition keeps (mine : list nat) (m m' : mem) (o : mop) : Prop :=
  match o with
  | HWrite l v => m' = wr m l v
  | _ => kept_below m m'
  end.
(** what one operation does *)
Definition value_step (bs : list backend) (pos : nat) (o : mop) : list backend * nat :=
  match o with
  | HNew => (bs ++ [new_backend], pos)
  | HCopy i => match nth_error bs i with None => (bs, pos) | Some b => (bs ++ [b], pos) end
  | HRun i gs n a => match nth_error bs i with None => (bs, pos) | Some b => let '(x, b', p) := np_run rng b gs n a pos in (firstn i bs ++ b' :: skipn (S i) bs, p) end
  | HWrite _ _ => (bs, pos)
  end.
Definition value_sight (bs : list backend) (pos : nat) (o : mop) : list (res sight) :=
  match o with
  | HNew => [Ok SDone]
  | HCopy i => match nth_error bs i with None => [Err Undefined] | Some b => [Ok SDone] end
  | HRun i gs n a => match nth_error bs i with None => [Err Undefined] | Some b => let '(x, b', p) := np_run rng b gs n a pos in [rmap SRun x] end
  | HWrite _ _ => []
  end.
Lemma value_cons : forall bs pos o os, value_sights rng bs pos (o :: os) =
  value_sight bs pos o ++ value_sights rng (fst (value_step bs pos o)) (snd (value_step bs pos o)) os.
Proof.
  intros bs pos [|i|i gs n a|l v] os; cbn [value_sights value_sight value_step app fst snd]; auto.
  - destruct (nth_error bs i); reflexivity.
  - destruct (nth_error bs i); auto. destruct (np_run rng b gs n a pos) as [[x b'] p]. reflexivity.
Qed.

Lemma step_inv : forall s mine bs o, inv s mine bs -> match o with HWrite l _ => In l mine | _ => True end ->
  let (x, s') := mstep rng s o in
  inv s' (handed x ++ mine) (fst (value_step bs (s_pos s) o)) /\ s_pos s' = snd (value_step bs (s_pos s) o) /\
  keeps mine (s_mem s) (s_mem s') o /\ (if is_write o then [] else [rmap (look (s_mem s')) x]) = value_sight bs (s_pos s) o.
Proof.
  intros s mine bs o (F & I & D) W. destruct o as [|i|i gs n a|l v]; cbn [mstep value_step value_sight is_write].
  - cbn. repeat split; auto. apply Forall2_app; auto. constructor; auto. split; simpl; auto.
  - unfold get. generalize (Forall2_nth _ _ _ _ _ i F). destruct (nth_error (s_backs s) i) as [b|]; destruct (nth_error bs i) as [v|]; try tauto; intros B.
    + destruct (mb_cache b) as [l|] eqn:E.
      * cbn. split; [split; [|split; auto; cbn; intros k K; rewrite app_length; apply I in K; simpl; lia]|].
        -- cbn [s_mem s_backs].
           assert (KB : kept_below (s_mem s) (s_mem s ++ [rd (s_mem s) l])) by (split; [rewrite app_length; lia|intros; apply rd_app; auto]).
           apply Forall2_app; [eapply Forall2_impl; [|exact F]; intros; eapply sim_back_grow; eauto|]. constructor; auto.
           destruct B as [B1 B2]. rewrite E in B2. split; auto. cbn [mb_cache]. destruct (b_cache v); try tauto.
           rewrite app_length. simpl. split; [lia|]. rewrite rd_new. split; [|apply B2]. intros K. apply I in K. lia.
        -- repeat split; cbn; auto. rewrite app_length; lia. intros; apply rd_app; auto.
      * cbn. repeat split; auto. apply Forall2_app; auto.
    + cbn. repeat split; auto.
  - unfold get. generalize (Forall2_nth _ _ _ _ _ i F). destruct (nth_error (s_backs s) i) as [b|] eqn:E1; destruct (nth_error bs i) as [v|] eqn:E2; try tauto; intros B.
    + generalize (run_sim mine b gs n a (s_pos s) (s_mem s) v I B). destruct (mrun rng b gs n a (s_pos s) (s_mem s)) as [[[r b'] p] m'].
      destruct (np_run rng v gs n a (s_pos s)) as [[x v'] p']. intros (-> & KB & <- & NW & ND & B').
      cbn [fst snd s_pos s_mem s_backs keeps]. split; [|split; [reflexivity|split; [exact KB|]]].
      * split; [|split].
        -- cbn [s_mem s_backs].
           rewrite <- (put_skip _ bs i v') by (apply nth_error_Some; congruence).
           assert (LM : forall k, k < List.length (s_mem s) -> In k (handed (rmap ARun r) ++ mine) -> In k mine).
           { intros k K H. apply in_app_or in H. destruct H as [H|H]; auto. apply NW in H. lia. }
           apply Forall2_put.
           ++ eapply Forall2_impl; [|exact F]. intros b0 v0 H. eapply sim_back_grow; eauto.
           ++ exact B'.
        -- cbn [s_mem]. intros k K. apply in_app_or in K. destruct K as [K|K]; [apply NW in K; lia|]. apply I in K. destruct KB. lia.
        -- apply NoDup_two; auto. intros k K1 K2. apply NW in K1. apply I in K2. lia.
      * destruct r; reflexivity.
    + cbn. repeat split; auto.
  - cbn. repeat split; auto; cbn; try (intros k K; rewrite wr_length; auto).
    eapply Forall2_impl; [|exact F]. intros. apply sim_back_wr; auto.
Qed.

(** the state after a program *)
Definition after (s : mstate) (os : list mop) : mstate := snd (msteps rng s os).
Lemma msteps_cons : forall s o os, msteps rng s (o :: os) = (fst (mstep rng s o) :: fst (msteps rng (snd (mstep rng s o)) os), after (snd (mstep rng s o)) os).
Proof. intros. unfold after. cbn [msteps]. destruct (mstep rng s o) as [x s']. simpl. destruct (msteps rng s' os). reflexivity. Qed.

Lemma sights_inv : forall os s mine bs, inv s mine bs -> owned rng s mine os -> sights rng s os = value_sights rng bs (s_pos s) os.
Proof.
  induction os as [|o os IH]; intros s mine bs I OW; auto. destruct OW as [W O].
  rewrite value_cons. cbn [sights]. generalize (step_inv s mine bs o I W). destruct (mstep rng s o) as [x s']. intros (I' & P & _ & <-).
  f_equal. rewrite <- P. eapply IH; eauto.
Qed.
Lemma value_hands_off : forall os bs pos, value_sights rng bs pos (hands_off os) = value_sights rng bs pos os.
Proof.
  unfold hands_off. induction os as [|o os IH]; intros; auto. cbn [filter]. destruct (is_write o) eqn:E.
  - destruct o; try discriminate. simpl. apply IH.
  - cbn [negb]. rewrite !value_cons. f_equal. apply IH.
Qed.
Lemma owned_hands_off : forall os s mine, owned rng s mine (hands_off os).
Proof.
  unfold hands_off. induction os as [|o os IH]; intros; simpl; auto. destruct (is_write o) eqn:E; simpl; auto. split; auto. destruct o; auto. discriminate.
Qed.
Lemma inv_start : forall pos, inv (mstart pos) [] [].
Proof. intros. split; [constructor|split; [intros l []|constructor]]. Qed.

Lemma program_values : forall pos os, owned rng (mstart pos) [] os -> sights rng (mstart pos) os = value_sights rng [] pos os.
Proof. intros. apply (sights_inv os (mstart pos) [] []); auto. apply inv_start. Qed.
Lemma program_hands_off : forall pos os, owned rng (mstart pos) [] os -> sights rng (mstart pos) os = sights rng (mstart pos) (hands_off os).
Proof. intros. rewrite !program_values; auto. symmetry. apply value_hands_off. apply owned_hands_off. Qed.

Lemma program_inv : forall os s mine bs, inv s mine bs -> owned rng s mine os ->
  exists mine' bs', inv (after s os) mine' bs' /\ Permutation mine' (given (fst (msteps rng s os)) ++ mine).
Proof.
  induction os as [|o os IH]; intros s mine bs I OW.
  - exists mine, bs. split; auto.
  - destruct OW as [W O]. generalize (step_inv s mine bs o I W). generalize (msteps_cons s o os). destruct (mstep rng s o) as [x s'] eqn:E. cbn [fst snd] in *. intros H (I' & P & _ & _).
    destruct (IH s' _ _ I' O) as (mine' & bs' & J & K). exists mine', bs'. unfold after at 1. rewrite H. cbn [fst snd]. split; auto.
    rewrite K. unfold given. cbn [flat_map]. rewrite !app_assoc. apply Permutation_app_tail. apply Permutation_app_comm.
Qed.
Lemma owned_perm : forall os s mine mine', Permutation mine mine' -> owned rng s mine os -> owned rng s mine' os.
Proof.
  induction os as [|o os IH]; intros s mine mine' P OW; auto. destruct OW as [W O]. split.
  - destruct o; auto. eapply Permutation_in; eauto.
  - eapply IH; [|exact O]. apply Permutation_app_head. auto.
Qed.
Lemma owned_split : forall os os' s mine, owned rng s mine (os ++ os') ->
  owned rng s mine os /\ owned rng (after s os) (given (fst (msteps rng s os)) ++ mine) os'.
Proof.
  induction os as [|o os IH]; intros os' s mine H; cbn [app] in H; [split; [exact I|exact H]|]. destruct H as [W H].
  apply IH in H. destruct H as [H1 H2]. split; [split; auto|].
  unfold after. rewrite msteps_cons. cbn [fst snd]. eapply owned_perm; [|exact H2].
  unfold given. cbn [flat_map]. rewrite !app_assoc. apply Permutation_app_tail. apply Permutation_app_comm.
Qed.
Lemma after_app : forall os os' s, after s (os ++ os') = after (after s os) os'.
Proof. induction os as [|o os IH]; intros; auto. cbn [app]. unfold after at 1 3. rewrite !msteps_cons. cbn [snd]. apply IH. Qed.

Lemma kept_from : forall os s mine bs l, inv s mine bs -> owned rng s mine os -> In l mine -> (forall v, ~ In (HWrite l v) os) ->
  rd (s_mem (after s os)) l = rd (s_mem s) l.
Proof.
  induction os as [|o os IH]; intros s mine bs l I OW M N; auto. destruct OW as [W O].
  unfold after. rewrite msteps_cons. cbn [snd]. generalize (step_inv s mine bs o I W).
  destruct (mstep rng s o) as [x s'] eqn:E. cbn [fst snd] in *. intros (I' & _ & K & _).
  rewrite (IH s' _ _ l I' O).
  - destruct I as (_ & I & _). destruct o; cbn [keeps] in K; try (apply K; apply I; exact M).
    rewrite K. apply rd_wr_neq. intros ->. apply (N v). left. reflexivity.
  - apply in_or_app. auto.
  - intros v Hv. apply (N v). right. exact Hv.
Qed.

Lemma program_kept : forall pos os os' l, owned rng (mstart pos) [] (os ++ os') -> In l (given (fst (msteps rng (mstart pos) os))) ->
  (forall v, ~ In (HWrite l v) os') ->
  nth l (s_mem (snd (msteps rng (mstart pos) (os ++ os')))) [] = nth l (s_mem (snd (msteps rng (mstart pos) os))) [].
Proof.
  intros pos os os' l H G N. apply owned_split in H. destruct H as [H1 H2].
  destruct (program_inv _ _ _ _ (inv_start pos) H1) as (mine & bs & I & P). rewrite app_nil_r in *.
  change (rd (s_mem (after (mstart pos) (os ++ os'))) l = rd (s_mem (after (mstart pos) os)) l). rewrite after_app.
  apply (kept_from os' (after (mstart pos) os) mine bs l); auto.
  - eapply owned_perm; [|exact H2]. symmetry. exact P.
  - eapply Permutation_in; [symmetry; exact P|exact G].
Qed.
Lemma program_fresh : forall pos os, owned rng (mstart pos) [] os -> NoDup (given (fst (msteps rng (mstart pos) os))).
Proof.
  intros pos os H. destruct (program_inv _ _ _ _ (inv_start pos) H) as (mine & bs & (_ & _ & D) & P). rewrite app_nil_r in P. eapply Permutation_NoDup; eauto.
Qed.
Lemma program_exists : forall pos os l, owned rng (mstart pos) [] os -> In l (given (fst (msteps rng (mstart pos) os))) ->
  l < List.length (s_mem (snd (msteps rng (mstart pos) os))).
Proof.
  intros pos os l H G. destruct (program_inv _ _ _ _ (inv_start pos) H) as (mine & bs & (_ & D & _) & P). rewrite app_nil_r in P. apply D.
  eapply Permutation_in; [symmetry; exact P|exact G].
Qed.
End Random.
