(** Rounded runs of the numpy backend with any number of shots: the cache changes nothing. *)
From Coq Require Import List Arith ZArith Bool String Reals Lia Lra.
Import ListNotations.
From Verif Require Import Base Cplx Bits ModelTargets ModelGate ModelNumpy ModelNumba ModelFloat ModelFloatMeasure ModelFloatNumba ModelFloatNumbaMeasure ModelFloatRun SpecTargets SpecQuantum
  SpecCircuit SpecMeasure SpecRun ProofTargets ProofArray ProofNumpy ProofCache ProofBorn ProofFloatMeasRun SpecFloatRun.

(** ** The scratch buffer does not matter *)
Lemma fl_scaled_length : forall A v s, List.length (fl_scaled A v s) = List.length v.
Proof. intros. apply map_length. Qed.
Lemma fl_imul_length : forall A a m s b, fl_imul A a m s = Ok b -> List.length b = List.length a.
Proof. intros A a m s b H. unfold fl_imul in H. apply np_put_length in H. auto. Qed.
Ltac flen := repeat match goal with H : fl_imul _ _ _ _ = Ok _ |- _ => apply fl_imul_length in H | H : np_put _ _ _ = Ok _ |- _ => apply np_put_length in H end; congruence.
Ltac easy_fsim := intros; intros q bb bb' Hq Hb Hb'; simpl;
  repeat match goal with
  | |- context [bind ?e _] => destruct e eqn:?; simpl; try reflexivity
  end;
  (split; [flen|split; [flen|eexists; split; [reflexivity|flen]]]).

Section Arith.
Variable A : arith.
Lemma fl_y_bsim : forall n t, bsim n (fl_y A n t).
Proof.
  intros. apply (bsim_ext n _ _) with (2 := put2_bsim n t (fun q t0 t1 => Ok (fl_scale A (- Ci)%C (np_get q t1)))
    (fun q t0 t1 => Ok (fl_scale A Ci (np_get q t0))) (fun a => a) (fun a => eq_refl)). intros []. reflexivity.
Qed.
Lemma fl_h_bsim : forall n t, bsim n (fl_h A n t).
Proof.
  intros. apply (bsim_ext n _ _) with (2 := put2_bsim n t (fun q t0 t1 => fl_add A (np_get q t0) (np_get q t1))
    (fun q t0 t1 => fl_sub A (np_get q t0) (np_get q t1)) (fun v => fl_scaled A v (RtoC (fl_rsqrt2 A)))
    (fun v => fl_scaled_length A v (RtoC (fl_rsqrt2 A)))). intros []. reflexivity.
Qed.
Lemma fl_mat_bsim : forall a00 a01 a10 a11 n t, bsim n (fl_mat A a00 a01 a10 a11 n t).
Proof.
  intros. apply (bsim_ext n _ _) with (2 := put2_bsim n t
    (fun q t0 t1 => fl_add A (fl_scale A a00 (np_get q t0)) (fl_scale A a01 (np_get q t1)))
    (fun q t0 t1 => fl_add A (fl_scale A a10 (np_get q t0)) (fl_scale A a11 (np_get q t1))) (fun a => a) (fun a => eq_refl)).
  intros []. reflexivity.
Qed.
Lemma fl_diag1_bsim : forall a n t, bsim n (fl_diag1 A a n t).
Proof. easy_fsim. Qed.
Lemma fl_diag01_bsim : forall a b n t, bsim n (fl_diag01 A a b n t).
Proof. easy_fsim. Qed.
Lemma fl_u3_bsim : forall a00 a01 a10 a11 n t, bsim n (fl_u3 A a00 a01 a10 a11 n t).
Proof. easy_fsim. Qed.
Lemma fl_cmat_bsim : forall a00 a01 a10 a11 n ct, bsim n (fl_cmat A a00 a01 a10 a11 n ct).
Proof. intros a00 a01 a10 a11 n [c t]. easy_fsim. Qed.
Lemma fl_cdiag1_bsim : forall a n ct, bsim n (fl_cdiag1 A a n ct).
Proof. intros a n [c t]. easy_fsim. Qed.
Lemma fl_cdiag01_bsim : forall a b n ct, bsim n (fl_cdiag01 A a b n ct).
Proof. intros a b n [c t]. easy_fsim. Qed.
Lemma fl_ccz_bsim : forall n tg, bsim n (fl_ccz A n tg).
Proof.
  intros n tg. unfold fl_ccz. intros q bb bb' Hq Hb Hb'.
  destruct (unpack3 tg) as [[[c1 c2] t]|]; simpl; [|reflexivity].
  repeat match goal with
  | |- context [bind ?e _] => destruct e eqn:?; simpl; try reflexivity
  end.
  split; [flen|split; [flen|eexists; split; [reflexivity|flen]]].
Qed.
Lemma fl_ccx_bsim : forall n tg, bsim n (fl_ccx A n tg).
Proof.
  intros. unfold fl_ccx. destruct (unpack3 tg) as [[[c1 c2] t]|]; simpl.
  - apply (bsim_bind n (loop1 n t (fl_h A))); [apply loop1_bsim; intros; apply fl_h_bsim|].
    apply bsim_bind; [apply fl_ccz_bsim|apply loop1_bsim; intros; apply fl_h_bsim].
  - intros q bb bb' Hq Hb Hb'. reflexivity.
Qed.
Lemma fl_unitary_bsim : forall g n f, fl_unitary A g n = Some f -> bsim n f.
Proof.
  intros g n f H. destruct g as [k tg|k tg|k tg|tg|tg]; try destruct k; simpl in H; try discriminate;
  injection H; intros <-;
  first [apply fl_ccx_bsim | apply fl_ccz_bsim | apply loop1_bsim; intros | apply loop2_bsim; intros];
  auto using step_x_bsim, fl_y_bsim, fl_h_bsim, fl_mat_bsim, fl_diag1_bsim, fl_diag01_bsim, fl_u3_bsim, step_cx_bsim,
    fl_cmat_bsim, fl_cdiag1_bsim, fl_cdiag01_bsim.
Qed.
Lemma fl_list_for : forall (f : gate -> bufs -> res bufs) l s, fl_list f l s = for_list l f s.
Proof. intros f l. induction l as [|g l IH]; intros s; cbn [fl_list for_list]; [reflexivity|]. destruct (f g s); cbn [bind]; auto. Qed.
Lemma fl_list_bsim : forall n (f : gate -> bufs -> res bufs) l, (forall g, bsim n (f g)) -> bsim n (fl_list f l).
Proof. intros n f l H. apply (bsim_ext n (for_list l f)); [intros; symmetry; apply fl_list_for|]. apply bsim_for; auto. Qed.
Lemma fl_single_bsim : forall fuel g n, bsim n (fl_single A fuel n g).
Proof.
  induction fuel as [|fuel IH]; intros g n; cbn [fl_single]; (destruct (fl_unitary A g n) as [f|] eqn:E; [eapply fl_unitary_bsim; eauto|]).
  - intros q b b' _ _ _. reflexivity.
  - destruct (fl_fallback A g (Z.of_nat n)) as [gs|e]; cbn [bind].
    + apply fl_list_bsim. intros; apply IH.
    + intros q b b' _ _ _. reflexivity.
Qed.

(** ** Contexts that differ in the scratch buffer and the counter only *)
Variable N : carr -> R.
Variable rng : nat -> R.
Notation single := (fl_run_single A N rng recursion_limit).
Definition csim (n : nat) (a b : npctx) : Prop :=
  x_n a = n /\ x_n b = n /\ x_qubits a = x_qubits b /\ x_cregs a = x_cregs b /\ x_pos a = x_pos b /\
  List.length (x_qubits a) = 2 ^ n /\ List.length (x_buf a) = 2 ^ n /\ List.length (x_buf b) = 2 ^ n.
Definition rsim (n : nat) (sa sb : counter) (ra rb : sres) : Prop :=
  match ra, rb with
  | SOk a, SOk b => csim n a b /\ x_shots a = sa /\ x_shots b = sb
  | SErr e p, SErr e' p' => e = e' /\ p = p'
  | _, _ => False
  end.

Lemma fl_measure_length : forall n t q c p q' c' p' e,
  fl_measure A N rng n t (q, c, p) = ((q', c', p'), e) -> List.length q = 2 ^ n -> List.length q' = 2 ^ n.
Proof.
  intros n t q c p q' c' p' e H Hq. unfold fl_measure in H.
  destruct (mask_eq0 n t) as [m0|]; [|injection H; intros; subst; auto].
  destruct (mask_ne0 n t) as [m1|]; [|injection H; intros; subst; auto].
  destruct (Rltb _ _).
  - destruct (np_put_scalar q m1 C0) as [q1|] eqn:P; simpl in H; [|injection H; intros; subst; auto].
    destruct (list_set c (Z.to_nat t) 0) as [c1|]; simpl in H; injection H; intros; subst; auto.
    rewrite map_length. apply np_put_length in P. congruence.
  - destruct (np_put_scalar q m0 C0) as [q1|] eqn:P; simpl in H; [|injection H; intros; subst; auto].
    destruct (list_set c (Z.to_nat t) 1) as [c1|]; simpl in H; injection H; intros; subst; auto.
    rewrite map_length. apply np_put_length in P. congruence.
Qed.
Lemma fl_reset_length : forall n t q c p q' c' p' e,
  fl_reset A N rng n t (q, c, p) = ((q', c', p'), e) -> List.length q = 2 ^ n -> List.length q' = 2 ^ n.
Proof.
  intros n t q c p q' c' p' e H Hq. unfold fl_reset in H.
  destruct (mask_eq0 n t) as [m0|]; [|injection H; intros; subst; auto].
  destruct (mask_ne0 n t) as [m1|]; [|injection H; intros; subst; auto].
  destruct (Rltb _ _).
  - destruct (np_put_scalar q m1 C0) as [q1|] eqn:P; simpl in H; injection H; intros; subst; auto.
    rewrite map_length. apply np_put_length in P. congruence.
  - destruct (np_put q m0 (np_get q m1)) as [q1|] eqn:P; simpl in H; [|injection H; intros; subst; auto].
    destruct (np_put_scalar q1 m1 C0) as [q2|] eqn:P2; simpl in H; injection H; intros; subst; auto.
    rewrite map_length. apply np_put_length in P. apply np_put_length in P2. congruence.
Qed.

Lemma collapse_csim : forall (step : nat -> Z -> carr * list nat * nat -> (carr * list nat * nat) * option exn) n tg a b,
  (forall t (q : carr) (c : list nat) (p : nat) q' c' p' e, step n t (q, c, p) = ((q', c', p'), e) -> List.length q = 2 ^ n -> List.length q' = 2 ^ n) ->
  csim n a b -> rsim n (x_shots a) (x_shots b) (np_collapse step tg a) (np_collapse step tg b).
Proof.
  intros step n tg a b Hs (Ha & Hb & Hq & Hc & Hp & L1 & L2 & L3).
  unfold np_collapse. rewrite Ha, Hb, <- Hq, <- Hc, <- Hp.
  destruct (loop_state (yields (slicing tg (Z.of_nat n))) (step n) (x_qubits a, x_cregs a, x_pos a)) as [[[q c] p] e] eqn:E.
  destruct e; simpl; auto. destruct (raised (slicing tg (Z.of_nat n))); simpl; auto.
  repeat split; simpl; auto. eapply (loop_state_length n (step n)); [exact Hs|exact E|auto].
Qed.
Lemma single_csim : forall g n a b, csim n a b -> rsim n (x_shots a) (x_shots b) (single g a) (single g b).
Proof.
  intros g n a b H. destruct (unitary g) eqn:U.
  - rewrite !fl_single_lift by auto. destruct H as (Ha & Hb & Hq & Hc & Hp & L1 & L2 & L3).
    rewrite Ha, Hb, <- Hq.
    pose proof (fl_single_bsim recursion_limit g n (x_qubits a) (x_buf a) (x_buf b) L1 L2 L3) as Q.
    destruct (fl_single A recursion_limit n g (x_qubits a, x_buf a)) as [[q1 b1]|e].
    + destruct Q as [M1 [M2 [b1' [-> M3]]]]. simpl. repeat split; auto.
    + rewrite Q. simpl. auto.
  - destruct g; try discriminate; cbn [fl_run_single fl_action recursion_limit];
    apply collapse_csim; auto; intros; eauto using fl_measure_length, fl_reset_length.
Qed.
Lemma list_csim : forall gs n a b, csim n a b -> rsim n (x_shots a) (x_shots b) (run_list single gs a) (run_list single gs b).
Proof.
  induction gs as [|g gs IH]; intros n a b H; cbn [run_list]; [simpl; auto|].
  pose proof (single_csim g n a b H) as Q.
  destruct (single g a) as [a'|], (single g b) as [b'|]; simpl in Q; try contradiction; auto.
  destruct Q as (Q & <- & <-). apply IH; auto.
Qed.
Lemma fl_collapse_save : forall g ctx ctx', unitary g = false -> single g ctx = SOk ctx' -> x_save ctx' = false.
Proof.
  intros g ctx ctx' U H. destruct g; try discriminate; cbn [fl_run_single fl_action recursion_limit] in H; unfold np_collapse in H;
  destruct (loop_state _ _ _) as [[[q c] p] []]; try discriminate; destruct (raised _); try discriminate;
  injection H; intros <-; reflexivity.
Qed.

(** ** The cache *)
Section Gates.
Variable n : nat.
Variable gs : list gate.
Notation many := (fl_list (fl_single A recursion_limit n)).
Definition prefix_state (k : nat) (c : carr) : Prop :=
  forallb unitary (firstn k gs) = true /\ exists bb, many (firstn k gs) (basis0 n, zeros n) = Ok (c, bb).
Lemma fl_list_app : forall (f : gate -> bufs -> res bufs) l1 l2 s, fl_list f (l1 ++ l2) s = let* s := fl_list f l1 s in fl_list f l2 s.
Proof. intros f l1. induction l1 as [|g l1 IH]; intros l2 s; cbn [fl_list List.app]; [reflexivity|]. destruct (f g s); cbn [bind]; auto. Qed.
Lemma fl_single_measure : forall fuel g s, unitary g = false -> exists e, fl_single A fuel n g s = Err e.
Proof. intros fuel g s U. destruct g; try discriminate; destruct fuel; cbn; eauto. Qed.
Lemma many_unitary : forall l s s', many l s = Ok s' -> forallb unitary l = true.
Proof.
  induction l as [|g l IH]; intros s s' H; auto. cbn [fl_list] in H. cbn [forallb].
  destruct (unitary g) eqn:U; [|destruct (fl_single_measure recursion_limit g s U) as [e E]; rewrite E in H; discriminate].
  destruct (fl_single A recursion_limit n g s) as [s1|]; [|discriminate]. cbn [bind] in H. exact (IH _ _ H).
Qed.
Lemma prefix_run : forall k c, prefix_state k c <-> fl_run A (firstn k gs) n = Ok c.
Proof.
  intros k c. unfold prefix_state, fl_run. split.
  - intros [_ [bb E]]. rewrite E. reflexivity.
  - intros H. destruct (many (firstn k gs) (basis0 n, zeros n)) as [[q bb]|] eqn:E; [|discriminate]. cbn in H. injection H as <-.
    split; [eapply many_unitary; eauto|eauto].
Qed.
Lemma many_bsim : forall l, bsim n (many l).
Proof. intros. apply fl_list_bsim. intros. apply fl_single_bsim. Qed.
Lemma prefix_length : forall k c, prefix_state k c -> List.length c = 2 ^ n.
Proof.
  intros k c [_ [bb E]]. pose proof (many_bsim (firstn k gs) (basis0 n) (zeros n) (zeros n) (basis0_length n) (zeros_length n) (zeros_length n)) as Q. rewrite E in Q. tauto.
Qed.
Lemma many_lift : forall l ctx, forallb unitary l = true -> x_n ctx = n -> run_list single l ctx = lift ctx (many l (x_qubits ctx, x_buf ctx)).
Proof.
  induction l as [|g l IH]; intros ctx U Hn; cbn [run_list fl_list].
  - simpl. rewrite set_bufs_id. reflexivity.
  - cbn [forallb] in U. apply andb_true_iff in U. destruct U as [Ug U].
    rewrite fl_single_lift by auto. rewrite Hn.
    destruct (fl_single A recursion_limit n g (x_qubits ctx, x_buf ctx)) as [[q b]|e]; cbn [lift bind]; [|reflexivity].
    rewrite IH by auto. unfold set_bufs at 2 3. cbn [x_n x_qubits x_buf fst snd].
    destruct (many l (q, b)); reflexivity.
Qed.
Definition bcached (b : backend) : Prop := exists k, k <= List.length gs /\ b_idx b = (Z.of_nat k - 1)%Z /\
  prefix_state k (match b_cache b with Some q => q | None => basis0 n end).
Lemma bcached_iff : forall b, bcached b <-> np_cached A n gs b.
Proof. intros b. unfold bcached, np_cached. split; intros (k & H1 & H2 & H3); exists k; split; auto; split; auto; apply prefix_run; auto. Qed.

Lemma fl_gates_spec : forall rest k ctx b, rest = skipn k gs -> x_n ctx = n -> List.length (x_qubits ctx) = 2 ^ n ->
  List.length (x_buf ctx) = 2 ^ n -> k <= List.length gs -> bcached b ->
  (x_save ctx = true -> b_idx b = (Z.of_nat k - 1)%Z /\ prefix_state k (x_qubits ctx)) ->
  fst (fl_run_gates A N rng rest ctx b) = run_list single rest ctx /\ bcached (snd (fl_run_gates A N rng rest ctx b)).
Proof.
  induction rest as [|g rest IH]; intros k ctx b Hr Hn Hq Hb Hk Hok Hsave; cbn [fl_run_gates run_list].
  - simpl. auto.
  - symmetry in Hr. destruct (skipn_cons_firstn _ _ _ _ _ Hr) as [F1 [F2 F3]].
    destruct (single g ctx) as [ctx'|e p] eqn:E; [|simpl; auto].
    assert (Q : csim n ctx' ctx').
    { pose proof (single_csim g n ctx ctx) as Q. rewrite E in Q. apply Q. repeat split; auto. }
    destruct Q as (Hn' & _ & _ & _ & _ & Hq' & Hb' & _).
    destruct (x_save ctx') eqn:Es.
    + assert (U : unitary g = true).
      { destruct (unitary g) eqn:U; auto. rewrite (fl_collapse_save _ _ _ U E) in Es. discriminate. }
      rewrite fl_single_lift in E by auto. rewrite Hn in E.
      destruct (fl_single A recursion_limit n g (x_qubits ctx, x_buf ctx)) as [[q1 b1]|] eqn:Eu; [|discriminate].
      simpl in E. injection E; intros <-. clear E. simpl in Es.
      destruct (Hsave Es) as [Hidx [Hpu [bb Hpf]]].
      assert (PS : prefix_state (S k) q1).
      { unfold prefix_state. rewrite F1. split.
        - rewrite forallb_app, Hpu. simpl. rewrite U. reflexivity.
        - rewrite fl_list_app, Hpf. cbn [bind fl_list].
          assert (Lbb : List.length bb = 2 ^ n).
          { pose proof (many_bsim (firstn k gs) (basis0 n) (zeros n) (zeros n) (basis0_length n) (zeros_length n) (zeros_length n)) as Q.
            rewrite Hpf in Q. tauto. }
          pose proof (fl_single_bsim recursion_limit g n (x_qubits ctx) (x_buf ctx) bb Hq Hb Lbb) as Q.
          rewrite Eu in Q. destruct Q as [_ [_ [b1' [-> _]]]]. exists b1'. reflexivity. }
      apply IH with (k := S k); auto.
      * exists (S k). cbn [b_idx b_cache x_qubits set_bufs fst]. split; [auto|]. split; [lia|exact PS].
      * intros _. cbn [b_idx x_qubits set_bufs fst]. split; [lia|exact PS].
    + apply IH with (k := S k); auto. congruence.
Qed.

(** one shot from the cache and from the start *)
Lemma fl_one_shot : forall ctx b, x_n ctx = n -> List.length (x_buf ctx) = 2 ^ n -> bcached b ->
  rsim n (x_shots ctx) [] (fst (fl_run_gates A N rng (skipn (Z.to_nat (b_idx b + 1)) gs) (prepare ctx (b_cache b)) b)) (fl_shot A N rng gs n (x_pos ctx)) /\
  bcached (snd (fl_run_gates A N rng (skipn (Z.to_nat (b_idx b + 1)) gs) (prepare ctx (b_cache b)) b)).
Proof.
  intros ctx b Hn Hb Hok. pose proof Hok as (k & Hk & Hidx & PS).
  set (q := match b_cache b with Some c => c | None => basis0 n end) in *.
  assert (Hpa : x_qubits (prepare ctx (b_cache b)) = q) by (unfold prepare, q; rewrite Hn; reflexivity).
  pose proof (prefix_length k q PS) as Lq.
  replace (Z.to_nat (b_idx b + 1)) with k by lia.
  destruct (fl_gates_spec (skipn k gs) k (prepare ctx (b_cache b)) b eq_refl) as [E1 E2]; auto.
  { rewrite Hpa. auto. } { rewrite Hpa. auto. }
  split; [|exact E2]. rewrite E1. unfold fl_shot.
  rewrite <- (firstn_skipn k gs) at 2. rewrite run_list_app. destruct PS as [PU [bb PF]].
  rewrite (many_lift (firstn k gs) (prepare (new_ctx n (x_pos ctx)) None) PU eq_refl).
  change (x_qubits (prepare (new_ctx n (x_pos ctx)) None)) with (basis0 n). change (x_buf (prepare (new_ctx n (x_pos ctx)) None)) with (zeros n).
  rewrite PF. cbn [lift].
  apply (list_csim (skipn k gs) n (prepare ctx (b_cache b)) (set_bufs (prepare (new_ctx n (x_pos ctx)) None) (q, bb))).
  unfold csim. split; [exact Hn|]. split; [reflexivity|]. split; [exact Hpa|]. split; [unfold prepare, set_bufs; cbn [x_cregs new_ctx x_n]; rewrite Hn; reflexivity|].
  split; [reflexivity|]. split; [rewrite Hpa; exact Lq|]. split; [exact Hb|].
  pose proof (many_bsim (firstn k gs) (basis0 n) (zeros n) (zeros n) (basis0_length n) (zeros_length n) (zeros_length n)) as Q. rewrite PF in Q. cbn. tauto.
Qed.

(** the recorded values of a shot are those of all qubits *)
Lemma list_set_length : forall T (l : list T) i v l', list_set l i v = Ok l' -> List.length l' = List.length l.
Proof.
  intros T l. induction l as [|x l IH]; intros i v l' H; [destruct i; discriminate|]. destruct i as [|i]; cbn in H.
  - injection H as <-. reflexivity.
  - destruct (list_set l i v) as [l1|] eqn:E; [|discriminate]. cbn in H. injection H as <-. cbn. rewrite (IH _ _ _ E). reflexivity.
Qed.
Lemma loop_cregs : forall (step : Z -> carr * list nat * nat -> (carr * list nat * nat) * option exn) l q c p q' c' p' e,
  (forall t (q : carr) (c : list nat) (p : nat) q' c' p' e, step t (q, c, p) = ((q', c', p'), e) -> List.length c' = List.length c) ->
  loop_state l step (q, c, p) = ((q', c', p'), e) -> List.length c' = List.length c.
Proof.
  induction l as [|t l IH]; intros q c p q' c' p' e Hs H; simpl in H.
  - injection H; intros; subst; auto.
  - destruct (step t (q, c, p)) as [[[q1 c1] p1] [e1|]] eqn:E.
    + injection H; intros; subst. eapply Hs; eauto.
    + rewrite (IH _ _ _ _ _ _ _ Hs H). eapply Hs; eauto.
Qed.
Lemma fl_measure_cregs : forall n t q c p q' c' p' e, fl_measure A N rng n t (q, c, p) = ((q', c', p'), e) -> List.length c' = List.length c.
Proof.
  intros n' t q c p q' c' p' e H. unfold fl_measure in H.
  destruct (mask_eq0 n' t) as [m0|]; [|injection H; intros; subst; auto].
  destruct (mask_ne0 n' t) as [m1|]; [|injection H; intros; subst; auto].
  destruct (Rltb _ _); (destruct (np_put_scalar q _ C0) as [q1|]; simpl in H; [|injection H; intros; subst; auto]);
    (destruct (list_set c (Z.to_nat t) _) as [c1|] eqn:E; simpl in H; injection H; intros; subst; auto; eapply list_set_length; eauto).
Qed.
Lemma fl_reset_cregs : forall n t q c p q' c' p' e, fl_reset A N rng n t (q, c, p) = ((q', c', p'), e) -> List.length c' = List.length c.
Proof.
  intros n' t q c p q' c' p' e H. unfold fl_reset in H.
  destruct (mask_eq0 n' t) as [m0|]; [|injection H; intros; subst; auto].
  destruct (mask_ne0 n' t) as [m1|]; [|injection H; intros; subst; auto].
  match type of H with (match ?r with Ok _ => _ | Err _ => _ end) = _ => destruct r end; injection H; intros; subst; auto.
Qed.
Lemma collapse_cregs : forall (step : nat -> Z -> carr * list nat * nat -> (carr * list nat * nat) * option exn) tg ctx ctx',
  (forall n t (q : carr) (c : list nat) (p : nat) q' c' p' e, step n t (q, c, p) = ((q', c', p'), e) -> List.length c' = List.length c) ->
  np_collapse step tg ctx = SOk ctx' -> List.length (x_cregs ctx') = List.length (x_cregs ctx).
Proof.
  intros step tg ctx ctx' Hs H. unfold np_collapse in H. destruct (loop_state _ _ _) as [[[q c] p] e] eqn:E.
  destruct e; [discriminate|]. destruct (raised _); [discriminate|]. injection H as <-. cbn [x_cregs].
  eapply (loop_cregs (step (x_n ctx))); [|exact E]. intros; eapply Hs; eauto.
Qed.
Lemma single_cregs : forall g ctx ctx', single g ctx = SOk ctx' -> List.length (x_cregs ctx') = List.length (x_cregs ctx).
Proof.
  intros g ctx ctx' H. destruct (unitary g) eqn:U.
  - rewrite fl_single_lift in H by auto. destruct (fl_single A recursion_limit (x_n ctx) g (x_qubits ctx, x_buf ctx)); [|discriminate]. cbn in H. injection H as <-. reflexivity.
  - destruct g; try discriminate; cbn [fl_run_single fl_action recursion_limit] in H; (eapply collapse_cregs; [|exact H]); intros; eauto using fl_measure_cregs, fl_reset_cregs.
Qed.
Lemma list_cregs : forall l ctx ctx', run_list single l ctx = SOk ctx' -> List.length (x_cregs ctx') = List.length (x_cregs ctx).
Proof.
  induction l as [|g l IH]; intros ctx ctx' H; cbn [run_list] in H; [injection H as <-; auto|].
  destruct (single g ctx) as [c1|] eqn:E; [|discriminate]. rewrite (IH _ _ H). apply (single_cregs g). exact E.
Qed.

Lemma fl_shots_spec : (0 < n) -> forall m ctx b, x_n ctx = n -> List.length (x_buf ctx) = 2 ^ n -> bcached b ->
  match repeated (fun p => np_result (fl_shot A N rng gs n p)) m (x_pos ctx) (x_qubits ctx), fl_shots A N rng m gs ctx b with
  | inl (rs, q, p), (SOk ctx', b') => bcached b' /\ x_qubits ctx' = q /\ x_pos ctx' = p /\ x_shots ctx' = tally_list (x_shots ctx) rs
  | inr (e, p), (SErr e' p', b') => bcached b' /\ e = e' /\ p = p'
  | _, _ => False
  end.
Proof.
  intros Hn0 m. induction m as [|m IH]; intros ctx b Hn Hb Hok; cbn [repeated fl_shots].
  - auto.
  - destruct (fl_one_shot ctx b Hn Hb Hok) as [R1 R2]. cbv zeta.
    destruct (fl_run_gates A N rng (skipn (Z.to_nat (b_idx b + 1)) gs) (prepare ctx (b_cache b)) b) as [r b'] eqn:E. cbn [fst snd] in R1, R2.
    destruct (fl_shot A N rng gs n (x_pos ctx)) as [f|e p] eqn:F; destruct r as [c1|e1 p1]; cbn [rsim] in R1; try contradiction; cbn [np_result].
    2:{ destruct R1 as [-> ->]. auto. }
    destruct R1 as ((Ha & Hbn & Hq & Hc & Hp & L1 & L2 & L3) & Sh & _).
    assert (CL : List.length (x_cregs f) = n).
    { unfold fl_shot in F. apply list_cregs in F. rewrite F. cbn. apply repeat_length. }
    assert (ST : match x_cregs c1 with [] => c1 | _ => store_shot c1 end = store_shot c1).
    { destruct (x_cregs c1) as [|v w] eqn:EE; auto. rewrite <- Hc in CL. cbn in CL. lia. }
    rewrite ST. specialize (IH (store_shot c1) b' Ha L2 R2). change (x_pos (store_shot c1)) with (x_pos c1) in IH. change (x_qubits (store_shot c1)) with (x_qubits c1) in IH. rewrite Hp, Hq in IH.
    destruct (repeated _ m (x_pos f) (x_qubits f)) as [[[rs q] p]|[e p]]; destruct (fl_shots A N rng m gs (store_shot c1) b') as [[c2|e2 p2] b2]; try contradiction; auto.
    destruct IH as (K1 & K2 & K3 & K4). split; auto. split; auto. split; auto. rewrite K4. unfold store_shot. cbn [x_shots]. rewrite Sh, Hc. reflexivity.
Qed.
Lemma bcached_new : bcached new_backend.
Proof. exists 0. cbn. split; [lia|]. split; [lia|]. split; [reflexivity|]. exists (zeros n). reflexivity. Qed.
Lemma bcached_clear : forall b, bcached b -> bcached (clear_cache_if_invalid b n).
Proof.
  intros b H. unfold clear_cache_if_invalid. destruct (b_cache b) as [c|]; [|apply bcached_new].
  destruct (Nat.eqb_spec (List.length c) (2 ^ n)); [auto|apply bcached_new].
Qed.
Lemma fl_run_shots : forall glob b m returns ig pos, 0 < n -> bcached b -> In returns ["statevector"; "shots"; "statevector_and_shots"]%string ->
  let r := fl_np_run A N glob rng b gs n (RunArgs (Some (Z.of_nat m)) (Some returns) ig) pos in
  runs_as (fun p => np_result (fl_shot A N rng gs n p)) n m pos returns (if ig then glob else fun q => q) (fst (fst r)) (snd r) /\ bcached (snd (fst r)).
Proof.
  intros glob b m returns ig pos Hn Hok Hr. cbv zeta. unfold fl_np_run.
  assert (HP : parse_run_args (RunArgs (Some (Z.of_nat m)) (Some returns) ig) = Ok (Z.of_nat m, returns, ig)).
  { unfold parse_run_args. cbn [a_returns a_shots a_ignore_global]. destruct Hr as [<-|[<-|[<-|[]]]]; reflexivity. }
  rewrite HP. cbv zeta. rewrite Nat2Z.id.
  pose proof (fl_shots_spec Hn m (new_ctx n pos) (clear_cache_if_invalid b n) eq_refl (zeros_length n) (bcached_clear b Hok)) as Q.
  change (x_pos (new_ctx n pos)) with pos in Q. change (x_qubits (new_ctx n pos)) with (zeros n) in Q. change (x_shots (new_ctx n pos)) with (@nil (list nat * nat)) in Q.
  unfold runs_as. destruct (repeated _ m pos (zeros n)) as [[[rs q] p]|[e p]]; destruct (fl_shots A N rng m gs (new_ctx n pos) (clear_cache_if_invalid b n)) as [[c2|e2 p2] b2]; try contradiction.
  - destruct Q as (K1 & K2 & K3 & K4). destruct (tally_list_spec rs []) as [T _].
    assert (CT : counts (x_shots c2) rs) by (intros k; rewrite K4, T; reflexivity).
    destruct ig; cbn [fst snd].
    + split; [|exact K1]. split; [exact K3|]. exists (x_shots c2). split; [exact CT|].
      destruct Hr as [<-|[<-|[<-|[]]]]; [left|right; left|right; right]; (split; [reflexivity|]); cbn; rewrite ?K2; reflexivity.
    + split; [|exact K1]. split; [exact K3|]. exists (x_shots c2). split; [exact CT|].
      destruct Hr as [<-|[<-|[<-|[]]]]; [left|right; left|right; right]; (split; [reflexivity|]); cbn; rewrite ?K2; reflexivity.
  - destruct Q as (K1 & -> & ->). auto.
Qed.
End Gates.
End Arith.

Lemma np_run_shots : forall A N glob rng n gs b m returns ig pos, 0 < n -> np_cached A n gs b -> In returns ["statevector"; "shots"; "statevector_and_shots"]%string ->
  let r := fl_np_run A N glob rng b gs n (RunArgs (Some (Z.of_nat m)) (Some returns) ig) pos in
  runs_as (fun p => np_result (fl_shot A N rng gs n p)) n m pos returns (if ig then glob else fun q => q) (fst (fst r)) (snd r) /\ np_cached A n gs (snd (fst r)).
Proof.
  intros A N glob rng n gs b m returns ig pos Hn Hok Hr. cbv zeta. rewrite <- !bcached_iff in *.
  exact (fl_run_shots A N rng n gs glob b m returns ig pos Hn Hok Hr).
Qed.
Lemma np_cached_new : forall A n gs, np_cached A n gs new_backend.
Proof. intros. apply bcached_iff. apply bcached_new. Qed.
Lemma np_cached_more : forall A n gs more b, np_cached A n gs b -> np_cached A n (gs ++ more) b.
Proof.
  intros A n gs more b (k & K1 & K2 & K3). exists k. split; [rewrite app_length; lia|]. split; auto.
  rewrite firstn_app. replace (k - List.length gs) with 0 by lia. cbn [firstn]. rewrite app_nil_r. exact K3.
Qed.
