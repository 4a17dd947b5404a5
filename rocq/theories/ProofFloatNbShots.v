(** Rounded runs of the numba backend with any number of shots: the cache changes nothing. *)
From Coq Require Import List Arith NArith ZArith Bool String Reals Lia Lra.
Import ListNotations.
From Verif Require Import Base Cplx Bits ModelTargets ModelGate ModelNumpy ModelNumba ModelFloat ModelFloatMeasure ModelFloatNumba ModelFloatNumbaMeasure ModelFloatRun SpecTargets SpecQuantum
  SpecCircuit SpecMeasure SpecRun ProofTargets ProofArray ProofNumpy ProofCache ProofBorn ProofFloatMeasRun ProofFloatNumbaTop ProofFiniteNbRun SpecFloatRun ProofFloatShots.

Section Compiled.
Variable c : compiled.
Variable psum : carr -> R.
Variable P : arith.
Variable rng : nat -> R.
Notation fgate := (fn_gate c psum P rng).
Notation single := (fb_single c psum P rng).

(** ** A gate on the state, the classical bits and the draws *)
Lemma fb_gate_same : forall n fuel g ctx b, x_n ctx = n -> same_run n (single fuel g ctx b) (fgate fuel n g (view ctx)).
Proof.
  intros n. induction fuel as [|fuel IH]; intros g ctx b E; subst n.
  - destruct g as [k tg|k tg|k tg|tg|tg]; cbn [fb_single fn_gate]; unfold fb_action;
      try (apply collapse_same; reflexivity);
      (destruct (fn_unitary c P _ (x_n ctx)) as [f|]; unfold view; cbn [same_run]; eauto; destruct (f (x_qubits ctx)); cbn [same_run]; eauto).
  - destruct g as [k tg|k tg|k tg|tg|tg]; cbn [fb_single fn_gate]; unfold fb_action;
      try (apply collapse_same; reflexivity);
      (destruct (fn_unitary c P _ (x_n ctx)) as [f|]; [unfold view; cbn [same_run]; eauto; destruct (f (x_qubits ctx)); cbn [same_run]; eauto|]);
      (destruct (fl_fallback P _ (Z.of_nat (x_n ctx))) as [gs|e]; [|unfold view; cbn [same_run]; eauto]); apply list_same; auto.
Qed.
Lemma fb_gates_same : forall n gs ctx b i, x_n ctx = n ->
  same_run n (fst (fb_gates c psum P rng gs ctx b i)) (fn_list (fgate recursion_limit n) gs (view ctx)).
Proof.
  intros n gs. induction gs as [|g gs IH]; intros ctx b i E; cbn [fb_gates fn_list].
  - cbn [fst same_run]. auto.
  - pose proof (fb_gate_same n recursion_limit g ctx b E) as S1. destruct (single recursion_limit g ctx b) as [ctx' b'|e p b']; cbn [same_run] in S1.
    + destruct S1 as [-> E']. apply IH; auto.
    + destruct S1 as (a & cr & ->). cbn [fst same_run]. eauto.
Qed.
(** ** What a gate leaves of the rest of the context *)
Definition leaves (g : gate) (ctx : npctx) (b : backend) (r : nres) : Prop :=
  match r with
  | NOk ctx' b' => x_shots ctx' = x_shots ctx /\ List.length (x_cregs ctx') = List.length (x_cregs ctx) /\
      if unitary g then x_save ctx' = x_save ctx /\ b' = b
      else x_save ctx' = false /\ b' = (if x_save ctx then Backend (Some (x_qubits ctx)) (b_idx b) else b)
  | NErr _ _ _ => True
  end.
Lemma fn_measure_cregs : forall n t q c0 p q' c' p' e, fn_measure c psum rng n t (q, c0, p) = ((q', c', p'), e) -> List.length c' = List.length c0.
Proof.
  intros n t q c0 p q' c' p' e H. unfold fn_measure in H.
  destruct (in_reg n t); [|injection H; intros; subst; auto].
  destruct (fn_p0calc psum q (Z.to_N t) (N.of_nat n)) as [p0|]; cbn [bind] in H; [|injection H; intros; subst; auto].
  destruct (Rltb _ _); (destruct (fn_sqrt_inv c _) as [s|]; cbn [bind] in H; [|injection H; intros; subst; auto]);
    (destruct (run_kernel _ q) as [q1|]; cbn [bind] in H; [|injection H; intros; subst; auto]);
    (destruct (list_set c0 (Z.to_nat t) _) as [c1|] eqn:E; cbn [bind] in H; injection H; intros; subst; auto; eapply list_set_length; eauto).
Qed.
Lemma fn_reset_cregs : forall n t q c0 p q' c' p' e, fn_reset c psum rng n t (q, c0, p) = ((q', c', p'), e) -> List.length c' = List.length c0.
Proof.
  intros n t q c0 p q' c' p' e H. unfold fn_reset in H.
  match type of H with (match ?r with Ok _ => _ | Err _ => _ end) = _ => destruct r end; injection H; intros; subst; auto.
Qed.
Lemma collapse_leaves : forall (step : nat -> Z -> carr * list nat * nat -> (carr * list nat * nat) * option exn) g tg ctx b, unitary g = false ->
  (forall n t (q : carr) (c : list nat) (p : nat) q' c' p' e, step n t (q, c, p) = ((q', c', p'), e) -> List.length c' = List.length c) ->
  leaves g ctx b (nb_collapse step tg ctx b).
Proof.
  intros step g tg ctx b U Hs. unfold nb_collapse. cbv zeta. destruct (loop_state _ _ _) as [[[q c0] p] [e|]] eqn:E; cbn [leaves]; auto.
  destruct (raised _); cbn [leaves]; auto. rewrite U. cbn [x_shots x_cregs x_save]. split; auto. split; auto.
  eapply (loop_cregs (step (x_n ctx))); [|exact E]. intros; eapply Hs; eauto.
Qed.
Lemma gate_leaves : forall fuel g ctx b, leaves g ctx b (single fuel g ctx b).
Proof.
  induction fuel as [|fuel IH]; intros g ctx b.
  - destruct g as [k tg|k tg|k tg|tg|tg]; cbn [fb_single]; unfold fb_action;
      try (apply collapse_leaves; [reflexivity|]; intros; eauto using fn_measure_cregs, fn_reset_cregs; fail);
      (destruct (fn_unitary c P _ (x_n ctx)) as [f|]; cbn [leaves]; auto; destruct (f (x_qubits ctx)); cbn [leaves unitary]; auto).
  - assert (L : forall gs ctx b, forallb unitary gs = true -> match nb_run_list (single fuel) gs ctx b with
        | NOk ctx' b' => x_shots ctx' = x_shots ctx /\ List.length (x_cregs ctx') = List.length (x_cregs ctx) /\ x_save ctx' = x_save ctx /\ b' = b | NErr _ _ _ => True end).
    { clear - IH. induction gs as [|g gs IHg]; intros ctx b U; cbn [nb_run_list]; auto. cbn [forallb] in U. apply andb_true_iff in U. destruct U as [U1 U2].
      pose proof (IH g ctx b) as Q. destruct (single fuel g ctx b) as [ctx1 b1|]; cbn [leaves] in Q; auto. rewrite U1 in Q. destruct Q as (Q1 & Q2 & Q3 & ->).
      specialize (IHg ctx1 b U2). destruct (nb_run_list (single fuel) gs ctx1 b); auto. destruct IHg as (K1 & K2 & K3 & K4). repeat split; congruence. }
    destruct g as [k tg|k tg|k tg|tg|tg]; cbn [fb_single]; unfold fb_action;
      try (apply collapse_leaves; [reflexivity|]; intros; eauto using fn_measure_cregs, fn_reset_cregs; fail);
      (destruct (fn_unitary c P _ (x_n ctx)) as [f|]; [cbn [leaves]; auto; destruct (f (x_qubits ctx)); cbn [leaves unitary]; auto|]);
      (destruct (fl_fallback P _ (Z.of_nat (x_n ctx))) as [gs|e] eqn:F; [|exact I]);
      (pose proof (L gs ctx b (fl_fallback_unitary P _ _ _ F)) as Q; destruct (nb_run_list (single fuel) gs ctx b); cbn [leaves unitary]; auto).
Qed.

(** ** Gates other than measurement and reset *)
Lemma fn_gate_err : forall n fuel g a e cr pos, unitary g = true -> fn_single c P fuel n g a = Err e -> exists s, fgate fuel n g (a, cr, pos) = (s, Some e).
Proof.
  intros n. induction fuel as [|fuel IH]; intros g a e cr pos U H; rewrite fn_single_eq in H.
  - destruct g as [k tg|k tg|k tg|tg|tg]; try discriminate U; cbn [fn_gate]; (destruct (fn_unitary c P _ n); [rewrite H; eauto|injection H as <-; eauto]).
  - assert (L : forall gs a e, forallb unitary gs = true -> for_list gs (fn_single c P fuel n) a = Err e -> exists s, fn_list (fgate fuel n) gs (a, cr, pos) = (s, Some e)).
    { clear - IH. induction gs as [|g gs IHg]; intros a e U H; cbn [for_list fn_list] in *; [discriminate|].
      cbn [forallb] in U. apply andb_true_iff in U. destruct U as [U1 U2]. destruct (fn_single c P fuel n g a) as [a1|e1] eqn:E; cbn [bind] in H.
      - rewrite (fn_gate_unitary c psum P rng n fuel g a a1 cr pos U1 E). apply IHg; auto.
      - injection H as ->. destruct (IH g a e cr pos U1 E) as [s ->]. eauto. }
    destruct g as [k tg|k tg|k tg|tg|tg]; try discriminate U; cbn [fn_gate]; (destruct (fn_unitary c P _ n); [rewrite H; eauto|]);
      (destruct (fl_fallback P _ (Z.of_nat n)) as [gs|e1] eqn:F; cbn [bind] in H; [|injection H as ->; eauto]); apply L; auto; eapply fl_fallback_unitary; eauto.
Qed.
Lemma fn_gate_ok : forall n g a cr pos s, unitary g = true -> fgate recursion_limit n g (a, cr, pos) = (s, None) ->
  exists a', fn_single c P recursion_limit n g a = Ok a' /\ s = (a', cr, pos).
Proof.
  intros n g a cr pos s U H. destruct (fn_single c P recursion_limit n g a) as [a'|e] eqn:E.
  - rewrite (fn_gate_unitary c psum P rng n recursion_limit g a a' cr pos U E) in H. injection H as <-. eauto.
  - destruct (fn_gate_err n recursion_limit g a e cr pos U E) as [s' E']. rewrite E' in H. discriminate.
Qed.
Lemma fn_single_measure : forall n fuel g a, unitary g = false -> exists e, fn_single c P fuel n g a = Err e.
Proof. intros n fuel g a U. destruct g; try discriminate; destruct fuel; cbn; eauto. Qed.
Lemma fn_many : forall n l a a' cr pos, for_list l (fn_single c P recursion_limit n) a = Ok a' -> fn_list (fgate recursion_limit n) l (a, cr, pos) = ((a', cr, pos), None).
Proof.
  induction l as [|g l IH]; intros a a' cr pos H; cbn [for_list fn_list] in *; [injection H as ->; reflexivity|].
  destruct (unitary g) eqn:U; [|destruct (fn_single_measure n recursion_limit g a U) as [e E]; rewrite E in H; discriminate].
  destruct (fn_single c P recursion_limit n g a) as [a1|] eqn:E; cbn [bind] in H; [|discriminate].
  rewrite (fn_gate_unitary c psum P rng n recursion_limit g a a1 cr pos U E). apply IH. exact H.
Qed.
Lemma fn_list_app : forall (f : gate -> fnctx -> fnctx * option exn) l1 l2 s, fn_list f (l1 ++ l2) s = match fn_list f l1 s with (s', None) => fn_list f l2 s' | (s', Some e) => (s', Some e) end.
Proof. intros f l1. induction l1 as [|g l1 IH]; intros l2 s; cbn [fn_list List.app]; auto. destruct (f g s) as [s' [e|]]; auto. Qed.
Lemma for_list_snoc : forall T U (f : T -> U -> res U) l g s, for_list (l ++ [g]) f s = let* s := for_list l f s in f g s.
Proof. intros T U f l. induction l as [|x l IH]; intros g s; cbn [for_list List.app bind]; [destruct (f g s); reflexivity|]. destruct (f x s); cbn [bind]; auto. Qed.

Section Gates.
Variable n : nat.
Variable gs : list gate.
Notation prefix k := (fn_run c P (firstn k gs) n).
Lemma fb_gates_spec : forall rest k ctx b ctx' b' i', rest = skipn k gs -> x_n ctx = n -> k <= List.length gs ->
  (x_save ctx = true -> prefix k = Ok (x_qubits ctx)) ->
  fb_gates c psum P rng rest ctx b (Z.of_nat k - 1) = (NOk ctx' b', i') ->
  x_shots ctx' = x_shots ctx /\ List.length (x_cregs ctx') = List.length (x_cregs ctx) /\
  if x_save ctx
  then exists k', k' <= List.length gs /\ i' = (Z.of_nat k' - 1)%Z /\
    ((x_save ctx' = true /\ b' = b /\ prefix k' = Ok (x_qubits ctx')) \/ (x_save ctx' = false /\ exists q, b' = Backend (Some q) (b_idx b) /\ prefix k' = Ok q))
  else True.
Proof.
  induction rest as [|g rest IH]; intros k ctx b ctx' b' i' Hr Hn Hk Hsv H; cbn [fb_gates] in H.
  - injection H as <- <- <-. split; auto. split; auto. destruct (x_save ctx) eqn:E; auto. exists k. split; auto. split; auto.
  - symmetry in Hr. destruct (skipn_cons_firstn _ _ _ _ _ Hr) as [F1 [F2 F3]].
    pose proof (fb_gate_same n recursion_limit g ctx b Hn) as Q1. pose proof (gate_leaves recursion_limit g ctx b) as Q2.
    destruct (single recursion_limit g ctx b) as [c1 b1|]; [|discriminate]. cbn [same_run leaves] in Q1, Q2. destruct Q1 as [Q1 Hn1]. destruct Q2 as (Sh1 & Cl1 & Q2).
    destruct (x_save c1) eqn:Sv1.
    + destruct (unitary g) eqn:U; [|destruct Q2; discriminate]. destruct Q2 as [Sv ->]. rewrite <- Sv.
      destruct (fn_gate_ok n g _ _ _ _ U Q1) as (a' & E1 & E2). unfold view in E2. injection E2 as E2 _ _.
      assert (PS : prefix (S k) = Ok (x_qubits c1)).
      { unfold fn_run. rewrite F1, for_list_snoc. specialize (Hsv (eq_sym Sv)). unfold fn_run in Hsv. rewrite Hsv. cbn [bind]. rewrite E1, E2. reflexivity. }
      replace (Z.of_nat k - 1 + 1)%Z with (Z.of_nat (S k) - 1)%Z in H by lia.
      destruct (IH (S k) c1 b ctx' b' i' (eq_sym F2) Hn1 F3 (fun _ => PS) H) as (K1 & K2 & K3). rewrite Sv1 in K3. split; [congruence|]. split; [congruence|]. exact K3.
    + (* no longer saved: the rest changes nothing *)
      assert (REST : forall l cx bx i cx' bx' ix', x_save cx = false -> x_n cx = n -> fb_gates c psum P rng l cx bx i = (NOk cx' bx', ix') ->
        x_shots cx' = x_shots cx /\ List.length (x_cregs cx') = List.length (x_cregs cx) /\ x_save cx' = false /\ bx' = bx /\ ix' = i).
      { clear. induction l as [|g l IH]; intros cx bx i cx' bx' ix' Sv Hn H; cbn [fb_gates] in H; [injection H as <- <- <-; auto|].
        pose proof (fb_gate_same n recursion_limit g cx bx Hn) as Q1. pose proof (gate_leaves recursion_limit g cx bx) as Q2.
        destruct (single recursion_limit g cx bx) as [c1 b1|]; [|discriminate]. cbn [same_run leaves] in Q1, Q2. destruct Q1 as [_ Hn1]. destruct Q2 as (Sh & Cl & Q2).
        assert (X : x_save c1 = false /\ b1 = bx) by (rewrite Sv in Q2; destruct (unitary g); destruct Q2; auto). destruct X as [X1 ->]. rewrite X1 in H.
        destruct (IH c1 bx i cx' bx' ix' X1 Hn1 H) as (K1 & K2 & K3 & K4 & K5). repeat split; congruence. }
      destruct (REST rest c1 b1 (Z.of_nat k - 1)%Z ctx' b' i' Sv1 Hn1 H) as (K1 & K2 & K3 & K4 & K5).
      split; [congruence|]. split; [congruence|]. destruct (x_save ctx) eqn:Sv; auto. exists k. split; auto. split; auto.
      destruct (unitary g); [destruct Q2; congruence|]. destruct Q2 as [_ Q2]. right. split; auto. exists (x_qubits ctx). split; [congruence|]. auto.
Qed.
(** without saving the backend stays as it is *)
Lemma fb_gates_unsaved : forall l cx bx i cx' bx' ix', x_save cx = false -> x_n cx = n -> fb_gates c psum P rng l cx bx i = (NOk cx' bx', ix') ->
  x_shots cx' = x_shots cx /\ List.length (x_cregs cx') = List.length (x_cregs cx) /\ x_save cx' = false /\ bx' = bx /\ ix' = i.
Proof.
  induction l as [|g l IH]; intros cx bx i cx' bx' ix' Sv Hn H; cbn [fb_gates] in H; [injection H as <- <- <-; auto|].
  pose proof (fb_gate_same n recursion_limit g cx bx Hn) as Q1. pose proof (gate_leaves recursion_limit g cx bx) as Q2.
  destruct (single recursion_limit g cx bx) as [c1 b1|]; [|discriminate]. cbn [same_run leaves] in Q1, Q2. destruct Q1 as [_ Hn1]. destruct Q2 as (Sh & Cl & Q2).
  assert (X : x_save c1 = false /\ b1 = bx) by (rewrite Sv in Q2; destruct (unitary g); destruct Q2; auto). destruct X as [X1 ->]. rewrite X1 in H.
  destruct (IH c1 bx i cx' bx' ix' X1 Hn1 H) as (K1 & K2 & K3 & K4 & K5). repeat split; congruence.
Qed.

Definition ncached (b : backend) : Prop := exists k, k <= List.length gs /\ b_idx b = (Z.of_nat k - 1)%Z /\ prefix k = Ok (match b_cache b with Some q => q | None => basis0 n end).
(** one shot from the cache and from the start *)
Lemma fb_one_shot : forall ctx b, x_n ctx = n -> ncached b ->
  let r := fb_gates c psum P rng (skipn (Z.to_nat (b_idx b + 1)) gs) (prepare ctx (b_cache b)) b (b_idx b) in
  same_run n (fst r) (fn_shot c psum P rng gs n (x_pos ctx)) /\
  match r with
  | (NOk ctx' b', i) => x_shots ctx' = x_shots ctx /\ List.length (x_cregs ctx') = n /\
      ncached (if (b_idx b' =? i)%Z then b' else Backend (if x_save ctx' then Some (x_qubits ctx') else b_cache b') i)
  | _ => True
  end.
Proof.
  intros ctx b Hn (k & Hk & Hidx & PS). cbv zeta.
  set (q := match b_cache b with Some c => c | None => basis0 n end) in *.
  set (p := prepare ctx (b_cache b)). assert (Hpa : x_qubits p = q) by (unfold p, prepare, q; rewrite Hn; reflexivity).
  assert (Hpn : x_n p = n) by exact Hn. assert (Hps : x_save p = x_save ctx) by reflexivity. assert (Hpc : x_cregs p = repeat 0 n) by (unfold p, prepare; cbn [x_cregs]; rewrite Hn; reflexivity).
  replace (Z.to_nat (b_idx b + 1)) with k by lia.
  pose proof (fb_gates_same n (skipn k gs) p b (b_idx b) Hpn) as SR.
  assert (SH : fn_shot c psum P rng gs n (x_pos ctx) = fn_list (fgate recursion_limit n) (skipn k gs) (view p)).
  { unfold fn_shot. rewrite <- (firstn_skipn k gs) at 1. rewrite fn_list_app. unfold fn_run in PS. rewrite (fn_many n _ _ _ _ _ PS). unfold view. rewrite Hpa, Hpc. reflexivity. }
  rewrite SH. split; [exact SR|].
  destruct (fb_gates c psum P rng (skipn k gs) p b (b_idx b)) as [[ctx' b'|] i] eqn:E; auto.
  destruct (x_save p) eqn:Sv.
  - rewrite Hidx in E.
    destruct (fb_gates_spec (skipn k gs) k p b ctx' b' i eq_refl Hpn Hk) as (K1 & K2 & K3); auto.
    { intros _. rewrite Hpa. exact PS. }
    rewrite Sv in K3. split; [exact K1|]. split; [rewrite K2, Hpc; apply repeat_length|].
    destruct K3 as (k' & Hk' & -> & [(S1 & -> & P1)|(S1 & q' & -> & P1)]); rewrite S1; cbn [b_idx b_cache].
    + destruct (Z.eqb_spec (b_idx b) (Z.of_nat k' - 1)) as [EQ|NE].
      * exists k. auto.
      * exists k'. cbn [b_idx b_cache]. auto.
    + destruct (Z.eqb_spec (b_idx b) (Z.of_nat k' - 1)) as [EQ|NE].
      * exists k'. cbn [b_idx b_cache]. auto.
      * exists k'. cbn [b_idx b_cache]. auto.
  - destruct (fb_gates_unsaved _ _ _ _ _ _ _ Sv Hpn E) as (K1 & K2 & K3 & -> & ->). split; [exact K1|]. split; [rewrite K2, Hpc; apply repeat_length|].
    rewrite Z.eqb_refl. exists k. auto.
Qed.
Lemma fb_shots_spec : 0 < n -> forall m ctx b, x_n ctx = n -> ncached b ->
  match repeated (fun p => nb_result (fn_shot c psum P rng gs n p)) m (x_pos ctx) (x_qubits ctx), fb_shots c psum P rng m gs ctx b with
  | inl (rs, q, p), NOk ctx' b' => ncached b' /\ x_qubits ctx' = q /\ x_pos ctx' = p /\ x_shots ctx' = tally_list (x_shots ctx) rs
  | inr (e, p), NErr e' p' b' => e = e' /\ p = p'
  | _, _ => False
  end.
Proof.
  intros Hn0 m. induction m as [|m IH]; intros ctx b Hn Hok; cbn [repeated fb_shots].
  - auto.
  - destruct (fb_one_shot ctx b Hn Hok) as [R1 R2]. cbv zeta in *.
    destruct (fb_gates c psum P rng (skipn (Z.to_nat (b_idx b + 1)) gs) (prepare ctx (b_cache b)) b (b_idx b)) as [[c1 b1|e1 p1 b1] i] eqn:E; cbn [fst same_run] in R1.
    2:{ destruct R1 as (a & cr & ->). cbn [nb_result]. auto. }
    destruct R1 as [-> Hn1]. destruct R2 as (Sh & CL & NC). unfold view. cbn [nb_result].
    assert (ST : match x_cregs c1 with [] => c1 | _ => store_shot c1 end = store_shot c1).
    { destruct (x_cregs c1) as [|v w] eqn:EE; auto. cbn in CL. lia. }
    rewrite ST. set (b2 := if (b_idx b1 =? i)%Z then b1 else _) in *. specialize (IH (store_shot c1) b2 Hn1 NC).
    change (x_pos (store_shot c1)) with (x_pos c1) in IH. change (x_qubits (store_shot c1)) with (x_qubits c1) in IH.
    destruct (repeated _ m (x_pos c1) (x_qubits c1)) as [[[rs q] p]|[e p]]; destruct (fb_shots c psum P rng m gs (store_shot c1) b2) as [c2 b3|e2 p2 b3]; try contradiction; auto.
    destruct IH as (K1 & K2 & K3 & K4). split; auto. split; auto. split; auto. rewrite K4. unfold store_shot. cbn [x_shots]. rewrite Sh. reflexivity.
Qed.
Lemma ncached_new : ncached new_backend.
Proof. exists 0. cbn. split; [lia|]. split; [lia|]. reflexivity. Qed.
Lemma ncached_clear : forall b, ncached b -> ncached (clear_cache_if_invalid b n).
Proof.
  intros b H. unfold clear_cache_if_invalid. destruct (b_cache b) as [q|]; [|apply ncached_new].
  destruct (Nat.eqb_spec (List.length q) (2 ^ n)); [auto|apply ncached_new].
Qed.
End Gates.
End Compiled.

Lemma nb_run_shots : forall c psum P glob rng n gs b ec m returns ig pos, 0 < n -> (ec = true -> nb_cached c P n gs b) -> In returns ["statevector"; "shots"; "statevector_and_shots"]%string ->
  let r := fb_run c psum P glob rng b gs n (NbArgs (RunArgs (Some (Z.of_nat m)) (Some returns) ig) ec) pos in
  runs_as (fun p => nb_result (fn_shot c psum P rng gs n p)) n m pos returns (if ig then glob else fun q => q) (fst (fst r)) (snd r) /\
  ((exists v, fst (fst r) = Ok v) -> nb_cached c P n gs (snd (fst r))).
Proof.
  intros c psum P glob rng n gs b ec m returns ig pos Hn Hok Hr. cbv zeta. unfold fb_run. cbn [na_args na_enable_cache].
  assert (HP : parse_run_args (RunArgs (Some (Z.of_nat m)) (Some returns) ig) = Ok (Z.of_nat m, returns, ig)).
  { unfold parse_run_args. cbn [a_returns a_shots a_ignore_global]. destruct Hr as [<-|[<-|[<-|[]]]]; reflexivity. }
  rewrite HP. cbv zeta. rewrite Nat2Z.id.
  set (b0 := if ec then clear_cache_if_invalid b n else new_backend).
  assert (B0 : ncached c P n gs b0). { unfold b0. destruct ec; [apply ncached_clear; apply Hok; reflexivity|apply ncached_new]. }
  pose proof (fb_shots_spec c psum P rng n gs Hn m (nb_new_ctx n ec pos) b0 eq_refl B0) as Q.
  change (x_pos (nb_new_ctx n ec pos)) with pos in Q. change (x_qubits (nb_new_ctx n ec pos)) with (zeros n) in Q. change (x_shots (nb_new_ctx n ec pos)) with (@nil (list nat * nat)) in Q.
  unfold runs_as. destruct (repeated _ m pos (zeros n)) as [[[rs q] p]|[e p]]; destruct (fb_shots c psum P rng m gs (nb_new_ctx n ec pos) b0) as [c2 b2|e2 p2 b2]; try contradiction.
  - destruct Q as (K1 & K2 & K3 & K4). destruct (tally_list_spec rs []) as [T _].
    assert (CT : counts (x_shots c2) rs) by (intros k; rewrite K4, T; reflexivity).
    destruct ig; cbn [fst snd].
    + split; [|intros _; exact K1]. split; [exact K3|]. exists (x_shots c2). split; [exact CT|].
      destruct Hr as [<-|[<-|[<-|[]]]]; [left|right; left|right; right]; (split; [reflexivity|]); cbn; rewrite ?K2; reflexivity.
    + split; [|intros _; exact K1]. split; [exact K3|]. exists (x_shots c2). split; [exact CT|].
      destruct Hr as [<-|[<-|[<-|[]]]]; [left|right; left|right; right]; (split; [reflexivity|]); cbn; rewrite ?K2; reflexivity.
  - destruct Q as (-> & ->). cbn [fst snd]. split; auto. intros [v E]. discriminate.
Qed.
Lemma nb_cached_new : forall c P n gs, nb_cached c P n gs new_backend.
Proof. intros. apply ncached_new. Qed.
Lemma nb_cached_more : forall c P n gs more b, nb_cached c P n gs b -> nb_cached c P n (gs ++ more) b.
Proof.
  intros c P n gs more b (k & K1 & K2 & K3). exists k. split; [rewrite app_length; lia|]. split; auto.
  rewrite firstn_app. replace (k - List.length gs) with 0 by lia. cbn [firstn]. rewrite app_nil_r. exact K3.
Qed.
