(** Rounded shots with measurements and resets *)
From Coq Require Import List Arith ZArith Bool Reals Lia Lra Psatz FunctionalExtensionality.
Import ListNotations.
From Verif Require Import Base Cplx Bits ModelTargets ModelGate ModelNumpy ModelFloat ModelFloatMeasure SpecTargets SpecQuantum SpecCircuit SpecMeasure SpecLaw SpecFloat
  SpecFloatMeasure ProofTargets ProofArray ProofNumpy ProofUnitary ProofPauli ProofRun ProofMeasure ProofCache ProofQasmOps ProofFloat ProofFloatOps ProofFloatCoef ProofFloatRun ProofLaw
  ProofFloatMeas.
Local Open Scope R_scope.

(** ** Gates other than measurement and reset *)
Lemma fl_fallback_unitary : forall A g n gs, fl_fallback A g n = Ok gs -> forallb unitary gs = true.
Proof.
  intros A g n gs H.
  assert (FM : forall T (f : T -> list gate) l, (forall a, forallb unitary (f a) = true) -> forallb unitary (flat_map f l) = true).
  { induction l; intros Hf; simpl; auto. rewrite forallb_app, Hf; auto. }
  destruct g as [k tg|k tg|k tg|tg|tg]; try discriminate.
  - destruct k; simpl in H; try discriminate; try (injection H; intros <-; reflexivity);
    destruct (gen_list (slicing tg n)); simpl in H; try discriminate; injection H; intros <-; apply FM; reflexivity.
  - destruct k; simpl in H; try discriminate;
    destruct (qubit_pairs tg n); simpl in H; try discriminate; injection H; intros <-; apply FM; reflexivity.
  - destruct k; simpl in H; try discriminate; destruct (unpack3 tg) as [[[a b] c]|]; simpl in H; try discriminate;
    injection H; intros <-; reflexivity.
Qed.
Lemma fl_action_unitary : forall A N rng g n, unitary g = true ->
  fl_action A N rng g n = match fl_unitary A g n with
    | Some f => Some (fun ctx => lift ctx (f (x_qubits ctx, x_buf ctx)))
    | None => None end.
Proof. intros A N rng g n U. destruct g; try discriminate; reflexivity. Qed.
Lemma fl_single_lift : forall A N rng fuel g ctx, unitary g = true ->
  fl_run_single A N rng fuel g ctx = lift ctx (fl_single A fuel (x_n ctx) g (x_qubits ctx, x_buf ctx)).
Proof.
  intros A N rng. induction fuel as [|fuel IH]; intros g ctx Hu; cbn [fl_run_single fl_single]; rewrite (fl_action_unitary A N rng g _ Hu);
    destruct (fl_unitary A g (x_n ctx)); try reflexivity.
  pose proof (fl_fallback_unitary A g (Z.of_nat (x_n ctx))) as FU.
  destruct (fl_fallback A g (Z.of_nat (x_n ctx))) as [gs|e]; [|reflexivity]. specialize (FU gs eq_refl). cbn [bind].
  clear - FU IH. revert ctx. induction gs as [|g gs IHg]; intros ctx; cbn [run_list fl_list].
  - unfold lift. rewrite set_bufs_id. reflexivity.
  - simpl in FU. apply andb_true_iff in FU. destruct FU as [Hg FU]. rewrite (IH g ctx Hg).
    destruct (fl_single A fuel (x_n ctx) g (x_qubits ctx, x_buf ctx)) as [[q b]|e]; cbn [bind lift]; [|reflexivity].
    rewrite (IHg FU). unfold set_bufs at 2 3 4. cbn [x_n x_qubits x_buf fst snd].
    destruct (fl_list _ gs _); reflexivity.
Qed.

Section Run.
Variable A : arith.
Variable u M : R.
Hypothesis HR : rounds A u.
Hypothesis HM : 3 <= M.
Hypothesis Hs : 1000 * u * M <= 1.
Variable N : carr -> R.
Variable n : nat.
Hypothesis HN : norms N n u.
Variable rng : nat -> R.
Let K := 256 * (u * M).
Lemma u_le : 3000 * u <= 1. Proof. pose proof (u_pos A u HR). nra. Qed.
Lemma K_pos : 0 <= K. Proof. pose proof (u_pos A u HR). unfold K. apply Rmult_le_pos; [lra|]. apply Rmult_le_pos; lra. Qed.
Lemma K_u : 768 * u <= K. Proof. pose proof (u_pos A u HR). unfold K. nra. Qed.

(** ** The invariant: the rounded state is near a multiple of the branch, and the multiple nearly normalises it *)
Variables (D T : nat) (Bf : state).
Let E := cost K T.
Let e1 := 7 * E.
Let Wf := norm2 n Bf.
Hypothesis HW : 0 < Wf.
Hypothesis HD : 4 * (INR D * INR D) * e1 <= Wf.
Lemma E_pos : 0 <= E. Proof. apply cost_pos, K_pos. Qed.
Lemma e1_pos : 0 <= e1. Proof. pose proof E_pos. unfold e1. lra. Qed.
Definition inv (k m : nat) (phi B : state) : Prop :=
  exists c, 0 < c /\ near n phi B c (cost K m) /\ Rabs (c * c * norm2 n B - 1) * norm2 n B <= 2 * INR k * e1.

Lemma near_div : forall s t phi B c e m, 0 < c -> 0 < t -> 0 <= e <= cost K m -> norm2 n B <= 1 -> rel (3 * u) s t -> near n phi B c e ->
  near n (fun x => fl_div A s (phi x)) B (c / t) (cost K (S m)).
Proof.
  intros s t phi B c e m PC PT Pe W R1 H. pose proof (u_pos A u HR) as U. pose proof u_le as UL. pose proof K_u as KU. pose proof K_pos as KP.
  pose proof (div_dist A u HR UL n s t phi PT R1) as D1. pose proof (near_norm n phi B c e PC H) as D2. apply Rabs_le_inv in D2.
  assert (NB : norm n B <= 1) by (apply norm_bound; lra). assert (I : 0 < / t) by (apply Rinv_0_lt_compat; auto).
  unfold near in *. eapply Rle_trans; [apply dist_tri with (b := scl (RtoC (/ t)) phi)|].
  assert (D3 : dist n (scl (RtoC (/ t)) phi) (scl (RtoC (c / t)) B) = / t * dist n phi (scl (RtoC c) B)).
  { unfold dist. rewrite <- (norm_scl n (/ t)) by lra. f_equal. apply functional_extensionality. intros x. unfold scl, RtoC, Rdiv. apply C_ext; cunfold; ring. }
  rewrite D3. rewrite <- (cost_add K m 1) || (replace (S m) with (m + 1)%nat by lia; rewrite <- cost_add). rewrite cost_1.
  assert (P : norm n phi <= c * (1 + e)) by nra. pose proof (norm_pos n phi) as NP.
  assert (D4 : 8 * u * (/ t * norm n phi) <= 8 * u * (/ t * (c * (1 + e)))) by (apply Rmult_le_compat_l; [lra|]; apply Rmult_le_compat_l; lra).
  assert (D5 : / t * dist n phi (scl (RtoC c) B) <= / t * (c * e)) by (apply Rmult_le_compat_l; lra).
  apply Rle_trans with (/ t * c * (8 * u * (1 + e) + e)); [lra|]. unfold Rdiv. rewrite (Rmult_comm c (/ t)). apply Rmult_le_compat_l; [apply Rmult_le_pos; lra|].
  assert (8 * u * (1 + e) <= K * (1 + cost K m)) by (apply Rmult_le_compat; lra). lra.
Qed.

Lemma E_le1 : (0 < D)%nat -> Wf <= 1 -> 28 * E <= 1 /\ e1 * 4 <= Wf.
Proof.
  intros P L. assert (I : 1 <= INR D) by (replace 1 with (INR 1) by reflexivity; apply le_INR; lia). pose proof e1_pos.
  assert (1 <= INR D * INR D) by nra. assert (4 * e1 <= 4 * (INR D * INR D) * e1) by nra. unfold e1 in *. split; lra.
Qed.
Lemma a_le : forall m, (m <= T)%nat -> (0 < T)%nat -> 0 <= 3 * cost K m + 16 * u /\ 2 * (3 * cost K m + 16 * u) <= e1.
Proof.
  intros m L P. pose proof (u_pos A u HR) as U. pose proof K_pos as KP. pose proof K_u as KU. pose proof (cost_pos K m KP). pose proof (cost_le K m T KP L). pose proof (cost_le K 1 T KP P) as C1. rewrite cost_1 in C1.
  unfold e1, E. split; lra.
Qed.

Definition mup := 2 * INR D * e1 / Wf.
(** one draw *)
Lemma draw_step : forall k m phi B t b, inv k m phi B -> norm2 n B <= 1 -> Wf <= norm2 n (project t b B) -> (S k <= D)%nat -> (m <= T)%nat -> (0 < T)%nat ->
  let q := prob n t false B / norm2 n B in forall r, 0 <= r < 1 -> (if b then q <= r else r < q) -> mup <= Rabs (r - q) ->
  let p := fl_norm2 A N (zero_part n t phi) in
  Rltb r p = negb b /\ exists c s2, 0 < c /\ near n (project t b phi) (project t b B) c (cost K m) /\ 0 < s2 /\
    rel (3 * u) (f_sqrt A (if b then f_sub A 1 p else p)) s2 /\
    Rabs (c / s2 * (c / s2) * norm2 n (project t b B) - 1) * norm2 n (project t b B) <= 2 * INR (S k) * e1.
Proof.
  intros k m phi B t b (c & PC & NR & IV) WB LW LK LM PT q r Hr Hq Hap p.
  pose proof (u_pos A u HR) as U. pose proof u_le as UL. pose proof K_pos as KP. pose proof e1_pos as P1.
  pose proof (norm2_proj1 n t b B) as PR. set (W := norm2 n B) in *.
  destruct (E_le1 ltac:(lia) ltac:(lra)) as [EL1 EL2]. destruct (a_le m LM PT) as [A0 A1]. set (a := 3 * cost K m + 16 * u) in *.
  pose proof (cost_pos K m KP) as CP. pose proof (cost_le K m T KP LM) as CL. fold E in CL. pose proof E_pos.
  assert (HPE : Rabs (p - c * c * prob n t false B) <= c * c * a) by (apply (p_err A u HR UL N n HN t phi B c (cost K m)); auto; lra).
  pose proof (prob_total n t B) as TOT. pose proof (prob_nonneg n t false B) as N0. pose proof (prob_nonneg n t true B) as N1. fold W in TOT.
  set (W0 := prob n t false B) in *. set (W1 := prob n t true B) in *.
  assert (PW : 0 < W) by lra. pose proof (pos_INR k) as KI. assert (KD : INR k + 1 <= INR D) by (rewrite <- S_INR; apply le_INR; auto).
  set (h := 2 * INR k * e1) in *. assert (H0 : 0 <= h) by (unfold h; nra).
  assert (BIG : 4 * ((INR k + 1) * (INR k + 1)) * e1 <= Wf).
  { eapply Rle_trans; [|exact HD]. apply Rmult_le_compat_r; auto. nra. }
  assert (HH : h <= W) by (unfold h; nra).
  destruct (real_p (c * c) W W0 p a h PW ltac:(lra) A0 HPE IV HH) as [C2 PQ].
  assert (QE : q * W = W0) by (unfold q; field; lra).
  assert (DIST : Rabs (p - q) * W <= h + 2 * a).
  { rewrite <- (Rabs_pos_eq W) at 1 by lra. rewrite <- Rabs_mult. replace ((p - q) * W) with (p * W - W0) by (rewrite <- QE; ring). auto. }
  assert (MU : mup * Wf = 2 * INR D * e1) by (unfold mup; field; lra).
  assert (CMP : p = q \/ Rabs (p - q) < mup).
  { destruct (Req_dec e1 0) as [Z|NZ].
    - left. assert (X0 : h + 2 * a <= 0) by (unfold h; rewrite Z in *; lra). pose proof (Rabs_pos (p - q)). assert (Rabs (p - q) <= 0) by nra. pose proof (abs_0 (p - q) ltac:(auto)). lra.
    - right. apply Rmult_lt_reg_r with Wf; auto. rewrite MU. apply Rle_lt_trans with (Rabs (p - q) * W); [apply Rmult_le_compat_l; [apply Rabs_pos|lra]|].
      eapply Rle_lt_trans; [exact DIST|]. unfold h. nra. }
  assert (BIT : Rltb r p = negb b).
  { destruct b; cbn [negb].
    - rewrite Rabs_pos_eq in Hap by lra. destruct (Rltb r p) eqn:EB; auto. apply Rltb_true in EB. destruct CMP as [->|L]; [lra|]. apply Rabs_def2 in L. lra.
    - rewrite Rabs_left1 in Hap by lra. destruct (Rltb r p) eqn:EB; auto. apply Rltb_false in EB. destruct CMP as [->|L]; [lra|]. apply Rabs_def2 in L. lra. }
  split; auto. pose proof (near_project n t b phi B c (cost K m) NR) as NR'.
  destruct b; cbn [negb] in *.
  - change (norm2 n (project t true B)) with W1 in *. assert (EW : W1 = W - W0) by lra.
    assert (X1 : h + 2 * a <= (2 * INR k + 1) * e1) by (unfold h; lra).
    assert (X2 : (2 * INR k + 2) * ((2 * INR k + 1) * e1) <= Wf) by nra.
    assert (XL : h + 2 * a < W - W0) by nra.
    destruct (real_1 (c * c) W W0 p a h ltac:(nra) PW N0 ltac:(lra) A0 H0 HPE IV HH XL) as [PP V].
    assert (S0 : 0 < sqrt (1 - p)) by (apply sqrt_lt_R0; lra). exists c, (sqrt (1 - p)). split; auto. split; auto. split; auto. split; [apply sqrt1_rel; auto|].
    replace (c / sqrt (1 - p) * (c / sqrt (1 - p))) with (c * c / (1 - p)) by (rewrite <- (sqrt_sqrt (1 - p)) at 1 by lra; field; lra).
    rewrite EW in *. set (v := Rabs (c * c / (1 - p) * (W - W0) - 1)) in *. assert (V0 : 0 <= v) by apply Rabs_pos. set (X := h + 2 * a) in *.
    assert (VV : v * (2 * INR k + 1) <= 1).
    { destruct (Rle_lt_dec (v * (2 * INR k + 1)) 1) as [L|L]; auto. exfalso.
      assert ((W - W0 - X) < X * (2 * INR k + 1)).
      { apply Rlt_le_trans with (v * (2 * INR k + 1) * (W - W0 - X)); [|nra]. rewrite <- (Rmult_1_l (W - W0 - X)) at 1. apply Rmult_lt_compat_r; lra. }
      assert (X * (2 * INR k + 2) <= (2 * INR k + 1) * e1 * (2 * INR k + 2)) by (apply Rmult_le_compat_r; lra). lra. }
    rewrite S_INR. assert (v * X <= v * ((2 * INR k + 1) * e1)) by (apply Rmult_le_compat_l; auto). assert (v * (2 * INR k + 1) * e1 <= 1 * e1) by (apply Rmult_le_compat_r; auto). lra.
  - change (norm2 n (project t false B)) with W0 in *.
    destruct (real_0 (c * c) W0 p a ltac:(nra) ltac:(lra) A0 ltac:(lra) HPE) as [PP V].
    assert (S0 : 0 < sqrt p) by (apply sqrt_lt_R0; auto). exists c, (sqrt p). split; auto. split; auto. split; auto. split; [apply (sqrt_rel A u HR); auto|].
    replace (c / sqrt p * (c / sqrt p)) with (c * c / p) by (rewrite <- (sqrt_sqrt p) at 1 by lra; field; lra).
    rewrite S_INR. nra.
Qed.

(** ** What is left to do *)
Variables (Rf : nat -> nat) (Pf : nat).
Definition todo (es : list event) (phi : state) (bits : nat -> nat) (pos : nat) : Prop :=
  exists s B k m, List.length s = draws es /\ in_box (box n es s B) rng pos /\ apart mup (thresholds n es s B) rng pos /\ branch es s B = Bf /\
    recorded es s bits = Rf /\ (pos + draws es = Pf)%nat /\ (k + draws es = D)%nat /\ (m + 7 * List.length es = T)%nat /\ norm2 n B <= 1 /\ inv k m phi B.

Lemma apart_cons : forall mu x l pos, apart mu (x :: l) rng pos -> mu <= Rabs (rng pos - x) /\ apart mu l rng (S pos).
Proof.
  intros mu x l pos H. split.
  - specialize (H 0%nat ltac:(cbn; lia)). rewrite Nat.add_0_r in H. exact H.
  - intros i L. specialize (H (S i) ltac:(cbn; lia)). replace (pos + S i)%nat with (S pos + i)%nat in H by lia. exact H.
Qed.
Lemma inv_le : forall k m m' phi B, inv k m phi B -> (m <= m')%nat -> inv k m' phi B.
Proof.
  intros k m m' phi B (c & P & H & I) L. exists c. split; auto. split; auto. unfold near in *. eapply Rle_trans; [exact H|]. apply Rmult_le_compat_l; [lra|]. apply cost_le; auto. apply K_pos.
Qed.

Hypothesis Hrng : draws_ok rng.
Lemma measure_todo : forall tz es phi bits pos, inside n tz -> Forall (event_ok n) es -> todo (EMeasure (Z.to_nat tz) :: es) phi bits pos ->
  exists phi' bits', fl_measure A N rng n tz (arr n phi, map bits (seq 0 n), pos) = ((arr n phi', map bits' (seq 0 n), S pos), None) /\ todo es phi' bits' (S pos).
Proof.
  intros tz es phi bits pos Ht F (s & B & k & m & L & IB & AP & BR & RC & PS & KD & MT & WB & IV). set (t := Z.to_nat tz) in *.
  cbn [draws] in *. destruct s as [|b s]; [discriminate|]. injection L as L. cbn [box thresholds branch recorded List.length] in *.
  apply in_box_cons in IB. destruct IB as [IB0 IB]. apply apart_cons in AP. destruct AP as [AP0 AP].
  assert (LW : Wf <= norm2 n (project t b B)) by (unfold Wf; rewrite <- BR; apply branch_norm; auto).
  destruct (draw_step k m phi B t b IV WB LW ltac:(lia) ltac:(lia) ltac:(lia) (rng pos) (Hrng pos)) as [BIT (c & s2 & PC & NR & P2 & RL & HV)];
    [destruct b; cbn [fst snd] in IB0; lra|exact AP0|].
  set (p := fl_norm2 A N (zero_part n t phi)) in *.
  exists (fun x => fl_div A (f_sqrt A (if b then f_sub A 1 p else p)) (project t b phi x)), (update bits t (if b then 1 else 0)%nat). split.
  - unfold fl_measure. rewrite mask_eq0_ok, mask_ne0_ok by (unfold inside in Ht; lia). rewrite get_same. fold t. fold (zero_part n t phi). fold p. cbv zeta. rewrite BIT.
    destruct b; cbn [negb].
    + rewrite put_scalar_arr. cbn [bind]. rewrite list_set_map by (unfold inside in Ht; unfold t; lia). cbn [bind]. rewrite arr_map. do 3 f_equal.
      apply arr_ext. intros x _. unfold project, b0. destruct (bit x t); reflexivity.
    + rewrite put_scalar_arr. cbn [bind]. rewrite list_set_map by (unfold inside in Ht; unfold t; lia). cbn [bind]. rewrite arr_map. do 3 f_equal.
      apply arr_ext. intros x _. unfold project, b1. destruct (bit x t); reflexivity.
  - pose proof (norm2_proj1 n t b B). exists s, (project t b B), (S k), (m + 7)%nat. repeat (split; [solve [auto|lia|lra]|]).
    apply inv_le with (S m); [|lia]. exists (c / s2). split; [apply Rdiv_lt_0_compat; auto|]. split; [|exact HV].
    apply near_div with (t := s2) (e := cost K m); auto; [|lra]. split; [apply cost_pos, K_pos|lra].
Qed.
Lemma good_x : forall t, (t < n)%nat -> good n (ap1 mX t).
Proof. intros. split; [apply linear_ap1|apply preserves_ap1; auto; apply mu_x]. Qed.
Lemma reset_todo : forall tz es phi bits pos, inside n tz -> Forall (event_ok n) es -> todo (EReset (Z.to_nat tz) :: es) phi bits pos ->
  exists phi' bits', fl_reset A N rng n tz (arr n phi, map bits (seq 0 n), pos) = ((arr n phi', map bits' (seq 0 n), S pos), None) /\ todo es phi' bits' (S pos).
Proof.
  intros tz es phi bits pos Ht F (s & B & k & m & L & IB & AP & BR & RC & PS & KD & MT & WB & IV). assert (TN : (Z.to_nat tz < n)%nat) by (apply inside_lt; auto). set (t := Z.to_nat tz) in *.
  cbn [draws] in *. destruct s as [|b s]; [discriminate|]. injection L as L. cbn [box thresholds branch recorded List.length] in *.
  apply in_box_cons in IB. destruct IB as [IB0 IB]. apply apart_cons in AP. destruct AP as [AP0 AP].
  set (V := fun psi => if b then ap1 mX t psi else psi).
  assert (GV : good n V). { unfold V. destruct b; [apply good_x; auto|]. split; [apply linear_one|]. intros x y. reflexivity. }
  change (if b then ap1 mX t (project t b B) else project t b B) with (V (project t b B)) in *.
  assert (WV : norm2 n (V (project t b B)) = norm2 n (project t b B)) by (apply preserves_norm, GV).
  assert (LW : Wf <= norm2 n (project t b B)) by (rewrite <- WV; unfold Wf; rewrite <- BR; apply branch_norm; auto).
  destruct (draw_step k m phi B t b IV WB LW ltac:(lia) ltac:(lia) ltac:(lia) (rng pos) (Hrng pos)) as [BIT (c & s2 & PC & NR & P2 & RL & HV)];
    [destruct b; cbn [fst snd] in IB0; lra|exact AP0|].
  set (p := fl_norm2 A N (zero_part n t phi)) in *.
  exists (fun x => fl_div A (f_sqrt A (if b then f_sub A 1 p else p)) (V (project t b phi) x)), bits. split.
  - unfold fl_reset. rewrite mask_eq0_ok, mask_ne0_ok by (unfold inside in Ht; lia). rewrite get_same. fold t. fold (zero_part n t phi). fold p. cbv zeta. rewrite BIT.
    destruct b; cbn [negb].
    + rewrite get_10, put_arr by auto. cbn [bind]. rewrite put_scalar_arr. cbn [bind]. rewrite arr_map. do 3 f_equal.
      apply arr_ext. intros x _. unfold V. rewrite ap1_flip. unfold project, b0, b1. rewrite testbit_flip, Nat.eqb_refl. unfold mX, mk2.
      f_equal. destruct (bit x t); simpl; ring.
    + rewrite put_scalar_arr. cbn [bind]. rewrite arr_map. do 3 f_equal.
      apply arr_ext. intros x _. unfold V, project, b1. destruct (bit x t); reflexivity.
  - pose proof (norm2_proj1 n t b B). exists s, (V (project t b B)), (S k), (m + 7)%nat. repeat (split; [solve [auto|lia|lra]|]).
    apply inv_le with (S m); [|lia]. exists (c / s2). split; [apply Rdiv_lt_0_compat; auto|]. rewrite WV. split; [|exact HV].
    apply near_div with (t := s2) (e := cost K m); auto; [split; [apply cost_pos, K_pos|lra]|lra|].
    unfold near. change (scl (RtoC c) (V (project t b B))) with (fun x => (RtoC c * V (project t b B) x)%C). rewrite <- (lin_scl V (proj1 GV)). rewrite good_dist by auto. exact NR.
Qed.

Lemma loop_todo : forall (ev : nat -> event) step, (forall tz es phi bits pos, inside n tz -> Forall (event_ok n) es -> todo (ev (Z.to_nat tz) :: es) phi bits pos ->
    exists phi' bits', step n tz (arr n phi, map bits (seq 0 n), pos) = ((arr n phi', map bits' (seq 0 n), S pos), None) /\ todo es phi' bits' (S pos)) ->
  (forall t, (t < n)%nat -> event_ok n (ev t)) ->
  forall l es phi bits pos, Forall (inside n) l -> Forall (event_ok n) es -> todo (map (fun t => ev (Z.to_nat t)) l ++ es) phi bits pos ->
  exists phi' bits' pos', loop_state l (step n) (arr n phi, map bits (seq 0 n), pos) = ((arr n phi', map bits' (seq 0 n), pos'), None) /\ todo es phi' bits' pos'.
Proof.
  intros ev step H OK. induction l as [|t l IH]; intros es phi bits pos F FE TD.
  - exists phi, bits, pos. split; auto.
  - inversion_clear F as [|? ? Ft Fl]. cbn [map app] in TD. assert (FO : Forall (event_ok n) (map (fun t => ev (Z.to_nat t)) l ++ es)).
    { apply Forall_app. split; auto. apply Forall_map. eapply Forall_impl; [|exact Fl]. intros a I. apply OK, inside_lt, I. }
    destruct (H t _ phi bits pos Ft FO TD) as (phi1 & bits1 & E1 & T1).
    destruct (IH es phi1 bits1 (S pos) Fl FE T1) as (phi2 & bits2 & pos2 & E2 & T2). exists phi2, bits2, pos2. split; auto. cbn [loop_state]. rewrite E1. exact E2.
Qed.

Lemma todo_ops : forall ops es phi bits pos, Forall (good n) ops -> todo (map EOp ops ++ es) phi bits pos -> forall phi',
  dist n phi' (apply_all ops phi) <= cost K (7 * List.length ops) * norm n phi -> todo es phi' bits pos.
Proof.
  intros ops es phi bits pos G (s & B & k & m & L & IB & AP & BR & RC & PS & KD & MT & WB & c & PC & NR & IV) phi' HD'.
  assert (X : draws (map EOp ops ++ es) = draws es /\ (forall bt, recorded (map EOp ops ++ es) s bt = recorded es s bt) /\
    forall psi, box n (map EOp ops ++ es) s psi = box n es s (apply_all ops psi) /\ thresholds n (map EOp ops ++ es) s psi = thresholds n es s (apply_all ops psi) /\
      branch (map EOp ops ++ es) s psi = branch es s (apply_all ops psi)).
  { clear. induction ops as [|U ops IH]; [cbn; auto|]. destruct IH as (I1 & I2 & I3). cbn [map app draws recorded]. split; auto. split; auto. intros psi.
    destruct (I3 (U psi)) as (J1 & J2 & J3). cbn [box thresholds branch]. rewrite J1, J2, J3. auto. }
  destruct X as (X1 & X2 & X3). destruct (X3 B) as (X4 & X5 & X6). rewrite X1, X2, X4, X5, X6 in *. rewrite app_length, map_length in MT.
  pose proof (good_all n ops G) as GA. assert (WE : norm2 n (apply_all ops B) = norm2 n B) by (apply preserves_norm, GA).
  exists s, (apply_all ops B), k, (m + 7 * List.length ops)%nat. rewrite WE. repeat (split; [solve [auto|lia]|]).
  exists c. rewrite WE. split; auto. split; auto. pose proof K_pos as KP. unfold near in *. change (scl (RtoC c) (apply_all ops B)) with (fun x => (RtoC c * apply_all ops B x)%C). rewrite <- (lin_scl _ (proj1 GA)).
  eapply Rle_trans; [apply dist_tri with (b := apply_all ops phi)|]. rewrite good_dist by auto.
  pose proof (near_norm n phi B c (cost K m) PC NR) as NN. apply Rabs_le_inv in NN. assert (NB : norm n B <= 1) by (apply norm_bound; lra).
  pose proof (cost_pos K (7 * List.length ops) KP). rewrite <- cost_add. set (e := cost K m) in *. set (f := cost K (7 * List.length ops)) in *.
  assert (CB : c * norm n B <= c * 1) by (apply Rmult_le_compat_l; lra). assert (CN : norm n phi <= c * (1 + e)) by lra.
  assert (f * norm n phi <= f * (c * (1 + e))) by (apply Rmult_le_compat_l; auto).
  change (fun x => (RtoC c * B x)%C) with (scl (RtoC c) B). lra.
Qed.

Definition showing (ctx : npctx) (phi : state) (bits : nat -> nat) (pos : nat) : Prop :=
  x_n ctx = n /\ x_qubits ctx = arr n phi /\ List.length (x_buf ctx) = (2 ^ n)%nat /\ x_cregs ctx = map bits (seq 0 n) /\ x_pos ctx = pos.

Lemma gate_todo : forall g e es phi bits pos ctx, gate_events n g e -> angles_within M g -> Forall (event_ok n) es -> todo (e ++ es) phi bits pos -> showing ctx phi bits pos ->
  exists ctx' phi' bits' pos', fl_run_single A N rng recursion_limit g ctx = SOk ctx' /\ todo es phi' bits' pos' /\ showing ctx' phi' bits' pos'.
Proof.
  intros g e es phi bits pos ctx G AW FE TD (S1 & S2 & S3 & S4 & S5). destruct G as [g ops G|tg l Dn F|tg l Dn F].
  - destruct (arr_exists n _ S3) as [beta Hb].
    assert (UG : unitary g = true) by (destruct G; reflexivity).
    destruct (gate_approx A u M HR HM Hs 98 n g ops G AW phi beta) as (phi' & beta' & EQ & DD). change (S (S 98)) with recursion_limit in EQ.
    rewrite fl_single_lift by auto. rewrite S1, S2, Hb, EQ. cbn [lift]. eexists _, phi', bits, pos. split; [reflexivity|]. split.
    + apply (todo_ops ops es phi bits pos (good_gate _ _ _ G) TD). exact DD.
    + repeat split; cbn [set_bufs x_n x_qubits x_buf x_cregs x_pos fst snd]; auto. apply arr_length.
  - assert (EQ : fl_run_single A N rng recursion_limit (GMeasure tg) ctx = np_collapse (fl_measure A N rng) tg ctx) by reflexivity.
    rewrite EQ. unfold np_collapse. rewrite S1, S2, S4, S5. apply slicing_iff in Dn; [|lia]. rewrite Dn. cbn [yields raised].
    destruct (loop_todo EMeasure (fl_measure A N rng) measure_todo (fun t H => H) l es phi bits pos F FE TD) as (phi' & bits' & pos' & E1 & T1).
    rewrite E1. eexists _, phi', bits', pos'. split; [reflexivity|]. split; auto. repeat split; auto.
  - assert (EQ : fl_run_single A N rng recursion_limit (GReset tg) ctx = np_collapse (fl_reset A N rng) tg ctx) by reflexivity.
    rewrite EQ. unfold np_collapse. rewrite S1, S2, S4, S5. apply slicing_iff in Dn; [|lia]. rewrite Dn. cbn [yields raised].
    destruct (loop_todo EReset (fl_reset A N rng) reset_todo (fun t H => H) l es phi bits pos F FE TD) as (phi' & bits' & pos' & E1 & T1).
    rewrite E1. eexists _, phi', bits', pos'. split; [reflexivity|]. split; auto. repeat split; auto.
Qed.
Lemma circuit_todo : forall gs es, circuit_events n gs es -> Forall (angles_within M) gs -> forall phi bits pos ctx, todo es phi bits pos -> showing ctx phi bits pos ->
  exists ctx' phi' bits' pos', run_list (fl_run_single A N rng recursion_limit) gs ctx = SOk ctx' /\ todo [] phi' bits' pos' /\ showing ctx' phi' bits' pos'.
Proof.
  induction 1 as [|g gs e es G C IH]; intros F phi bits pos ctx TD SH.
  - exists ctx, phi, bits, pos. split; [reflexivity|]. auto.
  - inversion_clear F as [|? ? Fg Fs]. destruct (gate_todo g e es phi bits pos ctx G Fg (circuit_events_ok _ _ _ C) TD SH) as (c1 & phi1 & bits1 & pos1 & E1 & T1 & S1).
    destruct (IH Fs phi1 bits1 pos1 c1 T1 S1) as (c2 & phi2 & bits2 & pos2 & E2 & T2 & S2).
    exists c2, phi2, bits2, pos2. split; auto. cbn [run_list]. rewrite E1. exact E2.
Qed.

Lemma final : forall phi bits pos, Wf <= 1 -> todo [] phi bits pos -> bits = Rf /\ pos = Pf /\
  dist n phi (scl (RtoC (/ sqrt Wf)) Bf) <= (14 * INR D + 2) * E / Wf.
Proof.
  intros phi bits pos W1 (s & B & k & m & L & _ & _ & BR & RC & PS & KD & MT & WB & c & PC & NR & IV). cbn [draws branch recorded List.length] in *.
  assert (k = D) by lia. assert (m = T) by lia. assert (pos = Pf) by lia. subst k m pos B bits. split; auto. split; auto.
  fold E in NR. fold Wf in IV. pose proof E_pos as EP. pose proof (pos_INR D) as DP. pose proof e1_pos.
  assert (SW : 0 < sqrt Wf) by (apply sqrt_lt_R0; auto). assert (SQ : sqrt Wf * sqrt Wf = Wf) by (apply sqrt_sqrt; lra).
  assert (S1 : sqrt Wf <= 1) by nra.
  assert (D2 : 2 * INR D * e1 <= Wf).
  { destruct D as [|d]; [simpl; lra|]. eapply Rle_trans; [|exact HD]. apply Rmult_le_compat_r; auto. rewrite S_INR in *. pose proof (pos_INR d). nra. }
  assert (Q : Rabs (c * c * Wf - 1) <= 1) by (apply Rmult_le_reg_r with Wf; lra). apply Rabs_le_inv in Q.
  set (y := c * sqrt Wf). assert (Y : y * y = c * c * Wf) by (unfold y; rewrite <- SQ at 3; ring). assert (YP : 0 < y) by (apply Rmult_lt_0_compat; auto). assert (Y2 : y <= 2) by nra.
  eapply Rle_trans; [apply dist_tri with (b := scl (RtoC c) Bf)|].
  assert (D3 : dist n (scl (RtoC c) Bf) (scl (RtoC (/ sqrt Wf)) Bf) = Rabs (y - 1)).
  { unfold dist. replace (fun x => (scl (RtoC c) Bf x - scl (RtoC (/ sqrt Wf)) Bf x)%C) with (scl (RtoC (c - / sqrt Wf)) Bf)
      by (apply functional_extensionality; intros x; unfold scl, RtoC; apply C_ext; cunfold; ring).
    unfold norm. rewrite norm2_scl, Cnorm2_RtoC. fold Wf. unfold y. set (w := sqrt Wf) in *. rewrite <- SQ.
    replace ((c - / w) * (c - / w) * (w * w)) with (Rsqr (c * w - 1)) by (unfold Rsqr; field; lra). apply sqrt_Rsqr_abs. }
  rewrite D3. assert (D4 : Rabs (y - 1) <= Rabs (c * c * Wf - 1)).
  { rewrite <- Y. replace (y * y - 1) with ((y - 1) * (y + 1)) by ring. rewrite Rabs_mult, (Rabs_pos_eq (y + 1)) by lra. pose proof (Rabs_pos (y - 1)). nra. }
  unfold near in NR. apply Rmult_le_reg_r with Wf; auto. replace ((14 * INR D + 2) * E / Wf * Wf) with (2 * INR D * e1 + 2 * E) by (unfold e1; field; lra).
  assert (c * E * Wf <= 2 * E).
  { replace (c * E * Wf) with (y * E * sqrt Wf) by (transitivity (c * E * (sqrt Wf * sqrt Wf)); [unfold y; ring|rewrite SQ; ring]). assert (y * E <= 2 * E) by (apply Rmult_le_compat_r; lra). nra. }
  assert (Rabs (y - 1) * Wf <= 2 * INR D * e1) by (eapply Rle_trans; [apply Rmult_le_compat_r; [lra|exact D4]|auto]).
  assert (dist n phi (scl (RtoC c) Bf) * Wf <= c * E * Wf) by (apply Rmult_le_compat_r; lra). lra.
Qed.
End Run.

Lemma near_ket : forall n K, near n (ket 0) (ket 0) 1 (cost K 0).
Proof.
  intros. unfold near. rewrite scl_1. unfold cost. replace ((1 + K) ^ 0 - 1) with 0 by (simpl; ring). unfold dist.
  right. rewrite Rmult_0_r. unfold norm. replace (fun x => (ket 0 x - ket 0 x)%C) with (fun _ : nat => C0) by (apply functional_extensionality; intros; ring).
  unfold norm2. rewrite Rsum_0; [apply sqrt_0|]. intros. apply Cnorm2_C0.
Qed.

Lemma shot_lemma : forall A u M N rng n gs es s pos, rounds A u -> 3 <= M -> 1000 * u * M <= 1 -> norms N n u -> draws_ok rng ->
  circuit_events n gs es -> Forall (angles_within M) gs -> List.length s = draws es ->
  let W := weight n es s in let err := (1 + 256 * (u * M)) ^ (7 * List.length es) - 1 in let d := INR (draws es) in
  0 < W -> 28 * (d * d) * err <= W -> in_box (box n es s (ket 0)) rng pos -> apart (14 * d * err / W) (thresholds n es s (ket 0)) rng pos ->
  exists ctx phi, fl_shot A N rng gs n pos = SOk ctx /\ x_qubits ctx = arr n phi /\ x_cregs ctx = record n es s /\ x_pos ctx = (pos + draws es)%nat /\
    dist n phi (scl (RtoC (/ sqrt W)) (branch es s (ket 0))) <= (14 * d + 2) * err / W.
Proof.
  intros A u M N rng n gs es s pos HR HM Hs HN Hr C F L W err d PW HB IB AP.
  set (D := draws es). set (T := (7 * List.length es)%nat). set (Bf := branch es s (ket 0)).
  assert (W1 : W <= 1). { unfold W, weight. rewrite <- (ket_norm n). apply branch_norm. eapply circuit_events_ok; eauto. }
  assert (CE : cost (256 * (u * M)) T = err) by reflexivity. assert (DE : INR D = d) by reflexivity.
  assert (HD : 4 * (INR D * INR D) * (7 * cost (256 * (u * M)) T) <= norm2 n Bf) by (rewrite CE, ?DE; change (norm2 n Bf) with W; lra).
  assert (MU : mup u M n D T Bf = 14 * d * err / W) by (unfold mup; change (norm2 n Bf) with W; rewrite CE, ?DE; field; lra).
  assert (TD : todo u M n rng D T Bf (recorded es s (fun _ => 0%nat)) (pos + D) es (ket 0) (fun _ => 0%nat) pos).
  { exists s, (ket 0), 0%nat, 0%nat. rewrite MU. repeat (split; [solve [auto]|]). split; [rewrite ket_norm; lra|].
    exists 1. split; [lra|]. split; [apply near_ket|]. rewrite ket_norm. replace (1 * 1 * 1 - 1) with 0 by ring. rewrite Rabs_R0. simpl INR. lra. }
  destruct (circuit_todo A u M HR HM Hs N n HN rng D T Bf PW HD (recorded es s (fun _ => 0%nat)) (pos + D) Hr gs es C F (ket 0) (fun _ => 0%nat) pos (prepare (new_ctx n pos) None) TD)
    as (ctx & phi & bits & pos' & E1 & T1 & S1 & S2 & S3 & S4 & S5).
  { repeat split; cbn [prepare new_ctx x_n x_qubits x_buf x_cregs x_pos]; auto.
    - apply arr_basis0.
    - unfold zeros. apply repeat_length.
    - assert (G : forall k i, repeat 0%nat k = map (fun _ => 0%nat) (seq i k)) by (induction k; intros; simpl; f_equal; auto). apply G. }
  destruct (final A u M HR HM n rng D T Bf PW HD _ _ phi bits pos' W1 T1) as (B1 & B2 & DD). subst bits pos'.
  exists ctx, phi. split; [exact E1|]. auto 6.
Qed.
