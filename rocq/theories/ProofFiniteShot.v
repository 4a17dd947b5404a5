(** Shots of any backend whose gates, measurements and resets are close to the exact ones, in arithmetic with underflow and overflow *)
From Coq Require Import List Arith ZArith Bool Reals Lia Lra Psatz FunctionalExtensionality.
Import ListNotations.
From Verif Require Import Base Cplx Bits ModelTargets ModelGate ModelNumpy ModelFloat ModelFloatMeasure SpecTargets SpecQuantum SpecCircuit SpecMeasure SpecLaw SpecFloat
  SpecFloatMeasure ProofTargets ProofArray ProofNumpy ProofUnitary ProofPauli ProofRun ProofMeasure ProofCache ProofQasmOps ProofFloat ProofFloatOps ProofFloatCoef ProofFloatRun ProofLaw
  ProofFloatMeas ProofFloatMeasRun.
Local Open Scope R_scope.

Definition mctx : Type := (carr * list nat * nat)%type.
Definition mstep : Type := Z -> mctx -> mctx * option exn.
(** what a measurement and a reset do after the projection, and what they record *)
Definition after_measure (b : bool) (t : nat) (psi : state) : state := psi.
Definition after_reset (b : bool) (t : nat) (psi : state) : state := if b then ap1 mX t psi else psi.
Definition rec_measure (bits : nat -> nat) (t : nat) (b : bool) : nat -> nat := update bits t (if b then 1 else 0)%nat.
Definition rec_reset (bits : nat -> nat) (t : nat) (b : bool) : nat -> nat := bits.

Section Shot.
Variable n : nat.
Variables u M g v : R.
Hypothesis Hu : 0 < u.
Hypothesis HM : 3 <= M.
Hypothesis Hg : 0 <= g <= 1.
Hypothesis Hv : 0 <= v.
Variable rng : nat -> R.
Hypothesis Hrng : draws_ok rng.
Let K := 300 * (u * M).
Let H := 1 + 2 * g.

(** one measurement or reset *)
Definition collapses (after : bool -> nat -> state -> state) (rec : (nat -> nat) -> nat -> bool -> nat -> nat) (step : mstep) : Prop :=
  forall tz phi bits pos, inside n tz -> norm n phi <= 3 / 2 -> let t := Z.to_nat tz in
  exists p, Rabs (p - prob n t false phi) <= v * (norm n phi + g) /\
  forall b, Rltb (rng pos) p = negb b -> let q := if b then 1 - p else p in 1000 * u <= q -> q <= 2 ->
  exists phi', step tz (arr n phi, map bits (seq 0 n), pos) = ((arr n phi', map (rec bits t b) (seq 0 n), S pos), None) /\
    dist n phi' (scl (RtoC (/ sqrt q)) (after b t (project t b phi))) <= 100 * u * (/ sqrt q * (norm n phi + g)).

Lemma sK_pos : 0 <= K. Proof. unfold K. apply Rmult_le_pos; [lra|]. apply Rmult_le_pos; lra. Qed.
Lemma sK_u : 900 * u <= K. Proof. unfold K. nra. Qed.

Variables (D T : nat) (Bf : state) (E : R).
Hypothesis HE : (cost K T + v) * H <= E.
Let e1 := 7 * E.
Let Wf := norm2 n Bf.
Hypothesis HW : 0 < Wf.
Hypothesis HD : 4 * (1 + INR D * INR D) * e1 <= Wf.
Definition ct (m : nat) : R := cost K m * H.
Lemma ct_pos : forall m, 0 <= ct m. Proof. intros. apply Rmult_le_pos; [apply cost_pos, sK_pos|unfold H; lra]. Qed.
Lemma ct_le : forall m m', (m <= m')%nat -> ct m <= ct m'. Proof. intros. apply Rmult_le_compat_r; [unfold H; lra|apply cost_le; auto; apply sK_pos]. Qed.
Lemma ct_add : forall m j, ct m + cost K j * (H + ct m) = ct (m + j).
Proof. intros. unfold ct. rewrite <- cost_add. ring. Qed.
Lemma vH : 0 <= v * H. Proof. apply Rmult_le_pos; [lra|unfold H; lra]. Qed.
Lemma ct_E : forall m, (m <= T)%nat -> ct m + v * H <= E.
Proof. intros m L. pose proof (ct_le m T L). unfold ct in *. lra. Qed.
Lemma sE_pos : 0 <= E. Proof. pose proof (ct_E T (le_n _)). pose proof (ct_pos T). pose proof vH. lra. Qed.
Lemma se1_pos : 0 <= e1. Proof. pose proof sE_pos. unfold e1. lra. Qed.
Lemma HD0 : 4 * e1 <= Wf. Proof. pose proof se1_pos. assert (0 <= INR D * INR D * e1) by (apply Rmult_le_pos; auto; apply Rle_0_sqr). lra. Qed.
Lemma HD1 : 4 * (INR D * INR D) * e1 <= Wf. Proof. pose proof se1_pos. lra. Qed.
Lemma E_u : (0 < T)%nat -> 900 * u <= E.
Proof.
  intros P. pose proof (ct_E T (le_n _)). pose proof sK_u. pose proof sK_pos as KP. pose proof (cost_le K 1 T KP P) as C1. rewrite cost_1 in C1. pose proof vH. unfold ct, H in *. nra.
Qed.

Definition sinv (k m : nat) (phi B : state) : Prop :=
  exists c, 0 < c /\ near n phi B c (ct m) /\ Rabs (c * c * norm2 n B - 1) * norm2 n B <= 2 * INR k * e1.

(** the factor nearly normalises *)
Lemma c_range : forall c k W, (k <= D)%nat -> Wf <= W -> Rabs (c * c * W - 1) * W <= 2 * INR k * e1 -> 1 / 2 <= c * c * W <= 3 / 2.
Proof.
  intros c k W L LW IV. pose proof se1_pos as P1. apply le_INR in L. pose proof (pos_INR k). set (d := INR D) in *. set (x := INR k) in *.
  assert (4 * d * e1 <= Wf). { eapply Rle_trans; [|exact HD]. fold d. apply Rmult_le_compat_r; auto. pose proof (Rle_0_sqr (d - 1 / 2)) as SQ. unfold Rsqr in SQ. lra. }
  assert (2 * x * e1 <= 2 * d * e1) by (apply Rmult_le_compat_r; lra).
  assert (Q : Rabs (c * c * W - 1) <= 1 / 2) by (apply Rmult_le_reg_r with W; lra). apply Rabs_le_inv in Q. lra.
Qed.
Lemma c_low : forall c W, 0 < c -> W <= 1 -> 1 / 2 <= c * c * W -> 7 / 10 <= c /\ 1 / 2 <= c * c.
Proof. intros c W P L H1. assert (1 / 2 <= c * c) by nra. split; nra. Qed.
(** sizes *)
Lemma sinv_size : forall k m phi B c, (k <= D)%nat -> (m <= T)%nat -> Wf <= norm2 n B -> norm2 n B <= 1 -> 0 < c -> near n phi B c (ct m) ->
  Rabs (c * c * norm2 n B - 1) * norm2 n B <= 2 * INR k * e1 -> norm n phi <= 3 / 2 /\ norm n phi + g <= c * (H + ct m) /\ ct m <= 1 / 28.
Proof.
  intros k m phi B c L LM LW WB PC NR IV. pose proof (c_range c k _ L LW IV) as CR. destruct (c_low c _ PC WB (proj1 CR)) as [C1 C2].
  pose proof (near_norm n phi B c _ PC NR) as NN. apply Rabs_le_inv in NN. pose proof (norm_sq n B) as SQ. pose proof (norm_pos n B) as NP. set (x := norm n B) in *.
  pose proof (ct_pos m) as CP. pose proof (ct_E m LM) as CE. pose proof vH. pose proof HD0 as D0. unfold e1 in D0. rewrite <- SQ in *.
  assert (X1 : x <= 1) by nra.
  assert (Y : c * x <= 5 / 4). { destruct (Rle_lt_dec (c * x) (5 / 4)) as [?|LT]; auto. exfalso. assert (5 / 4 * (5 / 4) < c * x * (c * x)) by (apply Rmult_gt_0_lt_compat; lra). lra. }
  assert (C28 : 28 * ct m <= x * x) by lra.
  assert (Z : c * ct m <= 5 / 4 / 28).
  { apply Rle_trans with (c * x / 28); [|lra]. assert (28 * ct m <= x) by nra. assert (c * (28 * ct m) <= c * x) by (apply Rmult_le_compat_l; lra). lra. }
  split; [lra|]. split; [|nra]. unfold H. assert (c * x <= c * 1) by (apply Rmult_le_compat_l; lra). assert (g <= 2 * c * g) by nra. lra.
Qed.

Definition smup := 2 * INR D * e1.
(** one draw *)
Lemma sdraw_step : forall k m phi B t b p, sinv k m phi B -> norm2 n B <= 1 -> Wf <= norm2 n (project t b B) -> (S k <= D)%nat -> (m <= T)%nat -> (0 < T)%nat ->
  let x := prob n t false B / norm2 n B in forall r, 0 <= r < 1 -> (if b then x <= r else r < x) -> smup <= Rabs (r - x) * norm2 n B ->
  Rabs (p - prob n t false phi) <= v * (norm n phi + g) ->
  let q := if b then 1 - p else p in
  Rltb r p = negb b /\ 1000 * u <= q /\ q <= 2 /\ exists c, 0 < c /\ near n (project t b phi) (project t b B) c (ct m) /\ norm n phi + g <= c * (H + ct m) /\
    Rabs (c / sqrt q * (c / sqrt q) * norm2 n (project t b B) - 1) * norm2 n (project t b B) <= 2 * INR (S k) * e1.
Proof.
  intros k m phi B t b p (c & PC & NR & IV) WB LW LK LM PT x r Hr Hq Hap HPR q.
  pose proof sK_pos as KP. pose proof se1_pos as P1. pose proof sE_pos as EP. pose proof (E_u PT) as EU.
  pose proof (norm2_proj1 n t b B) as PR.
  destruct (sinv_size k m phi B c ltac:(lia) LM ltac:(lra) WB PC NR IV) as (Z1 & Z2 & Z3).
  pose proof (c_range c k _ ltac:(lia) ltac:(eapply Rle_trans; [exact LW|exact PR]) IV) as CR. destruct (c_low c _ PC WB (proj1 CR)) as [C1 C2].
  pose proof (near_norm n _ _ c _ PC (near_project n t false phi B c _ NR)) as D0. apply Rabs_le_inv in D0.
  set (W := norm2 n B) in *. pose proof (ct_pos m) as CP. pose proof (ct_E m LM) as CE. pose proof vH as VH.
  set (a := 3 * ct m + 3 * (v * H)). assert (A0 : 0 <= a) by (unfold a; lra). assert (A1 : 2 * a <= e1) by (unfold a, e1; lra).
  pose proof HD0 as D4.
  assert (HPE : Rabs (p - c * c * prob n t false B) <= c * c * a).
  { set (y := norm n (project t false phi)) in *. set (z := norm n (project t false B)) in *.
    assert (X : prob n t false phi = y * y) by (symmetry; apply norm_sq). assert (Y : prob n t false B = z * z) by (symmetry; apply norm_sq).
    rewrite X in HPR. rewrite Y. assert (X0 : 0 <= y) by apply norm_pos. assert (Y0 : 0 <= z) by apply norm_pos.
    assert (Y1 : z <= 1). { apply norm_bound; [lra|]. pose proof (prob_total n t B). pose proof (prob_nonneg n t true B). unfold prob, W in *. lra. }
    assert (YY : y <= c * (1 + ct m)) by nra.
    assert (D2 : Rabs (y * y - c * c * (z * z)) <= c * c * (3 * ct m)).
    { replace (y * y - c * c * (z * z)) with ((y - c * z) * (y + c * z)) by ring. rewrite Rabs_mult, (Rabs_pos_eq (y + c * z)) by nra.
      apply Rle_trans with (c * ct m * (c * 3)); [|right; ring]. apply Rmult_le_compat; [apply Rabs_pos|nra|apply Rabs_le; lra|nra]. }
    assert (D3 : v * (norm n phi + g) <= c * c * (3 * (v * H))).
    { apply Rle_trans with (v * (c * (2 * H))); [apply Rmult_le_compat_l; [lra|]; eapply Rle_trans; [exact Z2|]; apply Rmult_le_compat_l; [lra|]; unfold H; lra|].
      replace (v * (c * (2 * H))) with (c * (2 * (v * H))) by ring. rewrite Rmult_assoc. apply Rmult_le_compat_l; [lra|]. nra. }
    eapply Rle_trans; [apply (ab_tri p (y * y)); eauto|]. unfold a. lra. }
  pose proof (prob_total n t B) as TOT. pose proof (prob_nonneg n t false B) as N0. pose proof (prob_nonneg n t true B) as N1. fold W in TOT.
  set (W0 := prob n t false B) in *. set (W1 := prob n t true B) in *.
  assert (PW : 0 < W) by lra. pose proof (pos_INR k) as KI. assert (KD : INR k + 1 <= INR D) by (rewrite <- S_INR; apply le_INR; auto).
  set (h := 2 * INR k * e1) in *. assert (H0 : 0 <= h) by (unfold h; nra).
  assert (BIG : 4 * ((INR k + 1) * (INR k + 1)) * e1 <= Wf).
  { eapply Rle_trans; [|exact HD1]. apply Rmult_le_compat_r; auto. nra. }
  assert (HH : h <= W) by (unfold h; nra).
  destruct (real_p (c * c) W W0 p a h PW ltac:(lra) A0 HPE IV HH) as [_ PQ].
  assert (QE : x * W = W0) by (unfold x; field; lra).
  assert (DIST : Rabs (p - x) * W <= h + 2 * a).
  { rewrite <- (Rabs_pos_eq W) at 1 by lra. rewrite <- Rabs_mult. replace ((p - x) * W) with (p * W - W0) by (rewrite <- QE; ring). auto. }
  assert (PE1 : 0 < e1) by (unfold e1; lra).
  assert (CMP : Rabs (p - x) < Rabs (r - x)).
  { apply Rmult_lt_reg_r with W; auto. eapply Rle_lt_trans; [exact DIST|]. eapply Rlt_le_trans; [|exact Hap]. unfold h, smup. nra. }
  apply Rabs_def2 in CMP as CMP'.
  assert (BIT : Rltb r p = negb b).
  { destruct b; cbn [negb].
    - rewrite (Rabs_pos_eq (r - x)) in CMP' by lra. destruct (Rltb r p) eqn:EB; auto. apply Rltb_true in EB. lra.
    - rewrite (Rabs_left1 (r - x)) in CMP' by lra. destruct (Rltb r p) eqn:EB; auto. apply Rltb_false in EB. lra. }
  split; auto. pose proof (near_project n t b phi B c _ NR) as NR'.
  apply Rabs_le_inv in HPE as HPE'.
  assert (CA : c * c * a <= 1 / 4).
  { assert (8 * a <= W) by lra. assert (c * c * (8 * a) <= c * c * W) by (apply Rmult_le_compat_l; nra). lra. }
  destruct b; cbn [negb] in *; unfold q.
  - change (norm2 n (project t true B)) with W1 in *. assert (EW : W1 = W - W0) by lra.
    assert (X1 : h + 2 * a <= (2 * INR k + 1) * e1) by (unfold h; lra).
    assert (X2 : (2 * INR k + 2) * ((2 * INR k + 1) * e1) <= Wf) by nra.
    assert (XL : 2 * (h + 2 * a) <= W - W0) by nra.
    assert (QL : 1000 * u <= 1 - p).
    { apply Rabs_le_inv in PQ as PQ'. assert (Wf / 2 <= (1 - p) * W) by lra. unfold e1 in D4. assert (0 < 1 - p) by nra. nra. }
    destruct (real_1 (c * c) W W0 p a h ltac:(nra) PW N0 ltac:(lra) A0 H0 HPE IV HH ltac:(lra)) as [PP V].
    split; auto. split; [assert (0 <= c * c * W0) by (apply Rmult_le_pos; nra); lra|].
    assert (S0 : 0 < sqrt (1 - p)) by (apply sqrt_lt_R0; lra). exists c. split; auto. split; auto. split; auto.
    replace (c / sqrt (1 - p) * (c / sqrt (1 - p))) with (c * c / (1 - p)) by (rewrite <- (sqrt_sqrt (1 - p)) at 1 by lra; field; lra).
    rewrite EW in *. set (w := Rabs (c * c / (1 - p) * (W - W0) - 1)) in *. assert (V0 : 0 <= w) by apply Rabs_pos. set (X := h + 2 * a) in *.
    assert (VV : w * (2 * INR k + 1) <= 1).
    { destruct (Rle_lt_dec (w * (2 * INR k + 1)) 1) as [L|L]; auto. exfalso.
      assert ((W - W0 - X) < X * (2 * INR k + 1)).
      { apply Rlt_le_trans with (w * (2 * INR k + 1) * (W - W0 - X)); [|nra]. rewrite <- (Rmult_1_l (W - W0 - X)) at 1. apply Rmult_lt_compat_r; lra. }
      assert (X * (2 * INR k + 2) <= (2 * INR k + 1) * e1 * (2 * INR k + 2)) by (apply Rmult_le_compat_r; lra). lra. }
    rewrite S_INR. assert (w * X <= w * ((2 * INR k + 1) * e1)) by (apply Rmult_le_compat_l; auto). assert (w * (2 * INR k + 1) * e1 <= 1 * e1) by (apply Rmult_le_compat_r; auto). lra.
  - change (norm2 n (project t false B)) with W0 in *.
    destruct (real_0 (c * c) W0 p a ltac:(nra) ltac:(lra) A0 ltac:(lra) HPE) as [PP V].
    split. { pose proof D4 as D5. unfold e1 in D5. assert (1 / 2 * (W0 - a) <= c * c * (W0 - a)) by (apply Rmult_le_compat_r; lra). lra. }
    split. { assert (c * c * W0 <= c * c * W) by (apply Rmult_le_compat_l; nra). lra. }
    assert (S0 : 0 < sqrt p) by (apply sqrt_lt_R0; auto). exists c. split; auto. split; auto. split; auto.
    replace (c / sqrt p * (c / sqrt p)) with (c * c / p) by (rewrite <- (sqrt_sqrt p) at 1 by lra; field; lra).
    rewrite S_INR. assert (0 <= INR k * e1) by (apply Rmult_le_pos; auto). lra.
Qed.

(** ** What is left to do *)
Variables (Rf : nat -> nat) (Pf : nat).
Definition stodo (es : list event) (phi : state) (bits : nat -> nat) (pos : nat) : Prop :=
  exists s B k m, List.length s = draws es /\ in_box (box n es s B) rng pos /\ clear smup n es s B rng pos /\ branch es s B = Bf /\
    recorded es s bits = Rf /\ (pos + draws es = Pf)%nat /\ (k + draws es = D)%nat /\ (m + 7 * List.length es = T)%nat /\ norm2 n B <= 1 /\ sinv k m phi B.
Lemma sinv_le : forall k m m' phi B, sinv k m phi B -> (m <= m')%nat -> sinv k m' phi B.
Proof.
  intros k m m' phi B (c & P & N & I) L. exists c. split; auto. split; auto. unfold near in *. eapply Rle_trans; [exact N|]. apply Rmult_le_compat_l; [lra|]. apply ct_le; auto.
Qed.
Lemma near_after : forall phi phi' V B c q m, good n V -> 0 < c -> 0 < q -> near n phi B c (ct m) -> forall x, x <= c * (H + ct m) ->
  dist n phi' (scl (RtoC (/ sqrt q)) (V phi)) <= 100 * u * (/ sqrt q * x) -> near n phi' (V B) (c / sqrt q) (ct (S m)).
Proof.
  intros phi phi' V B c q m GV PC PQ NR x LX DD. assert (S0 : 0 < sqrt q) by (apply sqrt_lt_R0; auto). assert (I : 0 < / sqrt q) by (apply Rinv_0_lt_compat; auto). pose proof sK_u as KU. pose proof (ct_pos m) as CP.
  unfold near in *. eapply Rle_trans; [apply dist_tri with (b := scl (RtoC (/ sqrt q)) (V phi))|].
  assert (D3 : dist n (scl (RtoC (/ sqrt q)) (V phi)) (scl (RtoC (c / sqrt q)) (V B)) = / sqrt q * dist n (V phi) (scl (RtoC c) (V B))).
  { unfold dist. rewrite <- (norm_scl n (/ sqrt q)) by lra. f_equal. apply functional_extensionality. intros y. unfold scl, RtoC, Rdiv. apply C_ext; cunfold; ring. }
  rewrite D3. change (scl (RtoC c) (V B)) with (fun x => (RtoC c * V B x)%C). rewrite <- (lin_scl V (proj1 GV)). rewrite good_dist by auto. change (fun x => (RtoC c * B x)%C) with (scl (RtoC c) B).
  replace (S m) with (m + 1)%nat by lia. rewrite <- ct_add, cost_1.
  assert (/ sqrt q * dist n phi (scl (RtoC c) B) <= / sqrt q * (c * ct m)) by (apply Rmult_le_compat_l; lra).
  assert (100 * u * (/ sqrt q * x) <= K * (/ sqrt q * (c * (H + ct m)))).
  { assert (0 <= c * (H + ct m)) by (apply Rmult_le_pos; unfold H; lra). apply Rle_trans with (100 * u * (/ sqrt q * (c * (H + ct m)))).
    - apply Rmult_le_compat_l; [lra|]. apply Rmult_le_compat_l; lra.
    - apply Rmult_le_compat_r; [apply Rmult_le_pos; lra|lra]. }
  replace (c / sqrt q * (ct m + K * (H + ct m))) with (K * (/ sqrt q * (c * (H + ct m))) + / sqrt q * (c * ct m)) by (field; lra). lra.
Qed.

Lemma measure_stodo : forall step, collapses after_measure rec_measure step ->
  forall tz es phi bits pos, inside n tz -> Forall (event_ok n) es -> stodo (EMeasure (Z.to_nat tz) :: es) phi bits pos ->
  exists phi' bits', step tz (arr n phi, map bits (seq 0 n), pos) = ((arr n phi', map bits' (seq 0 n), S pos), None) /\ stodo es phi' bits' (S pos).
Proof.
  intros step HC tz es phi bits pos Ht F (s & B & k & m & L & IB & AP & BR & RC & PS & KD & MT & WB & IV).
  assert (SZ : norm n phi <= 3 / 2).
  { destruct IV as (c & PC & NR & IV). eapply (sinv_size k m phi B c); eauto; try lia. unfold Wf. rewrite <- BR. apply branch_norm. apply Forall_cons; auto. apply inside_lt in Ht. exact Ht. }
  destruct (HC tz phi bits pos Ht SZ) as (p & HP & HQ). set (t := Z.to_nat tz) in *.
  cbn [draws] in *. destruct s as [|b s]; [discriminate|]. injection L as L. cbn [box clear branch recorded List.length] in *.
  apply in_box_cons in IB. destruct IB as [IB0 IB]. destruct AP as [AP0 AP].
  assert (LW : Wf <= norm2 n (project t b B)) by (unfold Wf; rewrite <- BR; apply branch_norm; auto).
  destruct (sdraw_step k m phi B t b p IV WB LW ltac:(lia) ltac:(lia) ltac:(lia) (rng pos) (Hrng pos)) as [BIT (Q1 & Q2 & c & PC & NR & SZ2 & HV)];
    [destruct b; cbn [fst snd] in IB0; lra|exact AP0|exact HP|].
  destruct (HQ b BIT Q1 Q2) as (phi' & EQ & DD). exists phi', (rec_measure bits t b). split; [exact EQ|].
  pose proof (norm2_proj1 n t b B). exists s, (project t b B), (S k), (m + 7)%nat. repeat (split; [solve [auto|lia|lra]|]).
  apply sinv_le with (S m); [|lia]. set (q := if b then 1 - p else p) in *. assert (S0 : 0 < sqrt q) by (apply sqrt_lt_R0; lra).
  exists (c / sqrt q). split; [apply Rdiv_lt_0_compat; auto|]. split; [|exact HV].
  apply (near_after (project t b phi) phi' (fun psi => psi) _ c q m) with (x := norm n phi + g); auto; [|lra]. split; [apply linear_one|intros x y; reflexivity].
Qed.
Lemma reset_stodo : forall step, collapses after_reset rec_reset step ->
  forall tz es phi bits pos, inside n tz -> Forall (event_ok n) es -> stodo (EReset (Z.to_nat tz) :: es) phi bits pos ->
  exists phi' bits', step tz (arr n phi, map bits (seq 0 n), pos) = ((arr n phi', map bits' (seq 0 n), S pos), None) /\ stodo es phi' bits' (S pos).
Proof.
  intros step HC tz es phi bits pos Ht F (s & B & k & m & L & IB & AP & BR & RC & PS & KD & MT & WB & IV).
  assert (SZ : norm n phi <= 3 / 2).
  { destruct IV as (c & PC & NR & IV). eapply (sinv_size k m phi B c); eauto; try lia. unfold Wf. rewrite <- BR. apply branch_norm. apply Forall_cons; auto. apply inside_lt in Ht. exact Ht. }
  destruct (HC tz phi bits pos Ht SZ) as (p & HP & HQ). assert (TN : (Z.to_nat tz < n)%nat) by (apply inside_lt; auto). set (t := Z.to_nat tz) in *.
  cbn [draws] in *. destruct s as [|b s]; [discriminate|]. injection L as L. cbn [box clear branch recorded List.length] in *.
  apply in_box_cons in IB. destruct IB as [IB0 IB]. destruct AP as [AP0 AP].
  set (V := after_reset b t).
  assert (GV : good n V). { unfold V, after_reset. destruct b; [apply good_x; auto|]. split; [apply linear_one|]. intros x y. reflexivity. }
  change (if b then ap1 mX t (project t b B) else project t b B) with (V (project t b B)) in *.
  assert (WV : norm2 n (V (project t b B)) = norm2 n (project t b B)) by (apply preserves_norm, GV).
  assert (LW : Wf <= norm2 n (project t b B)) by (rewrite <- WV; unfold Wf; rewrite <- BR; apply branch_norm; auto).
  destruct (sdraw_step k m phi B t b p IV WB LW ltac:(lia) ltac:(lia) ltac:(lia) (rng pos) (Hrng pos)) as [BIT (Q1 & Q2 & c & PC & NR & SZ2 & HV)];
    [destruct b; cbn [fst snd] in IB0; lra|exact AP0|exact HP|].
  destruct (HQ b BIT Q1 Q2) as (phi' & EQ & DD). exists phi', bits. split; [exact EQ|].
  pose proof (norm2_proj1 n t b B). exists s, (V (project t b B)), (S k), (m + 7)%nat. repeat (split; [solve [auto|lia|lra]|]).
  apply sinv_le with (S m); [|lia]. set (q := if b then 1 - p else p) in *. assert (S0 : 0 < sqrt q) by (apply sqrt_lt_R0; lra).
  exists (c / sqrt q). split; [apply Rdiv_lt_0_compat; auto|]. rewrite WV. split; [|exact HV].
  apply (near_after (project t b phi) phi' V _ c q m) with (x := norm n phi + g); auto; lra.
Qed.

Lemma loop_stodo : forall (ev : nat -> event) (step : mstep), (forall tz es phi bits pos, inside n tz -> Forall (event_ok n) es -> stodo (ev (Z.to_nat tz) :: es) phi bits pos ->
    exists phi' bits', step tz (arr n phi, map bits (seq 0 n), pos) = ((arr n phi', map bits' (seq 0 n), S pos), None) /\ stodo es phi' bits' (S pos)) ->
  (forall t, (t < n)%nat -> event_ok n (ev t)) ->
  forall l es phi bits pos, Forall (inside n) l -> Forall (event_ok n) es -> stodo (map (fun t => ev (Z.to_nat t)) l ++ es) phi bits pos ->
  exists phi' bits' pos', loop_state l step (arr n phi, map bits (seq 0 n), pos) = ((arr n phi', map bits' (seq 0 n), pos'), None) /\ stodo es phi' bits' pos'.
Proof.
  intros ev step HS OK. induction l as [|t l IH]; intros es phi bits pos F FE TD.
  - exists phi, bits, pos. split; auto.
  - inversion_clear F as [|? ? Ft Fl]. cbn [map app] in TD. assert (FO : Forall (event_ok n) (map (fun t => ev (Z.to_nat t)) l ++ es)).
    { apply Forall_app. split; auto. apply Forall_map. eapply Forall_impl; [|exact Fl]. intros a I. apply OK, inside_lt, I. }
    destruct (HS t _ phi bits pos Ft FO TD) as (phi1 & bits1 & E1 & T1).
    destruct (IH es phi1 bits1 (S pos) Fl FE T1) as (phi2 & bits2 & pos2 & E2 & T2). exists phi2, bits2, pos2. split; auto. cbn [loop_state]. rewrite E1. exact E2.
Qed.

(** gates without draws: the state is within range, and a close result keeps the invariant *)
Lemma stodo_range : forall ops es phi bits pos, Forall (good n) ops -> Forall (event_ok n) es -> stodo (map EOp ops ++ es) phi bits pos -> (norm n phi + g) * (1 + cost K (7 * List.length ops)) <= 4.
Proof.
  intros ops es phi bits pos G FE (s & B & k & m & L & IB & AP & BR & RC & PS & KD & MT & WB & c & PC & NR & IV).
  assert (LW : Wf <= norm2 n B). { unfold Wf. rewrite <- BR. apply branch_norm. apply Forall_app. split; auto. apply Forall_map. eapply Forall_impl; [|exact G]. intros U HG. split; [apply HG|]. intros k' f. apply (lin_scl U (proj1 HG)). }
  rewrite app_length, map_length in MT.
  destruct (sinv_size k m phi B c ltac:(lia) ltac:(lia) LW WB PC NR IV) as (Z1 & _ & _).
  assert (CE : ct (7 * List.length ops) <= 1 / 28).
  { pose proof (ct_E (7 * List.length ops) ltac:(lia)). pose proof vH. pose proof HD0 as D0. unfold e1 in D0. lra. }
  pose proof (cost_pos K (7 * List.length ops) sK_pos) as CP. pose proof (norm_pos n phi).
  assert (cost K (7 * List.length ops) <= 1 / 28). { eapply Rle_trans; [|exact CE]. unfold ct, H. nra. }
  apply Rle_trans with ((3 / 2 + 1) * (1 + 1 / 28)); [apply Rmult_le_compat; lra|lra].
Qed.
Lemma stodo_ops : forall ops es phi bits pos, Forall (good n) ops -> Forall (event_ok n) es -> stodo (map EOp ops ++ es) phi bits pos -> forall phi',
  dist n phi' (apply_all ops phi) <= cost K (7 * List.length ops) * (norm n phi + g) -> stodo es phi' bits pos.
Proof.
  intros ops es phi bits pos G FE (s & B & k & m & L & IB & AP & BR & RC & PS & KD & MT & WB & c & PC & NR & IV) phi' HD'.
  assert (LW : Wf <= norm2 n B). { unfold Wf. rewrite <- BR. apply branch_norm. apply Forall_app. split; auto. apply Forall_map. eapply Forall_impl; [|exact G]. intros U HG. split; [apply HG|]. intros k' f. apply (lin_scl U (proj1 HG)). }
  assert (X : draws (map EOp ops ++ es) = draws es /\ (forall bt, recorded (map EOp ops ++ es) s bt = recorded es s bt) /\
    forall psi, box n (map EOp ops ++ es) s psi = box n es s (apply_all ops psi) /\ clear smup n (map EOp ops ++ es) s psi rng pos = clear smup n es s (apply_all ops psi) rng pos /\
      branch (map EOp ops ++ es) s psi = branch es s (apply_all ops psi)).
  { clear. induction ops as [|U ops IH]; [cbn; auto|]. destruct IH as (I1 & I2 & I3). cbn [map app draws recorded]. split; auto. split; auto. intros psi.
    destruct (I3 (U psi)) as (J1 & J2 & J3). cbn [box clear branch]. rewrite J1, J2, J3. auto. }
  destruct X as (X1 & X2 & X3). destruct (X3 B) as (X4 & X5 & X6). rewrite X1, X2, X4, X5, X6 in *. rewrite app_length, map_length in MT.
  destruct (sinv_size k m phi B c ltac:(lia) ltac:(lia) LW WB PC NR IV) as (_ & Z2 & _).
  pose proof (good_all n ops G) as GA. assert (WE : norm2 n (apply_all ops B) = norm2 n B) by (apply preserves_norm, GA).
  exists s, (apply_all ops B), k, (m + 7 * List.length ops)%nat. rewrite WE. repeat (split; [solve [auto|lia]|]).
  exists c. rewrite WE. split; auto. split; auto. pose proof sK_pos as KP. unfold near in *. change (scl (RtoC c) (apply_all ops B)) with (fun x => (RtoC c * apply_all ops B x)%C). rewrite <- (lin_scl _ (proj1 GA)).
  eapply Rle_trans; [apply dist_tri with (b := apply_all ops phi)|]. rewrite good_dist by auto.
  pose proof (cost_pos K (7 * List.length ops) KP). rewrite <- ct_add. set (f := cost K (7 * List.length ops)) in *.
  assert (f * (norm n phi + g) <= f * (c * (H + ct m))) by (apply Rmult_le_compat_l; auto).
  change (fun x => (RtoC c * B x)%C) with (scl (RtoC c) B). lra.
Qed.

Lemma sfinal : forall phi bits pos, Wf <= 1 -> stodo [] phi bits pos -> bits = Rf /\ pos = Pf /\
  dist n phi (scl (RtoC (/ sqrt Wf)) Bf) <= (14 * INR D + 2) * E / Wf.
Proof.
  intros phi bits pos W1 (s & B & k & m & L & _ & _ & BR & RC & PS & KD & MT & WB & c & PC & NR & IV). cbn [draws branch recorded List.length] in *.
  assert (k = D) by lia. assert (m = T) by lia. assert (pos = Pf) by lia. subst k m pos B bits. split; auto. split; auto.
  assert (NR' : near n phi Bf c E). { unfold near in *. eapply Rle_trans; [exact NR|]. apply Rmult_le_compat_l; [lra|]. pose proof (ct_E T (le_n _)). pose proof vH. lra. }
  clear NR. rename NR' into NR. pose proof (c_range c D Wf (le_n _) (Rle_refl _) IV) as Q.
  fold Wf in IV. pose proof sE_pos as EP. pose proof (pos_INR D) as DP. pose proof se1_pos.
  assert (SW : 0 < sqrt Wf) by (apply sqrt_lt_R0; auto). assert (SQ : sqrt Wf * sqrt Wf = Wf) by (apply sqrt_sqrt; lra).
  assert (S1 : sqrt Wf <= 1) by nra.
  set (y := c * sqrt Wf). assert (Y : y * y = c * c * Wf) by (unfold y; rewrite <- SQ at 3; ring). assert (YP : 0 < y) by (apply Rmult_lt_0_compat; auto). assert (Y2 : y <= 2) by nra.
  eapply Rle_trans; [apply dist_tri with (b := scl (RtoC c) Bf)|].
  assert (D3 : dist n (scl (RtoC c) Bf) (scl (RtoC (/ sqrt Wf)) Bf) = Rabs (y - 1)).
  { unfold dist. replace (fun x => (scl (RtoC c) Bf x - scl (RtoC (/ sqrt Wf)) Bf x)%C) with (scl (RtoC (c - / sqrt Wf)) Bf)
      by (apply functional_extensionality; intros x; unfold scl, RtoC; apply C_ext; cunfold; ring).
    unfold norm. rewrite norm2_scl, Cnorm2_RtoC. fold Wf. unfold y. set (w := sqrt Wf) in *. rewrite <- SQ.
    replace ((c - / w) * (c - / w) * (w * w)) with (Rsqr (c * w - 1)) by (unfold Rsqr; field; lra). apply sqrt_Rsqr_abs. }
  rewrite D3. assert (D4 : Rabs (y - 1) <= Rabs (c * c * Wf - 1)).
  { rewrite <- Y. replace (y * y - 1) with ((y - 1) * (y + 1)) by ring. rewrite Rabs_mult, (Rabs_pos_eq (y + 1)) by lra. pose proof (Rabs_pos (y - 1)). nra. }
  unfold near in NR. apply Rmult_le_reg_r with Wf; auto. replace ((14 * INR D + 2) * E / Wf * Wf) with (2 * INR D * e1 + 2 * E) by (unfold e1; field; lra).
  assert (c * E * Wf <= 2 * E).
  { replace (c * E * Wf) with (y * E * sqrt Wf) by (transitivity (c * E * (sqrt Wf * sqrt Wf)); [unfold y; ring|rewrite SQ; ring]). assert (y * E <= 2 * E) by (apply Rmult_le_compat_r; lra). nra. }
  assert (Rabs (y - 1) * Wf <= 2 * INR D * e1) by (eapply Rle_trans; [apply Rmult_le_compat_r; [lra|exact D4]|auto]).
  assert (dist n phi (scl (RtoC c) Bf) * Wf <= c * E * Wf) by (apply Rmult_le_compat_r; lra). lra.
Qed.
End Shot.
