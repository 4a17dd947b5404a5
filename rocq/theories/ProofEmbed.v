(** Proofs: operators as real matrices, and Lie's limit for operators *)
From Coq Require Import List Arith ZArith Bool Reals Lia Lra.
Import ListNotations.
From Verif Require Import Base Cplx Bits SpecQuantum SpecLaw SpecAnneal SpecSqa SpecThermal ModelPauli SpecPauli SpecEvolve ProofLawStat ProofAnneal ProofLie.
From Verif Require ProofSympy ProofAnnealConv ProofVqeRun.
Local Open Scope R_scope.
Notation determined := ProofSympy.determined.

(** ** Indices *)
Fixpoint val (b : list bool) : nat := match b with [] => O | s :: b => ((if s then 2 ^ List.length b else 0) + val b)%nat end.
Lemma seq_moved : forall k m j, map (fun x => (k + x)%nat) (seq j m) = seq (k + j) m.
Proof. intros k. induction m as [|m IH]; intros j; [reflexivity|]. cbn [seq map]. f_equal. rewrite IH. f_equal. lia. Qed.
Lemma val_values : forall n, map val (values n) = seq 0 (2 ^ n).
Proof.
  induction n as [|n IH]; [reflexivity|]. cbn [values]. rewrite map_app, !map_map.
  replace (2 ^ S n)%nat with (2 ^ n + 2 ^ n)%nat by (cbn [Nat.pow]; lia). rewrite seq_app. f_equal; [exact IH|].
  rewrite (map_ext_in _ (fun b => (2 ^ n + val b)%nat)).
  - rewrite <- (map_map val (fun x => (2 ^ n + x)%nat)), IH. rewrite seq_moved. f_equal. lia.
  - intros b B. apply values_spec in B. cbn [val]. rewrite B. reflexivity.
Qed.
Lemma val_below : forall n b, In b (values n) -> (val b < 2 ^ n)%nat.
Proof. intros n b B. apply (in_map val) in B. rewrite val_values in B. apply in_seq in B. lia. Qed.
Lemma val_onto : forall n x, (x < 2 ^ n)%nat -> exists b, In b (values n) /\ val b = x.
Proof.
  intros n x X. assert (I : In x (map val (values n))) by (rewrite val_values; apply in_seq; lia). apply in_map_iff in I as (b & E & B). exists b. auto.
Qed.
Lemma val_inj : forall n b c, In b (values n) -> In c (values n) -> val b = val c -> b = c.
Proof.
  intros n b c B C E. assert (N : NoDup (map val (values n))) by (rewrite val_values; apply seq_NoDup).
  revert N B C. generalize (values n). induction l as [|a l IH]; intros N B C; [destruct B|]. cbn in N. inversion N as [|? ? Na Nl]; subst.
  destruct B as [<-|B], C as [<-|C]; auto.
  - exfalso. apply Na. rewrite E. apply in_map. exact C.
  - exfalso. apply Na. rewrite <- E. apply in_map. exact B.
Qed.
Lemma Csum_values : forall n (f : nat -> C), Csum f (seq 0 (2 ^ n)) = Csum (fun b => f (val b)) (values n).
Proof. intros n f. rewrite <- val_values. apply Csum_map. Qed.

(** ** Real matrices *)
Definition part (f : bool) (z : C) : R := if f then Cim z else Cre z.
Definition unit_of (g : bool) (c : list bool) : state := fun x => ((if g then Ci else C1) * ket (val c) x)%C.
Definition emb (U : oper) : cmat := fun b c =>
  match b, c with
  | f :: b, g :: c => part f (U (unit_of g c) (val b))
  | _, _ => 0
  end.
Definition vec (psi : state) (b : list bool) : R := match b with f :: b => part f (psi (val b)) | [] => 0 end.
Lemma part_add : forall f a b, part f (a + b)%C = part f a + part f b.
Proof. intros [] a b; reflexivity. Qed.
Lemma part_Csum : forall A f (g : A -> C) l, part f (Csum g l) = Rsum (fun a => part f (g a)) l.
Proof. intros A f g. induction l as [|a l IH]; cbn [Csum Rsum]; [destruct f; reflexivity|]. rewrite part_add, IH. reflexivity. Qed.
Lemma unit_apply : forall n U g c x, determined n U -> In c (values n) -> (x < 2 ^ n)%nat -> U (unit_of g c) x = ((if g then Ci else C1) * U (ket (val c)) x)%C.
Proof.
  intros n U g c x D Ic X. rewrite (D (unit_of g c) x X). rewrite (Csum_single _ _ (val c)).
  - unfold unit_of, ket at 2. rewrite Nat.eqb_refl. ring.
  - apply seq_NoDup.
  - apply in_seq. pose proof (val_below n c Ic). lia.
  - intros y _ N. unfold unit_of, ket. destruct (Nat.eqb_spec y (val c)); [contradiction|]. ring.
Qed.
Lemma emb_apply : forall n U psi b, determined n U -> In b (values (S n)) -> vec (U psi) b = Rsum (fun d => emb U b d * vec psi d) (values (S n)).
Proof.
  intros n U psi b D B. cbn [values] in B. assert (Hb : exists f c, b = f :: c /\ In c (values n)).
  { apply in_app_or in B as [B|B]; apply in_map_iff in B as (c & <- & Ic); eauto. }
  destruct Hb as (f & c & -> & Ic). cbn [vec values]. rewrite Rsum_app, !Rsum_map.
  rewrite (D psi (val c)) by (apply val_below; exact Ic). rewrite Csum_values, part_Csum, <- Rsum_add. apply Rsum_ext. intros d Id.
  cbn [emb vec]. rewrite !(unit_apply n U _ d (val c) D Id (val_below n c Ic)). generalize (U (ket (val d)) (val c)) as u, (psi (val d)) as p. intros u p.
  destruct f; unfold part, Ci, C1, Cmul, Cre, Cim; cbn; ring.
Qed.
Lemma vec_unit : forall U g c b, vec (U (unit_of g c)) b = match b with [] => 0 | _ => emb U b (g :: c) end.
Proof. intros U g c [|f b]; reflexivity. Qed.
Lemma emb_mul : forall n U V b c, determined n U -> In b (values (S n)) -> In c (values (S n)) -> emb (fun psi => U (V psi)) b c = cmul (S n) (emb U) (emb V) b c.
Proof.
  intros n U V b c D B C. pose proof B as B'. pose proof C as C'. apply values_spec in B', C'. destruct b as [|f b]; [discriminate|]. destruct c as [|g c]; [discriminate|].
  change (emb (fun psi => U (V psi)) (f :: b) (g :: c)) with (vec (U (V (unit_of g c))) (f :: b)). rewrite (emb_apply n U _ _ D B). unfold cmul. apply Rsum_ext. intros d Id.
  rewrite vec_unit. apply values_spec in Id. destruct d; [discriminate|]. reflexivity.
Qed.
Lemma emb_one : forall n b c, In b (values (S n)) -> In c (values (S n)) -> emb op_one b c = is b c.
Proof.
  intros n b c B C. pose proof B as B'. pose proof C as C'. apply values_spec in B', C'. destruct b as [|f b]; [discriminate|]. destruct c as [|g c]; [discriminate|].
  cbn in B', C'. injection B' as B'. injection C' as C'. apply values_spec in B', C'. cbn [emb]. unfold op_one, unit_of, ket.
  destruct (Nat.eqb_spec (val b) (val c)) as [E|E].
  - apply (val_inj n) in E; auto. subst c. destruct f, g; [rewrite is_same|rewrite is_other by congruence|rewrite is_other by congruence|rewrite is_same]; unfold part, Ci, C1, Cmul, Cre, Cim; cbn; ring.
  - rewrite is_other by congruence. destruct f, g; unfold part, Ci, C1, C0, Cmul, Cre, Cim; cbn; ring.
Qed.
Lemma emb_ext : forall U V b c, same_op U V -> emb U b c = emb V b c.
Proof. intros U V [|f b] [|g c] E; try reflexivity. cbn [emb]. rewrite E. reflexivity. Qed.
Lemma det_ext : forall n U V, same_op U V -> determined n U -> determined n V.
Proof. intros n U V E D psi x X. rewrite <- E, (D psi x X). apply Csum_ext. intros k _. rewrite E. reflexivity. Qed.
Lemma det_pow : forall n U k, determined n U -> determined n (op_pow U k).
Proof. intros n U k D. induction k as [|k IH]; [apply ProofSympy.det_id|]. exact (ProofSympy.det_comp n (op_pow U k) U IH D). Qed.
Lemma emb_pow : forall n U k b c, determined n U -> In b (values (S n)) -> In c (values (S n)) -> emb (op_pow U k) b c = cpower (S n) (emb U) k b c.
Proof.
  intros n U k b c D. revert b c. induction k as [|k IH]; intros b c B C; [apply (emb_one n); assumption|].
  change (op_pow U (S k)) with (fun psi => U (op_pow U k psi)). rewrite (emb_mul n) by assumption. cbn [cpower]. unfold cmul. apply Rsum_ext. intros d Id. rewrite IH by assumption. reflexivity.
Qed.
Lemma pow_apply : forall n U k psi b, determined n U -> In b (values (S n)) -> vec (op_pow U k psi) b = Rsum (fun d => cpower (S n) (emb U) k b d * vec psi d) (values (S n)).
Proof. intros n U k psi b D B. rewrite (emb_apply n) by (auto using det_pow). apply Rsum_ext. intros d Id. rewrite (emb_pow n) by assumption. reflexivity. Qed.

(** ** Limits of finite sums *)
Lemma sum_cv : forall X (l : list X) (u : X -> nat -> R) (v : X -> R), (forall b, In b l -> Un_cv (u b) (v b)) -> Un_cv (fun P => Rsum (fun b => u b P) l) (Rsum v l).
Proof.
  intros X. induction l as [|a l IH]; intros u v H; cbn [Rsum].
  - intros eps Heps. exists 0%nat. intros k _. rewrite R_dist_eq. exact Heps.
  - apply (CV_plus (u a) (fun P => Rsum (fun b => u b P) l)); [apply H; left; reflexivity|]. apply IH. intros b B. apply H. right. exact B.
Qed.
Lemma cv_scale : forall u l k, Un_cv u l -> Un_cv (fun P => u P * k) (l * k).
Proof.
  intros u l k H. apply (CV_mult u (fun _ => k)); [exact H|]. intros eps Heps. exists 0%nat. intros j _. rewrite R_dist_eq. exact Heps.
Qed.
Lemma cv_ext : forall u v l, (forall P, u P = v P) -> Un_cv u l -> Un_cv v l.
Proof. intros u v l E H eps Heps. destruct (H eps Heps) as (N & HN). exists N. intros P HP. rewrite <- E. apply HN. exact HP. Qed.
Lemma sum_in : forall X (l : list X) (g : nat -> X -> R) N, sum_f_R0 (fun k => Rsum (g k) l) N = Rsum (fun d => sum_f_R0 (fun k => g k d) N) l.
Proof. intros X l g. induction N as [|N IH]; [reflexivity|]. cbn [sum_f_R0]. rewrite IH, <- Rsum_add. reflexivity. Qed.
(** the exponential of the matrix, applied to a vector *)
Lemma series_vec : forall n K A psi b, determined n K -> exponential_of (S n) (emb K) A -> In b (values (S n)) ->
  infinite_sum (fun k => vec (op_pow K k psi) b / INR (fact k)) (Rsum (fun d => A b d * vec psi d) (values (S n))).
Proof.
  intros n K A psi b D HA B.
  assert (L : Un_cv (fun N => Rsum (fun d => sum_f_R0 (fun k => cpower (S n) (emb K) k b d / INR (fact k)) N * vec psi d) (values (S n))) (Rsum (fun d => A b d * vec psi d) (values (S n)))).
  { apply (sum_cv _ (values (S n)) (fun d N => sum_f_R0 (fun k => cpower (S n) (emb K) k b d / INR (fact k)) N * vec psi d)). intros d Id.
    apply (cv_scale (fun N => sum_f_R0 (fun k => cpower (S n) (emb K) k b d / INR (fact k)) N)). intros eps Heps. destruct (HA b d B Id eps Heps) as (N & HN). exists N. exact HN. }
  intros eps Heps. destruct (L eps Heps) as (N & HN). exists N. intros k Hk. specialize (HN k Hk).
  rewrite (sum_eq _ (fun k => Rsum (fun d => cpower (S n) (emb K) k b d / INR (fact k) * vec psi d) (values (S n)))).
  - rewrite sum_in. rewrite (Rsum_ext _ _ (fun d => sum_f_R0 (fun k => cpower (S n) (emb K) k b d / INR (fact k)) k * vec psi d)); [exact HN|].
    intros d _. rewrite Rmult_comm, scal_sum. reflexivity.
  - intros i _. rewrite (pow_apply n) by assumption. unfold Rdiv. rewrite <- Rsum_mul_r. apply Rsum_ext. intros d _. ring.
Qed.
Lemma series_exists : forall n K psi, determined n K -> exists phi, series_sum n K psi phi.
Proof.
  intros n K psi D. destruct (exponential_exists (S n) (emb K)) as (A & HA).
  assert (Q : forall x, { z : C | (x < 2 ^ n)%nat -> infinite_sum (fun k => Cre (op_pow K k psi x) / INR (fact k)) (Cre z) /\ infinite_sum (fun k => Cim (op_pow K k psi x) / INR (fact k)) (Cim z) }).
  { intros x. destruct (find (fun b => Nat.eqb (val b) x) (values n)) as [b|] eqn:E.
    - apply find_some in E as (B & E). apply Nat.eqb_eq in E. subst x.
      exists (Rsum (fun d => A (false :: b) d * vec psi d) (values (S n)), Rsum (fun d => A (true :: b) d * vec psi d) (values (S n))). intros _.
      assert (I : forall f, In (f :: b) (values (S n))) by (intros f; apply values_spec; apply values_spec in B; cbn; rewrite B; reflexivity).
      split; [exact (series_vec n K A psi (false :: b) D HA (I false))|exact (series_vec n K A psi (true :: b) D HA (I true))].
    - exists C0. intros X. exfalso. destruct (val_onto n x X) as (b & B & Eb). pose proof (find_none _ _ E b B) as F. cbn in F. apply Nat.eqb_neq in F. auto. }
  exists (fun x => proj1_sig (Q x)). intros x X. exact (proj2_sig (Q x) X).
Qed.
Lemma infinite_unique : forall u a b, infinite_sum u a -> infinite_sum u b -> a = b.
Proof. intros u a b. apply uniqueness_sum. Qed.
Lemma series_value : forall n K A psi phi b, determined n K -> exponential_of (S n) (emb K) A -> series_sum n K psi phi -> In b (values (S n)) -> vec phi b = Rsum (fun d => A b d * vec psi d) (values (S n)).
Proof.
  intros n K A psi phi b D HA HS B. pose proof (series_vec n K A psi b D HA B) as L. pose proof B as B'. apply values_spec in B'. destruct b as [|f b]; [discriminate|].
  injection B' as B'. apply values_spec in B'. destruct (HS (val b) (val_below n b B')) as (S1 & S2). cbn [vec] in L |- *. apply infinite_unique with (2 := L). destruct f; assumption.
Qed.

(** ** Families of operators that start with the identity *)
Definition germ (n : nat) (Sf : R -> oper) (K : oper) : Prop :=
  determined n K /\ (forall h, determined n (Sf h)) /\
  forall b c, In b (values (S n)) -> In c (values (S n)) -> emb (Sf 0) b c = is b c /\ derivable_pt_lim (fun h => emb (Sf h) b c) 0 (emb K b c).
Lemma deriv_ext : forall f g x l, (forall h, f h = g h) -> derivable_pt_lim f x l -> derivable_pt_lim g x l.
Proof. intros f g x l E H eps Heps. destruct (H eps Heps) as (d & Hd). exists d. intros h H0 H1. rewrite <- !E. apply Hd; assumption. Qed.
Lemma deriv_sum : forall X (l : list X) (f : X -> R -> R) (d : X -> R) x, (forall a, In a l -> derivable_pt_lim (f a) x (d a)) -> derivable_pt_lim (fun h => Rsum (fun a => f a h) l) x (Rsum d l).
Proof.
  intros X. induction l as [|a l IH]; intros f d x H; cbn [Rsum]; [apply derivable_pt_lim_const|].
  apply (derivable_pt_lim_plus (f a) (fun h => Rsum (fun a => f a h) l)); [apply H; left; reflexivity|]. apply IH. intros b B. apply H. right. exact B.
Qed.
Lemma germ_one : forall n, germ n (fun _ => op_one) (fun _ _ => C0).
Proof.
  intros n. split; [|split].
  - intros psi x _. symmetry. apply Csum_0. intros. ring.
  - intros h. apply ProofSympy.det_id.
  - intros b c B C. split; [apply (emb_one n); assumption|]. replace (emb (fun _ _ => C0) b c) with 0; [apply derivable_pt_lim_const|]. destruct b as [|[] b], c; reflexivity.
Qed.
Lemma germ_ext : forall n S1 S2 K1 K2, (forall h, same_op (S1 h) (S2 h)) -> same_op K1 K2 -> germ n S1 K1 -> germ n S2 K2.
Proof.
  intros n S1 S2 K1 K2 ES EK (DK & DS & H). split; [exact (det_ext n _ _ EK DK)|]. split; [intros h; exact (det_ext n _ _ (ES h) (DS h))|].
  intros b c B C. destruct (H b c B C) as (H0 & H1). split; [rewrite <- (emb_ext _ _ b c (ES 0)); exact H0|]. rewrite <- (emb_ext _ _ b c EK).
  apply deriv_ext with (2 := H1). intros h. apply emb_ext. apply ES.
Qed.
(** first [S1], then [S2] *)
Lemma germ_comp : forall n S1 S2 K1 K2, germ n S1 K1 -> germ n S2 K2 -> germ n (fun h psi => S2 h (S1 h psi)) (op_add K2 K1).
Proof.
  intros n S1 S2 K1 K2 (D1 & E1 & H1) (D2 & E2 & H2). split; [exact (ProofSympy.det_add n K2 K1 D2 D1)|]. split; [intros h; apply (ProofSympy.det_comp n (S1 h) (S2 h)); auto|].
  intros b c B C. split.
  - rewrite (emb_mul n (S2 0) (S1 0)) by auto. unfold cmul. rewrite (Rsum_ext _ _ (fun d => is b d * emb (S1 0) d c)).
    + fold (cmul (S n) is (emb (S1 0)) b c). rewrite is_mul by exact B. apply H1; assumption.
    + intros d Id. destruct (H2 b d B Id) as (-> & _). reflexivity.
  - apply deriv_ext with (f := fun h => Rsum (fun d => emb (S2 h) b d * emb (S1 h) d c) (values (S n))).
    { intros h. rewrite (emb_mul n (S2 h) (S1 h)) by auto. reflexivity. }
    replace (emb (op_add K2 K1) b c) with (Rsum (fun d => emb K2 b d * emb (S1 0) d c + emb (S2 0) b d * emb K1 d c) (values (S n))).
    + apply (deriv_sum _ _ (fun d h => emb (S2 h) b d * emb (S1 h) d c)). intros d Id.
      apply (derivable_pt_lim_mult (fun h => emb (S2 h) b d) (fun h => emb (S1 h) d c)); [apply H2|apply H1]; assumption.
    + rewrite Rsum_add. replace (Rsum (fun d => emb (S2 0) b d * emb K1 d c) (values (S n))) with (emb K1 b c).
      * rewrite (ProofVqeRun.Rsum_one _ (fun d => emb K2 b d * emb (S1 0) d c) _ c); [|apply values_nodup|exact C|].
        -- destruct (H1 c c C C) as (-> & _). rewrite is_same. destruct b as [|f b], c as [|g c]; cbn [emb]; try ring. unfold op_add. rewrite part_add. ring.
        -- intros d Id N. destruct (H1 d c Id C) as (-> & _). rewrite is_other by congruence. ring.
      * rewrite (Rsum_ext _ _ (fun d => is b d * emb K1 d c)); [symmetry; apply is_mul; exact B|]. intros d Id. destruct (H2 b d B Id) as (-> & _). reflexivity.
Qed.
Lemma germ_fold : forall n X (l : list X) (F : X -> R -> oper) (K : X -> oper), (forall a, In a l -> germ n (F a) (K a)) ->
  germ n (fun h psi => fold_left (fun psi a => F a h psi) l psi) (fun psi x => Csum (fun a => K a psi x) l).
Proof.
  intros n X. induction l as [|a l IH]; intros F K H; [apply germ_one|]. cbn [fold_left Csum].
  apply germ_ext with (1 := fun _ _ _ => eq_refl) (3 := germ_comp n _ _ _ _ (H a (or_introl eq_refl)) (IH F K (fun b B => H b (or_intror B)))).
  intros psi x. unfold op_add. ring.
Qed.
(** exp(i h a U) for an operator whose square is 1 *)
Lemma germ_exp : forall n U a, determined n U -> germ n (fun h => op_exp (a * h) U) (op_scl (Ci * RtoC a) U).
Proof.
  intros n U a D. assert (DS : forall k, determined n (op_scl k U)).
  { intros k psi x X. unfold op_scl. rewrite (D psi x X), <- Csum_mul_l. apply Csum_ext. intros. ring. }
  assert (D1 : forall k, determined n (op_scl k op_one)).
  { intros k psi x X. unfold op_scl, op_one. rewrite (ProofSympy.det_id n psi x X) at 1. rewrite <- Csum_mul_l. apply Csum_ext. intros. ring. }
  split; [apply DS|]. split; [intros h; apply (ProofSympy.det_add n); [apply D1|apply DS]|].
  intros b c B C. assert (Q : forall h, emb (op_exp (a * h) U) b c = cos (a * h) * emb op_one b c + sin (a * h) * emb (op_scl Ci U) b c).
  { intros h. destruct b as [|f b], c as [|g c]; cbn [emb]; try ring. unfold op_exp, op_add, op_scl, op_one.
    generalize (unit_of g c (val b)) as u, (U (unit_of g c) (val b)) as v. intros u v. destruct f; unfold part, Ci, RtoC, Cadd, Cmul, Cre, Cim; cbn; ring. }
  split.
  - rewrite Q, Rmult_0_r, cos_0, sin_0, (emb_one n) by assumption. ring.
  - apply deriv_ext with (1 := fun h => eq_sym (Q h)).
    replace (emb (op_scl (Ci * RtoC a) U) b c) with ((- (sin (a * 0)) * a) * emb op_one b c + (cos (a * 0) * a) * emb (op_scl Ci U) b c).
    + assert (L : derivable_pt_lim (fun h => a * h) 0 a).
      { intros eps Heps. exists (mkposreal 1 Rlt_0_1). intros h Hh _. replace ((a * (0 + h) - a * 0) / h - a) with 0 by (field; exact Hh). rewrite Rabs_R0. exact Heps. }
      assert (Lc : forall f x l k, derivable_pt_lim f x l -> derivable_pt_lim (fun h => f h * k) x (l * k)).
      { intros f x l k H. pose proof (derivable_pt_lim_mult f (fct_cte k) x l 0 H (derivable_pt_lim_const k x)) as M. unfold fct_cte in M. rewrite Rmult_0_r, Rplus_0_r in M. exact M. }
      apply (derivable_pt_lim_plus (fun h => cos (a * h) * emb op_one b c) (fun h => sin (a * h) * emb (op_scl Ci U) b c)).
      * apply (Lc (fun h => cos (a * h))). exact (derivable_pt_lim_comp (fun h => a * h) cos 0 a _ L (derivable_pt_lim_cos (a * 0))).
      * apply (Lc (fun h => sin (a * h))). exact (derivable_pt_lim_comp (fun h => a * h) sin 0 a _ L (derivable_pt_lim_sin (a * 0))).
    + rewrite Rmult_0_r, cos_0, sin_0. destruct b as [|f b], c as [|g c]; cbn [emb]; try ring. unfold op_scl. generalize (U (unit_of g c) (val b)) as v. intros v.
      destruct f; unfold part, Ci, RtoC, Cmul, Cre, Cim; cbn; ring.
Qed.

(** ** The limit *)
Lemma op_limit : forall n Sf K psi phi b, germ n Sf K -> series_sum n K psi phi -> In b (values (S n)) -> Un_cv (fun P => vec (op_pow (Sf (/ INR P)) P psi) b) (vec phi b).
Proof.
  intros n Sf K psi phi b (DK & DS & H) HS B. destruct (exponential_exists (S n) (emb K)) as (A & HA). rewrite (series_value n K A psi phi b DK HA HS B).
  apply cv_ext with (u := fun P => Rsum (fun d => cpower (S n) (emb (Sf (/ INR P))) P b d * vec psi d) (values (S n))).
  { intros P. symmetry. apply (pow_apply n); auto. }
  apply (sum_cv _ (values (S n)) (fun d P => cpower (S n) (emb (Sf (/ INR P))) P b d * vec psi d)). intros d Id.
  apply (cv_scale (fun P => cpower (S n) (emb (Sf (/ INR P))) P b d)). exact (lie_limit (S n) (emb K) A (fun h => emb (Sf h)) HA H b d B Id).
Qed.
Lemma op_lie : forall n Sf K psi phi, germ n Sf K -> series_sum n K psi phi -> forall x eps, (x < 2 ^ n)%nat -> 0 < eps ->
  exists P0, forall P, (P0 <= P)%nat -> Cnorm2 (op_pow (Sf (/ INR P)%R) P psi x - phi x)%C < eps.
Proof.
  intros n Sf K psi phi G HS x eps X Heps. destruct (val_onto n x X) as (b & B & <-).
  assert (I : forall f, In (f :: b) (values (S n))) by (intros f; apply values_spec; apply values_spec in B; cbn; rewrite B; reflexivity).
  set (e := Rmin 1 (eps / 2)). assert (E0 : 0 < e) by (apply Rmin_pos; lra).
  destruct (op_limit n Sf K psi phi _ G HS (I false) e E0) as (N1 & H1). destruct (op_limit n Sf K psi phi _ G HS (I true) e E0) as (N2 & H2).
  exists (Nat.max N1 N2). intros P HP. specialize (H1 P ltac:(lia)). specialize (H2 P ltac:(lia)). cbn [vec part] in H1, H2. unfold R_dist in H1, H2.
  set (u := op_pow (Sf (/ INR P)) P psi (val b)) in *. set (v := phi (val b)) in *.
  assert (S2 : forall y, Rabs y < e -> y * y < eps / 2).
  { intros y Y. pose proof (Rabs_pos y). assert (e <= 1) by apply Rmin_l. assert (e <= eps / 2) by apply Rmin_r.
    replace (y * y) with (Rabs y * Rabs y) by (rewrite <- Rabs_mult; apply Rabs_pos_eq; apply Rle_0_sqr).
    apply Rle_lt_trans with (Rabs y * 1); [apply Rmult_le_compat_l; lra|lra]. }
  pose proof (S2 _ H1) as Q1. pose proof (S2 _ H2) as Q2.
  replace (Cnorm2 (u - v)%C) with ((Cre u - Cre v) * (Cre u - Cre v) + (Cim u - Cim v) * (Cim u - Cim v)); [lra|].
  unfold Cnorm2, Csub, Cadd, Copp, Cre, Cim. cbn. ring.
Qed.
(** one-parameter groups are exponentials *)
Lemma group_series : forall n Sf K, germ n Sf K -> (forall P psi x, (0 < P)%nat -> (x < 2 ^ n)%nat -> op_pow (Sf (/ INR P)) P psi x = Sf 1 psi x) -> forall psi, series_sum n K psi (Sf 1 psi).
Proof.
  intros n Sf K G HG psi. destruct (series_exists n K psi (proj1 G)) as (phi & HS).
  assert (E : forall b, In b (values (S n)) -> vec phi b = vec (Sf 1 psi) b).
  { intros b B. apply (UL_sequence _ _ _ (op_limit n Sf K psi phi b G HS B)). intros eps Heps. exists 1%nat. intros P HP.
    pose proof B as B'. apply values_spec in B'. destruct b as [|f b]; [discriminate|]. injection B' as B'. apply values_spec in B'. cbn [vec].
    rewrite HG by (try lia; apply val_below; exact B'). rewrite R_dist_eq. exact Heps. }
  intros x X. destruct (val_onto n x X) as (b & B & <-).
  assert (I : forall f, In (f :: b) (values (S n))) by (intros f; apply values_spec; apply values_spec in B; cbn; rewrite B; reflexivity).
  pose proof (E _ (I false)) as E1. pose proof (E _ (I true)) as E2. cbn [vec part] in E1, E2. rewrite <- E1, <- E2. apply HS. exact X.
Qed.
