(** Proofs: the stationary law of quantum annealing is that of Trotter's formula *)
From Coq Require Import List Arith ZArith Bool Reals Lia Lra.
Import ListNotations.
From Verif Require Import Base Cplx Bits SpecQuantum SpecLaw SpecWq SpecOpt SpecAnneal SpecSqa ProofLawStat ProofAnneal ProofAnnealRun ProofSqa.
From Verif Require ProofDwave ModelOpt SpecMeasure ProofOpt ProofOptEx ProofAnnealLimit.
Local Open Scope R_scope.

(** ** Sums over paths *)
Lemma values_add : forall m n f, Rsum f (values (m + n)) = Rsum (fun b => Rsum (fun c => f (b ++ c)) (values n)) (values m).
Proof.
  induction m as [|m IH]; intros n f; cbn [values Nat.add]; [cbn [Rsum]; rewrite Rplus_0_r; apply Rsum_ext; reflexivity|].
  rewrite !Rsum_app, !Rsum_map, !IH. reflexivity.
Qed.
Lemma values_slices : forall P n f, Rsum f (values (P * n)) = Rsum (fun qs => f (concat qs)) (sequences P (values n)).
Proof.
  induction P as [|P IH]; intros n f; [reflexivity|]. change (S P * n)%nat with (n + P * n)%nat. rewrite values_add. cbn [sequences]. rewrite Rsum_flat_map.
  apply Rsum_ext. intros b _. rewrite IH, Rsum_map. reflexivity.
Qed.
Lemma sequences_in : forall P n qs, In qs (sequences P (values n)) -> List.length qs = P /\ Forall (fun q => List.length q = n) qs.
Proof.
  induction P as [|P IH]; intros n qs H; cbn [sequences] in H; [destruct H as [<-|[]]; auto|].
  apply in_flat_map in H as (b & Ib & H). apply in_map_iff in H as (r & <- & Ir). destruct (IH _ _ Ir) as [L F]. cbn. split; [auto|]. constructor; auto. apply values_spec; auto.
Qed.
Lemma slice_concat : forall n qs p, Forall (fun q => List.length q = n) qs -> (p < List.length qs)%nat -> slice n (concat qs) p = nth p qs [].
Proof.
  intros n qs p F. revert p. induction F as [|q qs L F IH]; intros p H; cbn in H; [lia|]. cbn [concat]. unfold slice in *. destruct p as [|p]; cbn [nth].
  - cbn [Nat.mul skipn]. rewrite firstn_app, L, Nat.sub_diag. cbn [firstn]. rewrite app_nil_r. rewrite <- L. apply firstn_all.
  - rewrite skipn_app, L. rewrite skipn_all2 by (rewrite L; nia). cbn [app]. replace (S p * n - n)%nat with (p * n)%nat by nia. apply IH. lia.
Qed.
Lemma slices_of : forall n qs, Forall (fun q => List.length q = n) qs -> map (slice n (concat qs)) (seq 0 (List.length qs)) = qs.
Proof.
  intros n qs F. apply nth_ext with [] []; [rewrite map_length, seq_length; auto|]. intros p H. rewrite map_length, seq_length in H.
  rewrite (nth_indep _ [] (slice n (concat qs) 0)) by (rewrite map_length, seq_length; auto). rewrite (map_nth (slice n (concat qs))), seq_nth, Nat.add_0_l by auto.
  apply slice_concat; auto.
Qed.
Lemma open_sum : forall n A c k b, In c (values n) -> Rsum (fun qs => open_product A b qs c) (sequences k (values n)) = cpower n A (S k) b c.
Proof.
  intros n A c. induction k as [|k IH]; intros b I.
  - cbn [sequences Rsum open_product cpower]. unfold cmul. rewrite (Rsum_ext _ _ (fun d => is c d * A b d)) by (intros; rewrite is_sym; ring). rewrite (sum_is n c (A b) I). ring.
  - cbn [sequences]. rewrite Rsum_flat_map. change (cpower n A (S (S k)) b c) with (Rsum (fun d => A b d * cpower n A (S k) d c) (values n)).
    apply Rsum_ext. intros d _. rewrite Rsum_map. cbn [open_product]. rewrite Rsum_mul_l, IH by auto. reflexivity.
Qed.
Lemma ring_sum : forall n P A (f : list bool -> R), (0 < P)%nat ->
  Rsum (fun qs => ring_product A qs * f (nth 0 qs [])) (sequences P (values n)) = Rsum (fun b => cpower n A P b b * f b) (values n).
Proof.
  intros n [|P] A f H; [lia|]. cbn [sequences]. rewrite Rsum_flat_map. apply Rsum_ext. intros b I. rewrite Rsum_map. cbn [ring_product nth]. rewrite Rsum_mul_r, open_sum by auto. reflexivity.
Qed.

(** ** Weights of paths *)
Fixpoint open_total (g : list bool -> list bool -> R) (b : list bool) (qs : list (list bool)) (c : list bool) : R :=
  match qs with [] => g b c | d :: qs => g b d + open_total g d qs c end.
Lemma open_total_steps : forall g qs b c, open_total g b qs c = Rsum (fun p => g (nth p (b :: qs) []) (nth p qs [])) (seq 0 (List.length qs)) + g (nth (List.length qs) (b :: qs) []) c.
Proof.
  induction qs as [|d qs IH]; intros b c; [cbn; ring|]. cbn [open_total List.length seq Rsum]. rewrite IH, <- seq_shift, Rsum_map. cbn [nth]. ring.
Qed.
Lemma ring_total : forall g b qs, open_total g b qs b = total (S (List.length qs)) (fun p => g (nth p (b :: qs) []) (nth (next (S (List.length qs)) p) (b :: qs) [])).
Proof.
  intros g b qs. rewrite open_total_steps. unfold total. rewrite seq_S, Rsum_app. cbn [Rsum Nat.add]. rewrite Rplus_0_r. f_equal.
  - apply Rsum_ext. intros p H. apply in_seq in H. unfold next. destruct (Nat.eqb_spec (S p) (S (List.length qs))); [lia|]. reflexivity.
  - unfold next. rewrite Nat.eqb_refl. reflexivity.
Qed.
Lemma open_exp : forall A g K, (forall b c, A b c = K * exp (g b c)) -> forall qs b c, open_product A b qs c = K ^ S (List.length qs) * exp (open_total g b qs c).
Proof.
  intros A g K H. induction qs as [|d qs IH]; intros b c; cbn [open_product open_total List.length]; rewrite H; [cbn; ring|].
  rewrite IH, exp_plus. cbn [pow]. ring.
Qed.
Lemma open_exp_in : forall n A g K, (forall b c, List.length b = n -> List.length c = n -> A b c = K * exp (g b c)) -> forall qs b c, List.length b = n -> List.length c = n ->
  Forall (fun q => List.length q = n) qs -> open_product A b qs c = K ^ S (List.length qs) * exp (open_total g b qs c).
Proof.
  intros n A g K H. induction qs as [|d qs IH]; intros b c Lb Lc F; cbn [open_product open_total List.length].
  - rewrite H by auto. cbn. ring.
  - inversion F; subst. rewrite H, IH, exp_plus by auto. cbn [pow]. ring.
Qed.
Lemma hops_exp : forall T P G, 0 < T -> (0 < P)%nat -> 0 < G -> exists K, 0 < K /\ forall n b c, List.length b = n -> List.length c = n ->
  hops (G / (INR P * T)) b c = K ^ n * exp (bond T P G / T * total n (fun i => spin b i * spin c i)).
Proof.
  intros T P G HT HP HG. destruct (ProofOpt.bond_weight T P G HT HP HG) as (K & K0 & H). exists K. split; auto.
  intros n b. revert n. induction b as [|s b IH]; intros n [|t c] Lb Lc; cbn in Lb, Lc; try congruence.
  - subst n. cbn. rewrite Rmult_0_r, exp_0. ring.
  - destruct n as [|n]; [discriminate|]. injection Lb as Lb. injection Lc as Lc. cbn [hops pow]. rewrite (IH n c Lb Lc). unfold total. cbn [seq Rsum]. rewrite <- seq_shift, Rsum_map.
    change (fun x => spin (s :: b) (S x) * spin (t :: c) (S x)) with (fun x => spin b x * spin c x). rewrite Rmult_plus_distr_l, exp_plus.
    assert (X : (if bool_dec s t then cosh (G / (INR P * T)) else sinh (G / (INR P * T))) = K * exp (bond T P G / T * (spin (s :: b) 0 * spin (t :: c) 0))).
    { specialize (H (spin (s :: b) 0) (spin (t :: c) 0)). cbv zeta in H. replace (bond T P G / T * (spin (s :: b) 0 * spin (t :: c) 0)) with (bond T P G * (spin (s :: b) 0 * spin (t :: c) 0) / T) by (unfold Rdiv; ring).
      rewrite <- H by (unfold spin; cbn; destruct s, t; auto). unfold spin. cbn [nth]. destruct s, t; (destruct (bool_dec _ _) as [f|f]; [|try congruence]); try discriminate f; (destruct (Req_EM_T _ _) as [e|e]); try reflexivity; exfalso; try (apply e; reflexivity); unfold spin in e; cbn [nth] in e; lra. }
    rewrite X. ring.
Qed.

Lemma skipn_skipn' : forall X (l : list X) m p, skipn (p * m) (skipn m l) = skipn (S p * m) l.
Proof. intros X l m p. cbn [Nat.mul]. generalize (p * m)%nat. revert l. induction m as [|m IH]; intros l k; [reflexivity|]. destruct l; [rewrite !skipn_nil; auto|]. cbn [skipn Nat.add]. apply IH. Qed.
Lemma slice_nth : forall n P b p i, List.length b = (P * n)%nat -> (p < P)%nat -> (i < n)%nat -> spin (slice n b p) i = slice_spin n b p i.
Proof.
  intros n P b p i L Hp Hi. unfold slice_spin, spin, slice. replace (nth i (firstn n (skipn (p * n) b)) false) with (nth (p * n + i) b false); auto.
  rewrite <- (firstn_skipn (p * n) b) at 1. rewrite app_nth2; rewrite firstn_length, Nat.min_l by nia; [|lia]. replace (p * n + i - p * n)%nat with i by lia.
  rewrite <- (firstn_skipn n (skipn (p * n) b)) at 1. rewrite app_nth1; auto. rewrite firstn_length, skipn_length, L. nia.
Qed.
Section Trotter.
Variables (n P : nat) (Q : nat -> nat -> R) (T G : R).
Hypothesis HP : (0 < P)%nat.
Hypothesis HT : 0 < T.
Hypothesis HG : 0 < G.
Notation EE := (slices_energy n P (objective n Q) T G).
Notation A := (trotter n P (objective n Q) T G).
Lemma path_weight : exists K, 0 < K /\ forall qs, List.length qs = P -> Forall (fun q => List.length q = n) qs -> ring_product A qs = K * exp (- EE (concat qs) / T).
Proof.
  destruct (hops_exp T P G HT HP HG) as (K & K0 & H). exists ((K ^ n) ^ P). split; [apply pow_lt, pow_lt; auto|]. intros qs L F.
  set (g := fun b c => - objective n Q (spin b) / (INR P * T) + bond T P G / T * total n (fun i => spin b i * spin c i)).
  assert (X : forall b c, List.length b = n -> List.length c = n -> A b c = K ^ n * exp (g b c)).
  { intros b c Lb Lc. unfold trotter, g. rewrite (H n b c Lb Lc), exp_plus. ring. }
  destruct qs as [|b qs]; [cbn in L; lia|]. pose proof F as F0. inversion F; subst. cbn [ring_product].
  rewrite (open_exp_in _ _ _ _ X) by auto. cbn [List.length] in *. f_equal. f_equal. rewrite ring_total.
  set (qs' := b :: qs) in *. set (m := List.length b) in *.
  assert (LC : List.length (concat qs') = (S (List.length qs) * m)%nat).
  { clear - F0. change (S (List.length qs)) with (List.length qs'). induction F0 as [|q l E F IH]; cbn; auto. rewrite app_length, IH. lia. }
  assert (SL : forall p, (p < S (List.length qs))%nat -> slice m (concat qs') p = nth p qs' []) by (intros; apply slice_concat; auto).
  unfold slices_energy, path_energy, mean, agreement, total. unfold Rdiv. rewrite Ropp_minus_distr, Rmult_minus_distr_r.
  unfold g, total. rewrite Rsum_add, Rsum_mul_l. 
  replace (bond T (S (List.length qs)) G * Rsum (fun p => Rsum (fun i => slice_spin m (concat qs') p i * slice_spin m (concat qs') (next (S (List.length qs)) p) i) (seq 0 m)) (seq 0 (S (List.length qs))) * / T)
    with (bond T (S (List.length qs)) G / T * Rsum (fun p => Rsum (fun i => spin (nth p qs' []) i * spin (nth (next (S (List.length qs)) p) qs' []) i) (seq 0 m)) (seq 0 (S (List.length qs)))).
  - rewrite Rplus_comm. unfold Rminus. f_equal.
    rewrite (Rsum_ext _ _ (fun p => objective m Q (spin (nth p qs' [])) * (- (/ INR (S (List.length qs)) * / T)))) by (intros; unfold Rdiv; rewrite Rinv_mult; ring).
    rewrite Rsum_mul_r. rewrite (Rsum_ext _ _ (fun p => objective m Q (slice_spin m (concat qs') p))); [ring|].
    intros p Hp. apply in_seq in Hp. apply objective_ext. intros i Hi. rewrite <- SL by lia. apply (slice_nth m (S (List.length qs))); auto; lia.
  - unfold Rdiv. rewrite Rmult_assoc, (Rmult_comm (/ T)), <- Rmult_assoc. f_equal. f_equal. apply Rsum_ext. intros p Hp. apply in_seq in Hp. apply Rsum_ext. intros i Hi. apply in_seq in Hi.
    assert (N : (next (S (List.length qs)) p < S (List.length qs))%nat) by (unfold next; destruct (Nat.eqb_spec (S p) (S (List.length qs))); lia).
    rewrite <- !SL by lia. rewrite !(slice_nth m (S (List.length qs))) by (auto; lia). reflexivity.
Qed.
Lemma values_concat : forall b, In b (values (P * n)) -> let qs := map (slice n b) (seq 0 P) in b = concat qs /\ List.length qs = P /\ Forall (fun q => List.length q = n) qs.
Proof.
  clear. intros b I. apply values_spec in I. set (qs := map (slice n b) (seq 0 P)). assert (F : Forall (fun q => List.length q = n) qs).
  { apply Forall_forall. intros q Iq. apply in_map_iff in Iq as (p & <- & Ip). apply in_seq in Ip. unfold slice. rewrite firstn_length, skipn_length, I. nia. }
  split; [|split; [unfold qs; rewrite map_length, seq_length; auto|auto]]. subst qs. clear F. revert b I. induction P as [|k IH]; intros b I.
  - destruct b; [reflexivity|cbn in I; lia].
  - cbn [seq map concat]. rewrite <- (firstn_skipn n b) at 1. f_equal.
    rewrite (IH (skipn n b)) at 1 by (rewrite skipn_length, I; cbn; lia). f_equal. rewrite <- seq_shift, map_map. apply map_ext. intros p. unfold slice. rewrite skipn_skipn'. reflexivity.
Qed.
Lemma weights_sum : exists K, 0 < K /\ (forall b, In b (values (P * n)) -> ring_product A (map (slice n b) (seq 0 P)) = K * exp (- EE b / T)) /\
  forall f, Rsum (fun b => K * exp (- EE b / T) * f (slice n b 0)) (values (P * n)) = Rsum (fun b => cpower n A P b b * f b) (values n).
Proof.
  destruct path_weight as (K & K0 & H). exists K. split; auto. split.
  - intros b I. destruct (values_concat b I) as (E & L & F). rewrite H by auto. rewrite <- E. reflexivity.
  - intros f. rewrite values_slices, <- ring_sum by auto. apply Rsum_ext. intros qs I. apply sequences_in in I as [L F]. rewrite H by auto. rewrite slice_concat by (auto; lia). reflexivity.
Qed.
Lemma trotter_trace : 0 < ctrace n (cpower n A P).
Proof.
  destruct weights_sum as (K & K0 & _ & S). specialize (S (fun _ => 1)). unfold ctrace. rewrite (Rsum_ext _ _ (fun b => cpower n A P b b * 1)) by (intros; ring). rewrite <- S.
  rewrite (Rsum_ext _ _ (fun b => K * exp (- EE b / T))) by (intros; ring). rewrite Rsum_mul_l. apply Rmult_lt_0_compat; auto. apply partition_pos.
Qed.
Lemma trotter_law : forall b, In b (values (P * n)) -> boltzmann (P * n) EE T b = ring_product A (map (slice n b) (seq 0 P)) / ctrace n (cpower n A P).
Proof.
  intros b I. pose proof trotter_trace as Z. destruct weights_sum as (K & K0 & W & S). specialize (S (fun _ => 1)). unfold ctrace in *.
  rewrite (W b I). rewrite (Rsum_ext _ (fun b => cpower n A P b b) (fun b => cpower n A P b b * 1)) by (intros; ring). rewrite <- S.
  rewrite (Rsum_ext _ (fun b => K * exp (- EE b / T) * 1) (fun b => K * exp (- EE b / T))) by (intros; ring). rewrite Rsum_mul_l. unfold boltzmann.
  pose proof (partition_pos (P * n) EE T) as Y. field. split; lra.
Qed.
Lemma trotter_slice : forall c, In c (values n) -> Rsum (fun b => boltzmann (P * n) EE T b * is (slice n b 0) c) (values (P * n)) = cpower n A P c c / ctrace n (cpower n A P).
Proof.
  intros c I. pose proof trotter_trace as Z. destruct weights_sum as (K & K0 & W & S). pose proof (S (fun _ => 1)) as S1. specialize (S (fun d => is d c)). unfold ctrace in *.
  rewrite (Rsum_ext _ (fun b => cpower n A P b b) (fun b => cpower n A P b b * 1)) in Z |- * by (intros; ring). rewrite <- S1 in Z |- *.
  rewrite (Rsum_ext _ (fun b => cpower n A P b b * is b c) (fun b => is c b * cpower n A P b b)) in S by (intros; rewrite is_sym; ring).
  rewrite (sum_is n c (fun b => cpower n A P b b) I) in S. rewrite <- S.
  rewrite (Rsum_ext _ (fun b => K * exp (- EE b / T) * 1) (fun b => K * exp (- EE b / T))) by (intros; ring). rewrite (Rsum_mul_l _ K).
  unfold Rdiv. rewrite <- Rsum_mul_r. apply Rsum_ext. intros b _. unfold boltzmann, Rdiv. pose proof (partition_pos (P * n) EE T) as Y. unfold Rdiv in Y. field. split; lra.
Qed.
End Trotter.

(** ** The matrix of a field *)
Lemma hops_zero : forall n b c, In b (values n) -> In c (values n) -> hops 0 b c = is b c.
Proof.
  intros n b. revert n. induction b as [|s b IH]; intros n c Ib Ic; apply values_spec in Ib, Ic; destruct c as [|t c]; cbn in Ib, Ic; try lia; cbn [hops].
  - rewrite is_same. auto.
  - rewrite (IH (List.length b)) by (apply values_spec; lia). rewrite cosh_0, sinh_0. destruct (bool_dec s t) as [<-|N].
    + rewrite Rmult_1_l. unfold is. destruct (list_eq_dec bool_dec b c), (list_eq_dec bool_dec (s :: b) (s :: c)); congruence.
    + rewrite (is_other (s :: b) (t :: c)) by congruence. ring.
Qed.
Lemma hops_add : forall n x y b c, In b (values n) -> In c (values n) -> cmul n (hops x) (hops y) b c = hops (x + y) b c.
Proof.
  intros n x y. assert (CS : cosh (x + y) = cosh x * cosh y + sinh x * sinh y /\ sinh (x + y) = sinh x * cosh y + cosh x * sinh y).
  { unfold cosh, sinh. replace (- (x + y)) with (- x + - y) by ring. rewrite !exp_plus. split; field. }
  destruct CS as [CC SS]. induction n as [|n IH]; intros b c Ib Ic; apply values_spec in Ib, Ic.
  - destruct b, c; try discriminate. unfold cmul. cbn. ring.
  - destruct b as [|s b], c as [|t c]; try discriminate. unfold cmul. cbn [values]. rewrite Rsum_app, !Rsum_map. cbn [hops].
    assert (X : forall k l, Rsum (fun d => k * hops x b d * (l * hops y d c)) (values n) = k * l * hops (x + y) b c).
    { intros k l. rewrite (Rsum_ext _ _ (fun d => k * l * (hops x b d * hops y d c))) by (intros; ring). rewrite Rsum_mul_l. f_equal. apply IH; apply values_spec; [injection Ib|injection Ic]; auto. }
    rewrite !X, CC, SS. destruct s, t; cbn [bool_dec bool_rec bool_rect]; repeat (destruct (bool_dec _ _); try congruence); ring.
Qed.
Lemma hops_deriv : forall n b c, In b (values n) -> In c (values n) -> derivable_pt_lim (fun a => hops a b c) 0 (field_matrix n b c).
Proof.
  induction n as [|n IH]; intros b c Ib Ic; apply values_spec in Ib, Ic.
  - destruct b, c; try discriminate. unfold field_matrix. cbn. apply derivable_pt_lim_const.
  - destruct b as [|s b], c as [|t c]; try discriminate. injection Ib as Ib. injection Ic as Ic. cbn [hops].
    assert (Vb : In b (values n)) by (apply values_spec; auto). assert (Vc : In c (values n)) by (apply values_spec; auto). pose proof (IH b c Vb Vc) as D.
    assert (F : field_matrix (S n) (s :: b) (t :: c) = (if bool_dec s t then 0 else 1) * hops 0 b c + (if bool_dec s t then 1 else 0) * field_matrix n b c).
    { unfold field_matrix. cbn [seq Rsum flip_spin]. rewrite (hops_zero n) by auto. rewrite <- seq_shift, Rsum_map. destruct (bool_dec s t) as [<-|N].
      - rewrite is_other by (destruct s; discriminate). rewrite Rmult_0_l, Rmult_1_l. f_equal. apply Rsum_ext. intros x _. unfold is. cbn [flip_spin].
        destruct (list_eq_dec bool_dec (s :: flip_spin b x) (s :: c)), (list_eq_dec bool_dec (flip_spin b x) c); congruence.
      - rewrite (Rsum_0 _ _ (seq 0 n)); [|intros x _; apply is_other; cbn; congruence]. assert (negb s = t) by (destruct s, t; cbn; congruence). subst t.
        rewrite Rmult_0_l, Rmult_1_l. f_equal. unfold is. destruct (list_eq_dec bool_dec (negb s :: b) (negb s :: c)), (list_eq_dec bool_dec b c); congruence. }
    rewrite F. destruct (bool_dec s t).
    + pose proof (derivable_pt_lim_mult cosh (fun a => hops a b c) 0 _ _ (derivable_pt_lim_cosh 0) D) as M. rewrite sinh_0, cosh_0 in M. exact M.
    + pose proof (derivable_pt_lim_mult sinh (fun a => hops a b c) 0 _ _ (derivable_pt_lim_sinh 0) D) as M. rewrite sinh_0, cosh_0 in M. exact M.
Qed.
Lemma two_slices : ring_product (trotter 1 2 (objective 1 ProofAnnealLimit.one) 1 2) [[true]; [false]] = exp (- (1) / 2) * sinh 1 * sinh 1.
Proof.
  cbn [ring_product open_product]. unfold trotter. rewrite !ProofAnnealLimit.one_energy. cbn [hops bool_dec bool_rec bool_rect sumbool_rec sumbool_rect]. 
  repeat (destruct (bool_dec _ _); [discriminate|]). replace (INR 2) with 2 by (simpl; lra). replace (2 / (2 * 1)) with 1 by lra. replace (- 0 / (2 * 1)) with 0 by lra.
  replace (2 * 1) with 2 by lra. rewrite exp_0. ring.
Qed.
Lemma default_case : exists o fuel q o', ModelOpt.attr_size (ModelOpt.o_qubo o) = 2%nat /\ ModelOpt.is_not_empty_list (ModelOpt.o_qubo o) = true /\ (forall k, (k mod 2 < 2)%nat) /\ (forall k, (k mod 8 < 8)%nat) /\
  SpecMeasure.draws_ok (fun k => / INR (k + 2)) /\
  ModelOpt.opt_sqa Nat.even (fun k => k mod 2)%nat (fun k => k mod 8)%nat (fun k => / INR (k + 2)) o fuel 10 (1 / 50) (1 / 50) (19 / 20) 8 1000 = Some (Ok q, o').
Proof.
  destruct ProofOptEx.sqa_case as (fuel & q & o' & H). exists (ProofDwave.opt2 1 2 3), fuel, q, o'. split; [reflexivity|]. split; [reflexivity|].
  split; [intros; apply Nat.mod_upper_bound; lia|]. split; [intros; apply Nat.mod_upper_bound; lia|]. split; [|exact H].
  intros k. rewrite plus_INR. replace (INR 2) with 2 by (simpl; lra). pose proof (pos_INR k). split; [left; apply Rinv_0_lt_compat; lra|].
  pose proof (Rinv_lt_contravar 1 (INR k + 2)) as X. rewrite Rinv_1 in X. apply X; lra.
Qed.
