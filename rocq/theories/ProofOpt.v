(** Proofs about quantum annealing, sums of QUBOs and the problems sent to an annealing machine. *)
From Coq Require Import List Arith ZArith Bool Reals Lia Lra FunctionalExtensionality.
Import ListNotations.
From Verif Require Import Base Cplx ModelWq ModelOpt SpecWq SpecOpt ProofWq.
Local Open Scope R_scope.

(** ** hyperbolic functions *)
Lemma cosh_pos : forall a, 0 < cosh a.
Proof. intros. unfold cosh. pose proof (exp_pos a). pose proof (exp_pos (- a)). lra. Qed.
Lemma sinh_pos : forall a, 0 < a -> 0 < sinh a.
Proof. intros a H. unfold sinh. assert (exp (- a) < exp a) by (apply exp_increasing; lra). lra. Qed.
Lemma tanh_pos : forall a, 0 < a -> 0 < tanh a.
Proof. intros a H. unfold tanh. apply Rdiv_lt_0_compat; [apply sinh_pos; auto|apply cosh_pos]. Qed.
Lemma exp_half_ln : forall t, 0 < t -> exp (/ 2 * ln t) = sqrt t.
Proof. intros t H. rewrite <- Rpower_sqrt by auto. reflexivity. Qed.
Lemma bond_weight : forall T P G, 0 < T -> (0 < P)%nat -> 0 < G -> let a := G / (INR P * T) in exists C, 0 < C /\
  forall s s', (s = 1 \/ s = -1) -> (s' = 1 \/ s' = -1) -> (if Req_EM_T s s' then cosh a else sinh a) = C * exp (bond T P G * (s * s') / T).
Proof.
  intros T P G HT HP HG a. assert (Ha : 0 < a).
  { unfold a. apply Rdiv_lt_0_compat; auto. apply Rmult_lt_0_compat; auto. apply lt_0_INR. auto. }
  pose proof (cosh_pos a) as Hc. pose proof (sinh_pos a Ha) as Hs. pose proof (tanh_pos a Ha) as Ht.
  exists (sqrt (sinh a * cosh a)). split; [apply sqrt_lt_R0; apply Rmult_lt_0_compat; auto|].
  assert (Plus : exp (/ 2 * ln (tanh a)) = sqrt (tanh a)) by (apply exp_half_ln; auto).
  assert (Sq : 0 < sqrt (tanh a)) by (apply sqrt_lt_R0; auto).
  assert (Minus : exp (- (/ 2 * ln (tanh a))) = / sqrt (tanh a)) by (rewrite exp_Ropp, Plus; auto).
  assert (Hsc : 0 <= sinh a * cosh a) by (apply Rmult_le_pos; lra). assert (Ht' : 0 <= tanh a) by lra.
  assert (Es : sqrt (sinh a * cosh a) * sqrt (tanh a) = sinh a).
  { rewrite <- sqrt_mult by auto. replace (sinh a * cosh a * tanh a) with (sinh a * sinh a) by (unfold tanh; field; lra).
    apply sqrt_square. lra. }
  assert (Ec : sqrt (sinh a * cosh a) * / sqrt (tanh a) = cosh a).
  { apply (Rmult_eq_reg_r (sqrt (tanh a))); [|lra]. rewrite Rmult_assoc, Rinv_l, Rmult_1_r by lra.
    rewrite <- (sqrt_square (cosh a)) at 2 by lra. rewrite <- sqrt_mult; auto; [|apply Rmult_le_pos; lra]. f_equal. unfold tanh. field. lra. }
  assert (B : forall k, bond T P G * k / T = - (/ 2 * ln (tanh a)) * k).
  { intros k. unfold bond. fold a. field. lra. }
  intros s s' S S'. rewrite B. destruct S as [-> | ->], S' as [-> | ->]; destruct (Req_EM_T _ _) as [E|E]; try (exfalso; lra); try (exfalso; apply E; reflexivity).
  - rewrite <- Ec at 1. f_equal. rewrite <- Minus. f_equal. lra.
  - rewrite <- Es at 1. f_equal. rewrite <- Plus. f_equal. lra.
  - rewrite <- Es at 1. f_equal. rewrite <- Plus. f_equal. lra.
  - rewrite <- Ec at 1. f_equal. rewrite <- Minus. f_equal. lra.
Qed.
Lemma log_bond : forall T P G, 0 < T -> (0 < P)%nat -> 0 < G -> T / 2 * log_coth T P G = bond T P G.
Proof.
  intros T P G HT HP HG. assert (HP' : 0 < INR P) by (apply lt_0_INR; auto). unfold log_coth, bond.
  replace (G / T / INR P) with (G / (INR P * T)) by (field; lra). set (a := G / (INR P * T)).
  assert (Ha : 0 < a) by (unfold a; apply Rdiv_lt_0_compat; auto; apply Rmult_lt_0_compat; auto).
  unfold Rdiv at 2. rewrite Rmult_1_l, ln_Rinv by (apply tanh_pos; auto). lra.
Qed.

(** ** the ring of slices *)
Lemma next_mod : forall P p, (p < P)%nat -> ((p + 1 + P) mod P = next P p)%nat.
Proof.
  intros P p H. unfold next. destruct (Nat.eqb_spec (S p) P) as [E|E].
  - replace (p + 1 + P)%nat with (2 * P)%nat by lia. apply Nat.mod_mul. lia.
  - replace (p + 1 + P)%nat with (S p + 1 * P)%nat by lia. rewrite Nat.mod_add by lia. apply Nat.mod_small. lia.
Qed.
Lemma next_mod' : forall P p, (p < P)%nat -> ((p + 1) mod P = next P p)%nat.
Proof.
  intros P p H. rewrite <- next_mod by auto. replace (p + 1 + P)%nat with (p + 1 + 1 * P)%nat by lia. rewrite Nat.mod_add by lia. auto.
Qed.
Lemma next_lt : forall P p, (p < P)%nat -> (next P p < P)%nat.
Proof. intros P p H. unfold next. destruct (Nat.eqb_spec (S p) P); lia. Qed.
Definition prev (P y : nat) : nat := if (y =? 0)%nat then (P - 1)%nat else (y - 1)%nat.
Lemma prev_mod : forall P y, (y < P)%nat -> ((P + y - 1) mod P = prev P y)%nat.
Proof.
  intros P y H. unfold prev. destruct (Nat.eqb_spec y 0) as [->|E].
  - replace (P + 0 - 1)%nat with (P - 1)%nat by lia. apply Nat.mod_small. lia.
  - replace (P + y - 1)%nat with (y - 1 + 1 * P)%nat by lia. rewrite Nat.mod_add by lia. apply Nat.mod_small. lia.
Qed.
Lemma prev_lt : forall P y, (y < P)%nat -> (prev P y < P)%nat.
Proof. intros P p H. unfold prev. destruct (Nat.eqb_spec p 0); lia. Qed.
Lemma next_prev : forall P p y, (p < P)%nat -> (y < P)%nat -> (next P p =? y)%nat = (p =? prev P y)%nat.
Proof.
  intros P p y Hp Hy. unfold next, prev. destruct (Nat.eqb_spec (S p) P), (Nat.eqb_spec y 0);
    repeat match goal with |- context [(?a =? ?b)%nat] => destruct (Nat.eqb_spec a b) end; auto; lia.
Qed.
Lemma next_other : forall P p, (2 <= P)%nat -> (p < P)%nat -> next P p <> p.
Proof. intros P p H H1. unfold next. destruct (Nat.eqb_spec (S p) P); lia. Qed.

Lemma agreement_flip : forall n P q y x, (2 <= P)%nat -> (y < P)%nat -> (x < n)%nat ->
  agreement n P (flipped_at q y x) - agreement n P q = - 2 * (q y x * (q (prev P y) x + q (next P y) x)).
Proof.
  intros n P q y x HP Hy Hx. unfold agreement. rewrite <- total_minus.
  rewrite (total_ext P _ (fun p => - 2 * ((if (p =? y)%nat then q y x * q (next P y) x else 0) + (if (p =? prev P y)%nat then q y x * q (prev P y) x else 0)))).
  - rewrite total_scal, total_plus, (total_delta P y (fun _ => q y x * q (next P y) x)), (total_delta P (prev P y) (fun _ => q y x * q (prev P y) x)) by (auto; apply prev_lt; auto). lra.
  - intros p Hp. rewrite <- total_minus.
    rewrite (total_ext n _ (fun i => if (i =? x)%nat then flipped_at q y x p x * flipped_at q y x (next P p) x - q p x * q (next P p) x else 0)).
    + rewrite (total_delta n x (fun _ => flipped_at q y x p x * flipped_at q y x (next P p) x - q p x * q (next P p) x)) by auto.
      unfold flipped_at. rewrite Nat.eqb_refl, !andb_true_r, next_prev by auto.
      destruct (Nat.eqb_spec p y) as [E|E], (Nat.eqb_spec p (prev P y)) as [E'|E'].
      * exfalso. pose proof (next_prev P p y Hp Hy) as N. apply Nat.eqb_eq in E'. rewrite E' in N. apply Nat.eqb_eq in N. subst p. apply (next_other P y); auto.
      * subst p. lra.
      * assert (N : next P p = y) by (apply Nat.eqb_eq; rewrite next_prev by auto; apply Nat.eqb_eq; auto). rewrite N, <- E'. lra.
      * lra.
    + intros i Hi. destruct (Nat.eqb_spec i x) as [->|E]; auto. unfold flipped_at. apply Nat.eqb_neq in E. rewrite E, !andb_false_r. lra.
Qed.

(** ** energies *)
Lemma Ei_sqa_eq : forall n q J T P G,
  Ei_sqa n q J T P G = mean P (fun p => ising_energy n J (real_slices q p)) + T / 2 * log_coth T P G * agreement n P (real_slices q).
Proof.
  intros. unfold Ei_sqa, for_range. rewrite Nat.sub_0_r.
  rewrite (fold_ext _ _ _ (fun s p => s + (/ INR P * ising_energy n J (real_slices q p) + T / 2 * log_coth T P G * total n (fun i => real_slices q p i * real_slices q (next P p) i)))).
  - rewrite fold_sum, Rplus_0_l. fold (total P (fun p => / INR P * ising_energy n J (real_slices q p) + T / 2 * log_coth T P G * total n (fun i => real_slices q p i * real_slices q (next P p) i))).
    rewrite total_plus, !total_scal. unfold mean, agreement, Rdiv. f_equal. apply Rmult_comm.
  - intros s p I. apply in_seq in I. rewrite sum_range_total, next_mod, Ei_energy by lia. unfold Rdiv. rewrite (Rmult_comm _ (/ INR P)). rewrite Rplus_assoc. reflexivity.
Qed.
Lemma reJ_ising : forall n J q, ising_energy n (reJ J) q = ising_energy n J q.
Proof.
  intros. apply ising_cond. intros i j H. unfold reJ, madd, transpose, triu.
  destruct (Nat.leb_spec (i + 0) j), (Nat.leb_spec (j + 1) i); try lia. lra.
Qed.
Lemma flip_other : forall q y x p, p <> y -> flipped_at q y x p = q p.
Proof. intros. apply functional_extensionality. intros i. unfold flipped_at. apply Nat.eqb_neq in H. rewrite H. auto. Qed.
Lemma flip_same : forall q y x, flipped_at q y x y = flipped (q y) x.
Proof. intros. apply functional_extensionality. intros i. unfold flipped_at, flipped. rewrite Nat.eqb_refl. auto. Qed.
Lemma mean_flip : forall P E q y x, (y < P)%nat -> mean P (fun p => E (flipped_at q y x p)) - mean P (fun p => E (q p)) = (E (flipped (q y) x) - E (q y)) / INR P.
Proof.
  intros P E q y x H. unfold mean. unfold Rdiv. rewrite <- Rmult_minus_distr_r. f_equal. rewrite <- total_minus.
  rewrite (total_ext P _ (fun p => if (p =? y)%nat then E (flipped (q y) x) - E (q y) else 0)).
  - apply (total_delta P y (fun _ => E (flipped (q y) x) - E (q y))). auto.
  - intros p Hp. destruct (Nat.eqb_spec p y) as [->|N]; [rewrite flip_same; auto|rewrite flip_other by auto; lra].
Qed.
Lemma classical_change : forall n J T P G q y x,
  sqa_change n J T P G q y x = change n J (q y) x / INR P
    + IZR (q y x) * (IZR (q ((P + y - 1) mod P)%nat x) + IZR (q ((y + 1) mod P)%nat x)) * log_coth T P G * T.
Proof.
  intros. unfold sqa_change. f_equal. unfold for_range, change. rewrite Nat.sub_0_r, sum_range_total.
  rewrite (fold_ext _ _ _ (fun s j => s + (- 2 / INR P) * (IZR (q y j) * (if (j =? x)%nat then 1 else IZR (q y x)) * J j x))).
  - rewrite fold_sum, Rplus_0_l.
    fold (total n (fun j => - 2 / INR P * (IZR (q y j) * (if (j =? x)%nat then 1 else IZR (q y x)) * J j x))).
    rewrite total_scal. unfold Rdiv. rewrite (Rmult_assoc (-2)), (Rmult_comm (/ INR P)), <- Rmult_assoc. reflexivity.
  - intros s j _. destruct (Nat.eqb_spec j x) as [->|N]; unfold Rdiv; lra.
Qed.
Lemma sqa_change_energy : forall n J T P G q y x, 0 < T -> 0 < G -> (2 <= P)%nat -> (y < P)%nat -> (x < n)%nat ->
  sqa_change n (reJ J) T P G q y x =
    path_energy n P (ising_energy n J) T G (flipped_at (real_slices q) y x) - path_energy n P (ising_energy n J) T G (real_slices q).
Proof.
  intros n J T P G q y x HT HG HP Hy Hx. rewrite classical_change, change_difference, prev_mod, next_mod' by auto.
  unfold path_energy. replace (IZR (q y x) * (IZR (q (prev P y) x) + IZR (q (next P y) x)) * log_coth T P G * T)
    with (2 * (T / 2 * log_coth T P G) * (IZR (q y x) * (IZR (q (prev P y) x) + IZR (q (next P y) x)))) by lra.
  rewrite log_bond by (auto; lia). pose proof (agreement_flip n P (real_slices q) y x HP Hy Hx) as A.
  pose proof (mean_flip P (ising_energy n J) (real_slices q) y x Hy) as M. change (real_spins (q y)) with (real_slices q y). rewrite <- M.
  change (real_slices q y x * (real_slices q (prev P y) x + real_slices q (next P y) x)) with (IZR (q y x) * (IZR (q (prev P y) x) + IZR (q (next P y) x))) in A.
  set (K := IZR (q y x) * (IZR (q (prev P y) x) + IZR (q (next P y) x))) in *.
  replace (agreement n P (flipped_at (real_slices q) y x)) with (agreement n P (real_slices q) + - 2 * K) by lra. lra.
Qed.
Lemma total_const : forall P k, total P (fun _ => k) = INR P * k.
Proof. induction P; intros; [cbn; lra|]. rewrite total_S, IHP, S_INR. lra. Qed.
Lemma mean_shift : forall P E F (q : nat -> nat -> R) c, (0 < P)%nat -> (forall p, (p < P)%nat -> E (q p) + c = F (q p)) ->
  mean P (fun p => F (q p)) = mean P (fun p => E (q p)) + c.
Proof.
  intros P E F q c HP H. unfold mean. rewrite (total_ext P _ (fun p => E (q p) + c)) by (intros; symmetry; auto). rewrite total_plus, total_const.
  field. apply not_0_INR. lia.
Qed.
Lemma objective_ising : forall n Q q, spins n q -> ising_energy n (fst (qi n Q)) q + snd (qi n Q) = objective n Q q.
Proof. intros. rewrite <- Ei_energy. apply objective_energy. auto. Qed.
Lemma path_shift : forall n P Q T G q, (0 < P)%nat -> all_spins n P q ->
  path_energy n P (objective n Q) T G q = path_energy n P (ising_energy n (fst (qi n Q))) T G q + snd (qi n Q).
Proof.
  intros n P Q T G q HP S. unfold path_energy. rewrite (mean_shift P (ising_energy n (fst (qi n Q))) (objective n Q) q (snd (qi n Q)) HP).
  - lra.
  - intros p Hp. apply objective_ising. apply S. auto.
Qed.
Lemma flipped_at_spins : forall n P q y x, all_spins n P q -> all_spins n P (flipped_at q y x).
Proof. intros n P q y x H p Hp i Hi. specialize (H p Hp i Hi). unfold flipped_at. destruct ((p =? y) && (i =? x))%nat; lra. Qed.
Lemma sqa_change_objective : forall n Q T P G q y x, 0 < T -> 0 < G -> (2 <= P)%nat -> (y < P)%nat -> (x < n)%nat -> all_spins n P (real_slices q) ->
  sqa_change n (reJ (fst (qi n Q))) T P G q y x = difference_at (path_energy n P (objective n Q) T) G (real_slices q) y x.
Proof.
  intros. rewrite sqa_change_energy by auto. unfold difference_at. rewrite !path_shift by (try lia; try apply flipped_at_spins; auto). lra.
Qed.
Lemma Ei_sqa_objective : forall n Q T P G q, 0 < T -> 0 < G -> (0 < P)%nat -> all_spins n P (real_slices q) ->
  Ei_sqa n q (reJ (fst (qi n Q))) T P G + snd (qi n Q) = recorded n P (objective n Q) T (G, real_slices q).
Proof.
  intros n Q T P G q HT HG HP S. rewrite Ei_sqa_eq, log_bond by auto. unfold recorded. cbn [fst snd].
  rewrite (mean_shift P (ising_energy n (reJ (fst (qi n Q)))) (objective n Q) (real_slices q) (snd (qi n Q)) HP); [lra|].
  intros p Hp. rewrite reJ_ising. apply objective_ising. apply S. auto.
Qed.

(** ** runs *)
Lemma turn_flipped_at : forall q y x, real_slices (turn_at q y x) = flipped_at (real_slices q) y x.
Proof.
  intros. apply functional_extensionality. intros p. apply functional_extensionality. intros i. unfold real_slices, turn_at, turn, flipped_at.
  destruct (p =? y)%nat; cbn [andb]; auto. destruct (i =? x)%nat; auto. apply opp_IZR.
Qed.
Section Runs.
Variables (choices : nat -> bool) (sites slots : nat -> nat) (draws : nat -> R) (n P : nat) (Q : mat) (T : R).
Hypothesis HS : forall k, (sites k < n)%nat.
Hypothesis HL : forall k, (slots k < P)%nat.
Hypothesis HP : (2 <= P)%nat.
Hypothesis HT : 0 < T.
Lemma sqa_proposals_sweep : forall k G q s d q' s' d', 0 < G -> all_spins n P (real_slices q) ->
  sqa_proposals sites slots draws k n (reJ (fst (qi n Q))) T P G q s d = Ok (q', s', d') ->
  sweep_at n P (path_energy n P (objective n Q) T) draws sites slots T G k (real_slices q) s d (real_slices q') d' /\ s' = (s + k)%nat /\
  all_spins n P (real_slices q').
Proof.
  induction k as [|k IH]; intros G q s d q' s' d' HG S E; cbn [sqa_proposals] in E.
  - inversion E. subst. split; [constructor|]. split; [lia|auto].
  - destruct ((n =? 0) || (P =? 0))%nat; [discriminate|]. rewrite sqa_change_objective in E by auto.
    assert (St : all_spins n P (real_slices (turn_at q (slots s) (sites s)))) by (rewrite turn_flipped_at; apply flipped_at_spins; auto).
    destruct (Rlt_dec (difference_at _ _ _ _ _) 0) as [L|L].
    + apply IH in E as [E1 [E2 E3]]; auto. split; [|split; [lia|auto]]. eapply swa_step; eauto. rewrite turn_flipped_at. apply falls_at. auto.
    + destruct (Rlt_dec (draws d) _) as [L'|L']; apply IH in E as [E1 [E2 E3]]; auto; (split; [|split; [lia|auto]]); eapply swa_step; eauto.
      * rewrite turn_flipped_at. apply lucky_at; auto.
      * apply rejected_at; auto.
Qed.
Lemma sqa_proposals_ok : forall k J G q s d, exists r, sqa_proposals sites slots draws k n J T P G q s d = Ok r.
Proof.
  induction k as [|k IH]; intros J G q s d; cbn [sqa_proposals]; eauto.
  assert (n <> 0%nat) by (pose proof (HS 0%nat); lia). replace ((n =? 0) || (P =? 0))%nat with false.
  - destruct (Rlt_dec _ 0); [apply IH|]. destruct (Rlt_dec _ _); apply IH.
  - symmetry. apply orb_false_iff. split; apply Nat.eqb_neq; lia.
Qed.
Lemma last_shift : forall A (l : list A) a b c, last (a :: l) b = last (a :: l) c.
Proof. induction l; intros; [reflexivity|]. change (last (a :: l) b = last (a :: l) c). apply IHl. Qed.
Lemma last_step : forall A (l : list A) a b, last (a :: l) b = last l a.
Proof. intros A l a b. destruct l as [|c l]; [reflexivity|]. change (last (c :: l) b = last (c :: l) a). apply last_shift. Qed.
Lemma sqa_loop_fields : forall fuel target r ite G q s d E ans E', 0 <= target -> all_spins n P (real_slices q) ->
  sqa_loop sites slots draws fuel n (reJ (fst (qi n Q))) (snd (qi n Q)) T P target r ite G q s d E = Some (ans, E') ->
  exists q' l, ans = Ok q' /\ fields n P (path_energy n P (objective n Q) T) draws sites slots T target r ite G (real_slices q) s d l /\
    E' = E ++ map (recorded n P (objective n Q) T) l /\ real_slices q' = last (map snd l) (real_slices q) /\ all_spins n P (real_slices q').
Proof.
  induction fuel as [|fuel IH]; intros target r ite G q s d E ans E' Ht S H; cbn [sqa_loop] in H; [discriminate|].
  destruct (Rlt_dec target G) as [L|L].
  - destruct (sqa_proposals _ _ _ _ _ _ _ _ _ _ _ _) as [[[q1 s1] d1]|e] eqn:W.
    + apply sqa_proposals_sweep in W as [W1 [W2 W3]]; try lra; auto.
      apply IH in H as [q' [l [H1 [H2 [H3 [H4 H5]]]]]]; auto. subst s1. exists q', ((G, real_slices q1) :: l). split; auto. split; [eapply fi_round; eauto|].
      split; [|split; auto].
      * rewrite H3, Ei_sqa_objective, <- app_assoc by (auto; try lra; lia). reflexivity.
      * rewrite H4. cbn [map snd]. symmetry. apply last_step.
    + destruct (sqa_proposals_ok ite (reJ (fst (qi n Q))) G q s d) as [x X]. rewrite X in W. discriminate.
  - inversion H. subst. exists q, []. split; auto. split; [constructor; lra|]. cbn. rewrite app_nil_r. auto.
Qed.
End Runs.
Lemma prepare_qubo : forall o, is_not_empty_list (o_qubo o) = true ->
  prepare o = Opt (o_qubo o) (attr_size (o_qubo o)) (fst (qi (attr_size (o_qubo o)) (attr_mat (o_qubo o)))) (snd (qi (attr_size (o_qubo o)) (attr_mat (o_qubo o)))) (o_E o).
Proof. intros o H. unfold prepare. rewrite H. destruct (qi _ _). reflexivity. Qed.
Lemma sqa_run : forall choices sites slots draws fuel o Gs Gf T r tro ite ans o', let n := attr_size (o_qubo o) in let Q := attr_mat (o_qubo o) in
  is_not_empty_list (o_qubo o) = true -> (forall k, (sites k < n)%nat) -> (forall k, (slots k < tro)%nat) -> (2 <= tro)%nat -> 0 < T -> 0 < Gs -> 0 <= Gf ->
  opt_sqa choices sites slots draws o fuel Gs Gf T r tro ite = Some (ans, o') ->
  exists q l, ans = Ok q /\
    fields n tro (path_energy n tro (objective n Q) T) draws sites slots T Gf r ite Gs (chosen_slices choices n) 0 0 l /\
    real_slices q = last (map snd l) (chosen_slices choices n) /\ all_spins n tro (real_slices q) /\
    o_E o' = o_E o ++ map (recorded n tro (objective n Q) T) ((Gs, chosen_slices choices n) :: l) /\ o_qubo o' = o_qubo o.
Proof.
  intros choices sites slots draws fuel o Gs Gf T r tro ite ans o' n Q HQ HS HL HP HT HG HF H. unfold opt_sqa in H. rewrite prepare_qubo in H by auto.
  fold n Q in H. cbn [o_J o_ep o_size o_E] in H. set (q0 := fun p i => if choices (p * n + i)%nat then 1%Z else (-1)%Z) in *.
  assert (Eq : real_slices q0 = chosen_slices choices n).
  { apply functional_extensionality. intros p. apply functional_extensionality. intros i. unfold real_slices, chosen_slices, q0. destruct (choices _); auto. }
  assert (Sq : all_spins n tro (real_slices q0)) by (rewrite Eq; intros p _ i _; unfold chosen_slices; destruct (choices _); auto).
  destruct (sqa_loop _ _ _ _ _ _ _ _ _ _ _ _ _ _ _ _ _) as [[a E']|] eqn:L; [|discriminate]. inversion H. subst a o'.
  apply (sqa_loop_fields sites slots draws n tro Q T HS HL HP HT) in L as [q [l [L1 [L2 [L3 [L4 L5]]]]]]; auto.
  exists q, l. rewrite Eq in *. split; auto. split; auto. split; auto. split; auto. split; auto.
  cbn [with_E o_E]. rewrite L3, Ei_sqa_objective by (auto; try lia; rewrite Eq in *; auto). rewrite Eq, <- app_assoc. reflexivity.
Qed.
Lemma sqa_loop_ends : forall sites slots draws n J ep T P target r ite k G q s d E, G * r ^ k <= target ->
  sqa_loop sites slots draws (S k) n J ep T P target r ite G q s d E <> None.
Proof.
  induction k as [|k IH]; intros G q s d E H; cbn [sqa_loop].
  - destruct (Rlt_dec target G); [cbn in H; lra|discriminate].
  - destruct (Rlt_dec target G); [|discriminate]. destruct (sqa_proposals _ _ _ _ _ _ _ _ _ _ _ _) as [[[q1 s1] d1]|e]; [|discriminate]. apply IH.
    rewrite Rmult_assoc. exact H.
Qed.
Lemma power_below : forall a r b, 0 < b -> 0 <= r < 1 -> exists k, a * r ^ k <= b.
Proof.
  intros a r b HT HR. destruct (Rle_dec a 0) as [L|L]; [exists 0%nat; cbn; lra|].
  destruct (pow_lt_1_zero r) with (y := b / a) as [k Hk]; [rewrite Rabs_right; lra|apply Rdiv_lt_0_compat; lra|].
  exists k. specialize (Hk k (Nat.le_refl k)). apply Rabs_def2 in Hk as [Hk _]. apply Rlt_le. apply (Rmult_lt_compat_l a) in Hk; [|lra]. unfold Rdiv in Hk.
  rewrite (Rmult_comm b), <- Rmult_assoc, Rinv_r, Rmult_1_l in Hk by lra. exact Hk.
Qed.
Lemma sqa_ends : forall choices sites slots draws o Gs Gf T r tro ite, 0 < Gf -> 0 <= r < 1 ->
  exists fuel, opt_sqa choices sites slots draws o fuel Gs Gf T r tro ite <> None.
Proof.
  intros choices sites slots draws o Gs Gf T r tro ite HG HR. destruct (power_below Gs r Gf HG HR) as [k Hk]. exists (S k). unfold opt_sqa.
  destruct (sqa_loop _ _ _ _ _ _ _ _ _ _ _ _ _ _ _ _ _) as [[a E']|] eqn:L; [discriminate|]. exfalso. revert L. apply sqa_loop_ends. exact Hk.
Qed.

(** ** what is recorded is not the energy of the path *)
Lemma recorded_path : forall n P energy T G q, recorded n P energy T (G, q) = path_energy n P energy T G q + 2 * (bond T P G * agreement n P q).
Proof. intros. unfold recorded, path_energy. cbn [fst snd]. lra. Qed.
Lemma tanh_lt_1 : forall a, tanh a < 1.
Proof.
  intros a. unfold tanh. apply (Rmult_lt_reg_r (cosh a)); [apply cosh_pos|]. unfold Rdiv. rewrite Rmult_assoc, Rinv_l, Rmult_1_r, Rmult_1_l by (pose proof (cosh_pos a); lra).
  unfold sinh, cosh. pose proof (exp_pos (- a)). lra.
Qed.
Lemma bond_pos : forall T P G, 0 < T -> (0 < P)%nat -> 0 < G -> 0 < bond T P G.
Proof.
  intros T P G HT HP HG. unfold bond. set (a := G / (INR P * T)).
  assert (Ha : 0 < a) by (unfold a; apply Rdiv_lt_0_compat; auto; apply Rmult_lt_0_compat; auto; apply lt_0_INR; auto).
  assert (ln (tanh a) < 0) by (rewrite <- ln_1; apply ln_increasing; [apply tanh_pos; auto|apply tanh_lt_1]).
  replace (- (T / 2) * ln (tanh a)) with (T / 2 * - ln (tanh a)) by lra. apply Rmult_lt_0_compat; lra.
Qed.
Lemma record_wrong : forall choices sites slots draws, (forall k, choices k = true) ->
  exists o ans o' E, let n := attr_size (o_qubo o) in
    is_not_empty_list (o_qubo o) = true /\ opt_sqa choices sites slots draws o 1 1 2 1 (1 / 2) 2 1 = Some (ans, o') /\ o_E o' = [E] /\
    E <> path_energy n 2 (objective n (attr_mat (o_qubo o))) 1 1 (chosen_slices choices n).
Proof.
  intros choices sites slots draws H. set (o := Opt (AList 1 zeros) 0 zeros 0 []).
  set (q := fun p i => if choices (p * 1 + i)%nat then 1%Z else (-1)%Z).
  assert (R : opt_sqa choices sites slots draws o 1 1 2 1 (1 / 2) 2 1 =
    Some (Ok q, with_E (prepare o) ([Ei_sqa 1 q (reJ (fst (qi 1 zeros))) 1 2 1 + snd (qi 1 zeros)]))).
  { unfold opt_sqa. rewrite prepare_qubo by reflexivity. cbn [sqa_loop o_J o_ep o_size o_E o_qubo attr_size attr_mat o].
    destruct (Rlt_dec 2 1); [lra|]. reflexivity. }
  exists o, (Ok q). eexists. exists (recorded 1 2 (objective 1 zeros) 1 (1, chosen_slices choices 1)).
  split; [reflexivity|]. split; [exact R|].
  assert (Eq : real_slices q = chosen_slices choices 1).
  { apply functional_extensionality. intros p. apply functional_extensionality. intros i. unfold real_slices, chosen_slices, q. destruct (choices _); auto. }
  split.
  - cbn [with_E o_E]. f_equal. rewrite <- Eq. apply Ei_sqa_objective; [lra|lra|lia|]. rewrite Eq. intros p _ i _. unfold chosen_slices. destruct (choices _); auto.
  - cbn [attr_size attr_mat o_qubo o]. rewrite recorded_path. pose proof (bond_pos 1 2 1 ltac:(lra) ltac:(lia) ltac:(lra)) as B.
    assert (A : agreement 1 2 (chosen_slices choices 1) = 2).
    { unfold agreement, total, next, chosen_slices. cbn. rewrite !H. lra. }
    rewrite A. lra.
Qed.
Lemma one_slice_wrong : exists n Q T G q, 0 < T /\ 0 < G /\ all_spins n 1 (real_slices q) /\
  sqa_change n (reJ (fst (qi n Q))) T 1 G q 0 0 <> difference_at (path_energy n 1 (objective n Q) T) G (real_slices q) 0 0.
Proof.
  exists 1%nat, zeros, 1, 1, (fun _ _ => 1%Z). split; [lra|]. split; [lra|].
  assert (S : all_spins 1 1 (real_slices (fun _ _ => 1%Z))) by (intros p _ i _; right; reflexivity). split; auto.
  rewrite classical_change. unfold difference_at. rewrite !path_shift by (try lia; try apply flipped_at_spins; auto).
  rewrite change_difference by lia. unfold path_energy.
  pose proof (mean_flip 1 (ising_energy 1 (fst (qi 1 zeros))) (real_slices (fun _ _ => 1%Z)) 0 0 ltac:(lia)) as M.
  change (real_spins (fun _ => 1%Z)) with (real_slices (fun _ _ => 1%Z) 0%nat).
  assert (A : agreement 1 1 (flipped_at (real_slices (fun _ _ => 1%Z)) 0 0) = agreement 1 1 (real_slices (fun _ _ => 1%Z))).
  { unfold agreement, total, flipped_at, real_slices, next. cbn. lra. }
  rewrite A. pose proof (log_bond 1 1 1 ltac:(lra) ltac:(lia) ltac:(lra)) as L. pose proof (bond_pos 1 1 1 ltac:(lra) ltac:(lia) ltac:(lra)) as B.
  set (l := log_coth 1 1 1) in *. lra.
Qed.

(** ** add *)
Lemma energy_scale : forall n k m x, qubo_energy n (mtimes k m) x = k * qubo_energy n m x.
Proof.
  intros. unfold qubo_energy. rewrite <- total_scal. apply total_ext. intros. rewrite <- total_scal. apply total_ext. intros. unfold mtimes. lra.
Qed.
Lemma energy_add : forall n a b x, qubo_energy n (madd a b) x = qubo_energy n a x + qubo_energy n b x.
Proof.
  intros. unfold qubo_energy. rewrite <- total_plus. apply total_ext. intros. rewrite <- total_plus. apply total_ext. intros. unfold madd. lra.
Qed.
Definition add_all (n : nat) (l : list (mat * R)) (o : opt) : opt := fold_left (fun o p => opt_add o n (fst p) (snd p)) l o.
Lemma opt_add_same : forall o n m M, attr_size (o_qubo o) = n ->
  opt_add o n m M = with_qubo o (AArray n (madd (attr_mat (o_qubo o)) (mtimes M m))).
Proof. intros o n m M H. unfold opt_add. rewrite H, Nat.eqb_refl. auto. Qed.
Lemma add_all_same : forall n l o, attr_size (o_qubo o) = n ->
  attr_size (o_qubo (add_all n l o)) = n /\
  (forall i j, attr_mat (o_qubo (add_all n l o)) i j = attr_mat (o_qubo o) i j + weighted_sum l i j) /\
  (forall x, qubo_energy n (attr_mat (o_qubo (add_all n l o))) x = qubo_energy n (attr_mat (o_qubo o)) x + Rsum (fun p => snd p * qubo_energy n (fst p) x) l) /\
  (l <> [] -> o_qubo (add_all n l o) = AArray n (attr_mat (o_qubo (add_all n l o)))) /\
  o_size (add_all n l o) = o_size o /\ o_J (add_all n l o) = o_J o /\ o_ep (add_all n l o) = o_ep o /\ o_E (add_all n l o) = o_E o.
Proof.
  induction l as [|p l IH]; intros o H.
  - cbn. unfold weighted_sum. cbn. repeat split; intros; try lra; auto. contradiction.
  - unfold add_all. cbn [fold_left]. fold (add_all n l (opt_add o n (fst p) (snd p))). rewrite opt_add_same by auto.
    set (o1 := with_qubo o _). destruct (IH o1 eq_refl) as [H1 [H2 [H3 [H4 H5]]]]. split; auto. split; [|split; [|split]].
    + intros. rewrite H2. unfold o1, weighted_sum. cbn [Rsum o_qubo with_qubo attr_mat]. unfold madd, mtimes. rewrite Rplus_assoc. reflexivity.
    + intros. rewrite H3. unfold o1. cbn [Rsum o_qubo with_qubo attr_mat]. rewrite energy_add, energy_scale. rewrite Rplus_assoc. reflexivity.
    + intros _. destruct l as [|p' l]; [reflexivity|]. apply H4. discriminate.
    + exact H5.
Qed.
Lemma add_first : forall n m M, (0 < n)%nat -> opt_add opt_init n m M = with_qubo opt_init (AArray n (mtimes M m)).
Proof. intros n m M H. unfold opt_add. cbn. destruct n; [lia|]. reflexivity. Qed.
Lemma add_all_init : forall n l, (0 < n)%nat -> l <> [] ->
  exists m, o_qubo (add_all n l opt_init) = AArray n m /\ (forall i j, m i j = weighted_sum l i j) /\
    forall x, qubo_energy n m x = Rsum (fun p => snd p * qubo_energy n (fst p) x) l.
Proof.
  intros n l H L. destruct l as [|p l]; [contradiction|]. unfold add_all. cbn [fold_left]. rewrite add_first by auto.
  fold (add_all n l (with_qubo opt_init (AArray n (mtimes (snd p) (fst p))))). set (o1 := with_qubo _ _).
  destruct (add_all_same n l o1 eq_refl) as [H1 [H2 [H3 [H4 _]]]]. exists (attr_mat (o_qubo (add_all n l o1))). split; [|split].
  - destruct l as [|p' l]; [reflexivity|]. apply H4. discriminate.
  - intros. rewrite H2. unfold o1, weighted_sum. cbn. unfold mtimes. auto.
  - intros. rewrite H3. unfold o1. cbn. rewrite energy_scale. auto.
Qed.
Lemma run1_last : forall choices sites draws fuel o Ts r ite target ans o', let n := attr_size (o_qubo o) in
  is_not_empty_list (o_qubo o) = true -> (forall k, (sites k < n)%nat) ->
  opt_run1 choices sites draws o fuel Ts r ite target = Some (ans, o') ->
  exists b, ans = Ok b /\ length b = n /\ Forall (fun z => z = 0%Z \/ z = 1%Z) b /\
    last (o_E o') 0 = qubo_energy n (upper_part (attr_mat (o_qubo o))) (fun i => IZR (nth i b 0%Z)).
Proof.
  intros choices sites draws fuel o Ts r ite target ans o' n HQ HS H. unfold opt_run1 in H. rewrite prepare_qubo in H by auto.
  fold n in H. cbn [o_J o_ep o_size o_E o_qubo] in H. assert (Hn : n <> 0%nat) by (pose proof (HS 0%nat); lia). apply Nat.eqb_neq in Hn. rewrite Hn in H. cbn [andb] in H.
  set (Q := attr_mat (o_qubo o)) in *. set (q := fun i => if choices i then 1%Z else (-1)%Z) in *.
  assert (Sq : spins n (real_spins q)) by (intros i _; unfold real_spins, q; destruct (choices i); auto).
  destruct (cooling _ _ _ _ _ _ _ _ _ _ _ _ _ _) as [[[[q' s'] d'] EE]|] eqn:C; [|discriminate]. injection H as <- <-.
  apply cooling_schedule in C as [l [C1 [C2 [C3 C4]]]]; auto. exists (to_bits n q'). split; auto. pose proof (to_bits_are n q' C4) as B.
  split; [apply B|]. split; [exact (bits_are_01 n (real_spins q') _ C4 B)|]. cbn [with_E o_E]. rewrite C2, objective_energy by auto.
  change ([objective n Q (real_spins q)] ++ map (objective n Q) l) with (map (objective n Q) (real_spins q :: l)). rewrite last_map.
  transitivity (objective n Q (real_spins q')); [rewrite C3; reflexivity|apply energy_bits; auto].
Qed.
Lemma add_run : forall choices sites draws fuel n l Ts r ite target ans o', (2 <= n)%nat -> l <> [] -> (forall k, (sites k < n)%nat) ->
  Forall (fun p => upper_triangular n (fst p)) l ->
  opt_run1 choices sites draws (add_all n l opt_init) fuel Ts r ite target = Some (ans, o') ->
  exists b, ans = Ok b /\ length b = n /\ Forall (fun z => z = 0%Z \/ z = 1%Z) b /\
    last (o_E o') 0 = Rsum (fun p => snd p * qubo_energy n (fst p) (fun i => IZR (nth i b 0%Z))) l.
Proof.
  intros choices sites draws fuel n l Ts r ite target ans o' Hn L HS U H. destruct (add_all_init n l) as [m [Q [W Em]]]; auto; [lia|].
  pose proof (run1_last choices sites draws fuel (add_all n l opt_init) Ts r ite target ans o') as K. cbn zeta in K. rewrite Q in K. cbn [attr_size attr_mat] in K.
  destruct K as [b [K1 [K2 [K3 K4]]]]; auto.
  - cbn. destruct (Nat.leb_spec n 1); [lia|auto].
  - exists b. split; auto. split; auto. split; auto. rewrite K4, upper_part_id; [apply Em|]. intros i j Hij. rewrite W. unfold weighted_sum.
    apply Rsum_zero. intros p I. rewrite Forall_forall in U. rewrite (U p I i j Hij). lra.
Qed.
Lemma add_mismatch : forall o n m M, attr_size (o_qubo o) <> n -> attr_size (o_qubo o) <> 0%nat -> opt_add o n m M = o.
Proof.
  intros o n m M H H0. unfold opt_add. apply Nat.eqb_neq in H. rewrite H. unfold is_empty_list. destruct (o_qubo o) as [k a|k a]; auto. cbn in H0.
  apply Nat.eqb_neq in H0. rewrite H0. auto.
Qed.
Definition ones_mat : mat := fun _ _ => 1.
Lemma add_ignored : exists a b x, bits 3 x /\ opt_add (opt_add opt_init 2 a 1) 3 b 1 = opt_add opt_init 2 a 1 /\ qubo_energy 3 b x <> 0.
Proof.
  exists ones_mat, ones_mat, (fun _ => 1). split; [intros i _; right; auto|]. split; [apply add_mismatch; cbn; lia|]. unfold qubo_energy, total, ones_mat. cbn. lra.
Qed.
Lemma add_after_empty : forall n m M, (0 < n)%nat -> o_qubo (opt_add (opt_add opt_init 0 zeros 1) n m M) = AArray 0 (madd zeros (mtimes 1 zeros)).
Proof. intros n m M H. unfold opt_add. cbn. destruct n; [lia|]. reflexivity. Qed.
Lemma add_single : forall choices sites draws fuel v Ts r ite target, target < Ts -> (0 < ite)%nat ->
  exists o', opt_run1 choices sites draws (opt_add opt_init 1 (fun _ _ => v) 1) fuel Ts r ite target = Some (Err ValueError, o').
Proof.
  intros. unfold opt_run1. rewrite add_first by lia. cbn [prepare is_not_empty_list o_qubo with_qubo o_size opt_init].
  unfold prepare. cbn [is_not_empty_list o_qubo with_qubo]. cbn [negb Nat.leb]. cbn [with_qubo o_size opt_init o_qubo]. rewrite Nat.eqb_refl.
  destruct (Nat.eqb_spec ite 0); [lia|]. cbn [andb negb]. destruct (Rlt_dec target Ts); [eauto|contradiction].
Qed.
Lemma stale : forall choices sites draws Q v Ts r ite target, Ts <= target ->
  exists b1 o1 b2 o2, opt_run1 choices sites draws (with_qubo opt_init (AList 2 Q)) 1 Ts r ite target = Some (Ok b1, o1) /\
    opt_run1 choices sites draws (with_qubo o1 (AArray 1 (fun _ _ => v))) 1 Ts r ite target = Some (Ok b2, o2) /\ b2 = b1 /\ length b2 = 2%nat /\ o_E o2 = o_E o1.
Proof.
  intros choices sites draws Q v Ts r ite target H. unfold opt_run1 at 1. rewrite prepare_qubo by reflexivity.
  cbn [o_J o_ep o_size o_E o_qubo attr_size attr_mat with_qubo Nat.eqb andb cooling]. destruct (Rlt_dec target Ts); [lra|].
  do 4 eexists. split; [reflexivity|]. unfold opt_run1, prepare.
  cbn [o_J o_ep o_size o_E o_qubo attr_size attr_mat with_qubo with_E is_not_empty_list Nat.leb negb Nat.eqb andb cooling].
  destruct (Rlt_dec target Ts); [contradiction|]. split; [reflexivity|]. repeat split.
Qed.
