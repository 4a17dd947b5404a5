(** Proofs for nbody_separation and qn_to_qubo. *)
From Coq Require Import List Arith Bool Reals Lra Lia Permutation.
Import ListNotations.
From Verif Require Import Base Cplx ModelWq ModelNbody SpecWq SpecNbody ProofWq.
Local Open Scope nat_scope.

Lemma NoDup_app_left : forall A (l l' : list A), NoDup (l ++ l') -> NoDup l.
Proof. induction l as [|x l IH]; intros l' H; [constructor|]. inversion H; subst. constructor; [intros I; apply H2, in_or_app; auto|eauto]. Qed.
Lemma NoDup_app_right : forall A (l l' : list A), NoDup (l ++ l') -> NoDup l'.
Proof. induction l as [|x l IH]; intros l' H; auto. inversion H; subst. eauto. Qed.
Lemma is_in_In : forall v l, is_in v l = true <-> In v l.
Proof.
  intros. unfold is_in. rewrite existsb_exists. split; [intros [w [H E]]; apply Nat.eqb_eq in E; subst; auto|]. intros H. exists v. split; auto. apply Nat.eqb_refl.
Qed.
Lemma drop_one_perm : forall v l, In v l -> Permutation l (v :: drop_one v l).
Proof.
  induction l as [|w l IH]; intros H; [contradiction|]. cbn [drop_one]. destruct (Nat.eqb_spec v w) as [->|N]; auto.
  destruct H as [->|H]; [contradiction|]. rewrite (perm_swap w v). constructor. auto.
Qed.
Lemma subs_perm : forall vars v1 v2 v, In v1 vars -> In v2 vars -> v1 <> v2 -> exists rest, Permutation vars (v1 :: v2 :: rest) /\ subs vars v1 v2 v = v :: rest.
Proof.
  intros vars v1 v2 v H1 H2 N. unfold subs. rewrite (proj2 (is_in_In _ _) H1), (proj2 (is_in_In _ _) H2). cbn [andb].
  exists (drop_one v1 (drop_one v2 vars)). split; auto. pose proof (drop_one_perm v2 vars H2) as P.
  assert (I : In v1 (drop_one v2 vars)) by (apply (Permutation_in v1) in P; auto; destruct P; [congruence|auto]).
  rewrite P at 1. rewrite (drop_one_perm v1 _ I) at 1. apply perm_swap.
Qed.
Lemma product_perm : forall a l l', Permutation l l' -> product a l = product a l'.
Proof. induction 1; unfold product in *; cbn [fold_right] in *; [auto|rewrite IHPermutation; auto|ring|congruence]. Qed.
Lemma flat_map_perm : forall A B (f : A -> list B) l l', Permutation l l' -> Permutation (flat_map f l) (flat_map f l').
Proof.
  intros A B f. induction 1 as [|x l l' H IH|x y l|l l' l'' H1 IH1 H2 IH2]; cbn; auto.
  - apply Permutation_app_head. auto.
  - rewrite !app_assoc. apply Permutation_app_tail. apply Permutation_app_comm.
  - eapply perm_trans; eauto.
Qed.
Lemma look_In : forall m v1 v2 v, look m v1 v2 = Some v -> In ((v1, v2), v) m.
Proof.
  induction m as [|[[a b] w] m IH]; intros v1 v2 v H; cbn in H; [discriminate|]. destruct (Nat.eqb_spec a v1), (Nat.eqb_spec b v2); cbn in H; subst; try (right; apply IH; auto; fail).
  inversion H. left. auto.
Qed.
Lemma look_None : forall m v1 v2, look m v1 v2 = None -> ~ In (v1, v2) (map fst m).
Proof.
  induction m as [|[[a b] w] m IH]; intros v1 v2 H I; cbn in *; auto. destruct (Nat.eqb_spec a v1), (Nat.eqb_spec b v2); cbn in H; subst; try discriminate;
    destruct I as [E|I]; try (inversion E; congruence); eapply IH; eauto.
Qed.

Section Proofs.
Variable order : nat -> list nat -> list nat.
Variable qs : list nat.
Hypothesis Horder : forall k l, Permutation (order k l) l.
Hypothesis Hqs : NoDup qs.

(** which variables may occur when [i] supplementary ones have been used *)
Definition known (i v : nat) : Prop := In v qs -> In v (firstn i qs).
Record inv (S : nat -> list nat) (s : nstate) : Prop := Inv {
  i_cover : forall v1 v2 v, In ((v1, v2), v) (n_map s) -> S v = S v1 ++ S v2;
  i_some : forall v, S v <> [];
  i_orig : forall v, ~ In v qs -> S v = [v];
  i_cons : n_cons s = flat_map (fun p => penalty (fst (fst p)) (snd (fst p)) (snd p)) (n_map s);
  i_known : forall v1 v2 v, In ((v1, v2), v) (n_map s) -> known (n_var s) v1 /\ known (n_var s) v2 /\ In v (firstn (n_var s) qs);
  i_keys : NoDup (map fst (n_map s));
  i_vals : map snd (n_map s) = firstn (n_var s) qs;
  i_order : forall m1 v1 v2 v m2, n_map s = m1 ++ ((v1, v2), v) :: m2 -> v <> v1 /\ v <> v2 /\ forall a b c, In ((a, b), c) m1 -> v <> a /\ v <> b;
  i_len : n_var s <= length qs }.

Lemma In_firstn : forall A (l : list A) n x, In x (firstn n l) -> In x l.
Proof. induction l as [|y l IH]; intros [|n] x H; cbn in *; auto; try contradiction. destruct H; eauto. Qed.
Lemma firstn_S : forall A (l : list A) n x, nth_error l n = Some x -> firstn (S n) l = firstn n l ++ [x].
Proof. induction l as [|y l IH]; intros [|n] x H; cbn in *; try discriminate; [inversion H; auto|]. rewrite <- (IH n x) by auto. reflexivity. Qed.
Lemma nth_new : forall n v, nth_error qs n = Some v -> ~ In v (firstn n qs).
Proof.
  intros n v H I. apply In_nth_error in I as [k I]. assert (L : k < n).
  { assert (k < length (firstn n qs)) by (apply nth_error_Some; congruence). rewrite firstn_length in *. lia. }
  assert (E : nth_error qs k = Some v).
  { rewrite <- (firstn_skipn n qs). rewrite nth_error_app1; auto. apply nth_error_Some. congruence. }
  assert (k = n); [|lia]. apply (proj1 (NoDup_nth_error qs) Hqs); [apply nth_error_Some; congruence|congruence].
Qed.
Lemma known_S : forall i v, known i v -> known (S i) v.
Proof.
  intros i v K I. specialize (K I). clear - K. revert i K. generalize qs. intros l. induction l as [|y l IH]; intros [|i] K; cbn in *; try contradiction.
  destruct K; auto.
Qed.
Lemma NoDup_supports : forall (S : nat -> list nat) l, (forall v, S v <> []) -> NoDup (flat_map S l) -> NoDup l.
Proof.
  intros S l HS. induction l as [|v l IH]; intros H; constructor; cbn in H.
  - intros I. destruct (S v) as [|x r] eqn:E; [exact (HS v E)|]. cbn in H. inversion H as [|? ? H1 H2]. apply H1. apply in_or_app. right.
    apply in_flat_map. exists v. split; auto. rewrite E. left. auto.
  - apply IH. apply NoDup_app_right in H. auto.
Qed.
(** one replacement *)
Definition goal (vars : list nat) (v1 v2 : nat) (s s' : nstate) (S' : nat -> list nat) (vars' : list nat) : Prop :=
  inv S' s' /\ NoDup (flat_map S' vars') /\ Forall (known (n_var s')) vars' /\ length vars = S (length vars') /\
  incl (n_map s) (n_map s') /\ n_var s <= n_var s' <= S (n_var s) /\ n_iter s' = n_iter s /\
  (forall a, products a (n_map s') -> product a vars' = product a vars) /\ (forall w, In w vars -> w <> v1 -> w <> v2 -> In w vars').
Lemma old_pair : forall S s vars v1 v2 v, inv S s -> NoDup (flat_map S vars) -> Forall (known (n_var s)) vars -> In v1 vars -> In v2 vars -> v1 <> v2 ->
  look (n_map s) v1 v2 = Some v -> goal vars v1 v2 s s S (subs vars v1 v2 v).
Proof.
  intros S s vars v1 v2 v V D K H1 H2 N L. apply look_In in L. destruct (subs_perm vars v1 v2 v H1 H2 N) as [rest [P ->]].
  pose proof (i_cover _ _ V _ _ _ L) as C. unfold goal. split; auto. split; [|split; [|split; [|split; [|split; [|split; [|split]]]]]].
  - apply (Permutation_NoDup (flat_map_perm _ _ S _ _ P)) in D. cbn in *. rewrite C, <- app_assoc. auto.
  - constructor.
    + intros _. apply (i_known _ _ V _ _ _ L).
    + apply Forall_forall. intros w I. rewrite Forall_forall in K. apply K. apply (Permutation_in w (Permutation_sym P)). right. right. auto.
  - rewrite (Permutation_length P). reflexivity.
  - apply incl_refl.
  - lia.
  - reflexivity.
  - intros a A. rewrite (product_perm a _ _ P). cbn. rewrite (A _ _ _ L). ring.
  - intros w I N1 N2. apply (Permutation_in w P) in I. destruct I as [E|[E|I]]; [congruence|congruence|right; auto].
Qed.
Lemma new_pair : forall S s vars v1 v2 v, inv S s -> NoDup (flat_map S vars) -> Forall (known (n_var s)) vars -> In v1 vars -> In v2 vars -> v1 <> v2 ->
  look (n_map s) v1 v2 = None -> nth_error qs (n_var s) = Some v ->
  exists S', goal vars v1 v2 s (NState (n_map s ++ [((v1, v2), v)]) (n_cons s ++ penalty v1 v2 v) (Datatypes.S (n_var s)) (n_iter s)) S' (subs vars v1 v2 v).
Proof.
  intros S s vars v1 v2 v V D K H1 H2 N L Q. destruct (subs_perm vars v1 v2 v H1 H2 N) as [rest [P ->]].
  pose proof (nth_new _ _ Q) as F. assert (Iq : In v qs) by (eapply nth_error_In; eauto). rewrite Forall_forall in K.
  assert (Nk : forall w, known (n_var s) w -> w <> v) by (intros w Kw E; subst; apply F, Kw, Iq).
  set (S' := fun w => if w =? v then S v1 ++ S v2 else S w).
  assert (SK : forall w, w <> v -> S' w = S w) by (intros w Nw; unfold S'; destruct (Nat.eqb_spec w v); [contradiction|auto]).
  assert (SV : S' v = S v1 ++ S v2) by (unfold S'; rewrite Nat.eqb_refl; auto).
  assert (FS : forall l, (forall w, In w l -> w <> v) -> flat_map S' l = flat_map S l).
  { induction l as [|w l IH]; intros Hl; auto. cbn. rewrite (SK w), IH; auto; [intros u Hu; apply Hl; right; auto|apply Hl; left; auto]. }
  assert (Rk : forall w, In w rest -> w <> v) by (intros w I; apply Nk, K; apply (Permutation_in w (Permutation_sym P)); right; right; auto).
  exists S'. unfold goal. cbn [n_map n_var n_iter]. split; [|split; [|split; [|split; [|split; [|split; [|split; [|split]]]]]]].
  - constructor; cbn [n_map n_cons n_var].
    + intros a b c I. apply in_app_or in I as [I|[I|[]]].
      * destruct (i_known _ _ V _ _ _ I) as [Ka [Kb Kc]]. rewrite !SK by (apply Nk; auto; intros _; auto). apply (i_cover _ _ V). auto.
      * inversion I. subst a b c. rewrite SV, !SK by (apply Nk, K; auto). auto.
    + intros w. unfold S'. destruct (w =? v); [|apply (i_some _ _ V)]. intros E. apply app_eq_nil in E as [E _]. exact (i_some _ _ V _ E).
    + intros w Nw. rewrite SK by (intros ->; contradiction). apply (i_orig _ _ V). auto.
    + rewrite (i_cons _ _ V), flat_map_app. cbn [flat_map fst snd]. rewrite app_nil_r. reflexivity.
    + intros a b c I. apply in_app_or in I as [I|[I|[]]].
      * destruct (i_known _ _ V _ _ _ I) as [Ka [Kb Kc]]. rewrite (firstn_S _ _ _ _ Q). split; [apply known_S; auto|]. split; [apply known_S; auto|]. apply in_or_app. auto.
      * inversion I. subst a b c. rewrite (firstn_S _ _ _ _ Q). split; [apply known_S; auto|]. split; [apply known_S; auto|]. apply in_or_app. right. left. auto.
    + rewrite map_app. cbn [map fst]. apply (Permutation_NoDup (l := (v1, v2) :: map fst (n_map s))); [apply Permutation_cons_append|].
      constructor; [apply look_None; auto|apply (i_keys _ _ V)].
    + rewrite map_app, (i_vals _ _ V). cbn [map snd]. symmetry. apply firstn_S. auto.
    + intros m1 a b c m2 E. destruct m2 as [|x m2 _] using rev_ind.
      * apply app_inj_tail in E as [E1 E2]. inversion E2. subst. split; [apply not_eq_sym, Nk, K; auto|]. split; [apply not_eq_sym, Nk, K; auto|].
        intros d e f I. destruct (i_known _ _ V _ _ _ I) as [Kd [Ke _]]. split; apply not_eq_sym, Nk; auto.
      * rewrite app_comm_cons, app_assoc in E. apply app_inj_tail in E as [E1 E2]. apply (i_order _ _ V m1 a b c m2). auto.
    + assert (n_var s < length qs) by (apply nth_error_Some; congruence). lia.
  - apply (Permutation_NoDup (flat_map_perm _ _ S _ _ P)) in D. cbn in *. rewrite SV, FS, <- app_assoc by auto. auto.
  - constructor.
    + intros _. rewrite (firstn_S _ _ _ _ Q). apply in_or_app. right. left. auto.
    + apply Forall_forall. intros w I. apply known_S, K. apply (Permutation_in w (Permutation_sym P)). right. right. auto.
  - rewrite (Permutation_length P). reflexivity.
  - apply incl_appl, incl_refl.
  - lia.
  - reflexivity.
  - intros a A. rewrite (product_perm a _ _ P). cbn. rewrite (A v1 v2 v) by (apply in_or_app; right; left; auto). ring.
  - intros w I N1 N2. apply (Permutation_in w P) in I. destruct I as [E|[E|I]]; [congruence|congruence|right; auto].
Qed.
Definition flat (ps : list (nat * nat)) : list nat := flat_map (fun p => [fst p; snd p]) ps.
Lemma in_pairs_flat : forall n l, length l <= n -> exists r, l = flat (in_pairs l) ++ r /\ length r <= 1.
Proof.
  induction n as [|n IH]; intros l H; [destruct l; [exists []; auto|cbn in H; lia]|].
  destruct l as [|a [|b l]]; [exists []; auto|exists [a]; auto|]. cbn in H. destruct (IH l) as [r [E1 E2]]; [lia|]. exists r. split; auto. cbn [in_pairs flat flat_map fst snd app]. f_equal. f_equal. exact E1.
Qed.
Lemma flat_length : forall ps, length (flat ps) = 2 * length ps.
Proof. induction ps as [|p ps IH]; [auto|]. change (flat (p :: ps)) with (fst p :: snd p :: flat ps). cbn [length]. lia. Qed.
Lemma replace_spec : forall ps S s vars, inv S s -> NoDup (flat_map S vars) -> Forall (known (n_var s)) vars -> NoDup (flat ps) -> incl (flat ps) vars ->
  match replace_pairs qs ps s vars with
  | Ok (s', vars') => exists S', inv S' s' /\ NoDup (flat_map S' vars') /\ Forall (known (n_var s')) vars' /\ length vars = length ps + length vars' /\
      incl (n_map s) (n_map s') /\ n_var s <= n_var s' <= length ps + n_var s /\ (forall a, products a (n_map s') -> product a vars' = product a vars)
  | Err e => e = IndexError /\ length qs < length ps + n_var s
  end.
Proof.
  induction ps as [|[v1 v2] ps IH]; intros S s vars V D K NP IP; cbn [replace_pairs].
  - exists S. split; auto. split; auto. split; auto. split; [auto|]. split; [apply incl_refl|]. split; [cbn; lia|auto].
  - cbn in NP, IP. inversion NP as [|? ? N1 NP']. inversion NP' as [|? ? N2 NP'']. subst.
    assert (N : v1 <> v2) by (intros E; apply N1; left; auto).
    assert (Step : forall s' vars' S', goal vars v1 v2 s s' S' vars' ->
      match replace_pairs qs ps s' vars' with
      | Ok (s'', vars'') => exists S', inv S' s'' /\ NoDup (flat_map S' vars'') /\ Forall (known (n_var s'')) vars'' /\ length vars = length ((v1, v2) :: ps) + length vars'' /\
          incl (n_map s) (n_map s'') /\ n_var s <= n_var s'' <= length ((v1, v2) :: ps) + n_var s /\ (forall a, products a (n_map s'') -> product a vars'' = product a vars)
      | Err e => e = IndexError /\ length qs < length ((v1, v2) :: ps) + n_var s
      end).
    { intros s' vars' S' [G1 [G2 [G3 [G4 [G5 [G6 [_ [G7 G8]]]]]]]].
      assert (IP' : incl (flat ps) vars').
      { intros w I. apply G8; [apply IP; right; right; auto| |]; intros ->; [apply N1; right; auto|apply N2; auto]. }
      specialize (IH S' s' vars' G1 G2 G3 NP'' IP'). destruct (replace_pairs qs ps s' vars') as [[s'' vars'']|e].
      - destruct IH as [S'' [I1 [I2 [I3 [I4 [I5 [I6 I7]]]]]]]. exists S''. split; auto. split; auto. split; auto. split; [cbn; lia|].
        split; [eapply incl_tran; eauto|]. split; [cbn; lia|]. intros a A. rewrite I7 by auto. apply G7. intros x y z I. apply A. apply I5. auto.
      - destruct IH as [I1 I2]. split; auto. cbn. lia. }
    destruct (look (n_map s) v1 v2) as [v|] eqn:L.
    + apply (Step _ _ S). apply old_pair; auto; apply IP; [left; auto|right; left; auto].
    + destruct (nth_error qs (n_var s)) as [v|] eqn:Q.
      * destruct (new_pair S s vars v1 v2 v V D K (IP v1 (or_introl eq_refl)) (IP v2 (or_intror (or_introl eq_refl))) N L Q) as [S' G]. apply (Step _ _ S'). auto.
      * split; auto. apply nth_error_None in Q. cbn. lia.
Qed.
Lemma inv_iter : forall S s k, inv S s -> inv S (NState (n_map s) (n_cons s) (n_var s) k).
Proof. intros S s k []. constructor; auto. Qed.
Lemma reduce_spec : forall fuel S s vars, length vars <= fuel -> inv S s -> NoDup (flat_map S vars) -> Forall (known (n_var s)) vars ->
  match reduce order qs fuel s vars with
  | None => False
  | Some (Ok (s', vars')) => exists S', inv S' s' /\ length vars' <= 2 /\ NoDup vars' /\
      incl (n_map s) (n_map s') /\ n_var s <= n_var s' <= (length vars - 2) + n_var s /\ (forall a, products a (n_map s') -> product a vars' = product a vars)
  | Some (Err e) => e = IndexError /\ length qs < (length vars - 2) + n_var s
  end.
Proof.
  induction fuel as [|fuel IH]; intros S s vars F V D K.
  - destruct vars; [|cbn in F; lia]. cbn. exists S. split; auto. split; auto. split; [constructor|]. split; [apply incl_refl|]. split; [lia|auto].
  - pose proof (NoDup_supports S vars (i_some _ _ V) D) as ND. cbn [reduce]. rewrite (nodup_fixed_point Nat.eq_dec ND).
    destruct (Nat.ltb_spec 2 (length vars)) as [L|L].
    + set (s0 := NState _ _ _ (Datatypes.S (n_iter s))). assert (V0 : inv S s0) by (apply inv_iter; auto).
      set (o := order (n_iter s) vars). assert (P : Permutation o vars) by apply Horder. pose proof (Permutation_length P) as PL.
      destruct (in_pairs_flat (length o) o (Nat.le_refl _)) as [r [E1 E2]]. pose proof (flat_length (in_pairs o)) as FL.
      assert (EL : length o = length (flat (in_pairs o)) + length r) by (rewrite E1 at 1; rewrite app_length; auto).
      assert (NF : NoDup (flat (in_pairs o))) by (apply (NoDup_app_left _ _ r); rewrite <- E1; apply (Permutation_NoDup (Permutation_sym P)); auto).
      assert (IF : incl (flat (in_pairs o)) vars) by (intros w I; apply (Permutation_in w P); rewrite E1; apply in_or_app; auto).
      pose proof (replace_spec (in_pairs o) S s0 vars V0 D K NF IF) as R.
      destruct (replace_pairs qs (in_pairs o) s0 vars) as [[s1 vars1]|e].
      * destruct R as [S1 [R1 [R2 [R3 [R4 [R5 [R6 R7]]]]]]]. cbn [n_map n_var s0] in *.
        specialize (IH S1 s1 vars1). destruct (reduce order qs fuel s1 vars1) as [[[s2 vars2]|e]|].
        -- destruct IH as [S2 [I1 [I2 [I3 [I4 [I5 I6]]]]]]; auto; [lia|]. exists S2. split; auto. split; auto. split; auto. split; [eapply incl_tran; eauto|].
           split; [lia|]. intros a A. rewrite I6 by auto. apply R7. intros x y z I. apply A, I4. auto.
        -- destruct IH as [I1 I2]; auto; [lia|]. split; auto. lia.
        -- apply IH; auto. lia.
      * destruct R as [R1 R2]. cbn [n_var s0] in R2. split; auto. lia.
    + exists S. split; auto. split; [lia|]. split; auto. split; [apply incl_refl|]. split; [lia|auto].
Qed.
Lemma value_app : forall a p q, value a (p ++ q) = (value a p + value a q)%R.
Proof. intros. unfold value. apply Rsum_app. Qed.
Lemma value_cons : forall a c vars p, value a ((c, vars) :: p) = (c * product a vars + value a p)%R.
Proof. reflexivity. Qed.
Lemma excess_cons : forall c vars p, excess ((c, vars) :: p) = (length vars - 2) + excess p.
Proof. reflexivity. Qed.
Lemma separate_spec : forall p S s acc, inv S s -> multilinear p -> (forall v, In v qs -> ~ In v (flat_map snd p)) -> quadratic acc -> multilinear acc ->
  match separate order qs p s acc with
  | None => False
  | Some (Ok (s', new)) => exists S', inv S' s' /\ quadratic new /\ multilinear new /\ incl (n_map s) (n_map s') /\ n_var s' <= excess p + n_var s /\
      (forall a, products a (n_map s') -> value a new = (value a acc + value a p)%R)
  | Some (Err e) => e = IndexError /\ length qs < excess p + n_var s
  end.
Proof.
  induction p as [|[c vars] p IH]; intros S s acc V M F Q QM; cbn [separate].
  - exists S. split; auto. split; auto. split; auto. split; [apply incl_refl|]. split; [cbn; lia|]. intros a _. unfold value. cbn. lra.
  - inversion M as [|? ? M1 M2]. subst. cbn [snd] in M1. cbn [flat_map snd] in F.
    assert (O : flat_map S vars = vars).
    { assert (Nq : forall v, In v vars -> ~ In v qs) by (intros v I J; apply (F v J), in_or_app; auto).
      clear - V Nq. induction vars as [|v l IHl]; auto. cbn. rewrite (i_orig _ _ V) by (apply Nq; left; auto). cbn. rewrite IHl; auto. intros w I. apply Nq. right. auto. }
    pose proof (reduce_spec (length vars) S s vars (Nat.le_refl _) V) as R. rewrite O in R. specialize (R M1).
    assert (K : Forall (known (n_var s)) vars) by (apply Forall_forall; intros v I J; exfalso; apply (F v J), in_or_app; auto). specialize (R K).
    destruct (reduce order qs (length vars) s vars) as [[[s1 vars1]|e]|]; [| |contradiction].
    + destruct R as [S1 [R1 [R2 [R3 [R4 [R5 R6]]]]]].
      specialize (IH S1 s1 (acc ++ [(c, vars1)]) R1 M2). destruct (separate order qs p s1 (acc ++ [(c, vars1)])) as [[[s2 new]|e]|].
      * destruct IH as [S2 [I1 [I2 [I3 [I4 [I5 I6]]]]]].
        { intros v J I. apply (F v J), in_or_app. auto. }
        { apply Forall_app. split; auto. }
        { apply Forall_app. split; auto. }
        exists S2. split; auto. split; auto. split; auto. split; [eapply incl_tran; eauto|]. split; [rewrite excess_cons; lia|]. intros a A. rewrite I6 by auto.
        rewrite value_app, !value_cons, R6 by (intros x y z I; apply A, I4; auto). change (value a []) with 0%R. lra.
      * destruct IH as [I1 I2].
        { intros v J I. apply (F v J), in_or_app. auto. }
        { apply Forall_app. split; auto. }
        { apply Forall_app. split; auto. }
        split; auto. rewrite excess_cons. lia.
      * apply IH; [intros v J I; apply (F v J), in_or_app; auto|apply Forall_app; split; auto|apply Forall_app; split; auto].
    + destruct R as [R1 R2]. split; auto. rewrite excess_cons. lia.
Qed.
Lemma inv_start : inv (fun v => [v]) (NState [] [] 0 0).
Proof.
  constructor; cbn [n_map n_cons n_var].
  - intros v1 v2 v [].
  - discriminate.
  - auto.
  - auto.
  - intros v1 v2 v [].
  - constructor.
  - auto.
  - intros m1 v1 v2 v m2 E. destruct m1; discriminate.
  - lia.
Qed.
End Proofs.

(** penalties *)
Lemma penalty_value : forall a v1 v2 v, binary a -> (value a (penalty v1 v2 v) = 0%R /\ a v = (a v1 * a v2)%R) \/ ((1 <= value a (penalty v1 v2 v))%R /\ a v <> (a v1 * a v2)%R).
Proof.
  intros a v1 v2 v B. unfold value, penalty, product. cbn. destruct (B v) as [-> | ->], (B v1) as [-> | ->], (B v2) as [-> | ->]; [left|left|left|right|right|right|right|left]; lra.
Qed.
Lemma penalties_value : forall a m, binary a ->
  let w := value a (flat_map (fun p => penalty (fst (fst p)) (snd (fst p)) (snd p)) m) in (0 <= w)%R /\ (w = 0%R <-> products a m).
Proof.
  intros a m B. induction m as [|[[v1 v2] v] m IH]; cbn [flat_map fst snd]; cbv zeta.
  - unfold value at 1 2. cbn [Rsum]. split; [lra|]. split; auto. intros _ x y z [].
  - rewrite value_app. cbv zeta in IH. destruct IH as [I1 I2]. destruct (penalty_value a v1 v2 v B) as [[P1 P2]|[P1 P2]].
    + rewrite P1. split; [lra|]. rewrite Rplus_0_l, I2. split; intros A x y z H.
      * destruct H as [H|H]; [inversion H; subst; auto|apply A; auto].
      * apply A. right. auto.
    + split; [lra|]. split; [lra|]. intros A. exfalso. apply P2. apply A. left. auto.
Qed.
Lemma nbody_spec : forall order qs p, (forall k l, Permutation (order k l) l) -> multilinear p -> fresh qs p -> 2 <= length p ->
  match nbody_separation order qs p with
  | None => False
  | Some (Ok (new, con, m)) => ok_result qs p new con m /\ exists S s, inv qs S s /\ n_map s = m /\ n_cons s = con /\ length m <= excess p
  | Some (Err e) => e = IndexError /\ length qs < excess p
  end.
Proof.
  intros order qs p HO M [Hq F] L. unfold nbody_separation. destruct (Nat.ltb_spec (length p) 2); [lia|].
  pose proof (separate_spec order qs HO Hq p _ _ [] (inv_start qs) M F) as R.
  destruct (separate order qs p (NState [] [] 0 0) []) as [[[s new]|e]|]; cbn [n_var] in R; [| |apply R; constructor].
  - destruct R as [S [R1 [R2 [R3 [R4 [R5 R6]]]]]]; [constructor|constructor|]. split; [|exists S, s; split; auto; split; auto; split; auto].
    + split; auto. split; [apply (i_keys _ _ _ R1)|]. split; [intros [v1 v2] v I; apply (i_known _ _ _ R1) in I as [_ [_ I]]; apply In_firstn in I; auto|].
      intros a B. destruct (penalties_value a (n_map s) B) as [P1 P2]. cbv zeta in *. rewrite <- (i_cons _ _ _ R1) in P1, P2.
      split; auto. split; auto. intros Z. rewrite R6 by (apply P2; auto). unfold value at 1. cbn. lra.
    + rewrite <- (map_length snd), (i_vals _ _ _ R1), firstn_length. lia.
  - destruct R as [R1 R2]; [constructor|constructor|]. split; auto. lia.
Qed.
Lemma nbody_result : forall order qs p new con m, (forall k l, Permutation (order k l) l) -> multilinear p -> fresh qs p ->
  nbody_separation order qs p = Some (Ok (new, con, m)) -> ok_result qs p new con m.
Proof.
  intros order qs p new con m HO M F H. destruct (Nat.le_gt_cases 2 (length p)) as [L|L].
  - pose proof (nbody_spec order qs p HO M F L) as R. rewrite H in R. apply R.
  - unfold nbody_separation in H. destruct (Nat.ltb_spec (length p) 2); [discriminate|lia].
Qed.
Lemma nbody_answers : forall order qs p, (forall k l, Permutation (order k l) l) -> multilinear p -> fresh qs p ->
  (length p < 2 -> nbody_separation order qs p = Some (Err AssertionError)) /\
  (2 <= length p -> excess p <= length qs -> exists r, nbody_separation order qs p = Some (Ok r)) /\
  (2 <= length p -> (exists r, nbody_separation order qs p = Some (Ok r)) \/ nbody_separation order qs p = Some (Err IndexError)).
Proof.
  intros order qs p HO M F. split; [|split].
  - intros L. unfold nbody_separation. destruct (Nat.ltb_spec (length p) 2); [auto|lia].
  - intros L E. pose proof (nbody_spec order qs p HO M F L) as R. destruct (nbody_separation order qs p) as [[[[new con] m]|e]|]; [eauto|lia|contradiction].
  - intros L. pose proof (nbody_spec order qs p HO M F L) as R. destruct (nbody_separation order qs p) as [[[[new con] m]|e]|]; [eauto| |contradiction].
    destruct R as [-> _]. auto.
Qed.
(** the supplementary variables can always be chosen *)
Definition ordered (m : vmap) : Prop :=
  forall m1 v1 v2 v m2, m = m1 ++ ((v1, v2), v) :: m2 -> v <> v1 /\ v <> v2 /\ forall a b c, In ((a, b), c) m1 -> v <> a /\ v <> b.
Lemma extend : forall m a, ordered m -> NoDup (map snd m) -> binary a ->
  exists a', binary a' /\ (forall v, ~ In v (map snd m) -> a' v = a v) /\ products a' m.
Proof.
  induction m as [|[[v1 v2] v] m IH] using rev_ind; intros a O D B.
  - exists a. split; auto. split; auto. intros x y z [].
  - rewrite map_app in D. cbn [map snd] in D. pose proof (NoDup_remove _ _ _ D) as [D1 D2]. rewrite app_nil_r in D1, D2.
    destruct (O m v1 v2 v [] eq_refl) as [N1 [N2 N3]].
    destruct (IH a) as [a' [B' [E P]]]; auto.
    { intros m1 x y z m2 Em. apply (O m1 x y z (m2 ++ [((v1, v2), v)])). rewrite Em, <- app_assoc. auto. }
    exists (fun w => if w =? v then (a' v1 * a' v2)%R else a' w). split; [|split].
    + intros w. destruct (w =? v); auto. destruct (B' v1) as [-> | ->], (B' v2) as [-> | ->]; lra.
    + intros w Nw. rewrite map_app in Nw. destruct (Nat.eqb_spec w v) as [->|]; [exfalso; apply Nw, in_or_app; right; left; auto|].
      apply E. intros I. apply Nw, in_or_app. auto.
    + intros x y z I. apply in_app_or in I as [I|[I|[]]].
      * destruct (N3 x y z I) as [Nx Ny]. destruct (Nat.eqb_spec z v) as [->|]; [exfalso; apply D2; apply (in_map snd) in I; auto|].
        destruct (Nat.eqb_spec x v); [congruence|]. destruct (Nat.eqb_spec y v); [congruence|]. apply P. auto.
      * inversion I. subst x y z. rewrite Nat.eqb_refl. destruct (Nat.eqb_spec v1 v); [congruence|]. destruct (Nat.eqb_spec v2 v); [congruence|]. auto.
Qed.
Lemma nbody_extends : forall order qs p new con m a, (forall k l, Permutation (order k l) l) -> multilinear p -> fresh qs p ->
  nbody_separation order qs p = Some (Ok (new, con, m)) -> binary a ->
  exists a', binary a' /\ (forall v, ~ In v qs -> a' v = a v) /\ value a' con = 0%R /\ value a' new = value a p.
Proof.
  intros order qs p new con m a HO M F H B. pose proof (nbody_result order qs p new con m HO M F H) as [_ [_ [Q C]]].
  destruct (Nat.le_gt_cases 2 (length p)) as [L|L]; [|unfold nbody_separation in H; destruct (Nat.ltb_spec (length p) 2); [discriminate|lia]].
  pose proof (nbody_spec order qs p HO M F L) as R. rewrite H in R. destruct R as [_ [S [s [V [Em [Ec _]]]]]].
  destruct (extend m a) as [a' [B' [E P]]]; auto.
  { subst m. exact (i_order _ _ _ V). }
  { subst m. rewrite (i_vals _ _ _ V). destruct F as [D _]. rewrite <- (firstn_skipn (n_var s) qs) in D. apply NoDup_app_left in D. auto. }
  exists a'. destruct (C a' B') as [_ [C2 C3]]. split; auto.
  assert (Out : forall v, ~ In v qs -> a' v = a v) by (intros v Nv; apply E; intros I; apply in_map_iff in I as [[k w] [Ew I]]; cbn in Ew; subst w; apply Nv; eapply Q; eauto).
  split; auto. split; [apply C2; auto|]. rewrite C3 by (apply C2; auto).
  unfold value. apply Rsum_ext. intros [c vars] I. cbn [fst snd]. f_equal.
  assert (G : forall w, In w vars -> ~ In w qs) by (intros w Iw Iq; apply (proj2 F w Iq); apply in_flat_map; exists (c, vars); auto).
  clear - G Out. induction vars as [|w l IHl]; cbn; auto. rewrite (Out w) by (apply G; left; auto). f_equal. apply IHl. intros u Iu. apply G. right. auto.
Qed.

(** ** qn_to_qubo *)
Local Open Scope R_scope.
Definition key (t : R * list nat) : option (nat * nat) :=
  match snd t with [i] => Some (i, i) | [i; j] => Some (Nat.min i j, Nat.max i j) | _ => None end.
Lemma energy_upd : forall n m i j c a, (i < n)%nat -> (j < n)%nat -> m i j = 0 -> qubo_energy n (upd m i j c) a = qubo_energy n m a + c * (a i * a j).
Proof.
  intros n m i j c a Hi Hj Z. rewrite <- (delta2 n i j a) by auto. unfold qubo_energy. rewrite <- total_scal, <- total_plus. apply total_ext. intros x Hx.
  rewrite <- total_scal, <- total_plus. apply total_ext. intros y Hy. unfold upd. rewrite (Nat.eqb_sym i x), (Nat.eqb_sym j y).
  destruct (Nat.eqb_spec x i), (Nat.eqb_spec y j); cbn [andb]; subst; rewrite ?Z; lra.
Qed.
Lemma one_false : forall c, c <> 1 -> one c = false. Proof. intros c H. unfold one. destruct (Req_EM_T c 1); [contradiction|auto]. Qed.
Lemma qn_terms_spec : forall n p m, quadratic p -> multilinear p -> unit_free p ->
  ForallOrdPairs (fun s t => snd s <> [] -> ~ Permutation (snd s) (snd t)) p -> (forall v, In v (flat_map snd p) -> (v < n)%nat) ->
  (forall t i j, In t p -> key t = Some (i, j) -> m i j = 0) ->
  exists m', qn_terms p m = Ok m' /\ forall a, binary a -> qubo_energy n m' a + constant p = qubo_energy n m a + value a p.
Proof.
  intros n. induction p as [|[c vars] p IH]; intros m Q M U D B Z; cbn [qn_terms].
  - exists m. split; [auto|]. intros a Ha. unfold constant, value. cbn [Rsum]. lra.
  - inversion Q as [|? ? Q1 Q2]. inversion M as [|? ? M1 M2]. inversion U as [|? ? U1 U2]. inversion D as [|? ? D1 D2]. subst. cbn [fst snd] in *.
    assert (B2 : forall v, In v (flat_map snd p) -> (v < n)%nat) by (intros v I; apply B; cbn; apply in_or_app; auto).
    assert (B1 : forall v, In v vars -> (v < n)%nat) by (intros v I; apply B; cbn; apply in_or_app; auto).
    assert (Z2 : forall t i j, In t p -> key t = Some (i, j) -> m i j = 0) by (intros t i j I E; apply (Z t); auto; right; auto).
    assert (P1 : forall r, constant ((c, vars) :: r) = match vars with [] => c | _ => 0 end + constant r) by reflexivity.
    destruct vars as [|i [|j [|k vars]]]; [| | |cbn in Q1; lia].
    + destruct (IH m Q2 M2 U2 D2 B2 Z2) as [m' [E1 E2]]. exists m'. split; auto. intros a Ha. specialize (E2 a Ha). rewrite P1, value_cons. unfold product. cbn. lra.
    + cbn [qn_term]. rewrite one_false by (apply U1; discriminate). cbn [bind].
      assert (Z0 : m i i = 0) by (apply (Z (c, [i])); [left; auto|reflexivity]).
      destruct (IH (upd m i i c) Q2 M2 U2 D2 B2) as [m' [E1 E2]].
      { intros t x y I E. unfold upd. destruct (Nat.eqb_spec x i), (Nat.eqb_spec y i); cbn [andb]; try (apply (Z2 t); auto; fail). exfalso. subst.
        rewrite Forall_forall in D1, M2. specialize (D1 t I ltac:(discriminate)). specialize (M2 t I). destruct t as [d [|u [|w [|]]]]; cbn in *; try discriminate.
        - inversion E; subst; apply D1; auto.
        - inversion E; inversion M2 as [|? ? N _]; apply N; left; lia. }
      exists m'. split; auto. intros a Ha. specialize (E2 a Ha). rewrite P1, value_cons. rewrite energy_upd in E2 by (auto; apply B1; left; auto).
      unfold product. cbn [fold_right]. destruct (Ha i) as [Ei | Ei]; rewrite Ei in *; lra.
    + cbn [qn_term]. rewrite one_false by (apply U1; discriminate). cbn [bind]. set (x0 := Nat.min i j). set (y0 := Nat.max i j).
      assert (Z0 : m x0 y0 = 0) by (apply (Z (c, [i; j])); [left; auto|reflexivity]).
      assert (Hx : (x0 < n)%nat) by (unfold x0; pose proof (B1 i (or_introl eq_refl)); lia).
      assert (Hy : (y0 < n)%nat) by (unfold y0; pose proof (B1 i (or_introl eq_refl)); pose proof (B1 j (or_intror (or_introl eq_refl))); lia).
      assert (Nij : i <> j) by (inversion M1 as [|? ? N _]; intros ->; apply N; left; auto).
      destruct (IH (upd m x0 y0 c) Q2 M2 U2 D2 B2) as [m' [E1 E2]].
      { intros t x y I E. unfold upd. destruct (Nat.eqb_spec x x0) as [Ex|Ex], (Nat.eqb_spec y y0) as [Ey|Ey]; cbn [andb]; try (apply (Z2 t); auto; fail). exfalso. subst.
        rewrite Forall_forall in D1. specialize (D1 t I ltac:(discriminate)). destruct t as [d [|u [|w [|]]]]; cbn in *; try discriminate; inversion E as [[Ex Ey]]; subst x0 y0.
        - lia.
        - destruct (Nat.eq_dec u i) as [->|Nu]; [assert (w = j) by lia; subst; apply D1; auto|].
          assert (u = j /\ w = i) as [-> ->] by lia. apply D1. apply perm_swap. }
      exists m'. split; auto. intros a Ha. specialize (E2 a Ha). rewrite P1, value_cons. rewrite energy_upd in E2 by auto.
      unfold product. cbn [fold_right]. replace (a x0 * a y0) with (a i * a j) in E2; [rewrite Rmult_1_r; lra|].
      unfold x0, y0. destruct (Nat.min_spec i j) as [[? ->]|[? ->]], (Nat.max_spec i j) as [[? ->]|[? ->]]; try lia; ring.
Qed.
Lemma list_max_ge : forall l v, In v l -> (v <= list_max l)%nat.
Proof. induction l as [|w l IH]; intros v []; change (list_max (w :: l)) with (Nat.max w (list_max l)); subst; [lia|]. specialize (IH v H). lia. Qed.
Lemma qn_energy : forall p, (2 <= length p)%nat -> flat_map snd p <> [] -> quadratic p -> multilinear p -> unit_free p ->
  ForallOrdPairs (fun s t => snd s <> [] -> ~ Permutation (snd s) (snd t)) p ->
  exists n m, qn_to_qubo p = Ok (n, m) /\ (forall v, In v (flat_map snd p) -> (v < n)%nat) /\ forall a, binary a -> qubo_energy n m a + constant p = value a p.
Proof.
  intros p L V Q M U D. unfold qn_to_qubo. destruct (Nat.ltb_spec (length p) 2); [lia|]. destruct (flat_map snd p) as [|v vs] eqn:E; [contradiction|].
  assert (B : forall w, In w (flat_map snd p) -> (w < S (list_max (v :: vs)))%nat) by (intros w I; rewrite E in I; apply list_max_ge in I; lia).
  destruct (qn_terms_spec (S (list_max (v :: vs))) p zeros Q M U D B) as [m [E1 E2]]; [reflexivity|].
  exists (S (list_max (v :: vs))), m. rewrite E1. cbn [bind]. split; [reflexivity|]. split; [rewrite E in B; exact B|]. intros a Ha. rewrite (E2 a Ha).
  unfold qubo_energy, zeros. rewrite (total_ext _ _ (fun _ => 0)); [rewrite total_zero; lra|]. intros i Hi. rewrite (total_ext _ _ (fun _ => 0)); [apply total_zero|]. intros. lra.
Qed.
Lemma qn_pair_dropped : exists p n m a, quadratic p /\ multilinear p /\ binary a /\ qn_to_qubo p = Ok (n, m) /\ qubo_energy n m a + constant p <> value a p.
Proof.
  exists [(1, [0%nat; 1%nat]); (2, [0%nat])]. exists 2%nat. exists (upd zeros 0 0 2), (fun _ => 1). split; [repeat (apply Forall_cons; [cbn; lia|]); constructor|].
  split; [repeat (apply Forall_cons; [cbn; repeat constructor; cbn; intuition lia|]); constructor|]. split; [intros v; auto|]. split.
  - unfold qn_to_qubo. cbn [length Nat.ltb Nat.leb flat_map snd app qn_terms qn_term list_max fold_right Nat.max]. unfold one. destruct (Req_EM_T 1 1) as [_|N]; [|lra].
    destruct (Req_EM_T 2 1) as [N|_]; [lra|]. reflexivity.
  - unfold qubo_energy, total, constant, value, product, upd, zeros. cbn. lra.
Qed.
Lemma qn_symbol : forall p i, In (1, [i]) p -> (forall t, In t p -> (length (snd t) <= 2)%nat) -> (2 <= length p)%nat -> qn_to_qubo p = Err ValueError.
Proof.
  intros p i I Q L. unfold qn_to_qubo. destruct (Nat.ltb_spec (length p) 2); [lia|]. destruct (flat_map snd p); auto.
  assert (E : forall m, qn_terms p m = Err ValueError); [|rewrite E; auto]. clear L H.
  induction p as [|[c vars] p IH]; intros m; [contradiction|]. cbn [qn_terms]. destruct I as [E|I].
  - inversion E. subst. cbn [qn_term]. unfold one. destruct (Req_EM_T 1 1); [auto|lra].
  - assert (T : (exists m', qn_term (c, vars) m = Ok m') \/ qn_term (c, vars) m = Err ValueError).
    { specialize (Q (c, vars) (or_introl eq_refl)). destruct vars as [|x [|y [|z vars]]]; cbn in *; [left; eauto| | |lia]; destruct (one c); eauto. }
    destruct T as [[m' ->]| ->]; [|auto]. cbn [bind]. apply IH; auto. intros t J. apply Q. right. auto.
Qed.
(** an example: 2*x0*x1*x2*x3 + 3*x0*x1*x2 *)
Definition cubic : poly := [(2, [0; 1; 2; 3]%nat); (3, [0; 1; 2]%nat)].
Lemma cubic_ok : multilinear cubic /\ fresh [10; 11; 12]%nat cubic /\ (excess cubic <= 3)%nat /\
  nbody_separation (fun _ l => rev l) [10; 11; 12]%nat cubic =
    Some (Ok ([(2, [11; 10]%nat); (3, [12; 0]%nat)], penalty 3 2 10 ++ penalty 1 0 11 ++ penalty 2 1 12, [((3, 2), 10); ((1, 0), 11); ((2, 1), 12)]%nat)).
Proof.
  split; [repeat (apply Forall_cons; [cbn; repeat constructor; cbn; intuition lia|]); constructor|]. split; [split; [repeat constructor; cbn; intuition lia|cbn; intuition lia]|].
  split; [cbn; lia|]. reflexivity.
Qed.
Lemma rev_perm : forall (k : nat) (l : list nat), Permutation (rev l) l. Proof. intros. apply Permutation_sym, Permutation_rev. Qed.
Lemma qn_case : let p := [(2, [0; 1]%nat); (3, [2]%nat); (1, [])] in
  quadratic p /\ multilinear p /\ unit_free p /\ ForallOrdPairs (fun s t => snd s <> [] -> ~ Permutation (snd s) (snd t)) p.
Proof.
  cbv zeta. split; [repeat (apply Forall_cons; [cbn; lia|]); constructor|].
  split; [repeat (apply Forall_cons; [cbn; repeat constructor; cbn; intuition lia|]); constructor|].
  split; [repeat (apply Forall_cons; [cbn; intros H; first [lra|contradiction]|]); constructor|].
  repeat (apply FOP_cons; [repeat (apply Forall_cons; [cbn [snd]; intros _ P; apply Permutation_length in P; discriminate|]); constructor|]). constructor.
Qed.
