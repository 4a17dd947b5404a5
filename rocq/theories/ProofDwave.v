(** Proofs about the Ising problems sent to an annealing machine. *)
From Coq Require Import List Arith ZArith Bool Reals Lia Lra FunctionalExtensionality.
Import ListNotations.
From Verif Require Import Base Cplx ModelWq ModelOpt SpecWq SpecOpt ProofWq ProofOpt.
Local Open Scope R_scope.

Lemma combine_sum : forall (h s : nat -> R) k a, Rsum (fun p => snd p * s (fst p)) (combine (seq a k) (map h (seq a k))) = Rsum (fun i => h i * s i) (seq a k).
Proof. induction k as [|k IH]; intros; [reflexivity|]. cbn [seq map combine Rsum fst snd]. rewrite IH. auto. Qed.
(** how often a pair is listed *)
Definition listed (F : list (nat * nat)) (i j : nat) : R := Rsum (fun e => if ((i =? fst e) && (j =? snd e))%nat then 1 else 0) F.
Lemma pair_delta : forall n e f, (fst e < snd e < n)%nat -> pairs n (fun i j => (if ((i =? fst e) && (j =? snd e))%nat then 1 else 0) * f i j) = f (fst e) (snd e).
Proof.
  intros n [a b] f H. cbn [fst snd] in *. unfold pairs.
  rewrite (total_ext n _ (fun i => if (i =? a)%nat then f a b else 0)); [apply (total_delta n a (fun _ => f a b)); lia|].
  intros i Hi. destruct (Nat.eqb_spec i a) as [->|N].
  - rewrite (total_ext n _ (fun j => if (j =? b)%nat then f a b else 0)); [apply (total_delta n b (fun _ => f a b)); lia|].
    intros j Hj. destruct (Nat.eqb_spec j b) as [->|Nb]; cbn [andb].
    + destruct (Nat.ltb_spec a b); [lra|lia].
    + destruct (a <? j)%nat; lra.
  - rewrite (total_ext n _ (fun _ => 0)); [apply total_zero|]. intros j Hj. cbn [andb]. destruct (i <? j)%nat; lra.
Qed.
Lemma listed_sum : forall n F f, Forall (fun e => (fst e < snd e < n)%nat) F -> pairs n (fun i j => listed F i j * f i j) = Rsum (fun e => f (fst e) (snd e)) F.
Proof.
  intros n F f. induction 1 as [|e F H HF IH].
  - unfold listed. cbn. rewrite (pairs_ext n _ (fun i j => 0 * 0)) by (intros; lra). rewrite pairs_scal. lra.
  - cbn [Rsum]. rewrite <- IH, <- (pair_delta n e f H), <- pairs_plus. apply pairs_ext. intros. unfold listed. cbn [Rsum]. lra.
Qed.
Lemma listed_out : forall F i j, ~ In (i, j) F -> listed F i j = 0.
Proof.
  intros F i j H. apply Rsum_zero. intros [a b] I. cbn. destruct (Nat.eqb_spec i a), (Nat.eqb_spec j b); cbn; auto. subst. contradiction.
Qed.
Lemma listed_once : forall F i j, NoDup F -> In (i, j) F -> listed F i j = 1.
Proof.
  intros F i j. induction 1 as [|[a b] F H HF IH]; intros I; [contradiction|]. unfold listed. cbn [Rsum fst snd]. fold (listed F i j). destruct I as [I|I].
  - inversion I. subst. rewrite !Nat.eqb_refl, listed_out by auto. cbn. lra.
  - destruct (Nat.eqb_spec i a), (Nat.eqb_spec j b); cbn; rewrite IH by auto; try lra. subst. contradiction.
Qed.
Lemma edges_sum : forall n F f, NoDup F -> Forall (fun e => (fst e < snd e < n)%nat) F -> (forall i j, (i < j < n)%nat -> f i j <> 0 -> In (i, j) F) ->
  Rsum (fun e => f (fst e) (snd e)) F = pairs n f.
Proof.
  intros n F f N HF H. rewrite <- (listed_sum n F f HF). apply pairs_ext. intros i j Hij.
  destruct (in_dec (fun x y : nat * nat => ltac:(decide equality; apply Nat.eq_dec)) (i, j) F) as [I|I].
  - rewrite listed_once by auto. lra.
  - destruct (Req_dec (f i j) 0) as [E|E]; [rewrite E; lra|]. exfalso. auto.
Qed.

Lemma qi_coupling : forall n Q i j, (i < j < n)%nat -> fst (qi n Q) i j = Q i j / 4.
Proof.
  intros n Q i j H. rewrite (proj1 (qi_result n Q) i j) by lia. destruct (Nat.leb_spec i j); [|lia]. unfold ising_J, coupling.
  destruct (Nat.eqb_spec i j); [lia|]. destruct (Nat.ltb_spec i j); [auto|lia].
Qed.
Definition linear_of (n : nat) (J : mat) (nodes : list nat) : list (nat * R) :=
  let larr := map (fun i => J i i) (filter (fun i => (i <? n)%nat) nodes) in combine (seq 0 (length larr)) larr.
Definition quad_of (n : nat) (J : mat) (edges : list (nat * nat)) : list ((nat * nat) * R) :=
  map (fun e => (e, J (fst e) (snd e))) (filter (fun e => ((fst e <? n) && (snd e <? n))%nat) edges).
Lemma problem_ising : forall n Q ns es s, suitable n Q ns es ->
  problem_energy (linear_of n (fst (qi n Q)) ns) (quad_of n (fst (qi n Q)) es) s = ising_energy n (fst (qi n Q)) s.
Proof.
  intros n Q ns es s [H1 [H2 [H3 H4]]]. unfold problem_energy, linear_of, quad_of, ising_energy. rewrite H1, map_length, seq_length. f_equal.
  - apply (combine_sum (fun i => fst (qi n Q) i i) s n 0).
  - rewrite Rsum_map. cbn [fst snd]. set (F := filter _ es). apply (edges_sum n F (fun i j => fst (qi n Q) i j * s i * s j)).
    + apply NoDup_filter. auto.
    + apply Forall_forall. intros [a b] I. apply filter_In in I as [I B]. cbn [fst snd] in *. apply andb_true_iff in B as [B1 B2].
      apply Nat.ltb_lt in B1. apply Nat.ltb_lt in B2. split; auto.
    + intros i j Hij N. apply filter_In. split; [|cbn [fst snd]; apply andb_true_iff; split; apply Nat.ltb_lt; lia]. apply H4; auto.
      intros E. apply N. rewrite qi_coupling, E by auto. lra.
Qed.
Lemma linear_in : forall n J ns, Forall (fun p : nat * R => (fst p < length (filter (fun i => (i <? n)%nat) ns))%nat) (linear_of n J ns).
Proof.
  intros. apply Forall_forall. intros [i v] I. unfold linear_of in I. apply in_combine_l in I. apply in_seq in I. rewrite map_length in I. cbn [fst]. lia.
Qed.
Lemma quad_in : forall n J es, Forall (fun p : (nat * nat) * R => (fst (fst p) < n)%nat /\ (snd (fst p) < n)%nat) (quad_of n J es).
Proof.
  intros. apply Forall_forall. intros [e v] I. unfold quad_of in I. apply in_map_iff in I as [x [E I]]. inversion E. subst. apply filter_In in I as [_ I].
  apply andb_true_iff in I as [I1 I2]. apply Nat.ltb_lt in I1. apply Nat.ltb_lt in I2. cbn. auto.
Qed.
Lemma dw_eq : forall o sv, is_not_empty_list (o_qubo o) = true -> let n := attr_size (o_qubo o) in let J := fst (qi n (attr_mat (o_qubo o))) in
  opt_dw o sv = map (fun s => Z.quot (s + 1) 2) (firstn n (sample_ising sv (linear_of n J (nodes sv)) (quad_of n J (edges sv)))).
Proof. intros o sv H n J. unfold opt_dw. rewrite prepare_qubo by auto. reflexivity. Qed.
Lemma nth_firstn : forall A (l : list A) n i d, (i < n)%nat -> nth i (firstn n l) d = nth i l d.
Proof. induction l; intros n i d H; destruct n, i; cbn; try lia; auto. apply IHl. lia. Qed.
Lemma answer_bits : forall n l, (n <= length l)%nat -> spins n (fun i => IZR (nth i l 0%Z)) ->
  length (map (fun s => Z.quot (s + 1) 2) (firstn n l)) = n /\
  forall i, (i < n)%nat -> IZR (nth i (map (fun s => Z.quot (s + 1) 2) (firstn n l)) 0%Z) = bit_of (IZR (nth i l 0%Z)).
Proof.
  intros n l L S. split; [rewrite map_length, firstn_length; lia|]. intros i H.
  rewrite (nth_indep _ 0%Z (Z.quot (0 + 1) 2)) by (rewrite map_length, firstn_length; lia). rewrite (map_nth (fun s => Z.quot (s + 1) 2)), nth_firstn by auto.
  unfold bit_of. destruct (S i H) as [E|E]; apply eq_IZR in E || (replace 1 with (IZR 1) in E by auto; apply eq_IZR in E); rewrite E; cbn; lra.
Qed.
Lemma minimal_from_spins : forall n Q (q x : nat -> R), spins n q -> (forall i, (i < n)%nat -> x i = bit_of (q i)) ->
  (forall s, spins n s -> ising_energy n (fst (qi n Q)) q <= ising_energy n (fst (qi n Q)) s) -> minimal n (qubo_energy n (upper_part Q)) x.
Proof.
  intros n Q q x S X M. assert (Ext : forall x y, (forall i, (i < n)%nat -> x i = y i) -> qubo_energy n (upper_part Q) x = qubo_energy n (upper_part Q) y).
  { intros a b H. unfold qubo_energy. apply total_ext. intros i Hi. apply total_ext. intros j Hj. rewrite !H by auto. auto. }
  split.
  - intros i Hi. rewrite X by auto. unfold bit_of. destruct (S i Hi) as [-> | ->]; [left|right]; lra.
  - intros y Hy. assert (Sy : spins n (fun i => 2 * y i - 1)) by (intros i Hi; destruct (Hy i Hi) as [-> | ->]; [left|right]; lra).
    rewrite (Ext x (fun i => bit_of (q i))) by auto. rewrite (Ext y (fun i => bit_of (2 * y i - 1))) by (intros; unfold bit_of; lra).
    change (objective n Q q <= objective n Q (fun i => 2 * y i - 1)). rewrite <- !objective_ising by auto. specialize (M _ Sy). lra.
Qed.
Lemma dw_minimal : forall o sv, let n := attr_size (o_qubo o) in let Q := attr_mat (o_qubo o) in
  is_not_empty_list (o_qubo o) = true -> suitable n Q (nodes sv) (edges sv) -> perfect n (sample_ising sv) ->
  length (opt_dw o sv) = n /\ minimal n (qubo_energy n (upper_part Q)) (fun i => IZR (nth i (opt_dw o sv) 0%Z)).
Proof.
  intros o sv n Q H S G. rewrite dw_eq by auto. fold n. fold Q. set (lin := linear_of _ _ _). set (quad := quad_of _ _ _).
  destruct (G lin quad) as [G1 [G2 G3]].
  - pose proof (linear_in n (fst (qi n Q)) (nodes sv)) as L. fold lin in L. rewrite (proj1 S), seq_length in L. exact L.
  - apply quad_in.
  - destruct (answer_bits n _ G1 G2) as [A1 A2]. split; auto. eapply (minimal_from_spins n Q); [exact G2|exact A2|].
    intros s Hs. specialize (G3 s Hs). unfold lin, quad in G3. rewrite !problem_ising in G3 by auto. exact G3.
Qed.

(** ** a machine that tries everything *)
Fixpoint all_answers (n : nat) : list (list Z) :=
  match n with O => [[]] | S n => map (cons (-1)%Z) (all_answers n) ++ map (cons 1%Z) (all_answers n) end.
Fixpoint best (E : list Z -> R) (l : list (list Z)) (d : list Z) : list Z :=
  match l with [] => d | a :: r => let b := best E r d in if Rle_dec (E a) (E b) then a else b end.
Lemma best_least : forall E l d x, In x l \/ x = d -> E (best E l d) <= E x.
Proof.
  induction l as [|a r IH]; intros d x H; cbn [best].
  - destruct H as [[]|H]. subst x. lra.
  - destruct H as [[->|H]|H].
    + destruct (Rle_dec _ _); lra.
    + specialize (IH d x (or_introl H)). destruct (Rle_dec _ _); lra.
    + specialize (IH d x (or_intror H)). destruct (Rle_dec _ _); lra.
Qed.
Lemma best_in : forall E l d, In (best E l d) l \/ best E l d = d.
Proof. induction l as [|a r IH]; intros d; cbn [best]; [auto|]. destruct (Rle_dec _ _); [left; left; auto|]. destruct (IH d); auto. left. right. auto. Qed.
Lemma answers_spins : forall n l, In l (all_answers n) -> length l = n /\ spins n (fun i => IZR (nth i l 0%Z)).
Proof.
  induction n as [|n IH]; intros l H.
  - cbn in H. destruct H as [<-|[]]. split; auto. intros i Hi. lia.
  - cbn [all_answers] in H. apply in_app_iff in H as [H|H]; apply in_map_iff in H as [r [<- H]]; destruct (IH r H) as [L S]; (split; [cbn; auto|]);
      intros [|i] Hi; cbn; [left|apply S; lia|right|apply S; lia]; auto.
Qed.
Lemma answers_all : forall n s, spins n s -> exists l, In l (all_answers n) /\ forall i, (i < n)%nat -> IZR (nth i l 0%Z) = s i.
Proof.
  induction n as [|n IH]; intros s S; [exists []; split; [left; auto|intros; lia]|]. destruct (IH (fun i => s (Datatypes.S i))) as [r [R1 R2]].
  - intros i Hi. apply S. lia.
  - destruct (S 0%nat ltac:(lia)) as [E|E].
    + exists ((-1)%Z :: r). split; [cbn; apply in_app_iff; left; apply in_map; auto|]. intros [|i] Hi; cbn; [auto|apply R2; lia].
    + exists (1%Z :: r). split; [cbn; apply in_app_iff; right; apply in_map; auto|]. intros [|i] Hi; cbn; [auto|apply R2; lia].
Qed.
Definition try_all (n : nat) (linear : list (nat * R)) (quad : list ((nat * nat) * R)) : list Z :=
  best (fun l => problem_energy linear quad (fun i => IZR (nth i l 0%Z))) (all_answers n) (repeat 1%Z n).
Lemma problem_ext : forall n linear quad s t, Forall (fun p => (fst p < n)%nat) linear -> Forall (fun p => (fst (fst p) < n)%nat /\ (snd (fst p) < n)%nat) quad ->
  (forall i, (i < n)%nat -> s i = t i) -> problem_energy linear quad s = problem_energy linear quad t.
Proof.
  intros n linear quad s t HL HQ H. rewrite Forall_forall in HL, HQ. unfold problem_energy. f_equal; apply Rsum_ext; intros p I.
  - rewrite H by (apply HL; auto). auto.
  - destruct (HQ p I). rewrite !H by auto. auto.
Qed.
Lemma repeat_in : forall n, In (repeat 1%Z n) (all_answers n).
Proof. induction n; cbn; [auto|]. apply in_app_iff. right. apply in_map. auto. Qed.
Lemma try_all_perfect : forall n, perfect n (try_all n).
Proof.
  intros n linear quad HL HQ. unfold try_all. set (E := fun l => problem_energy linear quad (fun i => IZR (nth i l 0%Z))).
  assert (I : In (best E (all_answers n) (repeat 1%Z n)) (all_answers n)) by (destruct (best_in E (all_answers n) (repeat 1%Z n)) as [I|I]; auto; rewrite I; apply repeat_in).
  destruct (answers_spins n _ I) as [L S]. split; [lia|]. split; auto. intros s Hs. destruct (answers_all n s Hs) as [l [Il El]].
  rewrite (problem_ext n linear quad s (fun i => IZR (nth i l 0%Z)) HL HQ) by (intros; symmetry; auto). apply (best_least E (all_answers n) (repeat 1%Z n) l). auto.
Qed.

(** ** what is lost without a suitable machine *)
Definition mat2 (a b c : R) : mat := fun i j => if (i =? 0)%nat then (if (j =? 0)%nat then a else if (j =? 1)%nat then b else 0) else if ((i =? 1) && (j =? 1))%nat then c else 0.
Definition opt2 (a b c : R) : opt := with_qubo opt_init (AList 2 (mat2 a b c)).
Lemma qi2 : forall a b c, fst (qi 2 (mat2 a b c)) 0%nat 0%nat = a / 2 + b / 4 /\ fst (qi 2 (mat2 a b c)) 1%nat 1%nat = c / 2 + b / 4 /\
  fst (qi 2 (mat2 a b c)) 0%nat 1%nat = b / 4 /\ fst (qi 2 (mat2 a b c)) 1%nat 0%nat = 0.
Proof.
  intros. destruct (qi_result 2 (mat2 a b c)) as [H _]. rewrite !H by lia. unfold ising_J, field_of, coupling, total. cbn. repeat split; lra.
Qed.
Lemma two_spins : forall (l : list Z), (2 <= length l)%nat -> exists a b r, l = a :: b :: r.
Proof. intros [|a [|b r]] H; cbn in H; try lia. eauto. Qed.
(** both qubits alone prefer 0, though the least energy has one of them set *)
Lemma no_edge : forall nodes edges sample, filter (fun i => (i <? 2)%nat) nodes = [0; 1]%nat -> (forall i j, In (i, j) edges -> ~ (i < 2 /\ j < 2)%nat \/ (j < i)%nat) ->
  perfect 2 sample -> ~ minimal 2 (qubo_energy 2 (mat2 (-1) 3 (-1))) (fun i => IZR (nth i (opt_dw (opt2 (-1) 3 (-1)) (Solver nodes edges sample)) 0%Z)).
Proof.
  intros ns es sample HN HE HG. rewrite dw_eq by reflexivity. cbn [nodes edges sample_ising opt2 with_qubo o_qubo attr_size attr_mat].
  set (J := fst (qi 2 (mat2 (-1) 3 (-1)))). destruct (qi2 (-1) 3 (-1)) as [J00 [J11 [J01 J10]]]. fold J in J00, J11, J01, J10.
  assert (L : linear_of 2 J ns = [(0%nat, / 4); (1%nat, / 4)]).
  { unfold linear_of. rewrite HN. cbn [map length seq combine]. rewrite J00, J11. repeat f_equal; lra. }
  assert (Qz : forall s, Rsum (fun p => snd p * s (fst (fst p)) * s (snd (fst p))) (quad_of 2 J es) = 0).
  { intros s. apply Rsum_zero. intros [[i j] v] I. unfold quad_of in I. apply in_map_iff in I as [[a b] [E I]]. inversion E. subst i j v.
    apply filter_In in I as [I B]. cbn [fst snd] in *. apply andb_true_iff in B as [B1 B2]. apply Nat.ltb_lt in B1. apply Nat.ltb_lt in B2.
    destruct (HE a b I) as [K|K]; [lia|]. assert (a = 1 /\ b = 0)%nat as [-> ->] by lia. rewrite J10. lra. }
  destruct (HG (linear_of 2 J ns) (quad_of 2 J es)) as [G1 [G2 G3]].
  - rewrite L. repeat (apply Forall_cons; [cbn; lia|]). constructor.
  - apply quad_in.
  - destruct (two_spins _ G1) as [a [b [r E]]]. rewrite E in G2, G3 |- *. cbn [firstn map nth]. intros [_ M].
    assert (G4 := G3 (fun _ => -1) ltac:(intros i _; left; auto)). unfold problem_energy in G4.
    rewrite (Qz (fun i => IZR (nth i (a :: b :: r) 0%Z))), (Qz (fun _ => -1)), L in G4. cbn [Rsum fst snd nth] in G4.
    pose proof (G2 0%nat ltac:(lia)) as S0. pose proof (G2 1%nat ltac:(lia)) as S1. cbn [nth] in S0, S1.
    assert (A : IZR a = -1) by (destruct S0, S1; lra). assert (B : IZR b = -1) by (destruct S0, S1; lra).
    apply eq_IZR in A. apply eq_IZR in B. subst a b.
    specialize (M (fun i => if (i =? 0)%nat then 1 else 0) ltac:(intros i _; destruct (i =? 0)%nat; auto)).
    unfold qubo_energy, total, mat2 in M. cbn in M. lra.
Qed.
(** node 0 is missing: the bias of qubit 1 is sent for qubit 0 *)
Lemma no_node : forall ns sample, filter (fun i => (i <? 2)%nat) ns = [1]%nat -> perfect 2 sample ->
  ~ minimal 2 (qubo_energy 2 (mat2 (-1) 0 1)) (fun i => IZR (nth i (opt_dw (opt2 (-1) 0 1) (Solver ns [] sample)) 0%Z)).
Proof.
  intros ns sample HN HG. rewrite dw_eq by reflexivity. cbn [nodes edges sample_ising opt2 with_qubo o_qubo attr_size attr_mat].
  set (J := fst (qi 2 (mat2 (-1) 0 1))). destruct (qi2 (-1) 0 1) as [J00 [J11 [J01 J10]]]. fold J in J00, J11, J01, J10.
  assert (L : linear_of 2 J ns = [(0%nat, / 2)]).
  { unfold linear_of. rewrite HN. cbn [map length seq combine]. rewrite J11. repeat f_equal; lra. }
  destruct (HG (linear_of 2 J ns) (quad_of 2 J [])) as [G1 [G2 G3]].
  - rewrite L. repeat (apply Forall_cons; [cbn; lia|]). constructor.
  - apply quad_in.
  - destruct (two_spins _ G1) as [a [b [r E]]]. rewrite E in G2, G3 |- *. cbn [firstn map nth]. intros [_ M].
    assert (G4 := G3 (fun _ => -1) ltac:(intros i _; left; auto)). unfold problem_energy in G4. rewrite L in G4. cbn [quad_of filter map Rsum fst snd nth] in G4.
    pose proof (G2 0%nat ltac:(lia)) as S0. pose proof (G2 1%nat ltac:(lia)) as S1. cbn [nth] in S0, S1.
    assert (A : IZR a = -1) by (destruct S0; lra). apply eq_IZR in A. subst a.
    specialize (M (fun i => if (i =? 0)%nat then 1 else 0) ltac:(intros i _; destruct (i =? 0)%nat; auto)).
    unfold qubo_energy, total, mat2 in M. cbn in M.
    assert (B : b = (-1)%Z \/ b = 1%Z) by (destruct S1 as [K|K]; [left; apply eq_IZR in K; auto|right; replace 1 with (IZR 1) in K by auto; apply eq_IZR in K; auto]).
    destruct B; subst b; cbn in M; lra.
Qed.
