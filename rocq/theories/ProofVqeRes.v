(** VqeResult, the sampler of state vectors, and circuits on which the samplers go wrong. *)
From Coq Require Import List Arith ZArith Bool String Reals Lia Lra Sorted Permutation.
Import ListNotations.
From Verif Require Import Base Cplx Bits ModelTargets ModelGate ModelNumpy ModelNumba ModelCircuit ModelPauli ModelVqe
  SpecTargets SpecQuantum SpecCircuit SpecMeasure SpecRun SpecAPI SpecPauli SpecVqe
  ProofTargets ProofArray ProofRun ProofUnitary ProofMeasure ProofBorn ProofWhole ProofNumbaProps ProofAPI ProofProgram ProofReach
  ProofPauli ProofEvolution ProofVqe ProofVqeRun ProofVqeSparse ProofVqeSample ProofQaoa.
Local Open Scope nat_scope.

(** ** most_common *)
Definition better (a b : list nat * R) : bool := negb (Rltb (- snd b)%R (- snd a)%R).
Lemma better_iff : forall a b, better a b = true <-> (snd b <= snd a)%R.
Proof. intros. unfold better, Rltb. destruct (Rlt_dec (- snd b)%R (- snd a)%R); simpl; split; intros; try discriminate; auto; lra. Qed.
Definition equal_to (q : R) (x : list nat * R) : bool := if Req_EM_T (snd x) q then true else false.
Lemma insert_stable : forall q x l, filter (equal_to q) (insert_by better x l) = filter (equal_to q) (x :: l).
Proof.
  induction l as [|y l IH]; auto. cbn [insert_by]. destruct (better x y) eqn:E; auto.
  assert (N : snd x <> snd y). { intros H. assert (better x y = true) by (apply better_iff; lra). congruence. }
  cbn [filter] in *. rewrite IH. unfold equal_to. destruct (Req_EM_T (snd y) q), (Req_EM_T (snd x) q); auto. congruence.
Qed.
Lemma sort_stable : forall q l, filter (equal_to q) (sort_by better l) = filter (equal_to q) l.
Proof. induction l as [|x l IH]; auto. simpl sort_by. rewrite insert_stable. simpl. rewrite IH. auto. Qed.
Lemma sort_best : forall p k, best p k (firstn k (sort_by better p)).
Proof.
  intros p k. exists (skipn k (sort_by better p)). rewrite firstn_skipn. split; [symmetry; apply sort_perm|]. split.
  - rewrite firstn_length, (Permutation_length (sort_perm better p)). auto.
  - split; [|intros q; apply sort_stable]. assert (S : StronglySorted (fun a b => better a b = true) (sort_by better p)).
    { apply sort_sorted. - intros a b. rewrite !better_iff. lra. - intros a b c. rewrite !better_iff. lra. }
    induction S as [|a l S IH F]; constructor; auto. eapply Forall_impl; [|exact F]. intros b. apply better_iff.
Qed.

Section Random.
Variable rng : nat -> R.
Lemma most_common_best : forall h r p h' r' k, get_probs rng h r None None true = (Ok p, h', r') ->
  exists l, most_common rng h r (Z.of_nat k) = (Ok l, h', r') /\ best p k l.
Proof.
  intros h r p h' r' k E. exists (firstn k (sort_by better p)). split; [|apply sort_best]. unfold most_common. rewrite E. unfold py_upto.
  destruct (Z.ltb_spec (Z.of_nat k) 0); [lia|]. rewrite Nat2Z.id. auto.
Qed.
Lemma most_common_negative : forall h r p h' r' k, get_probs rng h r None None true = (Ok p, h', r') -> 0 < k ->
  exists l, most_common rng h r (- Z.of_nat k) = (Ok l, h', r') /\ best p (List.length p - k) l.
Proof.
  intros h r p h' r' k E K. exists (firstn (List.length p - k) (sort_by better p)). split; [|apply sort_best]. unfold most_common. rewrite E. unfold py_upto.
  assert (L : List.length (sort_by better p) = List.length p).
  { destruct (sort_best p (List.length p)) as [rest [P [Ln _]]]. rewrite firstn_length in Ln. assert (List.length (sort_by better p) <= List.length p).
    { clear. induction p as [|x p IH]; [apply le_n|]. assert (I : forall x l, List.length (insert_by better x l) = S (List.length l)).
      { intros y l. induction l as [|z l IHl]; [reflexivity|]. cbn [insert_by]. destruct (better y z); [reflexivity|]. simpl. rewrite IHl. reflexivity. }
      simpl sort_by. rewrite I. simpl. lia. } lia. }
  destruct (Z.ltb_spec (- Z.of_nat k) 0); [|lia]. fold better. change (fun a b : list nat * R => negb (Rltb (- snd b) (- snd a))) with better. rewrite L.
  replace (Z.to_nat (- Z.of_nat k + Z.of_nat (List.length p))) with (List.length p - k) by lia. reflexivity.
Qed.
Lemma most_common_error : forall h r e h' r' k, get_probs rng h r None None true = (Err e, h', r') -> most_common rng h r k = (Err e, h', r').
Proof. intros h r e h' r' k E. unfold most_common. rewrite E. auto. Qed.
Lemma stored_probs : forall h r p store, vr_probs r = Some p ->
  get_probs rng h r None None store = (Ok p, h, r) /\ (forall s, get_probs rng h r s (Some false) store = (Ok p, h, r)).
Proof. intros h r p store E. unfold get_probs. rewrite E. split; [|intros s]; auto. Qed.
Lemma norm_one : forall n gs ops, circuit_ops n gs ops -> Rsum Cnorm2 (arr n (apply_all ops (ket 0))) = 1%R.
Proof.
  intros n gs ops Co. unfold arr. rewrite Rsum_map. change (norm2 n (apply_all ops (ket 0)) = 1%R).
  rewrite (preserves_norm n (apply_all ops)); [apply norm2_ket, pow2_pos|]. eapply circuit_preserves; eauto.
Qed.
(** computing the probabilities exactly: without a sampler, or with non_sampling_sampler *)
Lemma exact_probs : forall seen h r v ops s rerun store, reachable rng seen h -> circuit_is h (vr_circuit r) v -> simulated rng h v ->
  circuit_ops (Z.to_nat (v_n v)) (v_gates v) ops -> vr_probs r = None \/ rerun_of s rerun = true ->
  (s = Some (non_sampling_sampler rng) \/ s = None /\ (vr_vqe r = Some None \/ vr_vqe r = Some (Some (non_sampling_sampler rng)))) ->
  exists d h', get_probs rng h r s rerun store = (Ok d, h', if store then VqeResult (vr_vqe r) (vr_circuit r) (Some d) else r) /\
    distribution (arr (Z.to_nat (v_n v)) (apply_all ops (ket 0))) (seq 0 (Z.to_nat (v_n v))) d /\ mass d = 1%R /\
    reachable rng seen h' /\ h_pos h' = h_pos h /\ h_default h' = h_default h /\ (forall c' v', circuit_is h c' v' -> circuit_is h' c' v').
Proof.
  intros seen h r v ops s rerun store Re Ci Si Co Hr Hs.
  destruct (circuit_run rng _ _ _ _ _ (Some "statevector"%string) Re Ci Si Co (or_intror eq_refl)) as [h' [E [R1 [P1 [D1 K1]]]]].
  destruct (expect_distribution (arr (Z.to_nat (v_n v)) (apply_all ops (ket 0))) (seq 0 (Z.to_nat (v_n v)))) as [d [Ed [Dd Md]]].
  rewrite (norm_one _ _ _ Co) in Md. exists d, h'. split; [|auto 10].
  unfold get_probs. fold (rerun_of s rerun). destruct Ci as [x [Hx [_ [Hn _]]]].
  assert (Q : forall o, o = None \/ o = Some (non_sampling_sampler rng) ->
    match ModelCircuit.get (h_circs h) (vr_circuit r) with
    | Ok x => match o with
        | Some f => f h (vr_circuit r) (map Z.of_nat (seq 0 (Z.to_nat (c_n x))))
        | None => match run_state rng h (vr_circuit r) (Some "statevector"%string) with
                  | (Ok v, h) => (expect v (map Z.of_nat (seq 0 (Z.to_nat (c_n x)))), h)
                  | (Err e, h) => (Err e, h)
                  end
        end
    | Err e => (Err e, h)
    end = (Ok d, h')).
  { intros o Ho. unfold ModelCircuit.get. rewrite Hx. rewrite Hn. destruct Ho as [-> | ->]; unfold non_sampling_sampler, run_state; rewrite E, Ed; auto. }
  pose proof (Q None (or_introl eq_refl)) as Q0. pose proof (Q _ (or_intror eq_refl)) as Q1. cbv iota in Q0, Q1.
  assert (Z : forall s' : res (option sampler), s' = Ok None \/ s' = Ok (Some (non_sampling_sampler rng)) -> match s' with
    | Err e => (Err e, h)
    | Ok o => match ModelCircuit.get (h_circs h) (vr_circuit r) with
      | Err e => (Err e, h)
      | Ok x => match o with
          | None => match run_state rng h (vr_circuit r) (Some "statevector"%string) with
                    | (Ok v, h) => (expect v (map Z.of_nat (seq 0 (Z.to_nat (c_n x)))), h)
                    | (Err e, h) => (Err e, h)
                    end
          | Some f => f h (vr_circuit r) (map Z.of_nat (seq 0 (Z.to_nat (c_n x))))
          end
      end
    end = (Ok d, h')) by (intros s' [-> | ->]; [exact Q0|exact Q1]).
  cbv zeta. rewrite Z; [|destruct Hs as [-> |[-> [Hv|Hv]]]; rewrite ?Hv; auto].
  destruct Hr as [Hr|Hr]; rewrite Hr; [auto|]. destruct (vr_probs r); auto.
Qed.
Lemma probs_no_vqe : forall h r rerun store, vr_probs r = None -> vr_vqe r = None -> get_probs rng h r None rerun store = (Err AttributeError, h, r).
Proof. intros h r rerun store E V. unfold get_probs. rewrite E, V. auto. Qed.

(** ** The state vector sampler *)
Lemma combine_fst : forall A B (a : list A) (b : list B), List.length a = List.length b -> map fst (combine a b) = a.
Proof. induction a as [|x a IH]; intros [|y b] L; simpl in *; try discriminate; auto. f_equal. apply IH. lia. Qed.
Lemma combine_snd : forall A B (a : list A) (b : list B), List.length a = List.length b -> map snd (combine a b) = b.
Proof. induction a as [|x a IH]; intros [|y b] L; simpl in *; try discriminate; auto. f_equal. apply IH. lia. Qed.
Lemma vector_sampler : forall seen h c v ops meas N (multinomial : nat -> list R -> list nat), reachable rng seen h -> circuit_is h c v -> simulated rng h v ->
  circuit_ops (Z.to_nat (v_n v)) (v_gates v) ops -> 0 < N ->
  (forall probs, List.length (multinomial N probs) = List.length probs /\ list_sum (multinomial N probs) = N) ->
  exists d f h', state_vector_sampler rng multinomial N h c (map Z.of_nat meas) = (Ok f, h') /\
    distribution (arr (Z.to_nat (v_n v)) (apply_all ops (ket 0))) meas d /\ map fst f = map fst d /\
    map snd f = map (fun k => INR k / INR N)%R (multinomial N (map snd d)) /\ mass f = 1%R /\
    reachable rng seen h' /\ (forall c' v', circuit_is h c' v' -> circuit_is h' c' v').
Proof.
  intros seen h c v ops meas N mult Re Ci Si Co PN Hm.
  destruct (circuit_run rng _ _ _ _ _ (Some "statevector"%string) Re Ci Si Co (or_intror eq_refl)) as [h' [E [R1 [P1 [D1 K1]]]]].
  destruct (expect_distribution (arr (Z.to_nat (v_n v)) (apply_all ops (ket 0))) meas) as [d [Ed [Dd Md]]].
  rewrite (norm_one _ _ _ Co) in Md. destruct (Hm (map snd d)) as [Lm Sm]. rewrite map_length in Lm.
  set (dists := map (fun k => INR k / INR N)%R (mult N (map snd d))).
  assert (Ld : List.length (map fst d) = List.length dists) by (unfold dists; rewrite !map_length; auto).
  exists d, (combine (map fst d) dists), h'.
  split.
  { assert (X : fold_left (fun d kv => dset key_eqb d (fst kv) (snd kv)) (combine (map fst d) dists) [] = combine (map fst d) dists).
    { rewrite (dset_all_new _ key_eqb_ok _ fst snd).
      - simpl. transitivity (map (fun x => x) (combine (map fst d) dists)); [apply map_ext; intros []; auto|apply map_id].
      - simpl. rewrite combine_fst by auto. apply Dd. }
    unfold dists in *. clear dists. unfold state_vector_sampler, run_state. rewrite E, Ed. cbn [bind].
    destruct d as [|kv d]; [unfold mass in Md; simpl in Md; lra|]. cbv zeta. rewrite X. auto. }
  split; auto. rewrite combine_fst, combine_snd by auto. split; auto. split; auto. split; auto.
  unfold mass. transitivity (Rsum (fun y => y) (map snd (combine (map fst d) dists))); [rewrite Rsum_map; auto|]. rewrite combine_snd by auto. unfold dists. rewrite Rsum_map.
  assert (G : forall l, Rsum (fun k => INR k / INR N)%R l = (INR (list_sum l) / INR N)%R).
  { induction l as [|a l IH]; simpl; [unfold Rdiv; ring|]. rewrite IH, plus_INR. unfold Rdiv. ring. }
  rewrite G, Sm. unfold Rdiv. apply Rinv_r. apply not_0_INR. lia.
Qed.
End Random.
