(** Proofs for the backend qgate: texts of numbers, samples and runs. *)
From Coq Require Import String Ascii List Arith ZArith Bool Reals Lia Lra FunctionalExtensionality Sorting.Sorted.
Import ListNotations.
From Verif Require Import Base Cplx Bits ModelTargets ModelGate ModelVqe ModelQgate SpecTargets SpecQuantum SpecCircuit SpecMeasure SpecQasm SpecQasmRun SpecIbmq SpecVqe SpecQgate
  ProofTargets ProofPair ProofFallback ProofBackend ProofMeasure ProofBorn ProofQasm ProofQasmOps ProofQasmProps ProofQasmRun ProofIbmq ProofVqeSample ProofIbmqVqe ProofQgate.
Local Open Scope nat_scope.

(** ** Sorted lists without duplicates *)
Lemma insert_in : forall q l x, In x (insert q l) <-> x = q \/ In x l.
Proof.
  intros q l x. induction l as [|a r IH]; cbn [insert]; [cbn; intuition|].
  destruct (q <? a) eqn:E1; [cbn; intuition|]. destruct (Nat.eqb_spec q a) as [->|E2]; cbn; [intuition|]. rewrite IH. intuition.
Qed.
Lemma insert_asc : forall q l, ascending l -> ascending (insert q l).
Proof.
  intros q l H. induction H as [|a r H IH F]; cbn [insert]; [repeat constructor|].
  destruct (Nat.ltb_spec q a).
  - constructor; [constructor; auto|]. constructor; auto. eapply Forall_impl; [|exact F]. cbn. intros. lia.
  - destruct (Nat.eqb_spec q a); [constructor; auto|]. constructor; auto. apply Forall_forall. intros x I. apply insert_in in I. destruct I as [->|I]; [lia|]. rewrite Forall_forall in F. auto.
Qed.
Lemma sorted_set_ok : forall l, ascending (sorted_set l) /\ forall x, In x (sorted_set l) <-> In x l.
Proof.
  intros l. unfold sorted_set. assert (G : forall l acc, ascending acc -> ascending (fold_left (fun acc q => insert q acc) l acc) /\ forall x, In x (fold_left (fun acc q => insert q acc) l acc) <-> In x acc \/ In x l).
  { clear l. induction l as [|q l IH]; intros acc H; cbn [fold_left]; [cbn; intuition|]. destruct (IH (insert q acc) (insert_asc q acc H)) as [A B]. split; auto.
    intros x. rewrite B, insert_in. cbn. intuition. }
  destruct (G l [] (SSorted_nil _)) as [A B]. split; auto. intros x. rewrite B. cbn. tauto.
Qed.
Lemma asc_unique : forall l m, ascending l -> ascending m -> (forall x, In x l <-> In x m) -> l = m.
Proof.
  intros l m H. revert m. induction H as [|a l H IH F]; intros m K E.
  - destruct m as [|b m]; auto. exfalso. apply (E b). cbn. auto.
  - destruct K as [|b m K G]; [exfalso; apply (E a); cbn; auto|]. rewrite Forall_forall in F, G.
    assert (a = b) as <-.
    { destruct (proj1 (E a)) as [X|X]; [cbn; auto|auto|]. destruct (proj2 (E b)) as [Y|Y]; [cbn; auto|auto|]. specialize (F b Y). specialize (G a X). lia. }
    f_equal. apply IH; auto. intros x. specialize (E x). cbn in E. split; intros I.
    + destruct (proj1 E) as [<-|]; auto. specialize (F a I). lia.
    + destruct (proj2 E) as [<-|]; auto. specialize (G a I). lia.
Qed.
Lemma asc_nodup : forall l, ascending l -> NoDup l.
Proof. intros l H. induction H as [|a l H IH F]; constructor; auto. intros I. rewrite Forall_forall in F. specialize (F a I). lia. Qed.

(** ** Binary texts *)
Definition tb_char (b : bool) : ascii := if b then "1"%char else "0"%char.
(** the bits of [k] from place n-1 down to 0 *)
Definition digits (n : nat) (k : Z) : list ascii := map (fun i => tb_char (Z.testbit k (Z.of_nat (n - 1 - i)))) (seq 0 n).
Lemma digits_S : forall n k, digits (S n) k = digits n (k / 2) ++ [tb_char (Z.odd k)].
Proof.
  intros n k. unfold digits. rewrite seq_S, map_app. cbn [map]. f_equal.
  - apply map_ext_in. intros i I. apply in_seq in I. f_equal. rewrite <- Z.div2_div, Z.div2_spec, Z.shiftr_spec by lia. f_equal. lia.
  - replace (S n - 1 - (0 + n)) with 0 by lia. rewrite Z.bit0_odd. auto.
Qed.
Lemma digits_0 : forall n, digits n 0 = repeat "0"%char n.
Proof. induction n as [|n IH]; [auto|]. rewrite digits_S. change (0 / 2)%Z with 0%Z. rewrite IH. change (S n) with (1 + n). rewrite Nat.add_comm. rewrite repeat_app. auto. Qed.
Lemma pos_digits_acc : forall p acc, pos_digits p acc = pos_digits p [] ++ acc.
Proof.
  induction p as [p IH|p IH|]; intros acc; cbn [pos_digits].
  - rewrite IH, (IH ["1"%char]), <- app_assoc. auto.
  - rewrite IH, (IH ["0"%char]), <- app_assoc. auto.
  - auto.
Qed.
Lemma pad_snoc : forall n l c, pad (S n) (l ++ [c]) = pad n l ++ [c].
Proof. intros. unfold pad. rewrite app_length. cbn [List.length]. replace (S n - (List.length l + 1)) with (n - List.length l) by lia. rewrite app_assoc. auto. Qed.
Lemma pad_pos : forall p n, (Zpos p < 2 ^ Z.of_nat n)%Z -> pad n (pos_digits p []) = digits n (Zpos p).
Proof.
  induction p as [p IH|p IH|]; intros n H; (destruct n as [|n]; [change (2 ^ Z.of_nat 0)%Z with 1%Z in H; lia|]); rewrite Nat2Z.inj_succ, Z.pow_succ_r in H by lia; cbn [pos_digits]; rewrite digits_S.
  - rewrite pos_digits_acc, pad_snoc. replace (Z.pos p~1 / 2)%Z with (Z.pos p) by (rewrite Pos2Z.inj_xI; apply Z.div_unique with 1%Z; lia). rewrite IH by lia. auto.
  - rewrite pos_digits_acc, pad_snoc. replace (Z.pos p~0 / 2)%Z with (Z.pos p) by (rewrite Pos2Z.inj_xO; apply Z.div_unique with 0%Z; lia). rewrite IH by lia. auto.
  - change (1 / 2)%Z with 0%Z. rewrite digits_0. unfold pad. cbn [List.length]. replace (S n - 1) with n by lia. auto.
Qed.
Lemma format_ok : forall n k, 0 < n -> (0 <= k < 2 ^ Z.of_nat n)%Z -> format_bits n k = string_of_list_ascii (digits n k).
Proof.
  intros n k Hn [A B]. unfold format_bits. f_equal. destruct k as [|p|p]; [|apply pad_pos; auto|lia].
  rewrite digits_0. unfold pad. cbn [List.length]. destruct n as [|n]; [lia|]. replace (S n - 1) with n by lia. change (S n) with (1 + n). rewrite (Nat.add_comm 1 n), repeat_app. auto.
Qed.

(** ** Numbers made of outcomes *)
Definition nz (v : nat) : bool := negb (v =? 0).
Lemma places_bit : forall qs w i, Z.testbit (places qs w) (Z.of_nat i) = match nth_error qs i with Some q => nz (w_bits w q) | None => false end.
Proof.
  induction qs as [|q r IH]; intros w i; cbn [places]; [rewrite Z.testbit_0_l; destruct i; auto|].
  destruct i as [|i]; cbn [nth_error].
  - unfold nz. destruct (w_bits w q =? 0)%nat; cbn [negb]; [rewrite Z.add_0_l; apply Z.testbit_even_0|rewrite Z.add_comm; apply Z.testbit_odd_0].
  - rewrite Nat2Z.inj_succ. rewrite <- IH. destruct (w_bits w q =? 0)%nat; [rewrite Z.add_0_l, Z.testbit_even_succ by lia; auto|rewrite Z.add_comm, Z.testbit_odd_succ by lia; auto].
Qed.
Lemma places_range : forall qs w, (0 <= places qs w < 2 ^ Z.of_nat (List.length qs))%Z.
Proof.
  induction qs as [|q r IH]; intros w; cbn [places List.length]; [cbn; lia|]. rewrite Nat2Z.inj_succ, Z.pow_succ_r by lia. specialize (IH w). destruct (w_bits w q =? 0)%nat; lia.
Qed.
Lemma places_ext : forall qs w w', (forall q, In q qs -> nz (w_bits w q) = nz (w_bits w' q)) -> places qs w = places qs w'.
Proof.
  induction qs as [|q r IH]; intros w w' H; cbn [places]; [auto|]. rewrite (IH w w') by (intros; apply H; cbn; auto).
  specialize (H q (or_introl eq_refl)). unfold nz in H. destruct (w_bits w q =? 0)%nat, (w_bits w' q =? 0)%nat; cbn in H; try discriminate; auto.
Qed.
Lemma land_bit : forall v i, (0 <= i)%Z -> negb (Z.land v (Z.shiftl 1 i) =? 0)%Z = Z.testbit v i.
Proof.
  intros v i H. rewrite Z.shiftl_1_l. destruct (Z.testbit v i) eqn:E.
  - apply negb_true_iff, Z.eqb_neq. intros X. apply (f_equal (fun z => Z.testbit z i)) in X. rewrite Z.land_spec, Z.pow2_bits_true, E, Z.testbit_0_l in X by lia. discriminate.
  - apply negb_false_iff, Z.eqb_eq. apply Z.bits_inj'. intros j Hj. rewrite Z.land_spec, Z.pow2_bits_eqb, Z.testbit_0_l by lia. destruct (Z.eqb_spec i j) as [<-|]; [rewrite E|apply andb_false_r]; auto.
Qed.
Lemma permute_bit : forall n l v acc j, (0 <= j)%Z -> Forall (fun e : nat * nat => snd e < n) l ->
  Z.testbit (fold_left (fun permuted (e : nat * nat) => let (idx, pos) := e in
      if negb (Z.land v (Z.shiftl 1 (Z.of_nat idx)) =? 0)%Z then Z.lor permuted (Z.shiftl 1 (Z.of_nat n - 1 - Z.of_nat pos)) else permuted) l acc) j =
  Z.testbit acc j || existsb (fun e : nat * nat => Z.testbit v (Z.of_nat (fst e)) && (Z.of_nat n - 1 - Z.of_nat (snd e) =? j)%Z) l.
Proof.
  intros n l v. induction l as [|[idx p] l IH]; intros acc j Hj F; cbn [fold_left existsb]; [rewrite orb_false_r; auto|]. inversion F as [|? ? Hp Fl]; subst. cbn [fst snd] in *.
  rewrite IH by auto. rewrite orb_assoc. f_equal. rewrite land_bit by lia. destruct (Z.testbit v (Z.of_nat idx)); [|rewrite orb_false_r; auto].
  rewrite Z.lor_spec, Z.shiftl_1_l, Z.pow2_bits_eqb by lia. auto.
Qed.
Lemma permute_range : forall n l v acc, (0 <= acc < 2 ^ Z.of_nat n)%Z -> Forall (fun e : nat * nat => snd e < n) l ->
  (0 <= fold_left (fun permuted (e : nat * nat) => let (idx, pos) := e in
      if negb (Z.land v (Z.shiftl 1 (Z.of_nat idx)) =? 0)%Z then Z.lor permuted (Z.shiftl 1 (Z.of_nat n - 1 - Z.of_nat pos)) else permuted) l acc < 2 ^ Z.of_nat n)%Z.
Proof.
  intros n l v. induction l as [|[idx p] l IH]; intros acc Ha F; cbn [fold_left]; [auto|]. inversion F as [|? ? Hp Fl]; subst. cbn [fst snd] in *.
  apply IH; auto. destruct (negb _); auto. rewrite Z.shiftl_1_l. set (a := (Z.of_nat n - 1 - Z.of_nat p)%Z) in *. assert (0 <= a < Z.of_nat n)%Z by (unfold a; lia).
  assert (P : (0 <= Z.lor acc (2 ^ a))%Z) by (apply Z.lor_nonneg; split; [lia|apply Z.pow_nonneg; lia]). split; auto.
  destruct (Z.eq_dec (Z.lor acc (2 ^ a)) 0) as [->|NZ]; [apply Z.pow_pos_nonneg; lia|]. apply Z.log2_lt_pow2; [lia|]. rewrite Z.log2_lor by (try apply Z.pow_nonneg; lia).
  rewrite Z.log2_pow2 by lia. apply Z.max_lub_lt; [|lia]. destruct (Z.eq_dec acc 0) as [->|]; [cbn; lia|]. apply Z.log2_lt_pow2; lia.
Qed.
Lemma combine_nth : forall {A} (l : list A) k i q, In (i, q) (combine (seq k (List.length l)) l) <-> k <= i /\ nth_error l (i - k) = Some q.
Proof.
  intros A l. induction l as [|a l IH]; intros k i q; cbn [List.length seq combine In]; [split; [tauto|]; intros [_ H]; destruct (i - k); discriminate|]. rewrite IH. split.
  - intros [E|[H1 H2]]; [injection E as <- <-; rewrite Nat.sub_diag; auto|]. split; [lia|]. replace (i - k) with (S (i - S k)) by lia. auto.
  - intros [H1 H2]. destruct (Nat.eq_dec i k) as [->|N]; [left; rewrite Nat.sub_diag in H2; cbn in H2; congruence|right]. replace (i - k) with (S (i - S k)) in H2 by lia. split; [lia|auto].
Qed.
Lemma combine_snd : forall n (l : list nat) k, Forall (fun q => q < n) l -> Forall (fun e : nat * nat => snd e < n) (combine (seq k (List.length l)) l).
Proof. intros n l k F. apply Forall_forall. intros [i q] I. apply in_combine_r in I. rewrite Forall_forall in F. cbn. auto. Qed.
(** the text of the sampled number *)
Lemma permute_text : forall n qs w, 0 < n -> Forall (fun q => q < n) qs -> (forall q, ~ In q qs -> w_bits w q = 0) ->
  format_bits n (permute n qs (places qs w)) = shot_text n w.
Proof.
  intros n qs w Hn F O. rewrite format_ok; [|auto|apply permute_range; [split; [lia|apply Z.pow_pos_nonneg; lia]|apply combine_snd; auto]].
  unfold shot_text, digits. f_equal. apply map_ext_in. intros i I. apply in_seq in I. unfold permute. rewrite permute_bit by (try lia; apply combine_snd; auto).
  rewrite Z.testbit_0_l. cbn [orb]. unfold bit_char. destruct (existsb _ _) eqn:E; cbn [tb_char].
  - apply existsb_exists in E. destruct E as [[j q] [I1 E]]. cbn [fst snd] in E. apply andb_true_iff in E. destruct E as [E1 E2]. apply Z.eqb_eq in E2.
    apply combine_nth in I1. destruct I1 as [_ I1]. rewrite Nat.sub_0_r in I1. rewrite places_bit, I1 in E1.
    assert (q < n) by (rewrite Forall_forall in F; apply F; eapply nth_error_In; eauto). assert (q = i) as -> by lia. unfold nz in E1. destruct (w_bits w i =? 0); [discriminate|auto].
  - destruct (w_bits w i =? 0) eqn:B; auto. exfalso. destruct (in_dec Nat.eq_dec i qs) as [Ii|Ni]; [|apply O in Ni; rewrite Ni in B; discriminate].
    apply In_nth_error in Ii. destruct Ii as [j Ej]. assert (existsb (fun e : nat * nat => Z.testbit (places qs w) (Z.of_nat (fst e)) && (Z.of_nat n - 1 - Z.of_nat (snd e) =? Z.of_nat (n - 1 - i))%Z) (combine (seq 0 (List.length qs)) qs) = true); [|congruence].
    apply existsb_exists. exists (j, i). split; [apply combine_nth; rewrite Nat.sub_0_r; split; [lia|auto]|]. cbn [fst snd]. rewrite places_bit, Ej. unfold nz. rewrite B. apply Z.eqb_eq. lia.
Qed.
Lemma nth_rev_seq : forall n i, i < n -> nth_error (rev (seq 0 n)) i = Some (n - 1 - i).
Proof.
  intros n i H. rewrite <- (map_id (seq 0 n)), map_seq_rev. rewrite (map_nth_error (fun i => n - 1 - i) i (seq 0 n) (d := i)); auto.
  rewrite (nth_error_nth' _ 0) by (rewrite seq_length; auto). rewrite seq_nth by auto. auto.
Qed.
Lemma obs_text : forall n w, 0 < n -> format_bits n (places (rev (seq 0 n)) w) = shot_text n w.
Proof.
  intros n w Hn. rewrite format_ok; auto; [|pose proof (places_range (rev (seq 0 n)) w) as H; rewrite rev_length, seq_length in H; auto].
  unfold shot_text, digits. f_equal. apply map_ext_in. intros i I. apply in_seq in I. rewrite places_bit, nth_rev_seq by lia. replace (n - 1 - (n - 1 - i)) with i by lia. unfold bit_char, nz. destruct (w_bits w i =? 0); auto.
Qed.

(** ** Circuits without their measurements *)
Definition meas_app (a : app) : bool := match a with AMeasure _ => true | _ => false end.
Definition pure (a : app) : bool := negb (meas_app a).
Lemma gate_filter : forall n g l, gate_apps n g l -> filter pure l = if is_measure g then [] else l.
Proof.
  intros n g l G. destruct G; cbn [is_measure]; auto.
  1,2,4: match goal with |- filter pure (map ?f ?l) = _ => clear; induction l as [|x l IH]; cbn; [auto|rewrite IH; auto] end.
  clear. induction l as [|x l IH]; cbn; auto.
Qed.
Lemma apps_filter : forall n gs apps, circuit_apps n gs apps -> circuit_apps n (filter (fun g => negb (is_measure g)) gs) (filter pure apps).
Proof.
  intros n gs apps A. induction A as [|g gs a l G A IH]; cbn [filter]; [constructor|]. rewrite filter_app, (gate_filter n g a G). destruct (is_measure g) eqn:E; cbn [negb]; [auto|].
  constructor; auto.
Qed.
Lemma ops_filter : forall apps ops, qops_of apps = Some ops -> qops_of (filter pure apps) = Some (without_measure ops) /\
  measured_regs ops = flat_map (fun a => match a with AMeasure q => [q] | _ => [] end) apps.
Proof.
  induction apps as [|a l IH]; intros ops E; cbn [qops_of] in E; [injection E as <-; auto|]. destruct (qop_of a) as [o|] eqn:Ea; [|discriminate]. destruct (qops_of l) as [os|]; [|discriminate].
  injection E as <-. destruct (IH os eq_refl) as [F1 F2].
  destruct a as [k q|k c t|k p q r|q|q]; try discriminate Ea; cbn [filter pure meas_app negb].
  4: { cbn in Ea. injection Ea as <-. cbn. split; auto. unfold measured_regs in F2. rewrite F2. auto. }
  all: assert (X : match o with QMeasure _ _ => false | _ => true end = true) by (destruct k; try discriminate Ea; cbn in Ea; injection Ea as <-; auto);
    cbn [qops_of without_measure measured_regs flat_map filter List.app]; unfold without_measure, measured_regs in *; rewrite Ea, F1, X; cbn [filter flat_map]; split; auto; destruct o; try discriminate X; auto.
Qed.
Lemma pure_plain : forall apps ops, qops_of apps = Some ops -> Forall plain (filter pure apps).
Proof.
  intros apps ops E. apply Forall_forall. intros a I. apply filter_In in I. destruct I as [I P]. apply qops_each in E.
  assert (X : In (qop_of a) (map (@Some qop) ops)) by (rewrite E; apply in_map; auto). apply in_map_iff in X. destruct X as [o [X _]]. destruct a; cbn; auto; discriminate.
Qed.
Lemma measure_in_range : forall n gs apps q, circuit_apps n gs apps -> measures apps q -> q < n.
Proof.
  intros n gs apps q A. unfold measures. induction A as [|g gs a l G A IH]; [intros []|]. rewrite in_app_iff. intros [I|I]; auto.
  destruct G; try (apply in_map_iff in I; destruct I as [z [E I]]; try discriminate E).
  - destruct I as [E|[]]; discriminate.
  - injection E as <-. rewrite Forall_forall in H0. specialize (H0 z I). unfold inside in H0. lia.
Qed.
Lemma measured_last_apps : forall n gs apps qs, circuit_apps n gs apps -> Forall (fun q => q < n) qs -> circuit_apps n (measured_last gs qs) (filter pure apps ++ map AMeasure qs).
Proof.
  intros n gs apps qs A F. unfold measured_last. apply apps_app; [apply apps_filter; auto|]. pose proof (measure_apps n qs F) as X. unfold measure_gate_of in X. rewrite map_map in X. exact X.
Qed.

Section Runs.
Variables (Q : qgate) (M : gtype -> list R -> mat2) (phase : R -> R -> R -> C) (rng : nat -> R) (pos n : nat).
Hypotheses (U : usual M phase) (Sim : simulates Q M rng pos n).
Variables (gs : list gate) (apps : list app).
Hypotheses (A : circuit_apps n gs apps) (Cv : Forall convertible gs) (Nc : Forall (fun g => ~ controlled_u g) gs).

Lemma same_each : forall qs w w', same_world w w' -> same_world (each (measure1 rng n) qs w) (each (measure1 rng n) qs w').
Proof. induction qs as [|q r IH]; intros w w' S0; [auto|]. unfold each. cbn [fold_left]. apply IH. apply (same_measure rng n (Z.to_nat q) w w'). auto. Qed.
Lemma pool_same : forall qs p psi' k, Cnorm2 k = 1%R -> forall us, pool_shots rng n (scl k psi') qs p us ->
  (forall p', exec rng n (measured_last gs qs) (start p') (each (measure1 rng n) (map Z.of_nat qs) (World psi' (fun _ => 0) p'))) ->
  exists ws, shots rng n (measured_last gs qs) p ws /\ Forall2 same_world us ws.
Proof.
  intros qs p psi' k K us P X. induction P as [p|p w us -> P IH]; [exists []; split; constructor|].
  assert (S0 : same_world (each (measure1 rng n) (map Z.of_nat qs) (World (scl k psi') (fun _ => 0) p)) (each (measure1 rng n) (map Z.of_nat qs) (World psi' (fun _ => 0) p))).
  { apply same_each. repeat split. exists k. auto. }
  destruct IH as [ws [W F]]. exists (each (measure1 rng n) (map Z.of_nat qs) (World psi' (fun _ => 0) p) :: ws). split; [|constructor; auto].
  econstructor; [apply X|]. destruct S0 as [_ [<- _]]. exact W.
Qed.
Lemma pool_text : forall psi qs p us, 0 < n -> Forall (fun q => q < n) qs -> pool_shots rng n psi qs p us ->
  map (fun v => format_bits n (permute n qs v)) (map (places qs) us) = map (shot_text n) us.
Proof.
  intros psi qs p us Hn F P. rewrite map_map. induction P as [p|p w us -> P IH]; [auto|]. cbn [map]. f_equal; auto. apply permute_text; auto.
  intros q Nq. rewrite each_bits_other; auto.
Qed.
Lemma text_bits : forall w w', shot_text n w = shot_text n w' -> forall q, q < n -> nz (w_bits w q) = nz (w_bits w' q).
Proof.
  intros w w' E q H. unfold shot_text in E. apply (f_equal list_ascii_of_string) in E. rewrite !list_string in E. apply (f_equal (fun l => nth_error l q)) in E.
  assert (G : nth_error (seq 0 n) q = Some q) by (rewrite (nth_error_nth' _ 0) by (rewrite seq_length; auto); rewrite seq_nth by auto; auto).
  rewrite !(map_nth_error _ q (seq 0 n) G) in E. unfold bit_char in E. unfold nz. destruct (w_bits w q =? 0), (w_bits w' q =? 0); auto; discriminate.
Qed.
Lemma text_same : forall us ws, Forall2 same_world us ws -> map (shot_text n) us = map (shot_text n) ws.
Proof. intros us ws F. induction F as [|u w us ws [B _] F IH]; [auto|]. cbn [map]. rewrite IH. unfold shot_text. rewrite B. auto. Qed.

Lemma sample_ok : forall runtime prep s0 s ops N method qs, In runtime ["cuda"; "cpu"; "py"]%string -> qg_new Q runtime prep = Ok s0 -> qg_ordering Q s0 n = Ok s ->
  0 < n -> convert_operators n gs = Ok ops -> ascending qs -> (forall q, In q qs <-> measures apps q) ->
  exists d ws, sample Q n s ops (Z.of_nat N) method = Ok d /\ shots rng n (measured_last gs qs) pos ws /\ List.length ws = N /\ tallies string_dec d (map (shot_text n) ws).
Proof.
  intros runtime prep s0 s ops N method qs Hr E0 E1 Hn Ec Asc Mem. destruct (convert_ok n gs apps A Cv) as [ops' [Eo Ec']]. rewrite Ec in Ec'. injection Ec' as <-.
  destruct (ops_filter apps ops Eo) as [Ef Er].
  assert (Eq : sorted_set (measured_regs ops) = qs).
  { destruct (sorted_set_ok (measured_regs ops)) as [S1 S2]. apply asc_unique; auto. intros x. rewrite S2, Mem, Er, in_flat_map. unfold measures. split.
    - intros [a [I J]]. destruct a; cbn in J; try contradiction. destruct J as [->|[]]. auto.
    - intros I. exists (AMeasure x). split; [auto|cbn; auto]. }
  assert (Fq : Forall (fun q => q < n) qs) by (apply Forall_forall; intros q I; apply Mem in I; eapply measure_in_range; eauto).
  assert (Nc' : Forall (fun a => ~ app_cu a) (filter pure apps)).
  { pose proof (circuit_no_cu n gs apps A Nc) as X. rewrite Forall_forall in *. intros a I. apply filter_In in I. apply X. tauto. }
  destruct (qops_same M phase U rng n (filter pure apps) (without_measure ops) Ef Nc' (start pos) (start pos) (same_refl (start pos))) as [u [Xu [Bu [Pu [k [K Eu]]]]]].
  rewrite (plain_fold rng n _ (start pos) (pure_plain apps ops Eo)) in Bu, Pu, Eu. cbn [w_bits w_pos w_psi start] in Bu, Pu, Eu.
  set (psi' := apply_all (map app_op (filter pure apps)) (ket 0)) in *.
  destruct (Sim runtime prep Hr) as [s0' [s' [E0' [E1' R]]]]. rewrite E0 in E0'. injection E0' as <-. rewrite E1 in E1'. injection E1' as <-.
  destruct (R (without_measure ops) u Xu) as [s2 [E2 [_ [_ H]]]].
  destruct (H qs (String.eqb method "blueqat") N (asc_nodup qs Asc)) as [us [d [Ed [Pl [Lu T]]]]]. rewrite Pu, Eu in Pl.
  destruct (pool_same qs pos psi' k K us Pl) as [ws [Sw F]].
  { intros p. pose proof (measured_last_apps n gs apps qs A Fq) as AL. destruct (exec_exists rng n (measured_last gs qs) (start p) (apps_valid _ _ _ AL)) as [w X].
    pose proof (exec_apps rng n _ _ AL _ _ X) as Ew. rewrite fold_left_app, (plain_fold rng n _ (start p) (pure_plain apps ops Eo)) in Ew. cbn [w_bits w_pos w_psi start] in Ew. fold psi' in Ew.
    rewrite each_measure, map_map. replace (map (fun x => AMeasure (Z.to_nat (Z.of_nat x))) qs) with (map AMeasure qs) by (apply map_ext; intros; rewrite Nat2Z.id; auto).
    rewrite Ew in X. exact X. }
  set (f := fun v => format_bits n (permute n qs v)).
  assert (Inj : forall a b, In a (map (places qs) us) -> In b (map (places qs) us) -> f a = f b -> a = b).
  { intros a b Ia Ib E. apply in_map_iff in Ia, Ib. destruct Ia as [wa [<- Ia]]. destruct Ib as [wb [<- Ib]].
    assert (G : forall w, In w us -> f (places qs w) = shot_text n w).
    { intros w I. apply permute_text; auto. intros q Nq. clear - Pl I Nq. induction Pl as [p|p w' us -> Pl IH]; [destruct I|]. destruct I as [<-|I]; auto. rewrite each_bits_other; auto. }
    rewrite !G in E by auto. apply places_ext. intros q Iq. apply text_bits; auto. rewrite Forall_forall in Fq. auto. }
  pose proof (tallies_map Z.eq_dec string_dec f d _ Inj T) as T'.
  exists (map (fun kv : Z * nat => (f (fst kv), snd kv)) d), ws. split.
  { unfold sample. rewrite E2. cbn [bind]. rewrite Eq, Ed. cbn [bind]. f_equal.
    etransitivity; [apply (dfold_fresh String.eqb String.eqb_eq (fun e : Z * nat => f (fst e)) (fun e => snd e) d [])|reflexivity].
    destruct T' as [N' _]. rewrite map_map in N'. cbn [fst] in N'. exact N'. }
  split; auto. split; [rewrite <- Lu; clear - F; induction F; cbn; auto|].
  rewrite <- (text_same us ws F), <- (pool_text _ qs pos us Hn Fq Pl). exact T'.
Qed.
Lemma vector_ok : forall runtime prep s0 s ops w, In runtime ["cuda"; "cpu"; "py"]%string -> qg_new Q runtime prep = Ok s0 -> qg_ordering Q s0 n = Ok s ->
  convert_operators n gs = Ok ops -> exec rng n gs (start pos) w ->
  exists s' u, qg_run Q s ops = Ok s' /\ same_world u w /\ qg_states Q s' = Ok (arr n (w_psi u)) /\ forall refs, qg_obs Q s' refs = Ok (places refs u).
Proof.
  intros runtime prep s0 s ops w Hr E0 E1 Ec X. destruct (convert_exec M phase U rng n gs apps A Cv Nc) as [ops' [Ec' G]]. rewrite Ec in Ec'. injection Ec' as <-.
  destruct (G (start pos) w X) as [u [Xu [Su _]]].
  destruct (Sim runtime prep Hr) as [s0' [s' [E0' [E1' R]]]]. rewrite E0 in E0'. injection E0' as <-. rewrite E1 in E1'. injection E1' as <-.
  destruct (R ops u Xu) as [s2 [E2 [Es [Eo _]]]]. exists s2, u. auto.
Qed.
End Runs.
