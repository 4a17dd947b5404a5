(** Proofs for the Qiskit sampler: digits of keys, relative frequencies of measured qubits. *)
From Coq Require Import String Ascii List Arith ZArith Bool Reals Lia Lra HexadecimalString HexadecimalNat.
Import ListNotations.
From Verif Require Import Base Cplx Bits ModelTargets ModelGate ModelNumpy ModelNumba ModelBackend ModelCircuit ModelPauli ModelQasm ModelVqe ModelIbmq SpecTargets SpecQuantum
  SpecCircuit SpecMeasure SpecAPI SpecVqe SpecQasm SpecQasmRun SpecIbmq ProofBackend ProofTargets ProofMeasure ProofVqeRun ProofVqeSample ProofQasm ProofQasmOps ProofQasmProps ProofQasmRun
  ProofIbmq.
Local Open Scope nat_scope.

(** ** Binary text *)
Definition binary (w : world) : Prop := forall i, w_bits w i = 0 \/ w_bits w i = 1.
Lemma digit_bit : forall v, v = 0 \/ v = 1 -> digit (bit_char v) = Ok v.
Proof. intros v [-> | ->]; reflexivity. Qed.
Lemma map_res_ok : forall A B (f : A -> res B) g l, (forall a, In a l -> f a = Ok (g a)) -> map_res f l = Ok (map g l).
Proof. intros A B f g l. induction l as [|a l IH]; intros H; [auto|]. cbn [map_res map]. rewrite H by (cbn; auto). cbn [bind]. rewrite IH by (intros; apply H; cbn; auto). auto. Qed.
Lemma not_hex : forall l, Forall (fun c => c <> "x"%char) l -> prefix "0x" (string_of_list_ascii l) = false.
Proof.
  intros l F. destruct F as [|a l Ha F]; [auto|]. cbn [string_of_list_ascii prefix]. destruct (Ascii.ascii_dec "0" a) as [<- |]; [|auto].
  destruct F as [|b l Hb F]; [auto|]. cbn [string_of_list_ascii prefix]. destruct (Ascii.ascii_dec "x" b) as [<- |]; [contradiction|auto].
Qed.
Lemma digits_text : forall n w, binary w -> key_digits (register_text n w) = Ok (map (w_bits w) (seq 0 n)).
Proof.
  intros n w B. unfold key_digits. unfold register_text. rewrite not_hex.
  - rewrite list_string. rewrite <- (map_seq_rev _ (fun i => bit_char (w_bits w i))), rev_involutive.
    rewrite <- (map_map (w_bits w) bit_char). set (l := map (w_bits w) (seq 0 n)).
    assert (F : Forall (fun v => v = 0 \/ v = 1) l) by (apply Forall_map; apply Forall_forall; intros i _; apply B).
    clearbody l. induction F as [|v l Hv F IH]; [auto|]. cbn [map map_res]. rewrite (digit_bit v Hv). cbn [bind]. rewrite IH. auto.
  - apply Forall_map. apply Forall_forall. intros i _. unfold bit_char. destruct (w_bits w (n - 1 - i) =? 0); discriminate.
Qed.

(** ** Hexadecimal text *)
Lemma hex_acc : forall u acc, hex_int acc (NilEmpty.string_of_uint u) = Ok (Nat.of_hex_uint_acc u acc).
Proof.
  assert (T : forall acc, Nat.tail_mul 16 acc = 16 * acc) by (intros; rewrite <- Nat.tail_mul_spec; auto).
  induction u; intros acc; [reflexivity|..]; cbn [NilEmpty.string_of_uint]; cbn [Nat.of_hex_uint_acc];
    match goal with |- hex_int _ (String ?c _) = _ => change (hex_int acc (String c (NilEmpty.string_of_uint u))) with (let* d := hex_digit c in hex_int (16 * acc + d) (NilEmpty.string_of_uint u)) end;
    (match goal with |- bind ?r _ = _ => let v := eval vm_compute in r in change r with v end); cbn [bind]; rewrite IHu, T; f_equal; f_equal; lia.
Qed.
Lemma hex_read : forall k, hex_int 0 (NilZero.string_of_uint (Nat.to_hex_uint k)) = Ok k.
Proof.
  intros k. pose proof (Unsigned.of_to k) as E. unfold Nat.of_hex_uint in E.
  destruct (Nat.to_hex_uint k) as [|u|u|u|u|u|u|u|u|u|u|u|u|u|u|u|u] eqn:U; [cbn in E; subst; reflexivity|..]; cbn [NilZero.string_of_uint];
    rewrite hex_acc, E; auto.
Qed.
Lemma hex_nonempty : forall u, NilZero.string_of_uint u <> ""%string. Proof. intros u. destruct u; discriminate. Qed.
Lemma substring_all : forall s, substring 0 (String.length s) s = s.
Proof. induction s as [|c s IH]; [auto|]. cbn. rewrite IH. auto. Qed.
Lemma drop_0x : forall s, substring 2 (String.length (String "0" (String "x" s)) - 2) (String "0" (String "x" s)) = s.
Proof. intros s. cbn [String.length]. replace (S (S (String.length s)) - 2) with (String.length s) by lia. cbn [substring]. apply substring_all. Qed.
Lemma bin_bits : forall f k i, k < f -> i < List.length (bin_digits f k) -> nth i (bin_digits f k) 0 = if bit k i then 1 else 0.
Proof.
  induction f as [|f IH]; intros k i L Li; [lia|]. cbn [bin_digits] in *. destruct (Nat.ltb_spec k 2).
  - cbn in Li. assert (i = 0) as -> by lia. destruct k as [|[|k]]; [auto|auto|lia].
  - destruct i as [|i].
    + cbn [nth]. rewrite Nat.bit0_odd. pose proof (Nat.bit0_mod k) as X. rewrite Nat.bit0_odd in X. destruct (Nat.odd k); cbn [Nat.b2n] in X; lia.
    + cbn [nth List.length] in *. rewrite IH; [|apply Nat.lt_le_trans with k; [apply Nat.div_lt; lia|lia]|lia]. change (bit k (S i)) with (bit (Nat.div2 k) i). rewrite Nat.div2_div. auto.
Qed.
Lemma bin_high : forall f k i, k < f -> List.length (bin_digits f k) <= i -> bit k i = false.
Proof.
  induction f as [|f IH]; intros k i L Li; [lia|]. cbn [bin_digits] in *. destruct (Nat.ltb_spec k 2).
  - cbn in Li. destruct i as [|i]; [lia|]. change (bit k (S i)) with (bit (Nat.div2 k) i). destruct k as [|[|k]]; [apply Nat.bits_0|apply Nat.bits_0|lia].
  - destruct i as [|i]; [cbn in Li; lia|]. change (bit k (S i)) with (bit (Nat.div2 k) i). rewrite Nat.div2_div. cbn [List.length] in Li. apply IH; [|lia].
    apply Nat.lt_le_trans with k; [apply Nat.div_lt; lia|lia].
Qed.
Lemma bin_nonempty : forall f k, k < f -> 1 <= List.length (bin_digits f k).
Proof. intros f k L. destruct f; [lia|]. cbn [bin_digits]. destruct (k <? 2); cbn; lia. Qed.
Lemma padded_bits : forall k i, i < List.length (bin_digits (S k) k) + 100 -> nth_error (bin_digits (S k) k ++ repeat 0 100) i = Some (if bit k i then 1 else 0).
Proof.
  intros k i L. rewrite (nth_error_nth' _ 0) by (rewrite app_length, repeat_length; lia). f_equal.
  destruct (Nat.lt_ge_cases i (List.length (bin_digits (S k) k))) as [H|H].
  - rewrite app_nth1 by auto. apply bin_bits; lia.
  - rewrite app_nth2 by auto. rewrite (bin_high (S k) k i) by lia. rewrite nth_repeat. auto.
Qed.
Lemma register_bit : forall n w i, binary w -> bit (register_number n w) i = (i <? n) && negb (w_bits w i =? 0).
Proof.
  intros n w i _. unfold register_number.
  assert (G : forall n (b : nat -> nat) i, bit (list_sum (map (fun i => if b i =? 0 then 0 else 2 ^ i) (seq 0 n))) i = (i <? n) && negb (b i =? 0)).
  { clear. induction n as [|n IH]; intros b i; [cbn [seq map]; apply Nat.bits_0|]. cbn [seq map]. rewrite <- seq_shift, map_map. cbn [list_sum fold_right].
    fold (list_sum (map (fun x => if b (S x) =? 0 then 0 else 2 ^ S x) (seq 0 n))).
    assert (D : forall l, list_sum (map (fun x => if b (S x) =? 0 then 0 else 2 ^ S x) l) = 2 * list_sum (map (fun x => if b (S x) =? 0 then 0 else 2 ^ x) l)).
    { induction l as [|x l IHl]; [auto|]. cbn [map list_sum fold_right] in *. unfold list_sum in IHl. rewrite IHl. destruct (b (S x) =? 0); cbn [Nat.pow]; lia. }
    rewrite D. clear D. rewrite Nat.pow_0_r. destruct i as [|i].
    - destruct (b 0 =? 0); rewrite ?Nat.add_0_l.
      + apply Nat.testbit_even_0.
      + rewrite Nat.add_comm. rewrite Nat.testbit_odd_0. auto.
    - specialize (IH (fun x => b (S x)) i). cbv beta in IH. destruct (b 0 =? 0); rewrite ?Nat.add_0_l.
      + rewrite Nat.testbit_even_succ by lia. exact IH.
      + rewrite Nat.add_comm, Nat.testbit_odd_succ by lia. exact IH. }
  apply G.
Qed.
Lemma digits_hex : forall n w, binary w -> exists l, key_digits (register_hex n w) = Ok l /\ 101 <= List.length l /\
  forall m, m < List.length l -> nth_error l m = Some (if m <? n then w_bits w m else 0).
Proof.
  intros n w B. unfold key_digits, register_hex. set (k := register_number n w).
  change ("0x" ++ NilZero.string_of_uint (Nat.to_hex_uint k))%string with (String "0" (String "x" (NilZero.string_of_uint (Nat.to_hex_uint k)))).
  assert (P : forall s, prefix "0x" (String "0" (String "x" s)) = true) by (intros s; destruct s; reflexivity). rewrite P.
  rewrite drop_0x. pose proof (hex_nonempty (Nat.to_hex_uint k)) as NE. apply String.eqb_neq in NE. rewrite NE. rewrite hex_read. cbn [bind].
  eexists. split; [reflexivity|]. split; [rewrite app_length, repeat_length; pose proof (bin_nonempty (S k) k); lia|].
  intros m L. rewrite app_length, repeat_length in L. rewrite padded_bits by lia. subst k. rewrite register_bit by auto. f_equal.
  destruct (m <? n); [|auto]. destruct (B m) as [-> | ->]; auto.
Qed.

(** ** Reduced keys *)
Lemma reduce_text : forall n w meas, binary w -> Forall (fun m => m < n) meas -> qk_reduce_bits (register_text n w) (map Z.of_nat meas) = Ok (picked meas w).
Proof.
  intros n w meas B F. unfold qk_reduce_bits. rewrite digits_text by auto. cbn [bind]. unfold picked.
  induction F as [|m meas Hm F IH]; [auto|]. cbn [map map_res]. rewrite IH. unfold py_get. destruct (Z.ltb_spec (Z.of_nat m) 0); [lia|].
  destruct (Z.ltb_spec (Z.of_nat m) 0); [lia|]. rewrite Nat2Z.id.
  rewrite (nth_error_nth' _ (w_bits w 0)) by (rewrite map_length, seq_length; auto). rewrite map_nth, seq_nth by auto. auto.
Qed.
Lemma reduce_hex : forall n w meas, binary w -> Forall (fun m => m < n /\ m <= 100) meas -> qk_reduce_bits (register_hex n w) (map Z.of_nat meas) = Ok (picked meas w).
Proof.
  intros n w meas B F. unfold qk_reduce_bits. destruct (digits_hex n w B) as [l [-> [L N]]]. cbn [bind]. unfold picked.
  induction F as [|m meas [Hm Hm'] F IH]; [auto|]. cbn [map map_res]. rewrite IH. unfold py_get. destruct (Z.ltb_spec (Z.of_nat m) 0); [lia|].
  destruct (Z.ltb_spec (Z.of_nat m) 0); [lia|]. rewrite Nat2Z.id, N by lia. destruct (Nat.ltb_spec m n); [auto|lia].
Qed.

(** ** Recorded bits *)
Section Random.
Variable rng : nat -> R.
Lemma each_reset_bits : forall n l w, w_bits (each (reset1 rng n) l w) = w_bits w.
Proof. intros n l. unfold each. induction l as [|z l IH]; intros w; [auto|]. cbn [fold_left]. rewrite IH. auto. Qed.
Lemma each_measure_bits : forall n l w, (binary w -> binary (each (measure1 rng n) l w)) /\
  forall i, ~ In i (map Z.to_nat l) -> w_bits (each (measure1 rng n) l w) i = w_bits w i.
Proof.
  intros n l. unfold each. induction l as [|z l IH]; intros w; [auto|]. cbn [fold_left map]. destruct (IH (measure1 rng n (Z.to_nat z) w)) as [H1 H2]. split.
  - intros B. apply H1. intros i. cbn. unfold update. destruct (i =? Z.to_nat z); [destruct (outcome rng n (Z.to_nat z) w); auto|apply B].
  - intros i N. rewrite H2 by (intros I; apply N; cbn; auto). cbn. unfold update. destruct (Nat.eqb_spec i (Z.to_nat z)); [|auto]. exfalso. apply N. cbn. auto.
Qed.
Lemma exec_unmeasured : forall n gs w w', Forall unmeasured gs -> exec rng n gs w w' -> w_bits w' = w_bits w.
Proof.
  intros n gs w w' U E. revert U. induction E as [|g gs w w1 w2 E1 E IH]; intros U; [auto|]. inversion U; subst. rewrite IH by auto.
  inversion E1; subst; [auto|contradiction|]. apply each_reset_bits.
Qed.
Lemma exec_app : forall n a b w w', exec rng n (a ++ b) w w' -> exists w1, exec rng n a w w1 /\ exec rng n b w1 w'.
Proof.
  intros n a. induction a as [|g a IH]; intros b w w' E; [exists w; split; [constructor|auto]|]. inversion E; subst.
  destruct (IH b _ _ H4) as [w3 [X Y]]. exists w3. split; auto. econstructor; eauto.
Qed.
Lemma measured_bits : forall n gs meas pos w, Forall unmeasured gs -> Forall (fun m => m < n) meas -> exec rng n (gs ++ [measure_gate_of meas]) (start pos) w ->
  binary w /\ forall i, ~ In i meas -> w_bits w i = 0.
Proof.
  intros n gs meas pos w U F E. apply exec_app in E. destruct E as [w1 [E1 E2]]. pose proof (exec_unmeasured _ _ _ _ U E1) as B.
  inversion E2; subst. match goal with X : exec _ _ [] _ _ |- _ => inversion X; subst end.
  match goal with X : exec1 _ _ _ _ _ |- _ => inversion X; subst; [match goal with Y : gate_ops _ _ _ |- _ => inversion Y end|] end.
  pose proof (measure_denotes n meas F) as D. match goal with X : denotes _ _ ?l |- _ => rewrite (denotes_one n _ _ l D X) end. destruct (each_measure_bits n (map Z.of_nat meas) w1) as [G1 G2].
  split.
  - apply G1. intros i. rewrite B. cbn. auto.
  - intros i N. rewrite G2; [rewrite B; auto|]. rewrite map_map. rewrite (map_ext _ (fun x => x)) by (intros; apply Nat2Z.id). rewrite map_id. auto.
Qed.
Lemma shots_each : forall n gs pos ws, shots rng n gs pos ws -> Forall (fun w => exists p, exec rng n gs (start p) w) ws.
Proof. intros n gs pos ws S0. induction S0; constructor; eauto. Qed.

(** ** Frequencies *)
Lemma frequencies_of : forall d l N, N = List.length l -> tallies (list_eq_dec Nat.eq_dec) d l ->
  frequencies (map (fun kv : list nat * nat => (fst kv, INR (snd kv) / IZR (Z.of_nat N))%R) d) l.
Proof.
  intros d l N -> [Nd T]. split; [rewrite map_map; auto|]. intros k x. split.
  - intros I. apply in_map_iff in I. destruct I as [[k' c] [E I]]. cbn in E. injection E as <- <-. apply T in I. destruct I as [I ->]. split; auto. rewrite <- INR_IZR_INZ. auto.
  - intros [I ->]. apply in_map_iff. exists (k, count_occ (list_eq_dec Nat.eq_dec) l k). cbn. split; [rewrite <- INR_IZR_INZ; auto|]. apply T. auto.
Qed.
Lemma key_eqb_ok : forall a b, key_eqb a b = true <-> a = b.
Proof. intros a b. unfold key_eqb. destruct (list_eq_dec Nat.eq_dec a b); split; intros; auto; try discriminate; contradiction. Qed.
Lemma reduce_fold : forall (f : string -> list nat) meas d acc, (forall kv, In kv d -> qk_reduce_bits (fst kv) meas = Ok (f (fst kv))) ->
  for_list d (fun kv a => let* k := qk_reduce_bits (fst kv) meas in Ok (dset key_eqb a k (snd kv))) acc =
  Ok (fold_left (fun (a : list (list nat * nat)) (kv : string * nat) => dset key_eqb a (f (fst kv)) (snd kv)) d acc).
Proof.
  intros f meas d. induction d as [|kv d IH]; intros acc H; [auto|]. cbn [for_list fold_left]. rewrite H by (cbn; auto). cbn [bind]. apply IH. intros; apply H; cbn; auto.
Qed.
(** a key determines the outcomes, and the outcomes determine the key *)
Lemma reduce_tallies : forall (key : nat -> world -> string) n meas ws d,
  (forall w, In w ws -> qk_reduce_bits (key n w) (map Z.of_nat meas) = Ok (picked meas w)) ->
  (forall w w', In w ws -> In w' ws -> picked meas w = picked meas w' -> key n w = key n w') ->
  tallies string_dec d (map (key n) ws) ->
  exists d', qk_reduce d (map Z.of_nat meas) = Ok d' /\ tallies (list_eq_dec Nat.eq_dec) d' (map (picked meas) ws).
Proof.
  intros key n meas ws d R I T.
  set (f := fun s => match qk_reduce_bits s (map Z.of_nat meas) with Ok k => k | Err _ => [] end).
  assert (Fk : forall w, In w ws -> f (key n w) = picked meas w) by (intros w H; unfold f; rewrite R; auto).
  assert (Sub : forall k c, In (k, c) d -> exists w, In w ws /\ key n w = k).
  { intros k c H. apply T in H. destruct H as [H _]. apply in_map_iff in H. destruct H as [w [E H]]. eauto. }
  assert (Inj : forall a b, In a (map (key n) ws) -> In b (map (key n) ws) -> f a = f b -> a = b).
  { intros a b Ha Hb E. apply in_map_iff in Ha. apply in_map_iff in Hb. destruct Ha as [w [<- Hw]]. destruct Hb as [w' [<- Hw']]. rewrite !Fk in E by auto. apply I; auto. }
  pose proof (tallies_map string_dec (list_eq_dec Nat.eq_dec) f d (map (key n) ws) Inj T) as T'. rewrite map_map in T'.
  rewrite (map_ext_in (fun x => f (key n x)) (picked meas)) in T' by exact Fk.
  exists (map (fun kv : string * nat => (f (fst kv), snd kv)) d). split; [|exact T']. unfold qk_reduce. rewrite (reduce_fold f).
  - rewrite (dfold_fresh key_eqb key_eqb_ok (fun kv : string * nat => f (fst kv)) snd d []); [auto|]. cbn [map List.app]. destruct T' as [T' _]. rewrite map_map in T'. exact T'.
  - intros [k c] H. destruct (Sub k c H) as [w [Hw <-]]. cbn [fst]. rewrite Fk, R by auto. auto.
Qed.

(** ** The call of the backend *)
Ltac pick_name :=
  match goal with
  | X : match ?o with Some _ => _ | None => _ end = SelName _ |- _ => destruct o as [x|]; [injection X as ->|discriminate X]
  | X : SelName _ = match ?o with Some _ => _ | None => _ end |- _ => destruct o as [x|]; [injection X as <-|discriminate X]
  end.
Lemma ibmq_step : forall seen h c v a, reachable rng seen h -> circuit_is h c v ->
  exists h', step rng h (ORunWith c "ibmq" a) = (Ok (OutOther "ibmq" (v_gates v) (v_n v)), h') /\ reachable rng seen h' /\ h_pos h' = h_pos h /\
    h_default h' = h_default h /\ (forall c' v', circuit_is h c' v' -> circuit_is h' c' v').
Proof.
  intros seen h c v a Re Ci. destruct (step rng h (ORunWith c "ibmq" a)) as [r h'] eqn:E. exists h'.
  destruct (ProofReach.reach_sim rng _ _ Re) as [s [S0 U]]. pose proof Ci as Ci0. apply (ProofReach.shows_sim rng _ _ _ _ S0) in Ci.
  destruct (ProofReach.step_sim2 rng _ _ _ _ _ S0 E I) as [s' [V S']].
  assert (K : r = Ok (OutOther "ibmq" (v_gates v) (v_n v)) /\ s' = s).
  { inversion V; subst.
    - match goal with X : vstep _ _ (ORun _ _ _) _ _ |- _ => inversion X; subst; try congruence end.
      + pick_name. match goal with X : kind_of _ _ |- _ => cbn in X; destruct X as [[X _]|[[X _]|[[X _]|[[_ X]|[[X _]|[X _]]]]]]; try discriminate X end.
        subst. match goal with X : fresh _ _ _ _ _ _ _ _ |- _ => inversion X end.
      + pick_name. match goal with X : kind_of _ _ |- _ => cbn in X; destruct X as [[X _]|[[X _]|[[X _]|[[_ X]|[[X _]|[X _]]]]]]; try discriminate X; injection X as -> end.
        rewrite Ci in *. match goal with X : Some _ = Some _ |- _ => injection X as <- end. auto.
      + pick_name. contradiction.
      + match goal with X : In _ _ |- _ => cbn in X; destruct X as [<-|[]]; congruence end.
    - exfalso. match goal with X : ~ known _ |- _ => apply X end. eexists. unfold kind_of. auto 10.
    - match goal with X : In _ _ |- _ => cbn in X; destruct X as [<-|[]]; congruence end. }
  destruct K as [-> ->]. split; auto. split; [exact (reach_step rng seen h (ORunWith c "ibmq" a) _ h' Re I E)|].
  split; [rewrite (ProofAPI.sm_pos rng _ _ S'), (ProofAPI.sm_pos rng _ _ S0); reflexivity|].
  split; [eapply ProofReach.global_keep; eauto; intros name; discriminate|].
  intros c' v' H. exact (ProofReach.frame rng seen h (ORunWith c "ibmq" a) _ h' c' v' Re I E (fun x => x) H).
Qed.
End Random.
