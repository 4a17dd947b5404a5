(** Proofs for the backend ibmq: texts of registers, the calls into Qiskit, counts. *)
From Coq Require Import String Ascii List Arith ZArith Bool Reals Lia Lra HexadecimalString HexadecimalNat.
Import ListNotations.
From Verif Require Import Base Cplx Bits ModelTargets ModelGate ModelNumpy ModelNumba ModelBackend ModelPauli ModelQasm ModelIbmq SpecTargets SpecQuantum SpecCircuit SpecMeasure SpecQasm
  SpecQasmRun SpecIbmq ProofBackend ProofMeasure ProofQasm ProofQasmOps ProofQasmProps ProofQasmRun.
Local Open Scope nat_scope.

(** ** Texts *)
Lemma list_string : forall l, list_ascii_of_string (string_of_list_ascii l) = l. Proof. exact list_ascii_of_string_of_list_ascii. Qed.
Lemma string_list : forall s, string_of_list_ascii (list_ascii_of_string s) = s. Proof. exact string_of_list_ascii_of_string. Qed.
Lemma rev_rev_string : forall s, rev_string (rev_string s) = s.
Proof. intros. unfold rev_string. rewrite list_string, rev_involutive, string_list. auto. Qed.
Lemma rev_string_inj : forall s t, rev_string s = rev_string t -> s = t.
Proof. intros s t E. rewrite <- (rev_rev_string s), E. apply rev_rev_string. Qed.
Lemma map_seq_rev : forall A (f : nat -> A) n, rev (map f (seq 0 n)) = map (fun i => f (n - 1 - i)) (seq 0 n).
Proof.
  intros A f n. apply (nth_ext _ _ (f 0) (f (n - 1 - 0))); [rewrite rev_length, !map_length; auto|].
  intros i L. rewrite rev_length, map_length, seq_length in L. rewrite rev_nth by (rewrite map_length, seq_length; auto). rewrite map_length, seq_length.
  rewrite (map_nth (fun i => f (n - 1 - i)) (seq 0 n) 0 i), (map_nth f (seq 0 n) 0 (n - S i)), !seq_nth by lia. f_equal. lia.
Qed.
Lemma register_shot : forall n w, rev_string (register_text n w) = shot_text n w.
Proof.
  intros. apply rev_string_inj. rewrite rev_rev_string. unfold rev_string, register_text, shot_text. rewrite list_string. f_equal. symmetry.
  apply (map_seq_rev _ (fun i => bit_char (w_bits w i))).
Qed.

(** ** Dictionaries *)
Section Fresh.
Context {K V A : Type}.
Variable eqb : K -> K -> bool.
Hypothesis eqb_ok : forall a b, eqb a b = true <-> a = b.
Lemma dset_fresh : forall (d : list (K * V)) k v, ~ In k (map fst d) -> dset eqb d k v = d ++ [(k, v)].
Proof.
  induction d as [|[k' v'] d IH]; intros k v N; [auto|]. cbn [dset List.app]. destruct (eqb k k') eqn:E; [apply eqb_ok in E; subst; exfalso; apply N; cbn; auto|].
  rewrite IH; auto. intros I. apply N. cbn. auto.
Qed.
Lemma dfold_fresh : forall (f : A -> K) (g : A -> V) l d, NoDup (map fst d ++ map f l) ->
  fold_left (fun acc x => dset eqb acc (f x) (g x)) l d = d ++ map (fun x => (f x, g x)) l.
Proof.
  intros f g. induction l as [|x l IH]; intros d N; cbn [fold_left map]; [rewrite app_nil_r; auto|].
  assert (F : ~ In (f x) (map fst d)) by (intros I; apply (NoDup_remove_2 _ _ _ N); apply in_or_app; auto).
  rewrite dset_fresh by auto. rewrite IH; [rewrite <- app_assoc; auto|]. rewrite map_app. cbn [map fst]. rewrite <- app_assoc. exact N.
Qed.
End Fresh.
Lemma rev_counts_map : forall d, NoDup (map fst d) -> rev_counts d = map (fun kv : string * nat => (rev_string (fst kv), snd kv)) d.
Proof.
  intros d N. unfold rev_counts. rewrite (dfold_fresh String.eqb String.eqb_eq (fun kv => rev_string (fst kv)) snd d []); [auto|].
  cbn [map List.app]. rewrite <- (map_map fst rev_string). apply FinFun.Injective_map_NoDup; auto. intros s t. apply rev_string_inj.
Qed.

(** ** Tallies *)
Section Tallies.
Context {K L : Type}.
Variable decK : forall a b : K, {a = b} + {a <> b}.
Variable decL : forall a b : L, {a = b} + {a <> b}.
Lemma count_inj : forall (f : K -> L) l k, (forall a, In a l -> f a = f k -> a = k) -> count_occ decL (map f l) (f k) = count_occ decK l k.
Proof.
  intros f l k. induction l as [|a l IH]; intros H; [auto|]. cbn [map count_occ]. rewrite IH by (intros; apply H; cbn; auto).
  destruct (decL (f a) (f k)) as [E|E]; destruct (decK a k) as [E'|E']; auto; try (subst; contradiction). exfalso. apply E'. apply H; cbn; auto.
Qed.
Lemma tallies_map : forall (f : K -> L) d l, (forall a b, In a l -> In b l -> f a = f b -> a = b) -> tallies decK d l ->
  tallies decL (map (fun kv => (f (fst kv), snd kv)) d) (map f l).
Proof.
  intros f d l I [N T]. assert (In1 : forall k c, In (k, c) d -> In k l) by (intros k c H; apply T in H; tauto). split.
  - rewrite map_map. cbn [fst]. rewrite <- (map_map fst f).
    assert (S0 : forall k, In k (map fst d) -> In k l) by (intros k H; apply in_map_iff in H; destruct H as [[k' c] [<- H]]; eapply In1; eauto).
    revert N S0. generalize (map fst d) as ks. induction ks as [|k ks IH]; intros N S0; [constructor|]. inversion N; subst. cbn [map]. constructor.
    + intros H. apply in_map_iff in H. destruct H as [k' [E H]]. assert (k' = k) as -> by (apply I; auto; apply S0; cbn; auto). contradiction.
    + apply IH; auto. intros; apply S0; cbn; auto.
  - intros k c. split.
    + intros H. apply in_map_iff in H. destruct H as [[k' c'] [E H]]. cbn in E. injection E as <- <-. pose proof (In1 _ _ H) as I1. apply T in H.
      split; [apply in_map; auto|]. destruct H as [_ ->]. symmetry. apply count_inj. intros; apply I; auto.
    + intros [H ->]. apply in_map_iff in H. destruct H as [k' [<- H]]. apply in_map_iff. exists (k', count_occ decK l k'). cbn. split.
      * f_equal. symmetry. apply count_inj. intros; apply I; auto.
      * apply T. auto.
Qed.
End Tallies.
Lemma rev_counts_backwards : forall d, backwards d (rev_counts d).
Proof.
  intros d N. rewrite (rev_counts_map d N), !map_map. split; apply map_ext; [auto|]. intros kv. cbn [fst]. apply list_string.
Qed.

Lemma tallies_total : forall K dec (d : list (K * nat)) l, tallies dec d l -> list_sum (map snd d) = List.length l.
Proof.
  intros K dec d l [N T].
  assert (G : forall d l, NoDup (map fst d) -> (forall k, In k l -> In k (map fst d)) -> list_sum (map (fun kv : K * nat => count_occ dec l (fst kv)) d) = List.length l).
  { clear. intros d l. revert d. induction l as [|a l IH]; intros d N C; cbn [List.length].
    - clear. induction d as [|x d IH]; [auto|]. cbn. auto.
    - rewrite <- (IH d N) by (intros; apply C; cbn; auto). assert (I : In a (map fst d)) by (apply C; cbn; auto). clear C IH.
      revert N I. induction d as [|[k v] d IH]; intros N I; [contradiction|]. inversion N; subst. cbn [map fst list_sum fold_right count_occ].
      destruct (dec a k) as [<- |E].
      + assert (X : map (fun kv : K * nat => count_occ dec (a :: l) (fst kv)) d = map (fun kv : K * nat => count_occ dec l (fst kv)) d).
        { apply map_ext_in. intros [k' v'] H. cbn [fst count_occ]. destruct (dec a k') as [<- |]; auto. exfalso. apply H1. apply in_map_iff. exists (a, v'). auto. }
        unfold list_sum in *. cbn [fold_right] in *. cbn [count_occ] in X. rewrite X. auto.
      + destruct I as [I|I]; [cbn in I; congruence|]. specialize (IH H2 I). unfold list_sum in *. cbn [count_occ fold_right] in *. rewrite IH. lia. }
  rewrite <- (G d l N).
  - f_equal. apply map_ext_in. intros [k v] H. apply T in H. cbn. tauto.
  - intros k H. apply in_map_iff. exists (k, count_occ dec l k). split; auto. apply T. auto.
Qed.

(** ** Runs *)
Section Run.
Variables (Q : qiskit) (show : R -> string) (read : string -> option R) (rng : nat -> R).
Variables (n : nat) (gs : list gate) (apps : list app).
Hypotheses (A : circuit_apps n gs apps) (M : Forall is_method gs) (NC : Forall not_cu2 gs).
Hypothesis L : Forall (legible show read) (flat_map stmt_params (flat_map block apps)).
Hypothesis Hn : 0 < n.

Lemma same_key : forall key, (forall w w', w_bits w = w_bits w' -> key n w = key n w' :> string) -> forall us ws, Forall2 same_world us ws -> map (key n) us = map (key n) ws.
Proof. intros key K us ws F. induction F as [|u w us ws [B _] F IH]; [auto|]. cbn [map]. rewrite IH, (K u w B). auto. Qed.
Lemma executed : forall pos key b kw N, (forall w w', w_bits w = w_bits w' -> key n w = key n w' :> string) -> executes Q read rng pos key b kw ->
  exists text c j r d ws, qasm_run show gs n true = Ok text /\ qk_parse Q text = Ok c /\ qk_execute Q c b (Z.of_nat N) kw = Ok j /\ qk_result Q j = Ok r /\
    qk_counts Q r = Ok d /\ shots rng n gs pos ws /\ List.length ws = N /\ tallies string_dec d (map (key n) ws).
Proof.
  intros pos key b kw N K [_ X]. destruct (text_shots rng show read n gs apps A M NC L) as [text [p [E [R [Pq [Pc S0]]]]]].
  assert (P : p_body p = flat_map block apps).
  { destruct (text_ok show read n gs apps A M L) as [[text' [E' R']] _]. rewrite E in E'. injection E' as <-. rewrite R in R'. injection R' as ->. auto. }
  destruct (X text p N R) as [c [j [r [d [us [E1 [E2 [E3 [E4 [U [Lu T]]]]]]]]]]]; [lia|congruence|rewrite P, Pq; eapply blocks_ok; eauto|].
  destruct (shots_exist rng n gs (apps_valid n gs apps A) N pos) as [ws [Lw Sw]]. destruct (S0 pos ws Sw) as [us' [U' F]].
  assert (Lu' : List.length us' = List.length ws) by (clear - F; induction F; cbn; auto).
  assert (us = us') as -> by (eapply prog_shots_det; eauto; lia).
  exists text, c, j, r, d, ws. repeat (split; [auto; fail|]). rewrite Pc in T. rewrite <- (same_key key K us' ws F). exact T.
Qed.
Lemma ibmq_counts : forall pos b kw N, executes Q read rng pos register_text b kw -> forall s, match s with Some z => z | None => 1024%Z end = Z.of_nat N ->
  forall back, back = Some b \/ (back = None /\ qk_aer Q "qasm_simulator" = Ok b) ->
  exists d ws cs, ibmq_run Q show gs n back s None kw = (Ok (QCounts Q d), cs) /\ shots rng n gs pos ws /\ List.length ws = N /\
    tallies string_dec d (map (shot_text n) ws) /\ list_sum (map snd d) = N.
Proof.
  intros pos b kw N X s Es back B.
  destruct (executed pos register_text b kw N) as [text [c [j [r [d [ws [E [E1 [E2 [E3 [E4 [S0 [Lw T]]]]]]]]]]]]]; auto.
  { intros w w' Eb. unfold register_text. rewrite Eb. auto. }
  assert (T' : tallies string_dec (rev_counts d) (map (shot_text n) ws)).
  { rewrite rev_counts_map by apply T. replace (map (shot_text n) ws) with (map rev_string (map (register_text n) ws)).
    - apply (tallies_map string_dec string_dec rev_string d); auto. intros a b' _ _. apply rev_string_inj.
    - rewrite map_map. apply map_ext. intros w. apply register_shot. }
  exists (rev_counts d), ws. destruct X as [Im _]. unfold ibmq_run, runner. rewrite E, Im. cbn [existsb String.eqb Ascii.eqb Bool.eqb negb orb]. rewrite E1. cbn [calls].
  rewrite Es. destruct B as [-> |[-> Ea]]; [|rewrite Ea]; cbn [calls]; rewrite E2; cbn [calls]; rewrite E3; cbn [calls]; rewrite E4; cbn [calls];
    eexists; (split; [reflexivity|]); repeat (split; [auto; fail|]); rewrite (tallies_total _ _ _ _ T'), map_length; auto.
Qed.
(** hexadecimal texts are read backwards as well *)
Lemma hex_keys : forall pos b kw N, executes Q read rng pos register_hex b kw -> 0 < N ->
  exists d ws cs, ibmq_run Q show gs n (Some b) (Some (Z.of_nat N)) None kw = (Ok (QCounts Q d), cs) /\ shots rng n gs pos ws /\ List.length ws = N /\
    d <> [] /\ Forall (fun kv : string * nat => exists s, fst kv = (s ++ "x0")%string) d /\ forall (kv : string * nat) w, In kv d -> fst kv <> shot_text n w.
Proof.
  intros pos b kw N X PN. destruct (executed pos register_hex b kw N) as [text [c [j [r [d [ws [E [E1 [E2 [E3 [E4 [S0 [Lw T]]]]]]]]]]]]]; auto.
  { intros w w' Eb. unfold register_hex, register_number. rewrite Eb. auto. }
  assert (K : forall kv, In kv (rev_counts d) -> exists s, fst kv = (s ++ "x0")%string).
  { intros kv I. rewrite rev_counts_map in I by apply T. apply in_map_iff in I. destruct I as [[k v] [<- I]]. apply T in I. destruct I as [I _].
    apply in_map_iff in I. destruct I as [w [<- _]]. cbn [fst]. unfold register_hex. generalize (NilZero.string_of_uint (Nat.to_hex_uint (register_number n w))). intros s.
    exists (rev_string s). unfold rev_string. cbn [String.append list_ascii_of_string rev]. rewrite <- app_assoc. cbn [List.app].
    generalize (rev (list_ascii_of_string s)). intros l. induction l as [|a l IH]; [auto|]. cbn. rewrite IH. auto. }
  exists (rev_counts d), ws. destruct X as [Im _]. unfold ibmq_run, runner. rewrite E, Im. cbn [existsb String.eqb Ascii.eqb Bool.eqb negb orb]. rewrite E1. cbn [calls].
  rewrite E2. cbn [calls]. rewrite E3. cbn [calls]. rewrite E4. cbn [calls]. eexists. split; [reflexivity|]. split; [auto|]. split; [auto|]. split; [|split].
  - rewrite rev_counts_map by apply T. destruct ws as [|w ws]; [cbn in Lw; lia|]. destruct d as [|kv d]; [|discriminate].
    exfalso. destruct T as [_ T]. apply (proj2 (T (register_hex n w) (count_occ string_dec (map (register_hex n) (w :: ws)) (register_hex n w)))). split; [left; auto|auto].
  - apply Forall_forall. auto.
  - intros kv w I Eq. destruct (K kv I) as [s Es]. rewrite Eq in Es. apply (f_equal list_ascii_of_string) in Es. unfold shot_text in Es. rewrite list_string in Es.
    assert (In "x"%char (list_ascii_of_string (s ++ "x0")%string)) as H by (clear; induction s; cbn; auto).
    rewrite <- Es in H. apply in_map_iff in H. destruct H as [i [H _]]. unfold bit_char in H. destruct (w_bits w i =? 0); discriminate.
Qed.
End Run.
