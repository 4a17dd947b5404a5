(** Proofs for the Qiskit sampler: any text as a key *)
From Coq Require Import String Ascii List Arith ZArith Bool Reals Lia.
Import ListNotations.
From Verif Require Import Base Cplx Bits ModelTargets ModelGate ModelNumpy ModelBackend ModelCircuit ModelPauli ModelVqe ModelIbmq SpecIbmq ProofIbmqSample.
Local Open Scope nat_scope.

Lemma all_ascii : forall P : ascii -> bool, forallb (fun k => P (ascii_of_nat k)) (seq 0 256) = true -> forall c, P c = true.
Proof.
  intros P H c. rewrite <- (ascii_nat_embedding c). rewrite forallb_forall in H. apply H. apply in_seq. split; [lia|]. rewrite Nat.add_0_l. apply nat_ascii_bounded.
Qed.
Definition res_eqb (a b : res nat) : bool := match a, b with Ok x, Ok y => x =? y | Err ValueError, Err ValueError => true | _, _ => false end.
Lemma res_eqb_eq : forall a b, res_eqb a b = true -> a = b.
Proof. intros [x|e] [y|f] H; cbn in H; try discriminate; try (apply Nat.eqb_eq in H; congruence); destruct e; try discriminate; destruct f; try discriminate; reflexivity. Qed.
Fixpoint position (s : string) (c : ascii) : option nat :=
  match s with "" => None | String a s => if Ascii.eqb a c then Some 0 else option_map S (position s c) end%string.
Lemma position_get : forall s c v, position s c = Some v -> String.get v s = Some c.
Proof.
  induction s as [|a s IH]; intros c v H; [discriminate|]. cbn [position] in H. destruct (Ascii.eqb_spec a c) as [->|N]; [injection H as <-; reflexivity|].
  destruct (position s c) as [v'|] eqn:E; [|discriminate]. injection H as <-. cbn [String.get]. auto.
Qed.
Lemma position_none : forall s c v, position s c = None -> String.get v s <> Some c.
Proof.
  induction s as [|a s IH]; intros c v H; [destruct v; discriminate|]. cbn [position] in H. destruct (Ascii.eqb_spec a c) as [->|N]; [discriminate|].
  destruct (position s c) as [v'|] eqn:E; [discriminate|]. destruct v as [|v]; cbn [String.get]; [congruence|auto].
Qed.
Lemma digit_spec : forall c, digit c = match position "0123456789" c with Some v => Ok v | None => Err ValueError end.
Proof. intros c. apply res_eqb_eq. revert c. apply all_ascii. vm_compute. reflexivity. Qed.
Lemma hex_spec : forall c, hex_digit c = match position "0123456789abcdef" c with Some v => Ok v | None => match position "0123456789ABCDEF" c with Some v => Ok v | None => Err ValueError end end.
Proof. intros c. apply res_eqb_eq. revert c. apply all_ascii. vm_compute. reflexivity. Qed.
Lemma dec_unique : forall v c, String.get v "0123456789" = Some c -> digit c = Ok v.
Proof. intros v c H. rewrite digit_spec. do 10 (destruct v as [|v]; [injection H as <-; reflexivity|]). destruct v; discriminate. Qed.
Lemma hex_unique : forall v c, String.get v "0123456789abcdef" = Some c \/ String.get v "0123456789ABCDEF" = Some c -> hex_digit c = Ok v.
Proof.
  intros v c H. rewrite hex_spec. do 16 (destruct v as [|v]; [destruct H as [H|H]; injection H as <-; reflexivity|]). destruct H as [H|H]; destruct v; discriminate.
Qed.

Lemma map_res_forall2 : forall A B (f : A -> res B) l r, Forall2 (fun a b => f a = Ok b) l r -> map_res f l = Ok r.
Proof. induction 1 as [|a b l r H F IH]; [auto|]. cbn [map_res]. rewrite H. cbn [bind]. rewrite IH. auto. Qed.
Lemma pick_all : forall (l : list nat) (g : nat -> nat) meas, Forall (fun m => nth_error l m = Some (g m)) meas -> map_res (py_get l) (map Z.of_nat meas) = Ok (map g meas).
Proof.
  intros l g meas F. induction F as [|m meas Hm F IH]; [auto|]. cbn [map map_res]. rewrite IH. unfold py_get. destruct (Z.ltb_spec (Z.of_nat m) 0); [lia|].
  destruct (Z.ltb_spec (Z.of_nat m) 0); [lia|]. rewrite Nat2Z.id, Hm. auto.
Qed.
Lemma Forall2_rev' : forall A B (R : A -> B -> Prop) l r, Forall2 R l r -> Forall2 R (rev l) (rev r).
Proof. induction 1; cbn [rev]; [auto|]. apply Forall2_app; auto. Qed.
Lemma text_read : forall bits vs meas, prefix "0x" bits = false -> Forall2 numeral (list_ascii_of_string bits) vs ->
  Forall (fun m => m < List.length vs) meas -> qk_reduce_bits bits (map Z.of_nat meas) = Ok (map (fun m => nth m (rev vs) 0) meas).
Proof.
  intros bits vs meas P F M. unfold qk_reduce_bits, key_digits. rewrite P. rewrite (map_res_forall2 _ _ _ _ (rev vs)).
  - cbn [bind]. apply pick_all. eapply Forall_impl; [|exact M]. intros m L. apply nth_error_nth'. rewrite rev_length. auto.
  - apply Forall2_rev'. clear P M. induction F as [|c v l r H F IH]; constructor; auto. apply dec_unique. auto.
Qed.
Lemma hex_text_int : forall text vs acc, Forall2 hex_numeral (list_ascii_of_string text) vs ->
  hex_int acc text = Ok (fold_left (fun a v => 16 * a + v) vs acc).
Proof.
  induction text as [|c s IH]; intros vs acc F; cbn [list_ascii_of_string] in F; inversion F; subst; [reflexivity|].
  change (hex_int acc (String c s)) with (let* d := hex_digit c in hex_int (16 * acc + d) s). rewrite (hex_unique y c) by auto. cbn [bind fold_left]. apply IH. auto.
Qed.
Lemma prefix_0x : forall s, prefix "0x" (String "0" (String "x" s)) = true. Proof. intros s; destruct s; reflexivity. Qed.
Lemma hex_text_read : forall text vs meas, text <> ""%string ->
  Forall2 hex_numeral (list_ascii_of_string text) vs -> Forall (fun m => m <= 100) meas ->
  qk_reduce_bits ("0x" ++ text) (map Z.of_nat meas) = Ok (map (fun m => if bit (hex_value vs) m then 1 else 0) meas).
Proof.
  intros text vs meas NE F M. change ("0x" ++ text)%string with (String "0" (String "x" text)). unfold qk_reduce_bits, key_digits. rewrite prefix_0x, drop_0x.
  apply String.eqb_neq in NE. rewrite NE. rewrite (hex_text_int text vs 0 F). cbn [bind]. fold (hex_value vs); generalize (hex_value vs); intros k. apply pick_all.
  eapply Forall_impl; [|exact M]. intros m L. cbv beta in L |- *. apply padded_bits. pose proof (bin_nonempty (S k) k (Nat.lt_succ_diag_r k)) as N. lia.
Qed.
Lemma map_res_err : forall A B (f : A -> res B) l, (forall a, (exists b, f a = Ok b) \/ f a = Err ValueError) -> Exists (fun a => f a = Err ValueError) l -> map_res f l = Err ValueError.
Proof.
  intros A B f l D. induction 1 as [a l H|a l H IH]; cbn [map_res]; [rewrite H; auto|]. destruct (D a) as [[b E]|E]; rewrite E; cbn [bind]; [rewrite IH|]; auto.
Qed.
Lemma hex_err : forall text acc, Exists (fun c => forall v, ~ hex_numeral c v) (list_ascii_of_string text) -> hex_int acc text = Err ValueError.
Proof.
  induction text as [|c s IH]; intros acc E; cbn [list_ascii_of_string] in E; [inversion E|]. change (hex_int acc (String c s)) with (let* d := hex_digit c in hex_int (16 * acc + d) s).
  rewrite hex_spec. inversion E; subst.
  - destruct (position "0123456789abcdef" c) as [v|] eqn:P; [apply position_get in P; exfalso; apply (H0 v); unfold hex_numeral; auto|].
    destruct (position "0123456789ABCDEF" c) as [v|] eqn:P'; [apply position_get in P'; exfalso; apply (H0 v); unfold hex_numeral; auto|]. reflexivity.
  - destruct (position "0123456789abcdef" c) as [v|]; cbn [bind]; auto. destruct (position "0123456789ABCDEF" c) as [v|]; cbn [bind]; auto.
Qed.
Lemma bad_text : forall bits meas, prefix "0x" bits = false -> Exists (fun c => forall v, ~ numeral c v) (list_ascii_of_string bits) -> qk_reduce_bits bits meas = Err ValueError.
Proof.
  intros bits meas P E. unfold qk_reduce_bits, key_digits. rewrite P. rewrite map_res_err; [reflexivity| |].
  - intros c. rewrite digit_spec. destruct (position "0123456789" c) as [v|]; [left; eauto|auto].
  - apply Exists_exists in E as (c & I & H). apply Exists_exists. exists c. split; [apply -> in_rev; auto|]. rewrite digit_spec.
    destruct (position "0123456789" c) as [v|] eqn:Q; [apply position_get in Q; apply H in Q; contradiction|auto].
Qed.
Lemma bad_hex_text : forall text meas, text = ""%string \/
  Exists (fun c => forall v, ~ hex_numeral c v) (list_ascii_of_string text) -> qk_reduce_bits ("0x" ++ text) meas = Err ValueError.
Proof.
  intros text meas H. change ("0x" ++ text)%string with (String "0" (String "x" text)). unfold qk_reduce_bits, key_digits. rewrite prefix_0x, drop_0x.
  destruct H as [-> | H]; [reflexivity|]. destruct (String.eqb text ""); [reflexivity|]. rewrite hex_err by auto. reflexivity.
Qed.
Lemma bad_hex : forall text meas, text = ""%string \/
  Exists (fun c => 32 < nat_of_ascii c < 127 /\ c <> "_"%char /\ forall v, ~ hex_numeral c v) (list_ascii_of_string text) -> qk_reduce_bits ("0x" ++ text) meas = Err ValueError.
Proof. intros text meas [E|H]; apply bad_hex_text; [auto|]. right. eapply Exists_impl; [|exact H]. intros c (_ & _ & N). exact N. Qed.
Lemma text_case : Forall2 numeral (list_ascii_of_string "0110") [0; 1; 1; 0] /\ Forall2 hex_numeral (list_ascii_of_string "2aF") [2; 10; 15] /\
  Exists (fun c => forall v, ~ numeral c v) (list_ascii_of_string "01 1") /\
  Exists (fun c => 32 < nat_of_ascii c < 127 /\ c <> "_"%char /\ forall v, ~ hex_numeral c v) (list_ascii_of_string "1g").
Proof.
  refine (conj _ (conj _ (conj _ _))).
  - repeat (apply Forall2_cons; [reflexivity|]). apply Forall2_nil.
  - apply Forall2_cons; [left; reflexivity|]. apply Forall2_cons; [left; reflexivity|]. apply Forall2_cons; [right; reflexivity|]. apply Forall2_nil.
  - do 2 apply Exists_cons_tl. apply Exists_cons_hd. intros v. apply position_none. reflexivity.
  - apply Exists_cons_tl. apply Exists_cons_hd. refine (conj _ (conj _ _)); [cbn; lia|discriminate|]. intros v [H|H]; revert H; apply position_none; reflexivity.
Qed.
