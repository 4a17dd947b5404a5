(** Proofs about target expressions. *)
From Coq Require Import List ZArith Sorting Bool Lia.
Import ListNotations.
From Verif Require Import Base ModelTargets SpecTargets.
Local Open Scope Z_scope.

Lemma loop_up_In : forall fuel i stop step x,
  0 < step -> stop - i <= Z.of_nat fuel ->
  (In x (slice_loop_up fuel i stop step) <-> i <= x < stop /\ (step | x - i)).
Proof.
  induction fuel as [|f IH]; intros i stop step x Hs Hf; simpl.
  - split; [tauto|]. intros [H _]; lia.
  - destruct (Z.ltb_spec i stop) as [H|H]; simpl.
    + rewrite IH by lia. split.
      * intros [->|[Hr [k Hk]]]; [split; [lia|exists 0; lia]|].
        split; [lia|]. exists (k + 1). lia.
      * intros [Hr [k Hk]]. destruct (Z.eq_dec x i) as [->|Hn]; [auto|right].
        assert (0 < k) by nia. split; [nia|]. exists (k - 1). lia.
    + split; [tauto|]. lia.
Qed.

Lemma loop_up_sorted : forall fuel i stop step,
  0 < step -> StronglySorted Z.lt (slice_loop_up fuel i stop step).
Proof.
  assert (B : forall fuel i stop step x, 0 < step -> In x (slice_loop_up fuel i stop step) -> i <= x).
  { induction fuel; simpl; intros; [tauto|].
    destruct (i <? stop); [|simpl in *; tauto].
    destruct H0 as [->|H0]; [lia|]. apply IHfuel in H0; lia. }
  induction fuel; intros; simpl; [constructor|].
  destruct (i <? stop); [|constructor].
  constructor; auto. apply Forall_forall. intros x Hx. apply B in Hx; lia.
Qed.

Lemma loop_down_In : forall fuel i stop step x,
  step < 0 -> i - stop <= Z.of_nat fuel ->
  (In x (slice_loop_down fuel i stop step) <-> stop < x <= i /\ (step | i - x)).
Proof.
  induction fuel as [|f IH]; intros i stop step x Hs Hf; simpl.
  - split; [tauto|]. intros [H _]; lia.
  - destruct (Z.ltb_spec stop i) as [H|H]; simpl.
    + rewrite IH by lia. split.
      * intros [->|[Hr [k Hk]]]; [split; [lia|exists 0; lia]|].
        split; [lia|]. exists (k - 1). lia.
      * intros [Hr [k Hk]]. destruct (Z.eq_dec x i) as [->|Hn]; [auto|right].
        assert (k < 0) by nia. split; [nia|]. exists (k + 1). lia.
    + split; [tauto|]. lia.
Qed.

Lemma loop_down_sorted : forall fuel i stop step,
  step < 0 -> StronglySorted (fun x y => y < x) (slice_loop_down fuel i stop step).
Proof.
  assert (B : forall fuel i stop step x, step < 0 -> In x (slice_loop_down fuel i stop step) -> x <= i).
  { induction fuel; simpl; intros; [tauto|].
    destruct (stop <? i); [|simpl in *; tauto].
    destruct H0 as [->|H0]; [lia|]. apply IHfuel in H0; lia. }
  induction fuel; intros; simpl; [constructor|].
  destruct (stop <? i); [|constructor].
  constructor; auto. apply Forall_forall. intros x Hx. apply B in Hx; lia.
Qed.

Lemma slice_sound : forall a b c n, 0 <= n -> step_of c <> 0 ->
  exists l, slicing_singlevalue (TSlice a b c) n = Gen l None /\ slice_list n a b c l.
Proof.
  intros a b c n Hn Hc.
  assert (FD : first_down n a <= n - 1) by (unfold first_down; destruct a; lia).
  assert (FU : 0 <= first_up n a) by (unfold first_up; destruct a; lia).
  simpl. unfold slice_indices. fold (step_of c).
  destruct (Z.eqb_spec (step_of c) 0) as [|_]; [tauto|].
  destruct (Z.ltb_spec (step_of c) 0) as [Hneg|Hpos].
  - (* descending *)
    destruct (Z.ltb_spec 0 (step_of c)); [lia|].
    eexists; split; [reflexivity|].
    split; [assumption|]. split.
    + intros x. rewrite loop_down_In by (try assumption; lia).
      unfold in_slice, opt_le, first_down, rel.
      split.
      * intros [Hr Hd]. split; [|split; [lia|intros _]].
        -- destruct a as [a|], b as [b|];
             repeat match goal with H : context [if ?p <? ?q then _ else _] |- _ =>
                      destruct (Z.ltb_spec p q) | |- context [if ?p <? ?q then _ else _] =>
                      destruct (Z.ltb_spec p q) end; lia.
        -- assert (E : match a with None => n - 1 | Some s => if s <? 0 then if s + n <? -1 then -1 else s + n
                          else if n - 1 <? s then n - 1 else s end = first_down n a \/
                        match a with None => n - 1 | Some s => if s <? 0 then if s + n <? -1 then -1 else s + n
                          else if n - 1 <? s then n - 1 else s end = -1).
           { unfold first_down, rel. destruct a as [a|]; [|auto].
             repeat match goal with |- context [if ?p <? ?q then _ else _] => destruct (Z.ltb_spec p q) end; lia. }
           destruct E as [E|E].
           ++ rewrite E in Hd, Hr. change (x <= first_down n a /\ opt_le n b x /\ (step_of c | first_down n a - x)).
              split; [exact (proj2 Hr)|]. split; [|assumption].
              unfold opt_le, rel. destruct b as [b|]; [|auto].
              repeat match goal with H : context [if ?p <? ?q then _ else _] |- _ =>
                      destruct (Z.ltb_spec p q) | |- context [if ?p <? ?q then _ else _] =>
                      destruct (Z.ltb_spec p q) end; lia.
           ++ rewrite E in Hr. exfalso.
              destruct b as [b|];
              repeat match goal with H : context [if ?p <? ?q then _ else _] |- _ =>
                      destruct (Z.ltb_spec p q) | |- context [if ?p <? ?q then _ else _] =>
                      destruct (Z.ltb_spec p q) end; lia.
      * intros [Hx [_ Hd]]. destruct (Hd Hneg) as [H1 [H2 H3]]. clear Hd.
        split.
        -- destruct a as [a|], b as [b|];
             repeat match goal with H : context [if ?p <? ?q then _ else _] |- _ =>
                      destruct (Z.ltb_spec p q) | |- context [if ?p <? ?q then _ else _] =>
                      destruct (Z.ltb_spec p q) end; lia.
        -- replace (match a with None => n - 1 | Some s => if s <? 0 then if s + n <? -1 then -1 else s + n
                          else if n - 1 <? s then n - 1 else s end) with (first_down n a); [exact H3|].
           unfold first_down, rel. destruct a as [a|]; [|auto].
             repeat match goal with H : context [if ?p <? ?q then _ else _] |- _ =>
                      destruct (Z.ltb_spec p q) | |- context [if ?p <? ?q then _ else _] =>
                      destruct (Z.ltb_spec p q) end; lia.
    + unfold before. destruct (Z.ltb_spec 0 (step_of c)); [lia|]. apply loop_down_sorted; assumption.
  - destruct (Z.ltb_spec 0 (step_of c)); [|lia].
    eexists; split; [reflexivity|].
    split; [assumption|]. split.
    + intros x. rewrite loop_up_In by (try assumption; lia).
      unfold in_slice, opt_ge, first_up, rel.
      split.
      * intros [Hr Hd]. split; [|split; [intros _|lia]].
        -- destruct a as [a|], b as [b|];
             repeat match goal with H : context [if ?p <? ?q then _ else _] |- _ =>
                      destruct (Z.ltb_spec p q) | |- context [if ?p <? ?q then _ else _] =>
                      destruct (Z.ltb_spec p q) end; lia.
        -- assert (E : match a with None => 0 | Some s => if s <? 0 then if s + n <? 0 then 0 else s + n
                          else if n <? s then n else s end = first_up n a \/
                        match a with None => 0 | Some s => if s <? 0 then if s + n <? 0 then 0 else s + n
                          else if n <? s then n else s end = n).
           { unfold first_up, rel. destruct a as [a|]; [|auto].
             repeat match goal with |- context [if ?p <? ?q then _ else _] => destruct (Z.ltb_spec p q) end; lia. }
           destruct E as [E|E].
           ++ rewrite E in Hd, Hr. change (first_up n a <= x /\ opt_ge n b x /\ (step_of c | x - first_up n a)).
              split; [exact (proj1 Hr)|]. split; [|assumption].
              unfold opt_ge, rel. destruct b as [b|]; [|auto].
              repeat match goal with H : context [if ?p <? ?q then _ else _] |- _ =>
                      destruct (Z.ltb_spec p q) | |- context [if ?p <? ?q then _ else _] =>
                      destruct (Z.ltb_spec p q) end; lia.
           ++ rewrite E in Hr. exfalso.
              destruct b as [b|];
              repeat match goal with H : context [if ?p <? ?q then _ else _] |- _ =>
                      destruct (Z.ltb_spec p q) | |- context [if ?p <? ?q then _ else _] =>
                      destruct (Z.ltb_spec p q) end; lia.
      * intros [Hx [Hd _]]. destruct (Hd H) as [H1 [H2 H3]]. clear Hd.
        split.
        -- destruct a as [a|], b as [b|];
             repeat match goal with H : context [if ?p <? ?q then _ else _] |- _ =>
                      destruct (Z.ltb_spec p q) | |- context [if ?p <? ?q then _ else _] =>
                      destruct (Z.ltb_spec p q) end; lia.
        -- replace (match a with None => 0 | Some s => if s <? 0 then if s + n <? 0 then 0 else s + n
                          else if n <? s then n else s end) with (first_up n a); [exact H3|].
           unfold first_up, rel. destruct a as [a|]; [|auto].
             repeat match goal with H : context [if ?p <? ?q then _ else _] |- _ =>
                      destruct (Z.ltb_spec p q) | |- context [if ?p <? ?q then _ else _] =>
                      destruct (Z.ltb_spec p q) end; lia.
    + unfold before. destruct (Z.ltb_spec 0 (step_of c)); [|lia]. apply loop_up_sorted; assumption.
Qed.

Lemma slice_zero_step : forall a b c n, step_of c = 0 ->
  slicing_singlevalue (TSlice a b c) n = Gen [] (Some ValueError).
Proof.
  intros. simpl. unfold slice_indices. fold (step_of c). rewrite H. reflexivity.
Qed.

(** two lists with the same elements, strictly sorted by the same order, are equal *)
Lemma sorted_unique : forall (R : Z -> Z -> Prop), (forall x, ~ R x x) -> (forall x y, R x y -> R y x -> False) ->
  forall l1 l2, StronglySorted R l1 -> StronglySorted R l2 -> (forall x, In x l1 <-> In x l2) -> l1 = l2.
Proof.
  intros R Hir Has. induction l1 as [|a l1 IH]; intros [|b l2] H1 H2 H; auto.
  - exfalso. apply (H b). left; auto.
  - exfalso. apply (H a). left; auto.
  - inversion H1 as [|? ? S1 F1]; inversion H2 as [|? ? S2 F2]; subst.
    rewrite Forall_forall in F1, F2.
    assert (a = b).
    { destruct (proj1 (H a) (or_introl eq_refl)) as [|Ha]; auto.
      destruct (proj2 (H b) (or_introl eq_refl)) as [|Hb]; auto.
      exfalso. eapply Has; eauto. }
    subst b. f_equal. apply IH; auto.
    intros x. specialize (H x). simpl in H. split; intros Hx.
    + destruct (proj1 H (or_intror Hx)); auto. subst x. exfalso. apply (Hir a); auto.
    + destruct (proj2 H (or_intror Hx)); auto. subst x. exfalso. apply (Hir a); auto.
Qed.

Lemma slice_list_unique : forall n a b c l1 l2,
  slice_list n a b c l1 -> slice_list n a b c l2 -> l1 = l2.
Proof.
  intros n a b c l1 l2 [_ [I1 S1]] [_ [I2 S2]].
  apply (sorted_unique (before c)); auto.
  - unfold before; intros x; destruct (0 <? step_of c); lia.
  - unfold before; intros x y; destruct (0 <? step_of c); lia.
  - intros x. rewrite I1, I2. tauto.
Qed.

Lemma slice_in_register : forall n a b c l, slice_list n a b c l -> Forall (fun x => 0 <= x < n) l.
Proof.
  intros n a b c l [_ [I _]]. apply Forall_forall. intros x Hx. apply I in Hx. apply Hx.
Qed.

Lemma single_iff : forall n t l, 0 <= n ->
  (slicing_singlevalue t n = Gen l None <-> denotes1 n t l).
Proof.
  intros n t l Hn. split.
  - destruct t as [z|a b c|ts|]; simpl; intros H; try discriminate.
    + injection H; intros <-. constructor.
    + destruct (Z.eq_dec (step_of c) 0) as [E|E].
      * pose proof (slice_zero_step a b c n E) as Hz. simpl in Hz. rewrite Hz in H. discriminate.
      * destruct (slice_sound a b c n Hn E) as [l' [H1 H2]]. simpl in H1. rewrite H1 in H.
        injection H; intros <-. constructor; auto.
  - intros H. inversion H; subst.
    + reflexivity.
    + destruct (slice_sound a b c n Hn (proj1 H0)) as [l' [H1 H2]].
      rewrite H1. f_equal. eapply slice_list_unique; eauto.
Qed.

Lemma gen_app_none : forall A (a b : gen A) l,
  gen_app a b = Gen l None <-> exists la lb, a = Gen la None /\ b = Gen lb None /\ l = la ++ lb.
Proof.
  intros A [ya ra] [yb rb] l. unfold gen_app. simpl. destruct ra; split; intros H.
  - discriminate.
  - destruct H as [la [lb [H _]]]; discriminate.
  - injection H; intros -> <-. exists ya, yb; auto.
  - destruct H as [la [lb [H1 [H2 ->]]]]. injection H1; intros ->. injection H2; intros -> ->. reflexivity.
Qed.

Lemma tuple_iff : forall n ts l, 0 <= n ->
  (gen_concat (map (fun a => slicing_singlevalue a n) ts) = Gen l None <->
   exists ls, Forall2 (denotes1 n) ts ls /\ l = concat ls).
Proof.
  intros n ts l Hn. revert l. induction ts as [|t ts IH]; intros l; simpl.
  - split.
    + intros H; injection H; intros <-. exists []. split; [constructor|reflexivity].
    + intros [ls [H ->]]. inversion H; reflexivity.
  - rewrite gen_app_none. split.
    + intros [la [lb [H1 [H2 ->]]]]. apply IH in H2. destruct H2 as [ls [H2 ->]].
      exists (la :: ls). split; [constructor; auto|reflexivity]. apply single_iff; auto.
    + intros [ls [H ->]]. inversion H as [|? l1 ? ls' D1 D2]; subst. exists l1, (concat ls').
      split; [apply single_iff; auto|]. split; [|reflexivity]. apply IH. exists ls'; auto.
Qed.

Lemma slicing_iff : forall n t l, 0 <= n ->
  (slicing t n = Gen l None <-> denotes n t l).
Proof.
  intros n t l Hn. split.
  - destruct t as [z|a b c|ts|]; simpl; intros H.
    + constructor. apply single_iff; auto.
    + constructor. apply single_iff; auto.
    + apply tuple_iff in H; auto. destruct H as [ls [H ->]]. apply den_tuple; auto.
    + discriminate.
  - intros H. inversion H as [? ? H1|ts ls H1]; subst.
    + destruct t; try (apply single_iff; auto; fail); inversion H1.
    + apply tuple_iff; auto. exists ls; auto.
Qed.

Lemma denotes_fun : forall n t l1 l2, 0 <= n -> denotes n t l1 -> denotes n t l2 -> l1 = l2.
Proof.
  intros n t l1 l2 Hn H1 H2. apply slicing_iff in H1; auto. apply slicing_iff in H2; auto.
  rewrite H1 in H2. injection H2; auto.
Qed.

(** Every slice, whatever its bounds, and every tuple of slices and in-range integers stays in the register. *)
Lemma denotes_in_register : forall n t l, denotes n t l -> in_range n t -> Forall (fun x => 0 <= x < n) l.
Proof.
  assert (A : forall n t l, denotes1 n t l -> in_range1 n t -> Forall (fun x => 0 <= x < n) l).
  { intros n t l H R. inversion H; subst; simpl in R.
    - constructor; [|constructor]. unfold rel. destruct (Z.ltb_spec z 0); lia.
    - eapply slice_in_register; eauto. }
  intros n t l H R. inversion H as [? ? H1|ts ls H1]; subst.
  - eapply A; eauto. destruct t; auto. inversion H1.
  - simpl in R. clear H. induction H1; simpl; [constructor|].
    inversion R; subst. apply Forall_app. split; [eapply A; eauto|].
    apply IHForall2; auto.
Qed.

(** The exceptions: a tuple raises the exception of its first bad member. *)
Lemma slicing_errors : forall t n e, raised (slicing t n) = Some e ->
  (e = ValueError \/ e = TypeError).
Proof.
  assert (A : forall t n e, raised (slicing_singlevalue t n) = Some e -> (e = ValueError \/ e = TypeError)).
  { intros [z|a b c|ts|] n e; simpl; intros H; try discriminate; try (injection H; intros <-; auto; fail).
    unfold slice_indices in H. destruct (_ =? 0); simpl in H; [injection H; intros <-; auto|].
    destruct (0 <? _); discriminate. }
  intros t n e H. destruct t as [z|a b c|ts|].
  - discriminate H.
  - apply (A (TSlice a b c) n e). exact H.
  - simpl in H. induction ts as [|t ts IH]; simpl in H; [discriminate|].
    unfold gen_app in H. destruct (raised (slicing_singlevalue t n)) eqn:E.
    + rewrite E in H. injection H; intros <-. eapply A; eauto.
    + apply IH. exact H.
  - injection H; intros <-; auto.
Qed.

(** [qubit_pairs] *)
Lemma all_differ_iff : forall l, all_differ l = true <-> Forall (fun p => fst p <> snd p) l.
Proof.
  induction l as [|[a b] l IH]; simpl; split; intros H; auto.
  - destruct (Z.eqb_spec a b); [discriminate|]. constructor; auto. apply IH; auto.
  - inversion H; subst. simpl in *. destruct (Z.eqb_spec a b); [tauto|]. apply IH; auto.
Qed.

Lemma map_fst_combine : forall A B (l : list A) (m : list B), List.length l = List.length m -> map fst (combine l m) = l.
Proof. induction l; destruct m; simpl; intros; try discriminate; auto. f_equal; auto. Qed.
Lemma map_snd_combine : forall A B (l : list A) (m : list B), List.length l = List.length m -> map snd (combine l m) = m.
Proof. induction l; destruct m; simpl; intros; try discriminate; auto. f_equal; auto. Qed.
Lemma combine_map_fst_snd : forall A B (l : list (A * B)), combine (map fst l) (map snd l) = l.
Proof. induction l as [|[]]; simpl; auto. f_equal; auto. Qed.

Lemma gen_list_iff : forall A (g : gen A) l, gen_list g = Ok l <-> g = Gen l None.
Proof.
  intros A [y r] l. unfold gen_list; simpl. destruct r; split; intros H; try discriminate; injection H; intros <-; auto.
Qed.

Lemma pairs_iff : forall n t ps, 0 <= n -> (qubit_pairs t n = Ok ps <-> denotes_pairs n t ps).
Proof.
  intros n t ps Hn. split.
  - destruct t as [z|a b c|ts|]; simpl; try discriminate.
    destruct ts as [|a [|b [|? ?]]]; try discriminate.
    destruct (gen_list (slicing a n)) as [la|] eqn:Ea; simpl; [|discriminate].
    destruct (gen_list (slicing b n)) as [lb|] eqn:Eb; simpl; [|discriminate].
    destruct (Nat.eqb_spec (List.length la) (List.length lb)); simpl; [|discriminate].
    destruct (all_differ (combine la lb)) eqn:Ed; [|discriminate].
    intros H; injection H; intros <-.
    apply gen_list_iff in Ea, Eb. apply slicing_iff in Ea; auto. apply slicing_iff in Eb; auto.
    exists a, b, la, lb. repeat split; auto.
    + apply map_fst_combine; auto.
    + apply map_snd_combine; auto.
    + apply all_differ_iff; auto.
  - intros [a [b [la [lb [-> [Ha [Hb [H1 [H2 H3]]]]]]]]]. simpl.
    apply slicing_iff in Ha; auto. apply slicing_iff in Hb; auto.
    rewrite Ha, Hb. simpl. subst la lb. rewrite !map_length, Nat.eqb_refl. simpl.
    rewrite combine_map_fst_snd. apply all_differ_iff in H3. rewrite H3. reflexivity.
Qed.

(** when both parts denote lists, the pairs are refused, with ValueError, exactly for the stated reasons *)
Lemma pairs_refused : forall n a b la lb, 0 <= n -> denotes n a la -> denotes n b lb ->
  (qubit_pairs (TTuple [a; b]) n = Err ValueError <->
   List.length la <> List.length lb \/ exists k, (k < List.length la)%nat /\ nth k la 0 = nth k lb 0).
Proof.
  intros n a b la lb Hn Ha Hb. apply slicing_iff in Ha; auto. apply slicing_iff in Hb; auto.
  simpl. rewrite Ha, Hb. simpl. clear Ha Hb.
  destruct (Nat.eqb_spec (List.length la) (List.length lb)) as [E|E]; simpl.
  - assert (Q : all_differ (combine la lb) = false <-> exists k, (k < List.length la)%nat /\ nth k la 0 = nth k lb 0).
    { revert lb E. induction la as [|x la IH]; intros [|y lb] E; simpl in *; try discriminate.
      - split; [discriminate|]. intros [k [Hk _]]; lia.
      - destruct (Z.eqb_spec x y) as [->|Hxy].
        + split; auto. intros _. exists 0%nat. split; [lia|reflexivity].
        + rewrite IH by lia. split.
          * intros [k [Hk Hn']]. exists (S k). split; [lia|exact Hn'].
          * intros [[|k] [Hk Hn']]; [simpl in Hn'; contradiction|]. exists k. split; [lia|exact Hn']. }
    destruct (all_differ (combine la lb)); split; intros H; try discriminate; auto.
    + destruct H as [H|H]; [contradiction|]. apply Q in H. discriminate.
    + right. apply Q. reflexivity.
  - split; auto.
Qed.

Lemma pairs_arity : forall n t, (forall a b, t <> TTuple [a; b]) -> qubit_pairs t n = Err ValueError.
Proof.
  intros n t H. destruct t as [z|a b c|ts|]; simpl; auto.
  destruct ts as [|a [|b [|? ?]]]; auto. exfalso. eapply H; reflexivity.
Qed.

Lemma pairs_in_register : forall n a b ps, 0 <= n -> qubit_pairs (TTuple [a; b]) n = Ok ps ->
  in_range n a -> in_range n b ->
  Forall (fun p => 0 <= fst p < n /\ 0 <= snd p < n /\ fst p <> snd p) ps.
Proof.
  intros n a b ps Hn H Ra Rb. apply pairs_iff in H; auto.
  destruct H as [a' [b' [la [lb [E [Ha [Hb [H1 [H2 H3]]]]]]]]]. injection E; intros <- <-. clear E.
  pose proof (denotes_in_register n a la Ha Ra) as Fa.
  pose proof (denotes_in_register n b lb Hb Rb) as Fb.
  rewrite Forall_forall in *. intros p Hp. repeat split.
  1,2: apply Fa; rewrite <- H1; apply in_map; auto.
  1,2: apply Fb; rewrite <- H2; apply in_map; auto.
  apply H3; auto.
Qed.

Definition not_index (t : target) : Prop := match t with TInt _ | TSlice _ _ _ => False | _ => True end.

Lemma slicing_type_error : forall n ts ls t rest, 0 <= n -> Forall2 (denotes1 n) ts ls -> not_index t ->
  slicing (TTuple (ts ++ t :: rest)) n = Gen (concat ls) (Some TypeError).
Proof.
  intros n ts ls t rest Hn H Ht. simpl. induction H; simpl.
  - destruct t; simpl in Ht; try contradiction; reflexivity.
  - apply single_iff in H; auto. rewrite H. unfold gen_app; simpl. rewrite IHForall2. reflexivity.
Qed.

Lemma slicing_value_error : forall n ts ls a b c rest, 0 <= n -> Forall2 (denotes1 n) ts ls -> step_of c = 0 ->
  slicing (TTuple (ts ++ TSlice a b c :: rest)) n = Gen (concat ls) (Some ValueError).
Proof.
  intros n ts ls a b c rest Hn H Hc. unfold slicing. induction H.
  - simpl app. cbn [map gen_concat]. rewrite slice_zero_step by assumption. reflexivity.
  - apply single_iff in H; auto. rewrite <- app_comm_cons. cbn [map gen_concat]. rewrite H.
    unfold gen_app; simpl raised; cbn iota. rewrite IHForall2. reflexivity.
Qed.

Lemma slice_example : slice_list 7 (Some (-2)) None (Some (-2)) [5; 3; 1].
Proof.
  destruct (slice_sound (Some (-2)) None (Some (-2)) 7) as [l [H1 H2]]; [lia|simpl; lia|].
  vm_compute in H1. injection H1; intros <-. exact H2.
Qed.

Lemma out_of_register_witness : exists n z l, 0 <= n /\ slicing (TInt z) n = Gen l None /\
  ~ Forall (fun x => 0 <= x < n) l.
Proof. exists 2, (-3), [-1]. split; [lia|]. split; [reflexivity|]. intros H. inversion H; lia. Qed.

Lemma C02_example : denotes 4 (TTuple [TInt (-1); TInt 0; TInt 3]) [3; 0; 3] /\
  in_range 4 (TTuple [TInt (-1); TInt 0; TInt 3]) /\ not_index TOther.
Proof.
  split; [|split; [repeat constructor; lia|exact I]].
  apply (den_tuple 4 [TInt (-1); TInt 0; TInt 3] [[3]; [0]; [3]]).
  repeat constructor; apply (den_int 4).
Qed.
