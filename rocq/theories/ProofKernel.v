(** Loops whose iterations access disjoint parts of an array. *)
From Coq Require Import List Arith NArith Nnat Bool Lia.
Import ListNotations.
From Verif Require Import Base Cplx ModelNumpy ModelNumba SpecNumba ProofIndex.

Definition addr (x : instr) : N := match x with Load _ i => i | Store i _ => i end.
Definition fp (k : kernel) (i : N) : list N := map addr (k_body k i).
Definition cell (a : carr) (x : N) : option C := nth_error a (N.to_nat x).

(** accesses stay in the array, and different iterations access different entries *)
Definition safe (k : kernel) (len : nat) : Prop :=
  (forall i x, In i (iterations k) -> In x (fp k i) -> (N.to_nat x < len)%nat) /\
  (forall i j x, In i (iterations k) -> In j (iterations k) -> In x (fp k i) -> In x (fp k j) -> i = j).

Lemma nth_error_ext : forall A (l m : list A), (forall j, nth_error l j = nth_error m j) -> l = m.
Proof.
  induction l as [|x l IH]; intros m H; destruct m as [|y m]; auto.
  - specialize (H 0). discriminate.
  - specialize (H 0). discriminate.
  - pose proof (H 0) as H0. simpl in H0. injection H0; intros ->. f_equal. apply IH. intros j. apply (H (S j)).
Qed.

Lemma list_set_ok : forall A (a : list A) i v, i < List.length a -> exists a', list_set a i v = Ok a' /\
  List.length a' = List.length a /\ forall j, nth_error a' j = if j =? i then Some v else nth_error a j.
Proof.
  induction a as [|x a IH]; intros i v H; simpl in *; [lia|]. destruct i as [|i].
  - eexists; split; [reflexivity|]. split; [reflexivity|]. intros [|j]; reflexivity.
  - destruct (IH i v ltac:(lia)) as [a' [-> [L E]]]. simpl. eexists; split; [reflexivity|]. simpl. split; [lia|].
    intros [|j]; simpl; auto.
Qed.

Lemma to_nat_eqb : forall x y, (N.to_nat x =? N.to_nat y) = (x =? y)%N.
Proof. intros. destruct (N.eqb_spec x y); [subst; apply Nat.eqb_refl|]. apply Nat.eqb_neq. intro E. apply N2Nat.inj in E. auto. Qed.

Lemma exec_instr_ok : forall x a regs, N.to_nat (addr x) < List.length a ->
  exists a' regs', exec_instr x (a, regs) = Ok (a', regs') /\ List.length a' = List.length a /\
    (forall y, y <> addr x -> cell a' y = cell a y) /\
    forall b, List.length b = List.length a -> cell b (addr x) = cell a (addr x) ->
      exists b', exec_instr x (b, regs) = Ok (b', regs') /\ List.length b' = List.length b /\ cell b' (addr x) = cell a' (addr x).
Proof.
  intros x a regs H. destruct x as [r i|i f]; simpl in *; unfold load, store, cell in *.
  - destruct (nth_error a (N.to_nat i)) as [v|] eqn:E.
    + simpl. eexists _, _. split; [reflexivity|]. split; auto. split; auto. intros b L Hb. rewrite Hb. simpl. exists b. repeat split; auto.
      rewrite Hb, E. reflexivity.
    + apply nth_error_None in E. lia.
  - destruct (list_set_ok C a (N.to_nat i) (f regs) H) as [a' [E [L Hn]]]. rewrite E. simpl.
    eexists _, _. split; [reflexivity|]. split; auto. split.
    + intros y Hy. rewrite Hn, to_nat_eqb. destruct (N.eqb_spec y i); [contradiction|auto].
    + intros b Lb _. destruct (list_set_ok C b (N.to_nat i) (f regs) ltac:(lia)) as [b' [E' [L' Hn']]]. rewrite E'. simpl.
      exists b'. repeat split; auto. rewrite Hn, Hn', Nat.eqb_refl. reflexivity.
Qed.

Local Arguments exec_instr : simpl never.

Lemma exec_list_ok : forall l a regs, (forall y, In y (map addr l) -> N.to_nat y < List.length a) ->
  exists a' regs', for_list l exec_instr (a, regs) = Ok (a', regs') /\ List.length a' = List.length a /\
    (forall y, ~ In y (map addr l) -> cell a' y = cell a y) /\
    forall b (P : N -> Prop), List.length b = List.length a -> (forall y, In y (map addr l) -> P y) -> (forall y, P y -> cell b y = cell a y) ->
      exists b', for_list l exec_instr (b, regs) = Ok (b', regs') /\ List.length b' = List.length b /\
        forall y, P y -> cell b' y = cell a' y.
Proof.
  induction l as [|x l IH]; intros a regs H.
  - simpl. exists a, regs. repeat split; auto. intros b P L HP E. exists b. auto.
  - destruct (exec_instr_ok x a regs) as [a1 [regs1 [E1 [L1 [U1 S1]]]]]; [apply H; left; auto|].
    destruct (IH a1 regs1) as [a2 [regs2 [E2 [L2 [U2 S2]]]]]; [intros y Hy; rewrite L1; apply H; right; auto|].
    exists a2, regs2. simpl. rewrite E1. simpl. split; [exact E2|]. split; [lia|]. split.
    + intros y Hy. rewrite U2, U1; auto.
    + intros b P L HP E. destruct (S1 b L (E _ (HP _ (or_introl eq_refl)))) as [b1 [E1' [L1' C1']]].
      rewrite E1'. simpl.
      destruct (S2 b1 P) as [b2 [E2' [L2' C2']]]; [lia|intros; apply HP; right; auto| |exists b2; repeat split; auto; lia].
      intros y Hy. destruct (N.eq_dec y (addr x)) as [->|N]; auto.
      rewrite U1 by auto. rewrite <- E by auto.
      assert (N.to_nat (addr x) < List.length b) by (rewrite L; apply H; left; auto).
      destruct (exec_instr_ok x b regs H0) as [b1' [regs1' [E1'' [_ [U1' _]]]]]. rewrite E1' in E1''. injection E1''; intros; subst. auto.
Qed.

(** ** Schedules *)
Lemma psteps_trans : forall s s1 r, psteps s (Ok s1) -> psteps s1 r -> psteps s r.
Proof.
  intros s s1 r H. remember (Ok s1) as q eqn:Eq. revert s1 Eq. induction H; intros t Eq Ht.
  - injection Eq; intros; subst; auto.
  - econstructor; eauto.
  - discriminate.
Qed.

Lemma psteps_thread : forall l a regs a' regs' before after, for_list l exec_instr (a, regs) = Ok (a', regs') ->
  psteps (a, before ++ (l, regs) :: after) (Ok (a', before ++ ([], regs') :: after)).
Proof.
  induction l as [|x l IH]; intros a regs a' regs' before after H; cbn [for_list] in H.
  - injection H; intros; subst. constructor.
  - destruct (exec_instr x (a, regs)) as [[a1 regs1]|] eqn:E; simpl in H; [|discriminate].
    econstructor; [apply ps_step; exact E|]. apply IH. exact H.
Qed.

Section Kernel.
Variable k : kernel.
Variable a0 : carr.
Hypothesis Hsafe : safe k (List.length a0).

(** thread [t] executes the rest of iteration [i] *)
Definition thr_ok (a1 : carr) (i : N) (t : thread) : Prop :=
  In i (iterations k) /\ (forall y, In y (map addr (fst t)) -> In y (fp k i)) /\
  exists a2 regs2 b2, for_list (fst t) exec_instr (a1, snd t) = Ok (a2, regs2) /\ exec_body (k_body k i) a0 = Ok b2 /\
    forall y, In y (fp k i) -> cell a2 y = cell b2 y.

Definition inv (s : carr * list thread) : Prop :=
  List.length (fst s) = List.length a0 /\ Forall2 (thr_ok (fst s)) (iterations k) (snd s) /\
  forall y, (forall i, In i (iterations k) -> ~ In y (fp k i)) -> cell (fst s) y = cell a0 y.

Lemma body_ok : forall i, In i (iterations k) -> exists b, exec_body (k_body k i) a0 = Ok b /\ List.length b = List.length a0 /\
  exists regs, for_list (k_body k i) exec_instr (a0, no_regs) = Ok (b, regs).
Proof.
  intros i Hi. destruct (exec_list_ok (k_body k i) a0 no_regs) as [a' [regs' [E [L _]]]].
  - intros y Hy. eapply (proj1 Hsafe); eauto.
  - unfold exec_body. rewrite E. exists a'. simpl. eauto.
Qed.

Lemma inv_start : inv (a0, start_threads k).
Proof.
  split; [reflexivity|]. split; [|auto]. simpl. unfold start_threads.
  assert (G : forall l, (forall i, In i l -> In i (iterations k)) -> Forall2 (thr_ok a0) l (map (fun i => (k_body k i, no_regs)) l)).
  { induction l as [|i l IH]; intros H; simpl; constructor.
    - split; [apply H; left; auto|]. split; [auto|].
      destruct (body_ok i (H i (or_introl eq_refl))) as [b [E [_ [regs Eb]]]]. exists b, regs, b. auto.
    - apply IH. intros; apply H; right; auto. }
  apply G; auto.
Qed.

Lemma nodup_iterations : NoDup (iterations k).
Proof. apply nodup_range. Qed.

Lemma forall2_split : forall A B (P : A -> B -> Prop) l b1 x b2, Forall2 P l (b1 ++ x :: b2) ->
  exists l1 i l2, l = l1 ++ i :: l2 /\ Forall2 P l1 b1 /\ P i x /\ Forall2 P l2 b2.
Proof.
  intros A B P l b1 x b2 H. apply Forall2_app_inv_r in H. destruct H as [l1 [l2 [H1 [H2 ->]]]].
  inversion H2; subst. eauto 10.
Qed.

Lemma inv_step : forall s r, inv s -> pstep s r -> exists s1, r = Ok s1 /\ inv s1.
Proof.
  intros s r [L [F U]] H.
  assert (M : exists a before x rest regs after, s = (a, before ++ (x :: rest, regs) :: after) /\
    ((exists a' regs', exec_instr x (a, regs) = Ok (a', regs') /\ r = Ok (a', before ++ (rest, regs') :: after)) \/
     exists e, exec_instr x (a, regs) = Err e /\ r = Err e)).
  { destruct H; do 6 eexists; (split; [reflexivity|]); eauto. }
  clear H. destruct M as [a [before [x [rest [regs [after [-> M]]]]]]]. simpl in *.
  apply forall2_split in F. destruct F as [l1 [i [l2 [EI [F1 [[Hi [Hfp [a2 [regs2 [b2 [E2 [Eb C2]]]]]]] F2]]]]]]. simpl in *.
  assert (Hx : N.to_nat (addr x) < List.length a) by (rewrite L; eapply (proj1 Hsafe); [exact Hi|apply Hfp; left; auto]).
  destruct (exec_instr_ok x a regs Hx) as [a1 [regs1 [E1 [L1 [U1 _]]]]].
  destruct M as [[a' [regs' [E1' ->]]]|[e [E1' ->]]]; rewrite E1 in E1'; [|discriminate]. injection E1'; intros <- <-; clear E1'.
  eexists. split; [reflexivity|]. unfold inv. cbn [fst snd].
  assert (Other : forall j t, j <> i -> thr_ok a j t -> thr_ok a1 j t).
  { intros j t Hj [Ij [Hf [c2 [rg [d [Ec [Ed Cd]]]]]]]. split; auto. split; auto.
    destruct (exec_list_ok (fst t) a (snd t)) as [q [rq [Eq [Lq [Uq Sq]]]]].
    { intros y Hy. rewrite L. eapply (proj1 Hsafe); [exact Ij|auto]. }
    rewrite Ec in Eq. injection Eq; intros <- <-; clear Eq.
    destruct (Sq a1 (fun y => In y (fp k j)) L1 Hf) as [q' [Eq' [Lq' Cq']]].
    { intros y Hy. apply U1. intros ->. apply Hj. eapply (proj2 Hsafe); [exact Ij|exact Hi|exact Hy|]. apply Hfp. left; auto. }
    exists q', rg, d. split; [exact Eq'|]. split; auto. intros y Hy. rewrite Cq'; auto. }
  assert (ND : NoDup (l1 ++ i :: l2)) by (rewrite <- EI; apply nodup_iterations).
  apply NoDup_remove_2 in ND. rewrite in_app_iff in ND.
  split; [lia|]. split.
  - rewrite EI. apply Forall2_app; [|constructor].
    + clear - F1 Other ND. assert (H : ~ In i l1) by tauto. clear ND. induction F1; constructor.
      * apply Other; auto. intros ->. apply H. left; auto.
      * apply IHF1. intros I. apply H. right; auto.
    + split; auto. split; [intros y Hy; apply Hfp; right; auto|]. rewrite E1 in E2. simpl in E2. simpl. exists a2, regs2, b2. auto.
    + clear - F2 Other ND. assert (H : ~ In i l2) by tauto. clear ND. induction F2; constructor.
      * apply Other; auto. intros ->. apply H. left; auto.
      * apply IHF2. intros I. apply H. right; auto.
  - intros y Hy. rewrite <- U by auto. apply U1. intros ->. eapply Hy; [exact Hi|]. apply Hfp. left; auto.
Qed.

Lemma inv_steps : forall s r, psteps s r -> inv s -> exists s1, r = Ok s1 /\ inv s1.
Proof.
  induction 1 as [s|s s1 r H1 H2 IH|s e H1]; intros I.
  - eauto.
  - destruct (inv_step s _ I H1) as [s1' [E I1]]. injection E; intros; subst. auto.
  - destruct (inv_step s _ I H1) as [s1' [E I1]]. discriminate.
Qed.

(** what the array holds when every thread has finished *)
Definition final (a' : carr) : Prop :=
  List.length a' = List.length a0 /\
  (forall i, In i (iterations k) -> exists b, exec_body (k_body k i) a0 = Ok b /\ forall y, In y (fp k i) -> cell a' y = cell b y) /\
  (forall y, (forall i, In i (iterations k) -> ~ In y (fp k i)) -> cell a' y = cell a0 y).

Lemma inv_final : forall a ts, inv (a, ts) -> finished ts -> final a.
Proof.
  intros a ts [L [F U]] Hf. simpl in *. split; auto. split; auto.
  intros i Hi. unfold finished in Hf.
  assert (T : exists t, In t ts /\ thr_ok a i t).
  { clear - F Hi. induction F; [contradiction|]. destruct Hi as [->|Hi].
    - eexists. split; [left; reflexivity|auto].
    - destruct (IHF Hi) as [t [I T]]. exists t. split; [right; auto|auto]. }
  destruct T as [t [It [_ [_ [a2 [rg [b [E [Eb Cb]]]]]]]]]. rewrite Forall_forall in Hf. rewrite (Hf t It) in E. simpl in E.
  injection E; intros; subst. eauto.
Qed.

Lemma final_unique : forall a b, final a -> final b -> a = b.
Proof.
  intros a b [La [Fa Ua]] [Lb [Fb Ub]]. apply nth_error_ext. intros j.
  replace j with (N.to_nat (N.of_nat j)) by apply Nat2N.id. set (y := N.of_nat j).
  change (cell a y = cell b y).
  assert (D : (exists i, In i (iterations k) /\ In y (fp k i)) \/ forall i, In i (iterations k) -> ~ In y (fp k i)).
  { generalize (iterations k) as l. induction l as [|i l IH]; [right; intros i []|].
    destruct (in_dec N.eq_dec y (fp k i)) as [I|I]; [left; exists i; split; [left|]; auto|].
    destruct IH as [[j' [Ij Iy]]|Nn]; [left; exists j'; split; [right|]; auto|]. right. intros j' [<-|Ij]; auto. }
  destruct D as [[i [Ii Iy]]|Nn].
  - destruct (Fa i Ii) as [x [Ex Cx]]. destruct (Fb i Ii) as [x' [Ex' Cx']]. rewrite Ex in Ex'. injection Ex'; intros; subst.
    rewrite Cx, Cx'; auto.
  - rewrite Ua, Ub; auto.
Qed.

(** the iterations in order *)
Lemma seq_psteps : forall l done a, (forall i, In i l -> In i (iterations k)) -> List.length a = List.length a0 -> finished done ->
  exists a' ts, for_list l (fun i => exec_body (k_body k i)) a = Ok a' /\ finished ts /\
    psteps (a, done ++ map (fun i => (k_body k i, no_regs)) l) (Ok (a', ts)).
Proof.
  induction l as [|i l IH]; intros done a Hl L Hd.
  - exists a, (done ++ []). simpl. repeat split; [|constructor]. rewrite app_nil_r; auto.
  - destruct (exec_list_ok (k_body k i) a no_regs) as [a1 [rg [E [L1 _]]]].
    { intros y Hy. rewrite L. eapply (proj1 Hsafe); [apply Hl; left; reflexivity|exact Hy]. }
    destruct (IH (done ++ [([], rg)]) a1) as [a' [ts [E' [Hf HP]]]].
    + intros; apply Hl; right; auto.
    + lia.
    + apply Forall_app. split; auto.
    + exists a', ts. simpl. unfold exec_body at 1. rewrite E. simpl. repeat split; auto.
      eapply psteps_trans; [apply psteps_thread; exact E|]. rewrite <- app_assoc in HP. exact HP.
Qed.

Lemma kernel_final : exists a', run_kernel k a0 = Ok a' /\ final a'.
Proof.
  destruct (seq_psteps (iterations k) [] a0) as [a' [ts [E [Hf HP]]]]; auto; [constructor|].
  exists a'. split; auto. simpl in HP. destruct (inv_steps _ _ HP inv_start) as [s1 [Es I]]. injection Es; intros; subst.
  eapply inv_final; eauto.
Qed.

Lemma not_finished : forall ts, ~ finished ts -> exists before x rest regs after, ts = before ++ (x :: rest, regs) :: after.
Proof.
  intros ts H. induction ts as [|[l regs] ts IH]; [exfalso; apply H; constructor|]. destruct l as [|x rest].
  - destruct IH as [b [x [r [g [af ->]]]]]; [intros F; apply H; constructor; auto|]. exists (([], regs) :: b), x, r, g, af. reflexivity.
  - exists [], x, rest, regs, ts. reflexivity.
Qed.

Lemma kernel_race_free : race_free k a0.
Proof.
  destruct kernel_final as [a' [E F]]. exists a'. split; auto. intros r Hr.
  destruct (inv_steps _ _ Hr inv_start) as [[a1 ts] [-> I]]. exists a1, ts. split; auto. split.
  - intros Hf. eapply final_unique; auto. eapply inv_final; eauto.
  - intros Hf. destruct (not_finished ts Hf) as [b [x [r [g [af ->]]]]].
    destruct I as [L [F2 _]]. simpl in *. apply forall2_split in F2. destruct F2 as [l1 [i [l2 [_ [_ [[Hi [Hfp _]] _]]]]]].
    destruct (exec_instr_ok x a1 g) as [a2 [rg [Ex _]]].
    { rewrite L. eapply (proj1 Hsafe); [exact Hi|]. apply Hfp. left; auto. }
    eexists. apply ps_step. exact Ex.
Qed.
End Kernel.

(** every schedule is finite: each step executes one of the reads and writes *)
Definition work (ts : list thread) : nat := list_sum (map (fun t => List.length (fst t)) ts).
Lemma pstep_work : forall s s1, pstep s (Ok s1) -> work (snd s) = S (work (snd s1)).
Proof.
  intros s s1 H. inversion H; subst. unfold work. simpl. rewrite !map_app, !list_sum_app. simpl. lia.
Qed.
