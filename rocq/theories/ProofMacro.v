(** Proofs about macros. *)
From Coq Require Import String List Arith ZArith Bool Reals Lia.
Import ListNotations.
From Verif Require Import Base ModelTargets ModelGate ModelBackend ModelGateCall SpecAPI SpecGateCall ModelMacro SpecMacro ProofGateCall.
Local Open Scope string_scope.

Lemma macro_of_in : forall l name m, names_once l -> In (name, m) l -> macro_of l name = Some m.
Proof.
  induction l as [|[k a] l IH]; intros name m N I; [destruct I|]. unfold names_once in N. cbn in N. inversion N as [|? ? Nk N']; subst. cbn.
  destruct I as [I|I].
  - injection I as -> ->. rewrite String.eqb_refl. reflexivity.
  - destruct (String.eqb name k) eqn:E; [|apply IH; auto]. apply String.eqb_eq in E as ->. destruct Nk. apply (in_map fst _ _ I).
Qed.
Lemma not_gate : forall name, ~ gate_name name -> class_of gate_set name = None.
Proof. intros name H. destruct (class_of gate_set name) as [cls|] eqn:E; [|reflexivity]. destruct H. exists cls. apply class_of_in. exact E. Qed.
Lemma is_gate : forall name, gate_name name -> exists cls, class_of gate_set name = Some cls /\ In (name, cls) gate_set.
Proof. intros name (cls & I). exists cls. split; [apply class_of_in|]; exact I. Qed.

Lemma follow_all_app : forall macros call ks ks' s v, follow_all macros call s v (ks ++ ks') =
  match follow_all macros call s v ks with (Err e, s) => (Err e, s) | (Ok v, s) => follow_all macros call s v ks' end.
Proof.
  induction ks as [|k ks IH]; intros ks' s v; [reflexivity|]. cbn [app follow_all]. destruct (follow macros call s v k) as [[v1|e] s1]; [apply IH|reflexivity].
Qed.

(** ** The relation between stores *)
Lemma least_width_app : forall n gs1 w1 gs2 w2, least_width n gs1 w1 -> least_width w1 gs2 w2 -> least_width n (gs1 ++ gs2) w2.
Proof.
  intros n gs1 w1 gs2 w2 (A & B & C) (A' & B' & C'). split; [lia|]. split.
  - apply Forall_app. split; [|exact B']. revert B. apply Forall_impl. intros g. apply holds_mono. exact A'.
  - intros v Hv F. apply Forall_app in F as (F1 & F2). apply C'; [apply C|]; auto.
Qed.
Lemma extended_refl : forall c s v, nth_error (s_circs s) c = Some v -> extended c s s [].
Proof.
  intros c s [ops n] H. split; [|auto]. exists ops, n, [], n. rewrite app_nil_r. repeat split; auto using Z.le_refl.
Qed.
Lemma extended_trans : forall c s1 s2 s3 gs1 gs2, extended c s1 s2 gs1 -> extended c s2 s3 gs2 -> extended c s1 s3 (gs1 ++ gs2).
Proof.
  intros c s1 s2 s3 gs1 gs2 ((ops & n & new & n' & E1 & E2 & F & L) & Len & O) ((ops2 & m & new2 & m' & E3 & E4 & F2 & L2) & Len2 & O2).
  rewrite E2 in E3. injection E3 as <- <-. split; [|split].
  - exists ops, n, (new ++ new2)%list, m'. split; [exact E1|]. split; [rewrite E4, app_assoc; reflexivity|]. split; [apply Forall2_app; auto|].
    apply (least_width_app _ _ n'); auto.
  - congruence.
  - intros j J. rewrite O2, O; auto.
Qed.
Lemma extended_sound : forall c s s' gs, sound c s -> extended c s s' gs -> sound c s'.
Proof.
  intros c s s' gs (ops & n & E & Hn) ((ops1 & n1 & new & n' & E1 & E2 & _ & (L & _)) & _). rewrite E in E1. injection E1 as <- <-.
  exists (ops ++ new)%list, n'. split; [exact E2|lia].
Qed.
Lemma sound_refl : forall c s, sound c s -> extended c s s [].
Proof. intros c s (ops & n & E & _). apply (extended_refl _ _ _ E). Qed.

(** ** The links of one gate call *)
Section Gate.
Variable macros : list (string * macro).
Variable call : macro -> nat -> list arg -> dict -> store -> res mval * store.

Lemma attr_link : forall s c v name cls, nth_error (s_circs s) c = Some v -> In (name, cls) gate_set ->
  follow macros call s (MCircuit c) (LAttr name) = (Ok (MWrap (List.length (s_wraps s))), Store (s_circs s) (s_wraps s ++ [Wrap c cls [] []])).
Proof.
  intros s c v name cls H I. cbn [follow]. pose proof I as I'. apply class_of_in in I'. rewrite I'. unfold as_step.
  destruct (attr_lemma s c v name H) as (A & _). rewrite (A _ I). reflexivity.
Qed.
Lemma new_wrap : forall (s : store) x, nth_error (s_wraps s ++ [x]) (List.length (s_wraps s)) = Some x.
Proof. intros s x. rewrite nth_error_app2, Nat.sub_diag; [reflexivity|lia]. Qed.
Lemma call_link : forall s w x args kw, nth_error (s_wraps s) w = Some x -> ~ In "self" (keys kw) ->
  follow macros call s (MWrap w) (LCall args kw) = (Ok (MWrap w), Store (s_circs s) (set_nth (s_wraps s) w (Wrap (w_circ x) (w_class x) args kw))).
Proof. intros s w x args kw H N. cbn [follow gstep]. apply mem_false in N. unfold keys in N. unfold as_step. cbn [gstep]. rewrite H, N. reflexivity. Qed.
Lemma item_link : forall s w c ops n g args kw, nth_error (s_wraps s) w = Some (Wrap c (lowername g) args kw) -> nth_error (s_circs s) c = Some (CObj ops n) ->
  (0 <= n)%Z -> flat (targets g) -> (exists extra, spelled g args kw extra) ->
  exists s', follow macros call s (MWrap w) (LItem (targets g)) = (Ok (MCircuit c), s') /\ extended c s s' [g].
Proof.
  intros s w c ops n g args kw H Hc Hn Fl (extra & Sp). cbn [follow]. unfold as_step.
  pose proof (item_lemma s w _ (CObj ops n) (targets g) H Hc Hn) as It. cbn [w_class w_args w_kwargs w_circ k_n k_ops] in It.
  destruct (any_order_lemma _ _ _ _ Sp) as (o & Eo & So & No & _). rewrite Eo in It.
  destruct It as [(_ & w1 & s3 & G & E3 & (Ws & Lc & H3 & Oth))|(Bad & _)]; [|contradiction]. rewrite E3. exists s3. split; [reflexivity|].
  split; [|auto]. exists ops, n, [o], w1. repeat split; auto; try (destruct G as (G1 & G2 & G3)); auto.
  intros w' Hw F. inversion F; subst. apply G3; auto.
Qed.
Lemma item_fails : forall s w c v cls args kw tg e, nth_error (s_wraps s) w = Some (Wrap c cls args kw) -> nth_error (s_circs s) c = Some v ->
  construct cls tg args kw = Err e -> follow macros call s (MWrap w) (LItem tg) = (Err e, s).
Proof.
  intros s w c v cls args kw tg e H Hc E. cbn [follow]. unfold as_step. cbn [gstep]. rewrite H. cbn [w_circ w_class w_args w_kwargs]. rewrite Hc, E. reflexivity.
Qed.

Lemma gate_links : forall s c name args kw tg g, sound c s -> writes (name, args, kw, tg) g ->
  exists s', follow_all macros call s (MCircuit c) [LAttr name; LCall args kw; LItem tg] = (Ok (MCircuit c), s') /\ extended c s s' [g].
Proof.
  intros s c name args kw tg g (ops & n & E & Hn) (I & -> & Fl & Sp). cbn [follow_all]. rewrite (attr_link s c _ name _ E I).
  pose proof (new_wrap s (Wrap c (lowername g) [] [])) as H1. set (w := List.length (s_wraps s)) in *.
  set (s1 := Store (s_circs s) (s_wraps s ++ [Wrap c (lowername g) [] []])).
  assert (Ns : ~ In "self" (keys kw)) by (destruct Sp as (extra & Sp); exact (spelled_self _ _ _ _ Sp)).
  rewrite (call_link s1 w _ args kw H1 Ns). cbn [w_circ w_class]. set (s2 := Store (s_circs s1) _).
  destruct (item_link s2 w c ops n g args kw) as (s' & E' & X); auto.
  { apply (set_nth_same _ _ _ _ H1). }
  rewrite E'. exists s'. split; [reflexivity|]. exact X.
Qed.
Lemma bare_links : forall s c name tg g, sound c s -> writes (name, [], [], tg) g ->
  exists s', follow_all macros call s (MCircuit c) [LAttr name; LItem tg] = (Ok (MCircuit c), s') /\ extended c s s' [g].
Proof.
  intros s c name tg g (ops & n & E & Hn) (I & -> & Fl & Sp). cbn [follow_all]. rewrite (attr_link s c _ name _ E I).
  pose proof (new_wrap s (Wrap c (lowername g) [] [])) as H1. set (w := List.length (s_wraps s)) in *.
  set (s1 := Store (s_circs s) (s_wraps s ++ [Wrap c (lowername g) [] []])).
  destruct (item_link s1 w c ops n g [] []) as (s' & E' & X); auto.
  rewrite E'. exists s'. split; [reflexivity|]. exact X.
Qed.
Lemma same_circs : forall c (s s' : store), sound c s -> s_circs s' = s_circs s -> extended c s s' [].
Proof.
  intros c s s' (ops & n & E & Hn) Eq. split; [|rewrite Eq; auto]. exists ops, n, [], n. rewrite Eq, app_nil_r. repeat split; auto using Z.le_refl.
Qed.
Lemma gate_fails : forall s c name args kw tg e, sound c s -> cannot_be_made (name, args, kw, tg) e ->
  exists s', (forall ks, follow_all macros call s (MCircuit c) (LAttr name :: LCall args kw :: LItem tg :: ks) = (Err e, s')) /\ extended c s s' [].
Proof.
  intros s c name args kw tg e Sd (Ns & cls & I & Er). pose proof Sd as (ops & n & E & Hn).
  pose proof (new_wrap s (Wrap c cls [] [])) as H1. set (w := List.length (s_wraps s)) in *.
  set (s1 := Store (s_circs s) (s_wraps s ++ [Wrap c cls [] []])).
  set (s2 := Store (s_circs s) (set_nth (s_wraps s1) w (Wrap c cls args kw))).
  exists s2. split.
  - intros ks. cbn [follow_all]. rewrite (attr_link s c _ name _ E I). fold w s1. rewrite (call_link s1 w _ args kw H1 Ns). cbn [w_circ w_class]. fold s2.
    change (Store (s_circs s1) (set_nth (s_wraps s1) w (Wrap c cls args kw))) with s2.
    rewrite (item_fails s2 w c (CObj ops n) cls args kw tg e); auto. apply (set_nth_same _ _ _ _ H1).
  - apply same_circs; [exact Sd|reflexivity].
Qed.
Lemma bare_fails : forall s c name tg e, sound c s -> cannot_be_made (name, [], [], tg) e ->
  exists s', (forall ks, follow_all macros call s (MCircuit c) (LAttr name :: LItem tg :: ks) = (Err e, s')) /\ extended c s s' [].
Proof.
  intros s c name tg e Sd (Ns & cls & I & Er). pose proof Sd as (ops & n & E & Hn).
  pose proof (new_wrap s (Wrap c cls [] [])) as H1. set (w := List.length (s_wraps s)) in *.
  set (s1 := Store (s_circs s) (s_wraps s ++ [Wrap c cls [] []])).
  exists s1. split.
  - intros ks. cbn [follow_all]. rewrite (attr_link s c _ name _ E I). fold w s1.
    rewrite (item_fails s1 w c (CObj ops n) cls [] [] tg e); auto.
  - apply same_circs; [exact Sd|reflexivity].
Qed.
End Gate.

Lemma macro_link : forall macros call s c name m, names_once macros -> is_macro macros name m ->
  follow macros call s (MCircuit c) (LAttr name) = (Ok (MPartial m c), s).
Proof. intros macros call s c name m N (I & G). cbn [follow]. rewrite (not_gate _ G), (macro_of_in _ _ _ N I). reflexivity. Qed.

(** ** Whole chains *)
Section Chains.
Variable macros : list (string * macro).
Hypothesis once : names_once macros.

Lemma expands_runs : forall d ks l, expands macros d ks l -> forall D s c gs, (d <= D)%nat -> sound c s -> Forall2 writes l gs ->
  exists s', follow_all macros (call_macro macros D) s (MCircuit c) ks = (Ok (MCircuit c), s') /\ extended c s s' gs.
Proof.
  induction 1 as [d|d name args kw tg ks l G E IH|d name tg ks l G E IH|d name m args kw bd ks l1 l2 M Em E1 IH1 E2 IH2]; intros D s c gs LD Sd W.
  - inversion W; subst. exists s. split; [reflexivity|]. apply sound_refl. exact Sd.
  - inversion W as [|? g ? gs' Wq W']; subst. destruct (gate_links macros (call_macro macros D) s c name args kw tg g Sd Wq) as (s1 & R1 & X1).
    destruct (IH D s1 c gs' LD (extended_sound _ _ _ _ Sd X1) W') as (s2 & R2 & X2).
    change (LAttr name :: LCall args kw :: LItem tg :: ks) with ([LAttr name; LCall args kw; LItem tg] ++ ks)%list.
    rewrite follow_all_app, R1, R2. exists s2. split; [reflexivity|]. apply (extended_trans c s s1 s2 [g] gs' X1 X2).
  - inversion W as [|? g ? gs' Wq W']; subst. destruct (bare_links macros (call_macro macros D) s c name tg g Sd Wq) as (s1 & R1 & X1).
    destruct (IH D s1 c gs' LD (extended_sound _ _ _ _ Sd X1) W') as (s2 & R2 & X2).
    change (LAttr name :: LItem tg :: ks) with ([LAttr name; LItem tg] ++ ks)%list.
    rewrite follow_all_app, R1, R2. exists s2. split; [reflexivity|]. apply (extended_trans c s s1 s2 [g] gs' X1 X2).
  - apply Forall2_app_inv_l in W as (gs1 & gs2 & W1 & W2 & ->). destruct D as [|D]; [lia|].
    destruct (IH1 D s c gs1 (le_S_n _ _ LD) Sd W1) as (s1 & R1 & X1).
    destruct (IH2 (S D) s1 c gs2 LD (extended_sound _ _ _ _ Sd X1) W2) as (s2 & R2 & X2).
    cbn [follow_all]. rewrite (macro_link macros _ s c name m once M).
    replace (follow macros (call_macro macros (S D)) s (MPartial m c) (LCall args kw)) with ((Ok (MCircuit c), s1) : res mval * store).
    + rewrite R2. exists s2. split; [reflexivity|]. apply (extended_trans c s s1 s2 gs1 gs2 X1 X2).
    + cbn [follow call_macro]. rewrite Em. cbn [b_chain b_returns]. rewrite R1. reflexivity.
Qed.

Lemma split_app : forall {A} (l1 l2 a : list A) q b, (l1 ++ l2 = a ++ q :: b)%list ->
  (exists b1, l1 = (a ++ q :: b1)%list) \/ (exists a2, a = (l1 ++ a2)%list /\ l2 = (a2 ++ q :: b)%list).
Proof.
  induction l1 as [|x l1 IH]; intros l2 a q b E; [right; exists a; auto|]. destruct a as [|y a]; cbn in E; injection E as -> E.
  - left. exists l1. reflexivity.
  - destruct (IH _ _ _ _ E) as [(b1 & ->)|(a2 & -> & ->)]; [left; exists b1; reflexivity|right; exists a2; auto].
Qed.
Lemma expands_fails : forall d ks l, expands macros d ks l -> forall D s c l1 q l2 gs e, (d <= D)%nat -> sound c s -> l = (l1 ++ q :: l2)%list ->
  Forall2 writes l1 gs -> cannot_be_made q e ->
  exists s', follow_all macros (call_macro macros D) s (MCircuit c) ks = (Err e, s') /\ extended c s s' gs.
Proof.
  induction 1 as [d|d name args kw tg ks l G E IH|d name tg ks l G E IH|d name m args kw bd ks la lb M Em E1 IH1 E2 IH2];
    intros D s c l1 q l2 gs e LD Sd El W Nq.
  - destruct l1; discriminate El.
  - destruct l1 as [|q1 l1]; cbn in El; injection El as Eq El.
    + subst q. inversion W; subst. destruct (gate_fails macros (call_macro macros D) s c name args kw tg e Sd Nq) as (s' & R & X). exists s'. auto.
    + subst q1. inversion W as [|? g ? gs' Wq W']; subst. destruct (gate_links macros (call_macro macros D) s c name args kw tg g Sd Wq) as (s1 & R1 & X1).
      destruct (IH D s1 c l1 q l2 gs' e LD (extended_sound _ _ _ _ Sd X1) eq_refl W' Nq) as (s2 & R2 & X2).
      change (LAttr name :: LCall args kw :: LItem tg :: ks) with ([LAttr name; LCall args kw; LItem tg] ++ ks)%list.
      rewrite follow_all_app, R1, R2. exists s2. split; [reflexivity|]. apply (extended_trans c s s1 s2 [g] gs' X1 X2).
  - destruct l1 as [|q1 l1]; cbn in El; injection El as Eq El.
    + subst q. inversion W; subst. destruct (bare_fails macros (call_macro macros D) s c name tg e Sd Nq) as (s' & R & X). exists s'. auto.
    + subst q1. inversion W as [|? g ? gs' Wq W']; subst. destruct (bare_links macros (call_macro macros D) s c name tg g Sd Wq) as (s1 & R1 & X1).
      destruct (IH D s1 c l1 q l2 gs' e LD (extended_sound _ _ _ _ Sd X1) eq_refl W' Nq) as (s2 & R2 & X2).
      change (LAttr name :: LItem tg :: ks) with ([LAttr name; LItem tg] ++ ks)%list.
      rewrite follow_all_app, R1, R2. exists s2. split; [reflexivity|]. apply (extended_trans c s s1 s2 [g] gs' X1 X2).
  - destruct D as [|D]; [lia|]. cbn [follow_all]. rewrite (macro_link macros _ s c name m once M).
    destruct (split_app _ _ _ _ _ El) as [(b1 & ->)|(a2 & -> & ->)].
    + destruct (IH1 D s c l1 q b1 gs e (le_S_n _ _ LD) Sd eq_refl W Nq) as (s1 & R1 & X1). exists s1. split; [|exact X1].
      cbn [follow call_macro]. rewrite Em. cbn [b_chain b_returns]. rewrite R1. reflexivity.
    + apply Forall2_app_inv_l in W as (gs1 & gs2 & W1 & W2 & ->).
      destruct (expands_runs d bd la E1 D s c gs1 (le_S_n _ _ LD) Sd W1) as (s1 & R1 & X1).
      destruct (IH2 (S D) s1 c a2 q l2 gs2 e LD (extended_sound _ _ _ _ Sd X1) eq_refl W2 Nq) as (s2 & R2 & X2).
      replace (follow macros (call_macro macros (S D)) s (MPartial m c) (LCall args kw)) with ((Ok (MCircuit c), s1) : res mval * store).
      * rewrite R2. exists s2. split; [reflexivity|]. apply (extended_trans c s s1 s2 gs1 gs2 X1 X2).
      * cbn [follow call_macro]. rewrite Em. cbn [b_chain b_returns]. rewrite R1. reflexivity.
Qed.

Lemma none_lemma : forall d name m args kw bd l gs s c D, is_macro macros name m -> m args kw = Ok (Body bd false) -> expands macros d bd l ->
  (d < D)%nat -> sound c s -> Forall2 writes l gs -> exists s', extended c s s' gs /\
    evaluate macros D s c [LAttr name; LCall args kw] = (Ok MNone, s') /\
    forall k ks, exists e, evaluate macros D s c (LAttr name :: LCall args kw :: k :: ks) = (Err e, s') /\ In e [AttributeError; TypeError].
Proof.
  intros d name m args kw bd l gs s c D M Em E LD Sd W. destruct D as [|D]; [lia|].
  destruct (expands_runs d bd l E D s c gs (le_S_n _ _ LD) Sd W) as (s1 & R1 & X1). exists s1. split; [exact X1|].
  assert (R : follow macros (call_macro macros (S D)) s (MPartial m c) (LCall args kw) = (Ok MNone, s1)).
  { cbn [follow call_macro]. rewrite Em. cbn [b_chain b_returns]. rewrite R1. reflexivity. }
  unfold evaluate. cbn [follow_all]. rewrite (macro_link macros _ s c name m once M), R. split; [reflexivity|].
  intros [n|a b|t] ks; cbn [follow]; eexists; (split; [reflexivity|cbn; auto]).
Qed.

Lemma recursion_lemma : forall name m args kw ks l gs rest ret, is_macro macros name m ->
  m args kw = Ok (Body (ks ++ LAttr name :: LCall args kw :: rest) ret) -> expands macros 0 ks l -> Forall2 writes l gs ->
  forall D s c, sound c s -> exists s', evaluate macros D s c [LAttr name; LCall args kw] = (Err RecursionError, s') /\ extended c s s' (List.concat (List.repeat gs D)).
Proof.
  intros name m args kw ks l gs rest ret M Em E W. unfold evaluate.
  assert (R : forall D s c, sound c s -> exists s', call_macro macros D m c args kw s = (Err RecursionError, s') /\ extended c s s' (List.concat (List.repeat gs D))).
  { induction D as [|D IH]; intros s c Sd.
    - exists s. split; [reflexivity|]. apply sound_refl. exact Sd.
    - destruct (expands_runs 0 ks l E D s c gs (Nat.le_0_l _) Sd W) as (s1 & R1 & X1).
      destruct (IH s1 c (extended_sound _ _ _ _ Sd X1)) as (s2 & R2 & X2). exists s2. split.
      + cbn [call_macro]. rewrite Em. cbn [b_chain b_returns]. rewrite follow_all_app, R1. cbn [follow_all].
        rewrite (macro_link macros _ s1 c name m once M).
        change (follow macros (call_macro macros D) s1 (MPartial m c) (LCall args kw)) with (call_macro macros D m c args kw s1). rewrite R2. reflexivity.
      + cbn [List.repeat List.concat]. apply (extended_trans c s s1 s2 _ _ X1 X2). }
  intros D s c Sd. destruct (R D s c Sd) as (s' & R' & X). exists s'. split; [|exact X]. cbn [follow_all]. rewrite (macro_link macros _ s c name m once M).
  change (follow macros (call_macro macros D) s (MPartial m c) (LCall args kw)) with (call_macro macros D m c args kw s). rewrite R'. reflexivity.
Qed.

Lemma wrapper_macro_lemma : forall D name m args kw gname gargs gkw tg g s c, is_macro macros name m ->
  m args kw = Ok (Body [LAttr gname; LCall gargs gkw] true) -> writes (gname, gargs, gkw, tg) g -> sound c s ->
  exists s', evaluate macros (S D) s c [LAttr name; LCall args kw; LItem tg] = (Ok (MCircuit c), s') /\ extended c s s' [g].
Proof.
  intros D name m args kw gname gargs gkw tg g s c M Em Wq Sd.
  destruct (gate_links macros (call_macro macros D) s c gname gargs gkw tg g Sd Wq) as (s' & R & X). exists s'. split; [|exact X].
  unfold evaluate. cbn [follow_all]. rewrite (macro_link macros _ s c name m once M).
  change (follow macros (call_macro macros (S D)) s (MPartial m c) (LCall args kw)) with (call_macro macros (S D) m c args kw s).
  cbn [call_macro]. rewrite Em. cbn [b_chain b_returns].
  change [LAttr gname; LCall gargs gkw; LItem tg] with ([LAttr gname; LCall gargs gkw] ++ [LItem tg])%list in R. rewrite follow_all_app in R.
  destruct (follow_all macros (call_macro macros D) s (MCircuit c) [LAttr gname; LCall gargs gkw]) as [[v|e] s1]; [|discriminate R].
  cbn [follow_all] in R |- *. destruct v as [c1|w|m1 c1|]; exact R.
Qed.
Lemma missing_lemma : forall D s c name ks, ~ gate_name name -> (forall m, ~ In (name, m) macros) ->
  evaluate macros D s c (LAttr name :: ks) = (Err AttributeError, s).
Proof.
  intros D s c name ks G N. unfold evaluate. cbn [follow_all follow]. rewrite (not_gate _ G).
  destruct (macro_of macros name) as [m|] eqn:E; [|reflexivity]. exfalso. clear once.
  revert E N. generalize macros as l. induction l as [|[k a] l IH]; intros E N; [discriminate|]. cbn in E. destruct (String.eqb name k) eqn:Ek.
  - apply String.eqb_eq in Ek as ->. apply (N a). left. reflexivity.
  - apply (IH E). intros b Ib. apply (N b). right. exact Ib.
Qed.
Lemma refused_lemma : forall D s c name m args kw e ks, is_macro macros name m -> m args kw = Err e ->
  evaluate macros (S D) s c (LAttr name :: LCall args kw :: ks) = (Err e, s).
Proof.
  intros D s c name m args kw e ks M Em. unfold evaluate. cbn [follow_all]. rewrite (macro_link macros _ s c name m once M).
  cbn [follow call_macro]. rewrite Em. reflexivity.
Qed.
Lemma misuse_lemma : forall D s c name m k ks, is_macro macros name m -> (forall args kw, k <> LCall args kw) ->
  evaluate macros D s c (LAttr name :: k :: ks) = (Err (match k with LAttr _ => AttributeError | _ => TypeError end), s).
Proof.
  intros D s c name m k ks M K. unfold evaluate. cbn [follow_all]. rewrite (macro_link macros _ s c name m once M).
  destruct k as [n|a b|t]; [reflexivity|destruct (K a b eq_refl)|reflexivity].
Qed.
End Chains.
Lemma no_name_lemma : forall macros D s c k ks, (forall name, k <> LAttr name) -> evaluate macros D s c (k :: ks) = (Err TypeError, s).
Proof. intros macros D s c [n|a b|t] ks K; [destruct (K n eq_refl)|reflexivity|reflexivity]. Qed.

Lemma gates_lemma : forall ks, only_gates ks -> forall macros D s c, evaluate macros D s c ks = evaluate [] 0 s c ks.
Proof.
  unfold evaluate. intros ks O macros D s c.
  assert (G : forall ks, only_gates ks -> forall s v, (forall m c', v <> MPartial m c') ->
    follow_all macros (call_macro macros D) s v ks = follow_all [] (call_macro [] 0) s v ks).
  { clear. induction ks as [|k ks IH]; intros O s v V; [reflexivity|].
    assert (E : follow macros (call_macro macros D) s v k = follow [] (call_macro [] 0) s v k).
    { destruct k as [name|a b|t], v as [c1|w|m1 c1|]; try reflexivity; [|exfalso; apply (V m1 c1); reflexivity].
      cbn [follow]. destruct (is_gate name) as (cls & E & _); [apply O; left; reflexivity|]. rewrite E. reflexivity. }
    cbn [follow_all]. rewrite E. destruct (follow [] (call_macro [] 0) s v k) as [[v1|e] s1] eqn:F; [|reflexivity].
    apply IH; [intros n I; apply O; right; exact I|]. intros m c' ->. clear E IH.
    destruct k as [name|a b|t], v as [c1|w|m1 c1|]; cbn [follow] in F; try discriminate F.
    - destruct (class_of gate_set name); [|discriminate F]. unfold as_step in F. destruct (gstep s (GAttr c1 name)) as [[g|e] s2]; [|discriminate F].
      destruct g; discriminate F.
    - unfold as_step in F. destruct (gstep s (GCall w a b)) as [[g|e] s2]; [|discriminate F]. destruct g; discriminate F.
    - unfold as_step in F. destruct (gstep s (GItem w t)) as [[g|e] s2]; [|discriminate F]. destruct g; discriminate F. }
  apply G; [exact O|]. intros m c'. discriminate.
Qed.

(** ** A case: bell(i, j) = c.h[i].cx[i, j]; twice(i, j) = c.bell(i, j).rz(1)[j].bell(i, j); loop() = c.x[0].loop() *)
Definition ex_bell : macro := fun args kw => match args with [] => Ok (Body [LAttr "h"; LItem (TInt 0); LAttr "cx"; LItem (TTuple [TInt 0; TInt 1])] true) | _ => Err TypeError end.
Definition ex_twice : macro := fun args kw =>
  match args with [a] => Ok (Body [LAttr "bell"; LCall [] []; LAttr "rz"; LCall [a] []; LItem (TInt 1); LAttr "bell"; LCall [] []] true) | _ => Err TypeError end.
Definition ex_loop : macro := fun _ _ => Ok (Body ([LAttr "x"; LItem (TInt 0)] ++ [LAttr "loop"; LCall [] []]) true).
Definition ex_turn : macro := fun args _ => match args with [a] => Ok (Body [LAttr "rx"; LCall [a] []] true) | _ => Err TypeError end.
Definition ex_quiet : macro := fun _ _ => Ok (Body [LAttr "x"; LItem (TInt 0)] false).
Definition ex_macros : list (string * macro) := [("bell", ex_bell); ("twice", ex_twice); ("loop", ex_loop); ("turn", ex_turn); ("quiet", ex_quiet)].
Definition ex_store : store := Store [CObj [] 0%Z] [].
Definition ex_calls (a : arg) : list (string * list arg * dict * target) :=
  [("h", [], [], TInt 0); ("cx", [], [], TTuple [TInt 0; TInt 1]); ("rz", [a], [], TInt 1); ("h", [], [], TInt 0); ("cx", [], [], TTuple [TInt 0; TInt 1])].
Definition ex_gates : list gate :=
  [GOne KH (TInt 0); GTwo KCX (TTuple [TInt 0; TInt 1]); GOne (KRZ 1) (TInt 1); GOne KH (TInt 0); GTwo KCX (TTuple [TInt 0; TInt 1])].

Lemma find_gate : forall name, class_of gate_set name <> None -> gate_name name.
Proof. intros name H. destruct (class_of gate_set name) as [cls|] eqn:E; [|destruct (H eq_refl)]. exists cls. apply class_of_in. exact E. Qed.
Lemma no_gate : forall name, class_of gate_set name = None -> ~ gate_name name.
Proof. intros name H G. destruct (is_gate name G) as (cls & E & _). congruence. Qed.
Lemma ex_once : names_once ex_macros.
Proof. unfold names_once. cbn. repeat constructor; cbn; intuition discriminate. Qed.
Lemma ex_is : forall name m, macro_of ex_macros name = Some m -> class_of gate_set name = None -> is_macro ex_macros name m.
Proof.
  intros name m E N. split; [|apply no_gate; exact N]. cbn in E |- *.
  repeat match type of E with context [if String.eqb ?a ?b then _ else _] => destruct (String.eqb_spec a b) as [->|?]; [injection E as <-; tauto|] end. discriminate E.
Qed.
Lemma ex_bell_expands : expands ex_macros 0 [LAttr "h"; LItem (TInt 0); LAttr "cx"; LItem (TTuple [TInt 0; TInt 1])]
  [("h", [], [], TInt 0); ("cx", [], [], TTuple [TInt 0; TInt 1])].
Proof. apply ex_bare; [apply find_gate; discriminate|]. apply ex_bare; [apply find_gate; discriminate|]. apply ex_nil. Qed.
Definition bell_calls : list (string * list arg * dict * target) := [("h", [], [], TInt 0); ("cx", [], [], TTuple [TInt 0; TInt 1])].
Lemma ex_twice_expands : forall a, expands ex_macros 2 [LAttr "twice"; LCall [a] []] (ex_calls a).
Proof.
  intros a. rewrite <- (app_nil_r (ex_calls a)). eapply ex_macro with (m := ex_twice); [apply ex_is; reflexivity|reflexivity| |apply ex_nil].
  change (ex_calls a) with (bell_calls ++ ("rz", [a], [], TInt 1) :: bell_calls ++ [])%list.
  eapply ex_macro with (m := ex_bell); [apply ex_is; reflexivity|reflexivity|apply ex_bell_expands|].
  apply ex_gate; [apply find_gate; discriminate|].
  eapply ex_macro with (m := ex_bell); [apply ex_is; reflexivity|reflexivity|apply ex_bell_expands|apply ex_nil].
Qed.
Lemma ex_spelled : forall g, spelled g (map ANum (params g)) [] [].
Proof.
  intros g. exists (List.length (params g)). split; [apply le_n|]. split; [rewrite firstn_all; reflexivity|]. split; [constructor|]. split; [|intros k _ []].
  rewrite (skipn_all (params g)). cbn [map]. rewrite combine_nil. constructor.
Qed.
Lemma ex_writes : forall name g, In (name, lowername g) gate_set -> flat (targets g) -> writes (name, map ANum (params g), [], targets g) g.
Proof. intros name g I F. split; [exact I|]. split; [reflexivity|]. split; [exact F|]. exists []. apply ex_spelled. Qed.
Lemma ex_writes_all : Forall2 writes (ex_calls (ANum 1)) ex_gates.
Proof.
  assert (H : writes ("h", [], [], TInt 0) (GOne KH (TInt 0))) by (apply (ex_writes "h" (GOne KH (TInt 0))); [cbn; tauto|exact Logic.I]).
  assert (X : writes ("cx", [], [], TTuple [TInt 0; TInt 1]) (GTwo KCX (TTuple [TInt 0; TInt 1]))).
  { apply (ex_writes "cx" (GTwo KCX (TTuple [TInt 0; TInt 1]))); [cbn; tauto|]. repeat constructor. }
  assert (Z : writes ("rz", [ANum 1], [], TInt 1) (GOne (KRZ 1) (TInt 1))) by (apply (ex_writes "rz" (GOne (KRZ 1) (TInt 1))); [cbn; tauto|exact Logic.I]).
  repeat (constructor; try assumption).
Qed.
Lemma ex_sound : sound 0 ex_store.
Proof. exists [], 0%Z. split; [reflexivity|lia]. Qed.
Lemma ex_x : Forall2 writes [("x", [], [], TInt 0)] [GOne KX (TInt 0)].
Proof. constructor; [|constructor]. apply (ex_writes "x" (GOne KX (TInt 0))); [cbn; tauto|exact Logic.I]. Qed.
Lemma ex_x_expands : expands ex_macros 0 [LAttr "x"; LItem (TInt 0)] [("x", [], [], TInt 0)].
Proof. apply ex_bare; [apply find_gate; discriminate|]. apply ex_nil. Qed.
Lemma ex_broken : cannot_be_made ("rz", [ATuple []; ANum 1], [], TInt 1) TypeError.
Proof. split; [intros []|]. exists "rz". split; [cbn; tauto|reflexivity]. Qed.
Lemma ex_rx : writes ("rx", [ANum 2], [], TInt 3) (GOne (KRX 2) (TInt 3)).
Proof. apply (ex_writes "rx" (GOne (KRX 2) (TInt 3))); [cbn; tauto|exact Logic.I]. Qed.
Lemma ex_broken_expands : expands ex_macros 1 [LAttr "bell"; LCall [] []; LAttr "rz"; LCall [ATuple []; ANum 1] []; LItem (TInt 1); LAttr "x"; LItem (TInt 0)]
  (bell_calls ++ [("rz", [ATuple []; ANum 1], [], TInt 1); ("x", [], [], TInt 0)]).
Proof.
  eapply ex_macro with (m := ex_bell); [apply ex_is; reflexivity|reflexivity|apply ex_bell_expands|]. apply ex_gate; [apply find_gate; discriminate|].
  apply ex_bare; [apply find_gate; discriminate|]. apply ex_nil.
Qed.
Lemma ex_bell_writes : Forall2 writes bell_calls [GOne KH (TInt 0); GTwo KCX (TTuple [TInt 0; TInt 1])].
Proof. pose proof ex_writes_all as W. inversion W as [|? ? ? ? A W1]; subst. inversion W1; subst. constructor; auto. Qed.
