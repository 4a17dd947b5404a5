(** Proofs about gate calls. *)
From Coq Require Import String List Arith ZArith Bool Reals Permutation Lia Lra.
Import ListNotations.
From Verif Require Import Base Cplx ModelTargets ModelGate ModelBackend ModelQasm ModelRepr ModelGateCall SpecAPI SpecGateCall ProofAPI.
Local Open Scope string_scope.

(** ** Dictionaries *)
Lemma mem_spec : forall k l, mem k l = true <-> In k l.
Proof.
  intros. unfold mem. rewrite existsb_exists. split.
  - intros (x & I & E). apply String.eqb_eq in E. subst. exact I.
  - intros I. exists k. rewrite String.eqb_refl. auto.
Qed.
Lemma mem_false : forall k l, mem k l = false <-> ~ In k l.
Proof. intros. rewrite <- mem_spec. destruct (mem k l); split; intros; congruence. Qed.
Lemma get_none : forall d k, dict_get d k = None <-> ~ In k (keys d).
Proof.
  induction d as [|[k' a] d IH]; intros k; cbn; [tauto|]. destruct (String.eqb_spec k k') as [E|E].
  - subst. split; [discriminate|tauto].
  - rewrite IH. split; intros H; [intros [X|X]; [subst; tauto|tauto]|tauto].
Qed.
Lemma get_in : forall d k a, dict_get d k = Some a -> In (k, a) d.
Proof.
  induction d as [|[k' b] d IH]; intros k a H; cbn in H; [discriminate|]. destruct (String.eqb_spec k k') as [E|E].
  - injection H as ->. subst. left. reflexivity.
  - right. auto.
Qed.
Lemma in_get : forall d k a, is_dict d -> In (k, a) d -> dict_get d k = Some a.
Proof.
  induction d as [|[k' b] d IH]; intros k a D H; cbn in *; [contradiction|]. inversion D; subst.
  destruct H as [H|H].
  - injection H as -> ->. rewrite String.eqb_refl. reflexivity.
  - destruct (String.eqb_spec k k') as [E|E]; [|auto]. subst. exfalso. apply H2. apply in_map_iff. exists (k', a). auto.
Qed.
Lemma dict_fun : forall d k a b, is_dict d -> In (k, a) d -> In (k, b) d -> a = b.
Proof. intros d k a b D A B. apply (in_get _ _ _ D) in A. apply (in_get _ _ _ D) in B. congruence. Qed.
Lemma filter_dict : forall f d, is_dict d -> is_dict (filter f d).
Proof.
  intros f. induction d as [|[k a] d IH]; intros D; cbn; [exact D|]. inversion D; subst. destruct (f (k, a)); [|auto].
  unfold is_dict. cbn. constructor; [|apply IH; auto]. intros I. apply H1. apply in_map_iff in I. destruct I as ([k' b] & E & I). cbn in E. subst.
  apply filter_In in I. apply in_map_iff. exists (k, b). tauto.
Qed.
Lemma filter_leaves : forall names kw, is_dict kw -> leaves names kw (filter (fun kv => negb (mem (fst kv) names)) kw).
Proof.
  intros names kw D. split; [apply filter_dict; auto|]. intros kv. rewrite filter_In. rewrite negb_true_iff, mem_false. tauto.
Qed.
Lemma filter_all : forall {A} (f : A -> bool) l, (forall a, In a l -> f a = true) -> filter f l = l.
Proof. induction l; intros H; cbn; [auto|]. rewrite H by (left; auto). f_equal. apply IHl. intros. apply H. right. auto. Qed.

(** ** The binding of arguments *)
Lemma by_keyword_ok : forall kw names l, by_keyword names kw = Ok l -> Forall2 (fun p a => In (p, a) kw) names l.
Proof.
  intros kw. induction names as [|p r IH]; intros l H; cbn in H; [injection H as <-; constructor|].
  destruct (dict_get kw p) eqn:G; [|discriminate]. destruct (by_keyword r kw); [|discriminate]. cbn in H. injection H as <-.
  constructor; [apply get_in; exact G|apply IH; reflexivity].
Qed.
Lemma by_keyword_err : forall kw names e, by_keyword names kw = Err e -> e = TypeError /\ exists p, In p names /\ ~ In p (keys kw).
Proof.
  intros kw. induction names as [|p r IH]; intros e H; cbn in H; [discriminate|].
  destruct (dict_get kw p) eqn:G.
  - destruct (by_keyword r kw) as [l|e'] eqn:B; cbn in H; [discriminate|]. injection H as <-. destruct (IH _ eq_refl) as (-> & q & I & N).
    split; [reflexivity|]. exists q. split; [right; exact I|exact N].
  - injection H as <-. split; [reflexivity|]. exists p. split; [left; reflexivity|apply get_none; exact G].
Qed.
Lemma forall2_nth : forall {A B} (P : A -> B -> Prop) l m, Forall2 P l m -> forall i a, nth_error l i = Some a -> exists b, nth_error m i = Some b /\ P a b.
Proof.
  induction 1; intros i a Hi; [destruct i; discriminate|]. destruct i; cbn in *; [injection Hi as <-; eauto|eauto].
Qed.
Lemma forall2_len : forall {A B} (P : A -> B -> Prop) l m, Forall2 P l m -> List.length l = List.length m.
Proof. induction 1; cbn; congruence. Qed.
Lemma nth_skipn : forall {A} (l : list A) n i, nth_error (skipn n l) i = nth_error l (n + i).
Proof. induction l; intros [|n] i; cbn; auto. destruct i; reflexivity. Qed.
Lemma in_firstn : forall {A} (l : list A) n x, In x (firstn n l) -> exists i, (i < n)%nat /\ nth_error l i = Some x.
Proof.
  induction l as [|a l IH]; intros [|n] x H; cbn in H; try contradiction. destruct H as [->|H]; [exists 0%nat; split; [lia|reflexivity]|].
  destruct (IH _ _ H) as (i & L & E). exists (S i). split; [lia|exact E].
Qed.
Lemma nth_firstn_in : forall {A} (l : list A) n i x, (i < n)%nat -> nth_error l i = Some x -> In x (firstn n l).
Proof.
  induction l as [|a l IH]; intros [|n] i x L H; try lia; [destruct i; discriminate|]. destruct i; cbn in *; [injection H as ->; auto|].
  right. apply (IH n i); [lia|exact H].
Qed.

Lemma bind_spec : forall names args kw, is_dict kw ->
  (exists vals rest, bind_args names args kw = Ok (vals, rest) /\ binds names args kw vals rest /\ without ["self"; "targets"] kw) \/
  (bind_args names args kw = Err TypeError /\ ~ exists vals rest, binds names args kw vals rest /\ without ["self"; "targets"] kw).
Proof.
  intros names args kw D. unfold bind_args.
  destruct (Nat.ltb_spec (List.length names) (List.length args)) as [L|L].
  - right. split; [reflexivity|]. intros (vals & rest & (Lv & P & _) & _).
    destruct (nth_error args (List.length names)) as [a|] eqn:E; [|apply nth_error_None in E; lia].
    apply P in E. assert (N : nth_error vals (List.length names) = None) by (apply nth_error_None; lia). congruence.
  - destruct (existsb _ kw) eqn:X.
    + right. split; [reflexivity|]. intros (vals & rest & (Lv & P & Q & _) & W). apply existsb_exists in X. destruct X as ([k a] & I & M). cbn [fst] in M.
      assert (K : In k (keys kw)) by (apply in_map_iff; exists (k, a); auto). apply mem_spec in M.
      destruct M as [<-|[<-|M]]; [exact (W "self" (or_introl eq_refl) K)|exact (W "targets" (or_intror (or_introl eq_refl)) K)|].
      apply in_firstn in M. destruct M as (i & Li & E). exact (Q i k Li E K).
    + assert (X' : forall k, In k (keys kw) -> ~ In k ("self" :: "targets" :: firstn (List.length args) names)).
      { intros k I. apply in_map_iff in I. destruct I as ([k' a] & <- & I). cbn [fst]. intros M. apply mem_spec in M.
        assert (existsb (fun kv => mem (fst kv) ("self" :: "targets" :: firstn (List.length args) names)) kw = true)
          by (apply existsb_exists; exists (k', a); auto). congruence. }
      destruct (by_keyword (skipn (List.length args) names) kw) as [l|e] eqn:B; cbn [bind].
      * left. exists (args ++ l)%list, (filter (fun kv => negb (mem (fst kv) names)) kw). split; [reflexivity|].
        apply by_keyword_ok in B. pose proof (forall2_len _ _ _ B) as Ll. rewrite skipn_length in Ll. split.
        { split; [rewrite app_length; lia|]. split.
          - intros i a E. rewrite nth_error_app1; [exact E|]. apply nth_error_Some. congruence.
          - split.
            + intros i p Li E K. apply (X' p K). right. right. apply (nth_firstn_in _ _ i); auto.
            + split; [|apply filter_leaves; exact D]. intros i p Li E.
              assert (E' : nth_error (skipn (List.length args) names) (i - List.length args) = Some p)
                by (rewrite nth_skipn; rewrite <- E; f_equal; lia).
              destruct (forall2_nth _ _ _ B _ _ E') as (a & Ea & I). exists a. split; [|exact I]. rewrite nth_error_app2 by lia. exact Ea. }
        { intros k [<-|[<-|[]]] K; apply (X' _ K); cbn; auto. }
      * right. destruct (by_keyword_err _ _ _ B) as (-> & p & I & N). split; [reflexivity|].
        intros (vals & rest & (Lv & P & Q & R & _) & _). apply In_nth_error in I. destruct I as (i & E). rewrite nth_skipn in E.
        destruct (R (List.length args + i)%nat p) as (a & _ & Ia); [lia|exact E|]. apply N. apply in_map_iff. exists (p, a). auto.
Qed.

(** ** The classes *)
Lemma init_some : forall g, params g <> [] -> init_names own_init (lowername g) = Some (param_names g).
Proof. intros [k tg|k tg|k tg|tg|tg] H; try destruct k; cbn in H; try (exfalso; apply H; reflexivity); reflexivity. Qed.
Lemma init_none : forall g, params g = [] -> init_names own_init (lowername g) = None.
Proof. intros [k tg|k tg|k tg|tg|tg] H; try destruct k; cbn in H; try discriminate; reflexivity. Qed.
Lemma names_length : forall g, List.length (param_names g) = List.length (params g).
Proof. intros [k tg|k tg|k tg|tg|tg]; try destruct k; reflexivity. Qed.
Lemma names_nodup : forall g, NoDup (param_names g).
Proof.
  assert (A : NoDup ["phi"; "lambd"]) by (repeat constructor; cbn; intuition discriminate).
  assert (B : NoDup ["theta"; "phi"; "lambd"]) by (repeat constructor; cbn; intuition discriminate).
  assert (C : forall a : string, NoDup [a]) by (intros; repeat constructor; cbn; tauto).
  intros [k tg|k tg|k tg|tg|tg]; try destruct k; cbn; auto; constructor.
Qed.
Lemma names_unreserved : forall g p, In p (param_names g) -> ~ In p ["self"; "targets"; "params"].
Proof. intros [k tg|k tg|k tg|tg|tg] p; try destruct k; cbn; intuition (subst; discriminate). Qed.

Lemma parameters_lemma : forall g tg args kw, params g <> [] -> is_dict kw ->
  (exists vals rest, binds (param_names g) args kw vals rest /\ without ["self"; "targets"; "params"] kw /\
     construct (lowername g) tg args kw = Ok (GObj (lowername g) tg (Own vals) (combine (param_names g) vals) rest)) \/
  ((~ exists vals rest, binds (param_names g) args kw vals rest /\ without ["self"; "targets"; "params"] kw) /\
   construct (lowername g) tg args kw = Err TypeError).
Proof.
  intros g tg args kw N D. unfold construct. rewrite (init_some g N).
  destruct (bind_spec (param_names g) args kw D) as [(vals & rest & -> & Bd & W)|(-> & No)]; cbn [bind].
  - assert (Q : In "params" (keys rest) <-> In "params" (keys kw)).
    { destruct Bd as (_ & _ & _ & _ & _ & Lv). unfold keys. rewrite !in_map_iff. split; intros ([k a] & E & I); cbn [fst] in E; subst k.
      - apply Lv in I. exists ("params", a). tauto.
      - exists ("params", a). split; [reflexivity|]. apply Lv. split; [exact I|]. cbn [fst]. intros M. apply (names_unreserved g _ M). cbn. auto. }
    destruct (mem "params" (map fst rest)) eqn:M.
    + right. split; [|reflexivity]. intros (v & r & _ & W'). apply mem_spec in M. apply Q in M. apply (W' "params"); [cbn; auto|exact M].
    + left. exists vals, rest. split; [exact Bd|]. split; [|reflexivity]. apply mem_false in M.
      intros k [<-|[<-|[<-|[]]]] K; [apply (W "self"); cbn; auto|apply (W "targets"); cbn; auto|apply M; apply Q; exact K].
  - right. split; [|reflexivity]. intros (v & r & Bd & W). apply No. exists v, r. split; [exact Bd|]. intros k [<-|[<-|[]]]; apply W; cbn; auto.
Qed.

Lemma nth_single : forall {A} (a : A) i b, nth_error [a] i = Some b -> i = 0%nat /\ a = b.
Proof. intros A a [|[|i]] b H; cbn in H; try discriminate. injection H as ->. auto. Qed.

Lemma binds_single : forall args kw vals rest, is_dict kw -> binds ["params"] args kw vals rest <->
  exists p, vals = [p] /\ (args = [p] /\ ~ In "params" (keys kw) \/ args = [] /\ In ("params", p) kw) /\ leaves ["params"] kw rest.
Proof.
  intros args kw vals rest D. split.
  - intros (L & P & Q & R & Lv). destruct vals as [|p [|q vals]]; try discriminate. exists p. split; [reflexivity|]. split; [|exact Lv].
    destruct args as [|a args].
    + right. split; [reflexivity|]. destruct (R 0%nat "params") as (a & E & I); [cbn; lia|reflexivity|]. injection E as <-. exact I.
    + left. assert (E := P 0%nat a eq_refl). injection E as <-. destruct args as [|b args].
      * split; [reflexivity|]. apply (Q 0%nat); [cbn; lia|reflexivity].
      * specialize (P 1%nat b eq_refl). discriminate.
  - intros (p & -> & H & Lv). split; [reflexivity|]. destruct H as [(-> & N)|(-> & I)].
    + split; [auto|]. split; [|split; [|exact Lv]].
      * intros i q _ E. apply nth_single in E. destruct E as (_ & <-). exact N.
      * intros i q Li E. apply nth_single in E. destruct E as (-> & _). cbn in Li. lia.
    + split; [intros [|i] a; discriminate|]. split; [|split; [|exact Lv]].
      * intros i q Li. cbn in Li. lia.
      * intros i q _ E. apply nth_single in E. destruct E as (-> & <-). exists p. auto.
Qed.

Lemma leaves_cons : forall p kw rest, ~ In "params" (keys kw) -> (leaves ["params"] (("params", p) :: kw) rest <-> leaves ["params"] kw rest).
Proof.
  intros p kw rest N. unfold leaves. split; intros (D & L); (split; [exact D|]); intros [k a]; rewrite L; cbn [In fst]; split.
  - intros ([E|I] & M); [injection E as <- <-; exfalso; apply M; auto|auto].
  - intros (I & M). auto.
  - intros (I & M). auto.
  - intros ([E|I] & M); [injection E as <- <-; exfalso; apply M; auto|auto].
Qed.

Lemma no_parameters_lemma : forall g tg args kw, params g = [] -> is_dict kw ->
  (exists p rest, binds_params args kw p rest /\ without ["self"; "targets"] kw /\
     construct (lowername g) tg args kw = Ok (GObj (lowername g) tg (Given p) [] rest)) \/
  ((~ exists p rest, binds_params args kw p rest /\ without ["self"; "targets"] kw) /\ construct (lowername g) tg args kw = Err TypeError).
Proof.
  intros g tg args kw N D. unfold construct. rewrite (init_none g N). cbv zeta.
  destruct (match args with [] => match dict_get kw "params" with None => true | _ => false end | _ => false end) eqn:X.
  - destruct args as [|a args]; [|discriminate]. destruct (dict_get kw "params") eqn:G; [discriminate|]. apply get_none in G.
    assert (D' : is_dict (("params", ATuple []) :: kw)) by (constructor; [exact G|exact D]).
    assert (W : without ["self"; "targets"] (("params", ATuple []) :: kw) <-> without ["self"; "targets"] kw).
    { unfold without. split; intros H k I K; apply (H k I); [right; exact K|]. destruct K as [K|K]; [|exact K]. cbn in K. subst k.
      exfalso. cbn in I. intuition discriminate. }
    destruct (bind_spec ["params"] [] (("params", ATuple []) :: kw) D') as [(vals & rest & -> & Bd & W')|(-> & No)]; cbn [bind].
    + apply (binds_single _ _ _ _ D') in Bd. destruct Bd as (p & -> & [(Bad & _)|(_ & I)] & Lv); [discriminate|].
      assert (p = ATuple []) by (apply (dict_fun _ "params" _ _ D' I); left; reflexivity). subst p.
      left. exists (ATuple []), rest. split; [|split; [apply W; exact W'|reflexivity]]. split; [|apply (leaves_cons (ATuple [])); auto]. auto.
    + right. split; [|reflexivity]. intros (p & rest & (H & Lv) & W'). apply No. exists [ATuple []], rest. split; [|apply W; exact W'].
      apply (binds_single _ _ _ _ D'). exists (ATuple []). split; [reflexivity|]. split; [right; split; [reflexivity|left; reflexivity]|].
      apply leaves_cons; auto.
  - assert (E : match args, dict_get kw "params" with [], None => ("params", ATuple []) :: kw | _, _ => kw end = kw)
      by (destruct args; [destruct (dict_get kw "params"); [reflexivity|discriminate]|reflexivity]).
    rewrite E. clear E.
    assert (F : ~ (args = [] /\ ~ In "params" (keys kw))).
    { intros (-> & H). apply get_none in H. rewrite H in X. discriminate. }
    destruct (bind_spec ["params"] args kw D) as [(vals & rest & -> & Bd & W)|(-> & No)]; cbn [bind].
    + apply (binds_single _ _ _ _ D) in Bd. destruct Bd as (p & -> & H & Lv). left. exists p, rest. split; [|split; [exact W|reflexivity]].
      split; [|exact Lv]. tauto.
    + right. split; [|reflexivity]. intros (p & rest & (H & Lv) & W). apply No. exists [p], rest. split; [|exact W].
      apply (binds_single _ _ _ _ D). exists p. split; [reflexivity|]. split; [|exact Lv]. tauto.
Qed.

(** ** Numbers *)
Lemma perm_in : forall {A} (l m : list A), Permutation l m -> forall a, In a l <-> In a m.
Proof. intros A l m P a. split; apply Permutation_in; [exact P|apply Permutation_sym; exact P]. Qed.
Lemma combine_in : forall {A B} (l : list A) (m : list B) i a b, nth_error l i = Some a -> nth_error m i = Some b -> In (a, b) (combine l m).
Proof.
  induction l as [|x l IH]; intros m i a b; destruct i, m; cbn; intros E F; try discriminate; [left; congruence|right; eauto].
Qed.
Lemma combine_in_inv : forall {A B} (l : list A) (m : list B) a b, In (a, b) (combine l m) -> exists i, nth_error l i = Some a /\ nth_error m i = Some b.
Proof.
  induction l as [|x l IH]; intros [|y m] a b; cbn; try tauto. intros [E|I]; [injection E as -> ->; exists 0%nat; auto|].
  destruct (IH _ _ _ I) as (i & E & F). exists (S i). auto.
Qed.
Lemma nth_map_num : forall l i a, nth_error (map ANum l) i = Some a -> exists x, nth_error l i = Some x /\ a = ANum x.
Proof. intros l i a. rewrite nth_error_map. destruct (nth_error l i); cbn; intros H; [injection H as <-; eauto|discriminate]. Qed.
Lemma nth_ext_eq : forall {A} (l m : list A), List.length l = List.length m -> (forall i a, nth_error l i = Some a -> nth_error m i = Some a) -> l = m.
Proof.
  induction l as [|a l IH]; intros [|b m] L H; try discriminate; [reflexivity|]. assert (E := H 0%nat a eq_refl). injection E as ->. f_equal.
  apply IH; [cbn in L; lia|]. intros i x. apply (H (S i) x).
Qed.
Lemma nth_firstn : forall {A} n (l : list A) i, nth_error (firstn n l) i = if (i <? n)%nat then nth_error l i else None.
Proof.
  induction n as [|n IH]; intros [|a l] [|i]; try reflexivity.
  - cbn [firstn nth_error]. destruct (S i <? S n)%nat; reflexivity.
  - cbn [firstn nth_error]. rewrite IH. reflexivity.
Qed.

(** the values and leftovers of a call that is spelled out *)
Lemma spelled_binds : forall g args kw extra, spelled g args kw extra ->
  without ["self"; "targets"; "params"] kw /\ forall vals rest, binds (param_names g) args kw vals rest -> vals = map ANum (params g).
Proof.
  intros g args kw extra (k & Lk & -> & D & P & W). split.
  - intros q I K. apply in_map_iff in K. destruct K as ([q' a] & <- & K). cbn [fst] in I. apply (perm_in _ _ P) in K. apply in_app_iff in K.
    destruct K as [K|K].
    + apply combine_in_inv in K. destruct K as (i & E & _). rewrite nth_skipn in E. apply nth_error_In in E. apply (names_unreserved g _ E I).
    + apply (W q'); [destruct I as [<-|[<-|[<-|[]]]]; cbn; auto|]. apply in_map_iff. exists (q', a). auto.
  - intros vals rest (L & Pl & Q & R & Lv). symmetry. apply nth_ext_eq; [rewrite map_length, L, names_length; reflexivity|].
    assert (La : List.length (map ANum (firstn k (params g))) = k) by (rewrite map_length, firstn_length; lia).
    intros i a E. destruct (lt_dec i k) as [Hi|Hi].
    + apply Pl. rewrite <- E, !nth_error_map, nth_firstn. destruct (Nat.ltb_spec i k); [reflexivity|lia].
    + destruct (nth_error (param_names g) i) as [p|] eqn:Ep.
      2:{ apply nth_error_None in Ep. rewrite names_length in Ep. assert (nth_error (map ANum (params g)) i = None)
            by (apply nth_error_None; rewrite map_length; lia). congruence. }
      destruct (R i p) as (b & Eb & I); [lia|exact Ep|]. rewrite Eb. f_equal. apply (dict_fun kw p); [exact D|exact I|].
      apply (perm_in _ _ P). apply in_app_iff. left. apply (combine_in _ _ (i - k)); [rewrite nth_skipn, <- Ep; f_equal; lia|].
      rewrite nth_error_map, nth_skipn. replace (k + (i - k))%nat with i by lia. rewrite <- nth_error_map. exact E.
Qed.

Lemma spelled_exists : forall g args kw extra, spelled g args kw extra ->
  binds (param_names g) args kw (map ANum (params g)) (filter (fun kv => negb (mem (fst kv) (param_names g))) kw).
Proof.
  intros g args kw extra (k & Lk & -> & D & P & W).
  assert (La : List.length (map ANum (firstn k (params g))) = k) by (rewrite map_length, firstn_length; lia).
  split; [rewrite map_length, names_length; reflexivity|]. rewrite La. split; [|split; [|split; [|apply filter_leaves; exact D]]].
  - intros i a. rewrite !nth_error_map, nth_firstn. destruct (i <? k)%nat; [auto|discriminate].
  - intros i p Li E K. apply in_map_iff in K. destruct K as ([p' a] & E' & K). cbn [fst] in E'. subst p'. apply (perm_in _ _ P) in K.
    apply in_app_iff in K. destruct K as [K|K].
    + apply combine_in_inv in K. destruct K as (j & Ej & _). rewrite nth_skipn in Ej.
      assert (i = k + j)%nat; [|lia]. assert (Nd := names_nodup g). rewrite NoDup_nth_error in Nd.
      apply Nd; [apply nth_error_Some; congruence|congruence].
    + apply (W p); [do 3 right; apply nth_error_In in E; exact E|]. apply in_map_iff. exists (p, a). auto.
  - intros i p Li E. assert (Hi : (i < List.length (params g))%nat) by (rewrite <- names_length; apply nth_error_Some; congruence).
    destruct (nth_error (map ANum (params g)) i) as [a|] eqn:Ea; [|apply nth_error_None in Ea; rewrite map_length in Ea; lia].
    exists a. split; [reflexivity|]. apply (perm_in _ _ P). apply in_app_iff. left.
    apply (combine_in _ _ (i - k)); [rewrite nth_skipn, <- E; f_equal; lia|].
    rewrite nth_error_map, nth_skipn. replace (k + (i - k))%nat with i by lia. rewrite <- nth_error_map. exact Ea.
Qed.

Lemma dict_nodup : forall d, is_dict d -> NoDup d.
Proof. intros d D. unfold is_dict, keys in D. apply NoDup_map_inv in D. exact D. Qed.
Lemma spelled_left : forall g args kw extra rest, spelled g args kw extra -> leaves (param_names g) kw rest -> Permutation rest extra.
Proof.
  intros g args kw extra rest (k & Lk & -> & D & P & W) (Dr & L).
  assert (Nd : NoDup (combine (skipn k (param_names g)) (map ANum (skipn k (params g))) ++ extra)%list)
    by (apply (Permutation_NoDup P); apply dict_nodup; exact D).
  apply NoDup_Permutation; [apply dict_nodup; exact Dr| |].
  - clear - Nd. induction (combine (skipn k (param_names g)) (map ANum (skipn k (params g)))) as [|x l IH]; [exact Nd|].
    inversion Nd; subst. apply IH. exact H2.
  - intros [q a]. rewrite L. cbn [fst]. rewrite (perm_in _ _ P), in_app_iff. split.
    + intros ([I|I] & N); [|exact I]. exfalso. apply N. apply combine_in_inv in I. destruct I as (i & E & _). rewrite nth_skipn in E.
      apply nth_error_In in E. exact E.
    + intros I. split; [right; exact I|]. intros M. apply (W q); [do 3 right; exact M|]. apply in_map_iff. exists (q, a). auto.
Qed.

Lemma stands_own : forall g rest, params g <> [] ->
  stands_for (GObj (lowername g) (targets g) (Own (map ANum (params g))) (combine (param_names g) (map ANum (params g))) rest) g.
Proof.
  intros g rest N. split; [reflexivity|]. split; [reflexivity|]. cbn [o_attrs o_params]. split.
  - rewrite combine_length, map_length, names_length. apply Nat.min_id.
  - split; [|auto]. intros i p x E F. apply (combine_in _ _ i); [exact E|]. rewrite nth_error_map, F. reflexivity.
Qed.
Lemma stands_given : forall g p rest, params g = [] -> stands_for (GObj (lowername g) (targets g) (Given p) [] rest) g.
Proof.
  intros g p rest N. split; [reflexivity|]. split; [reflexivity|]. cbn [o_attrs o_params]. rewrite N. split; [reflexivity|]. split; [|congruence].
  intros [|i] q x _; discriminate.
Qed.

Lemma any_order_lemma : forall g args kw extra, spelled g args kw extra ->
  exists o, construct (lowername g) (targets g) args kw = Ok o /\ stands_for o g /\ no_stray o g /\ Permutation (o_kwargs o) extra.
Proof.
  intros g args kw extra Sp. destruct (spelled_binds _ _ _ _ Sp) as (W & U). pose proof (spelled_exists _ _ _ _ Sp) as B.
  assert (D : is_dict kw) by (destruct Sp as (k & _ & _ & D & _); exact D).
  destruct (params g) as [|x ps] eqn:Ep.
  - assert (B' : binds_params args kw (ATuple []) kw /\ args = [] /\ leaves (param_names g) kw kw).
    { assert (E : param_names g = []) by (pose proof (names_length g) as L; rewrite Ep in L; destruct (param_names g); [auto|discriminate]).
      destruct Sp as (k & Lk & Ea & _ & P & _). rewrite Ep in Ea. rewrite firstn_nil in Ea. cbn in Ea. split; [|split; [exact Ea|]].
      - split; [right; right; split; [exact Ea|]; split; [apply W; cbn; auto|reflexivity]|].
        split; [exact D|]. intros [q a]. cbn [fst In]. split; [|tauto]. intros I. split; [exact I|]. intros [<-|[]].
        apply (W "params"); [cbn; auto|]. apply in_map_iff. exists ("params", a). auto.
      - rewrite E. split; [exact D|]. intros kv. cbn. tauto. }
    destruct B' as (B' & Ea & Lv).
    assert (W2 : without ["self"; "targets"] kw) by (intros q [<-|[<-|[]]]; apply W; cbn; auto).
    destruct (no_parameters_lemma g (targets g) args kw Ep D) as [(p & rest & (Bp & Lr) & _ & ->)|(No & _)].
    2:{ exfalso. apply No. exists (ATuple []), kw. auto. }
    assert (p = ATuple []).
    { destruct Bp as [(X & _)|[(_ & I)|(_ & _ & X)]]; [rewrite Ea in X; discriminate| |exact X].
      exfalso. apply (W "params"); [cbn; auto|]. apply in_map_iff. exists ("params", p). auto. }
    subst p. eexists. split; [reflexivity|]. split; [apply stands_given; exact Ep|]. split; [intros _; reflexivity|]. cbn [o_kwargs].
    apply (spelled_left g args kw); [exact Sp|]. split; [apply Lr|]. intros kv. rewrite (proj2 Lr kv). pose proof (proj2 Lv kv). split; [tauto|].
    intros (I & _). split; [exact I|]. intros [X|[]]. apply (W "params"); [cbn; auto|]. apply in_map_iff. exists kv. auto.
  - assert (N : params g <> []) by congruence. rewrite <- Ep in B.
    destruct (parameters_lemma g (targets g) args kw N D) as [(vals & rest & Bd & _ & ->)|(No & _)].
    2:{ exfalso. apply No. eexists. eexists. split; [exact B|exact W]. }
    assert (vals = map ANum (params g)) by (rewrite Ep; apply (U vals rest Bd)). subst vals.
    eexists. split; [reflexivity|]. split; [apply stands_own; exact N|]. split; [intros X; congruence|]. cbn [o_kwargs].
    apply (spelled_left g args kw); [exact Sp|]. apply Bd.
Qed.

(** ** The adjoint of a gate object *)
Lemma called_shape : forall o g, called o -> o_class o = lowername g -> o_targets o = targets g ->
  is_dict (o_kwargs o) /\ without ("self" :: "targets" :: "params" :: param_names g) (o_kwargs o) /\
  (params g <> [] -> exists vals, List.length vals = List.length (params g) /\
     o = GObj (lowername g) (targets g) (Own vals) (combine (param_names g) vals) (o_kwargs o)) /\
  (params g = [] -> exists p, o = GObj (lowername g) (targets g) (Given p) [] (o_kwargs o)).
Proof.
  intros o g (args & kw & D & C) Ec Et. rewrite Ec, Et in C.
  assert (X : params g = [] \/ params g <> []) by (destruct (params g); [left; reflexivity|right; discriminate]). destruct X as [X|X].
  - destruct (no_parameters_lemma g (targets g) args kw X D) as [(p & rest & (Bp & Dr & Lr) & W & E)|(_ & E)]; [|congruence].
    rewrite E in C. injection C as <-. cbn [o_kwargs]. split; [exact Dr|]. split; [|split; [congruence|intros _; exists p; reflexivity]].
    assert (Hn : param_names g = []) by (pose proof (names_length g) as L; rewrite X in L; destruct (param_names g); [auto|discriminate]).
    rewrite Hn. intros q I K. apply in_map_iff in K. destruct K as (kv & <- & K). apply Lr in K. destruct K as (K & N).
    destruct I as [I|[I|[I|[]]]].
    + apply (W "self"); [cbn; auto|]. rewrite I. apply in_map_iff. exists kv. auto.
    + apply (W "targets"); [cbn; auto|]. rewrite I. apply in_map_iff. exists kv. auto.
    + apply N. left. exact I.
  - destruct (parameters_lemma g (targets g) args kw X D) as [(vals & rest & Bd & W & E)|(_ & E)]; [|congruence].
    rewrite E in C. injection C as <-. cbn [o_kwargs]. destruct Bd as (Lv & _ & _ & _ & Dr & Lr). split; [exact Dr|].
    split; [|split; [intros _; exists vals; split; [rewrite Lv; apply names_length|reflexivity]|congruence]].
    intros q I K. apply in_map_iff in K. destruct K as (kv & <- & K). apply Lr in K. destruct K as (K & N).
    assert (K' : In (fst kv) (keys kw)) by (apply in_map_iff; exists kv; auto).
    destruct I as [I|[I|[I|I]]]; [rewrite <- I in K'; apply (W "self"); cbn; auto|rewrite <- I in K'; apply (W "targets"); cbn; auto|
      rewrite <- I in K'; apply (W "params"); cbn; auto|exact (N I)].
Qed.

Lemma existsb_none : forall {A} (f : A -> bool) l, (forall a, In a l -> f a = false) -> existsb f l = false.
Proof. induction l as [|a l IH]; intros H; cbn; [auto|]. rewrite H by (left; auto). apply IH. intros. apply H. right. auto. Qed.
Lemma bind_direct : forall names vals kw, List.length vals = List.length names -> without ("self" :: "targets" :: names) kw ->
  bind_args names vals kw = Ok (vals, kw).
Proof.
  intros names vals kw L W. unfold bind_args. rewrite L, Nat.ltb_irrefl, firstn_all.
  rewrite existsb_none.
  - rewrite skipn_all. cbn [by_keyword bind]. rewrite app_nil_r, filter_all; [reflexivity|].
    intros kv I. rewrite negb_true_iff, mem_false. intros M. apply (W (fst kv)); [right; right; exact M|]. apply in_map_iff. exists kv. auto.
  - intros kv I. apply mem_false. intros M. apply (W (fst kv) M). apply in_map_iff. exists kv. auto.
Qed.
Lemma construct_direct : forall g kw, params g <> [] -> without ("self" :: "targets" :: "params" :: param_names g) kw ->
  construct (lowername g) (targets g) (map ANum (params g)) kw =
  Ok (GObj (lowername g) (targets g) (Own (map ANum (params g))) (combine (param_names g) (map ANum (params g))) kw).
Proof.
  intros g kw N W. unfold construct. rewrite (init_some g N), bind_direct; [|rewrite map_length, names_length; reflexivity|].
  - cbn [bind]. assert (M : mem "params" (map fst kw) = false) by (apply mem_false; apply W; cbn; auto). rewrite M. reflexivity.
  - intros k [<-|[<-|I]]; apply W; cbn; auto.
Qed.
Lemma construct_given : forall g a kw, params g = [] -> without ["self"; "targets"; "params"] kw ->
  construct (lowername g) (targets g) [a] kw = Ok (GObj (lowername g) (targets g) (Given a) [] kw).
Proof.
  intros g a kw N W. unfold construct. rewrite (init_none g N). cbv beta iota zeta. rewrite bind_direct; [reflexivity|reflexivity|].
  intros k [<-|[<-|[<-|[]]]]; apply W; cbn; auto.
Qed.

Lemma dagger_lemma : forall o g, called o -> stands_for o g -> (In (lowername g) ["u2"; "cu2"] -> ~ In "theta" (keys (o_kwargs o))) ->
  match gate_dagger g with
  | Ok g' => exists o', object_dagger o = Ok o' /\ stands_for o' g' /\ called o' /\ o_kwargs o' = o_kwargs o /\
                        (params g = [] -> o_params o' = o_params o)
  | Err e => object_dagger o = Err e
  end.
Proof.
  intros o g Cd St Th. destruct St as (Ec & Et & La & At & Op).
  destruct (called_shape o g Cd Ec Et) as (D & W & Sp & Sn).
  assert (X : params g = [] \/ params g <> []) by (destruct (params g); [left; reflexivity|right; discriminate]).
  assert (W3 : without ["self"; "targets"; "params"] (o_kwargs o)) by (intros q [<-|[<-|[<-|[]]]]; apply W; cbn; auto).
  (* the new object, if made from numbers *)
  assert (New : forall g', targets g' = targets g -> params g' <> [] -> params g <> [] -> without (param_names g') (o_kwargs o) ->
    object_dagger o = construct (lowername g') (targets g) (map ANum (params g')) (o_kwargs o) ->
    exists o', object_dagger o = Ok o' /\ stands_for o' g' /\ called o' /\ o_kwargs o' = o_kwargs o /\ (params g = [] -> o_params o' = o_params o)).
  { intros g' Tg N N0 Wn E. rewrite E, <- Tg.
    assert (W' : without ("self" :: "targets" :: "params" :: param_names g') (o_kwargs o)).
    { intros q I. destruct I as [<-|[<-|[<-|I]]]; [apply W3; cbn; auto|apply W3; cbn; auto|apply W3; cbn; auto|apply Wn; exact I]. }
    rewrite (construct_direct g' _ N W').
    eexists. split; [reflexivity|]. split; [apply stands_own; exact N|]. split; [|split; [reflexivity|congruence]].
    exists (map ANum (params g')), (o_kwargs o). split; [exact D|]. cbn [o_class o_targets]. apply construct_direct; auto. }
  (* the object itself *)
  assert (Same : gate_dagger g = Ok g -> object_dagger o = Ok o ->
    exists o', object_dagger o = Ok o' /\ stands_for o' g /\ called o' /\ o_kwargs o' = o_kwargs o /\ (params g = [] -> o_params o' = o_params o)).
  { intros _ E. exists o. split; [exact E|]. split; [repeat split; auto|]. auto. }
  (* the object with another class *)
  assert (Other : forall g', targets g' = targets g -> params g' = [] -> params g = [] ->
    object_dagger o = construct (lowername g') (targets g) (params_arg (o_params o)) (o_kwargs o) ->
    exists o', object_dagger o = Ok o' /\ stands_for o' g' /\ called o' /\ o_kwargs o' = o_kwargs o /\ (params g = [] -> o_params o' = o_params o)).
  { intros g' Tg N N0 E. rewrite E, <- Tg. destruct (Sn N0) as (p & Eo). rewrite Eo. cbn [o_params params_arg o_kwargs].
    rewrite (construct_given g' p _ N W3). eexists. split; [reflexivity|]. split; [apply stands_given; exact N|]. split; [|split; reflexivity].
    exists [p], (o_kwargs o). split; [exact D|]. cbn [o_class o_targets]. apply construct_given; auto. }
  destruct X as [X|X].
  - clear Sp New. destruct (Sn X) as (p & Eo). destruct g as [k tg|k tg|k tg|tg|tg]; try destruct k; cbn in X; try discriminate; cbn [gate_dagger dagger1 dagger2];
      try (apply Same; [reflexivity|rewrite Eo; reflexivity]); try (rewrite Eo; reflexivity);
      (apply Other; [reflexivity|reflexivity|reflexivity|]; rewrite Eo; reflexivity).
  - clear Sn Other Same. destruct (Sp X) as (vals & Lv & Eo). assert (vals = map ANum (params g)).
    { specialize (Op X). rewrite Eo in Op. cbn in Op. injection Op as ->. reflexivity. }
    subst vals. set (kw := o_kwargs o) in *. rewrite Eo. rewrite Eo in New. clear Eo.
    destruct g as [k tg|k tg|k tg|tg|tg]; try destruct k; cbn in X; try (exfalso; apply X; reflexivity); cbn [gate_dagger dagger1 dagger2];
      (apply New; [reflexivity|discriminate|exact X| |reflexivity]); cbn [param_names];
      (intros q I; try (apply W; do 3 right; exact I)); destruct I as [<-|I]; try (apply Th; cbn; tauto); apply W; do 3 right; exact I.
Qed.

(** ** Text *)
Lemma text_lemma : forall show o g, stands_for o g -> no_stray o g -> object_str show o = gate_str (fun x => show (ANum x)) g.
Proof.
  intros show o g (Ec & Et & _ & _ & Op) Ns. unfold object_str, gate_str, object_str_args, str_args. rewrite Ec, Et.
  destruct (params g) as [|x ps] eqn:E.
  - rewrite (Ns E). cbn [bind]. reflexivity.
  - rewrite (Op ltac:(discriminate)). cbn [map bind]. rewrite map_map. reflexivity.
Qed.
Lemma repr_lemma : forall show n ops gs, Forall2 (fun o g => stands_for o g /\ no_stray o g) ops gs ->
  object_repr show n ops = circuit_repr (fun x => show (ANum x)) n gs.
Proof.
  intros show n ops gs F. unfold object_repr, circuit_repr.
  assert (E : map_res (object_str show) ops = map_res (gate_str (fun x => show (ANum x))) gs).
  { induction F as [|o g ops gs (A & B) F IH]; [reflexivity|]. cbn [map_res]. rewrite IH, (text_lemma show o g A B). reflexivity. }
  rewrite E. reflexivity.
Qed.

(** ** Circuits and wrappers *)
Lemma set_nth_same : forall {A} (l : list A) i a b, nth_error l i = Some b -> nth_error (set_nth l i a) i = Some a.
Proof.
  intros A l i a b H. unfold set_nth. assert (L : (i < List.length l)%nat) by (apply nth_error_Some; congruence).
  rewrite nth_error_app2; rewrite firstn_length, Nat.min_l by lia; [|lia]. rewrite Nat.sub_diag. reflexivity.
Qed.
Lemma set_nth_other : forall {A} (l : list A) i j a b, nth_error l i = Some b -> i <> j -> nth_error (set_nth l i a) j = nth_error l j.
Proof.
  intros A l i j a b H N. unfold set_nth. assert (L : (i < List.length l)%nat) by (apply nth_error_Some; congruence).
  assert (F : List.length (firstn i l) = i) by (rewrite firstn_length; lia). destruct (lt_dec j i).
  - rewrite nth_error_app1 by lia. rewrite nth_firstn. destruct (Nat.ltb_spec j i); [reflexivity|lia].
  - rewrite nth_error_app2 by lia. rewrite F. destruct (j - i)%nat as [|m] eqn:E; [lia|]. cbn [nth_error]. rewrite nth_skipn. f_equal. lia.
Qed.
Lemma set_nth_length : forall {A} (l : list A) i a b, nth_error l i = Some b -> List.length (set_nth l i a) = List.length l.
Proof.
  intros A l i a b H. unfold set_nth. assert (L : (i < List.length l)%nat) by (apply nth_error_Some; congruence).
  rewrite app_length. cbn [List.length]. rewrite firstn_length, skipn_length. lia.
Qed.

Lemma class_of_in : forall name cls, class_of gate_set name = Some cls <-> In (name, cls) gate_set.
Proof.
  assert (Nd : NoDup (map fst gate_set)).
  { apply (NoDup_count_occ' string_dec). intros x I. cbn [map fst gate_set] in I. repeat (destruct I as [<-|I]; [reflexivity|]). destruct I. }
  revert Nd. generalize gate_set. induction l as [|[k c] l IH]; intros Nd name cls; cbn [class_of In map fst] in *; [split; [discriminate|tauto]|].
  inversion Nd; subst. destruct (String.eqb_spec name k) as [E|E].
  - subst. split; intros H.
    + injection H as ->. auto.
    + destruct H as [H|H]; [congruence|]. exfalso. apply H1. apply in_map_iff. exists (k, cls). auto.
  - rewrite IH by assumption. split; [auto|]. intros [H|H]; [congruence|exact H].
Qed.

Lemma attr_lemma : forall s c v name, nth_error (s_circs s) c = Some v ->
  (forall cls, In (name, cls) gate_set ->
     gstep s (GAttr c name) = (Ok (VWrap (List.length (s_wraps s))), Store (s_circs s) (s_wraps s ++ [Wrap c cls [] []]))) /\
  ((forall cls, ~ In (name, cls) gate_set) -> gstep s (GAttr c name) = (Err AttributeError, s)).
Proof.
  intros s c v name H. cbn [gstep]. rewrite H. split.
  - intros cls I. apply class_of_in in I. rewrite I. reflexivity.
  - intros N. destruct (class_of gate_set name) eqn:E; [|reflexivity]. apply class_of_in in E. destruct (N _ E).
Qed.

Lemma kept_step : forall k s w x, nth_error (s_wraps s) w = Some x -> (forall a kw, k <> GCall w a kw) -> nth_error (s_wraps (snd (gstep s k))) w = Some x.
Proof.
  intros k s w x H N. destruct k as [n|c name|w' a kw|w' tg]; cbn [gstep].
  - exact H.
  - destruct (nth_error (s_circs s) c); [|exact H]. destruct (class_of gate_set name); [|exact H]. cbn.
    rewrite nth_error_app1; [exact H|]. apply nth_error_Some. congruence.
  - destruct (nth_error (s_wraps s) w') eqn:E; [|exact H]. destruct (mem "self" (map fst kw)); [exact H|]. cbn.
    assert (w' <> w) by (intros ->; apply (N a kw); reflexivity). rewrite (set_nth_other _ _ _ _ w0 E H0). exact H.
  - destruct (nth_error (s_wraps s) w'); [|exact H]. destruct (nth_error (s_circs s) (w_circ w0)); [|exact H].
    destruct (construct (w_class w0) tg (w_args w0) (w_kwargs w0)); [|exact H]. destruct (get_maximum_index tg); exact H.
Qed.
Lemma kept_steps : forall ks s w x, nth_error (s_wraps s) w = Some x -> (forall a kw, ~ In (GCall w a kw) ks) ->
  nth_error (s_wraps (snd (gsteps s ks))) w = Some x.
Proof.
  induction ks as [|k ks IH]; intros s w x H N; cbn [gsteps]; [exact H|].
  pose proof (kept_step k s w x H) as Q. destruct (gstep s k) as (r, s1) eqn:E. cbn [snd] in Q.
  specialize (IH s1 w x). destruct (gsteps s1 ks) as (rs, s2). cbn [snd] in *. apply IH.
  - apply Q. intros a kw ->. apply (N a kw). left. reflexivity.
  - intros a kw I. apply (N a kw). right. exact I.
Qed.
Lemma self_lemma : forall s w x args kw, nth_error (s_wraps s) w = Some x -> In "self" (keys kw) -> gstep s (GCall w args kw) = (Err TypeError, s).
Proof.
  intros s w x args kw W I. unfold gstep. rewrite W. replace (mem "self" (map fst kw)) with true; [reflexivity|].
  symmetry. unfold keys in I. unfold mem. apply existsb_exists. exists "self". split; [exact I|reflexivity].
Qed.
Lemma number_str : forall show o x t, o_params o = Given (ANum x) -> str_targets (o_targets o) = Ok t ->
  (x = 0%R -> object_str show o = Ok (o_class o ++ t)%string) /\ (x <> 0%R -> object_str show o = Err TypeError).
Proof.
  intros show o x t P T. unfold object_str. rewrite P. cbn [object_str_args]. unfold Reqb. destruct (Req_EM_T x 0) as [E|E]; split; intros H; try contradiction.
  - cbn [bind]. rewrite T. reflexivity.
  - reflexivity.
Qed.
Lemma wrapper_lemma : forall s w x args kw ks, nth_error (s_wraps s) w = Some x -> ~ In "self" (keys kw) -> (forall a k, ~ In (GCall w a k) ks) ->
  nth_error (s_wraps (snd (gsteps s (GCall w args kw :: ks)))) w = Some (Wrap (w_circ x) (w_class x) args kw).
Proof.
  intros s w x args kw ks H N K. cbn [gsteps gstep]. rewrite H. apply mem_false in N. unfold keys in N. rewrite N.
  pose proof (kept_steps ks (Store (s_circs s) (set_nth (s_wraps s) w (Wrap (w_circ x) (w_class x) args kw))) w (Wrap (w_circ x) (w_class x) args kw)) as Q.
  destruct (gsteps _ ks) as (rs, s2). cbn [snd] in *. apply Q; [|exact K]. cbn. apply (set_nth_same _ _ _ x). exact H.
Qed.

Lemma only_set : forall s c b v, nth_error (s_circs s) c = Some b -> only_changed c v s (Store (set_nth (s_circs s) c v) (s_wraps s)).
Proof.
  intros s c b v H. split; [reflexivity|]. cbn [s_circs]. split; [apply (set_nth_length _ _ _ b); exact H|]. split; [apply (set_nth_same _ _ _ b); exact H|].
  intros j N. apply (set_nth_other _ _ _ _ b); auto.
Qed.
Lemma item_lemma : forall s w x c tg, nth_error (s_wraps s) w = Some x -> nth_error (s_circs s) (w_circ x) = Some c -> (0 <= k_n c)%Z ->
  match construct (w_class x) tg (w_args x) (w_kwargs x) with
  | Err e => gstep s (GItem w tg) = (Err e, s)
  | Ok o => (flat tg /\ exists n s', grown (k_n c) tg n /\ gstep s (GItem w tg) = (Ok (VCircuit (w_circ x)), s') /\
               only_changed (w_circ x) (CObj (k_ops c ++ [o]) n) s s') \/
            (~ flat tg /\ exists s', gstep s (GItem w tg) = (Err AttributeError, s') /\ only_changed (w_circ x) (CObj (k_ops c ++ [o]) (k_n c)) s s')
  end.
Proof.
  intros s w x c tg Hw Hc Hn. cbn [gstep]. rewrite Hw, Hc. destruct (construct _ tg _ _) as [o|e]; [|reflexivity]. cbv zeta.
  destruct (get_maximum_index tg) as [i|e] eqn:M.
  - left. split; [apply (max_index _ _ M)|]. eexists. eexists. split; [apply (max_grown tg i (k_n c) Hn M)|]. split; [reflexivity|].
    apply (only_set _ _ c). exact Hc.
  - right. destruct (max_index_err _ _ M) as (-> & F). split; [exact F|]. eexists. split; [reflexivity|]. apply (only_set _ _ c). exact Hc.
Qed.

(** ** Whole circuits *)
Lemma holds1_mono : forall w w' t, (w <= w')%Z -> holds1 w t -> holds1 w' t.
Proof. intros w w' [z|a b st|l|] L; cbn; auto; [lia|]. intros (A & B). split; intros q E; [specialize (A q E)|specialize (B q E)]; lia. Qed.
Lemma holds_mono : forall w w' t, (w <= w')%Z -> holds w t -> holds w' t.
Proof.
  intros w w' t L. destruct t; cbn [holds]; try (apply holds1_mono; exact L). apply Forall_impl. intros t. apply holds1_mono. exact L.
Qed.
Lemma least_grown : forall n gs w g w', least_width n gs w -> grown w (targets g) w' -> least_width n (gs ++ [g]) w'.
Proof.
  intros n gs w g w' (A & B & C) (A' & B' & C'). split; [lia|]. split.
  - apply Forall_app. split; [|constructor; auto]. revert B. apply Forall_impl. intros h. apply holds_mono. exact A'.
  - intros v Hv F. apply Forall_app in F. destruct F as (F1 & F2). inversion F2; subst. apply C'; [apply C; auto|assumption].
Qed.
Lemma spelled_self : forall g args kw extra, spelled g args kw extra -> ~ In "self" (keys kw).
Proof. intros g args kw extra H. destruct (spelled_binds _ _ _ _ H) as (W & _). apply W. cbn. auto. Qed.

Lemma spell_lemma : forall l gs, Forall2 writes l gs -> forall n s ops gs0 w, (0 <= n)%Z -> nth_error (s_circs s) 0 = Some (CObj ops w) ->
  Forall2 (fun o g => stands_for o g /\ no_stray o g) ops gs0 -> least_width n gs0 w ->
  exists rs s' ops' w', gsteps s (spell (List.length (s_wraps s)) l) = (rs, s') /\ Forall (fun r => exists v, r = Ok v) rs /\
    nth_error (s_circs s') 0 = Some (CObj ops' w') /\ Forall2 (fun o g => stands_for o g /\ no_stray o g) ops' (gs0 ++ gs) /\
    least_width n (gs0 ++ gs) w'.
Proof.
  induction 1 as [|[[[name args] kw] tg] g l gs Wr F IH]; intros n s ops gs0 w Hn Hc Fo Lw.
  - exists [], s, ops, w. rewrite app_nil_r. cbn [spell gsteps]. auto.
  - destruct Wr as (Iname & -> & Fl & extra & Sp). cbn [spell gsteps].
    destruct (attr_lemma s 0 _ name Hc) as (At & _). rewrite (At _ Iname). clear At.
    set (b := List.length (s_wraps s)). set (s1 := Store (s_circs s) (s_wraps s ++ [Wrap 0 (lowername g) [] []])).
    assert (H1 : nth_error (s_wraps s1) b = Some (Wrap 0 (lowername g) [] [])).
    { cbn [s1 s_wraps]. unfold b. rewrite nth_error_app2, Nat.sub_diag; [reflexivity|lia]. }
    assert (E2 : gstep s1 (GCall b args kw) = (Ok (VWrap b), Store (s_circs s) (set_nth (s_wraps s1) b (Wrap 0 (lowername g) args kw)))).
    { cbn [gstep]. rewrite H1. pose proof (spelled_self _ _ _ _ Sp) as N. apply mem_false in N. unfold keys in N. rewrite N. reflexivity. }
    rewrite E2. set (s2 := Store (s_circs s) (set_nth (s_wraps s1) b (Wrap 0 (lowername g) args kw))).
    assert (H2 : nth_error (s_wraps s2) b = Some (Wrap 0 (lowername g) args kw)) by (apply (set_nth_same _ _ _ _ H1)).
    assert (Hw : (0 <= w)%Z) by (destruct Lw; lia).
    pose proof (item_lemma s2 b _ (CObj ops w) (targets g) H2 Hc Hw) as It. cbn [w_class w_args w_kwargs w_circ k_n k_ops] in It.
    destruct (any_order_lemma _ _ _ _ Sp) as (o & Eo & So & No & _). rewrite Eo in It.
    destruct It as [(_ & w1 & s3 & G & E3 & (Ws & Lc & H3 & _))|(Bad & _)]; [|contradiction]. rewrite E3.
    assert (Lb : List.length (s_wraps s3) = S b).
    { rewrite Ws. cbn [s2 s_wraps]. rewrite (set_nth_length _ _ _ _ H1). cbn [s1 s_wraps]. rewrite app_length. cbn. fold b. lia. }
    destruct (IH n s3 (ops ++ [o])%list (gs0 ++ [g])%list w1 Hn H3) as (rs & s' & ops' & w' & E4 & Ok' & H4 & F4 & L4).
    + apply Forall2_app; [exact Fo|]. constructor; auto.
    + apply (least_grown _ _ w); auto.
    + rewrite Lb in E4. rewrite E4. rewrite <- app_assoc in F4, L4. eexists. exists s', ops', w'. split; [reflexivity|].
      split; [|auto]. apply Forall_cons; [eauto|]. apply Forall_cons; [eauto|]. apply Forall_cons; [eauto|exact Ok'].
Qed.

Lemma circuit_lemma : forall n l gs, (0 <= n)%Z -> Forall2 writes l gs ->
  exists rs s ops w, gsteps (Store [] []) (GNew n :: spell 0 l) = (rs, s) /\ Forall (fun r => exists v, r = Ok v) rs /\
    nth_error (s_circs s) 0 = Some (CObj ops w) /\ Forall2 (fun o g => stands_for o g /\ no_stray o g) ops gs /\ least_width n gs w /\
    forall show, object_repr show w ops = circuit_repr (fun x => show (ANum x)) w gs.
Proof.
  intros n l gs Hn F. cbn [gsteps gstep s_circs s_wraps app].
  destruct (spell_lemma l gs F n (Store [CObj [] n] []) [] [] n Hn eq_refl (Forall2_nil _)) as (rs & s & ops & w & E & Ok' & H & Fo & L).
  { split; [lia|]. split; [constructor|]. auto. }
  cbn [s_wraps List.length app] in *. rewrite E. eexists. exists s, ops, w. split; [reflexivity|]. split; [apply Forall_cons; [eauto|exact Ok']|].
  split; [exact H|]. split; [exact Fo|]. split; [exact L|]. intros show. apply repr_lemma. exact Fo.
Qed.

(** ** Findings *)
Lemma shared_lemma : exists s, gsteps (Store [CObj [] 1] []) [GAttr 0 "rx"; GCall 0 [ANum 1] []; GCall 0 [ANum 2] []; GItem 0 (TInt 0)] =
    ([Ok (VWrap 0); Ok (VWrap 0); Ok (VWrap 0); Ok (VCircuit 0)], s) /\
  exists c o, nth_error (s_circs s) 0 = Some c /\ k_ops c = [o] /\ stands_for o (GOne (KRX 2) (TInt 0)) /\ ~ stands_for o (GOne (KRX 1) (TInt 0)).
Proof.
  eexists. split; [reflexivity|]. eexists. eexists. split; [reflexivity|]. split; [reflexivity|]. split.
  - split; [reflexivity|]. split; [reflexivity|]. split; [reflexivity|]. split; [|reflexivity].
    intros [|[|i]] p x E F; cbn in E, F; try discriminate. injection E as <-. injection F as <-. left. reflexivity.
  - intros (_ & _ & _ & _ & H). cbn in H. specialize (H ltac:(discriminate)). injection H as H. lra.
Qed.
Lemma stray_lemma : forall show, exists s, gsteps (Store [CObj [] 1] []) [GAttr 0 "x"; GCall 0 [ANum 1] []; GItem 0 (TInt 0)] =
    ([Ok (VWrap 0); Ok (VWrap 0); Ok (VCircuit 0)], s) /\
  exists c o, nth_error (s_circs s) 0 = Some c /\ k_ops c = [o] /\ stands_for o (GOne KX (TInt 0)) /\ object_repr show (k_n c) (k_ops c) = Err TypeError.
Proof.
  intros show. eexists. split; [reflexivity|]. eexists. eexists. split; [reflexivity|]. split; [reflexivity|]. split.
  - apply (stands_given (GOne KX (TInt 0))). reflexivity.
  - unfold object_repr. cbn [k_ops k_n app map_res]. unfold object_str. cbn [o_params object_str_args]. destruct (Reqb 1 0) eqn:E; [apply Reqb_true in E; lra|reflexivity].
Qed.
Lemma theta_lemma : exists o, construct "u2" (TInt 0) [ANum 1; ANum 2] [("theta", ANum 3)] = Ok o /\ stands_for o (GOne (KU2 1 2) (TInt 0)) /\
  object_dagger o = Err TypeError.
Proof.
  eexists. split; [reflexivity|]. split; [|reflexivity]. apply (stands_own (GOne (KU2 1 2) (TInt 0))). discriminate.
Qed.
Lemma late_lemma : exists s, gsteps (Store [CObj [] 1] []) [GAttr 0 "rx"; GCall 0 [ATuple [1%R]] []; GItem 0 (TInt 0)] =
    ([Ok (VWrap 0); Ok (VWrap 0); Ok (VCircuit 0)], s) /\
  exists c o, nth_error (s_circs s) 0 = Some c /\ k_ops c = [o] /\ object_dagger o = Err TypeError.
Proof. eexists. split; [reflexivity|]. eexists. eexists. split; [reflexivity|]. split; reflexivity. Qed.
