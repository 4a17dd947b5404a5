(** Proofs for the registries. *)
From Coq Require Import String List Bool Arith Lia.
Import ListNotations.
From Verif Require Import Base ModelBackend ModelRegistry SpecRegistry.

(** ** Dictionaries *)
Lemma get_set : forall A (d : dict A) k v k', d_get (d_set d k v) k' = if String.eqb k' k then Some v else d_get d k'.
Proof.
  induction d as [|[a b] d IH]; intros k v k'; cbn [d_set d_get]; [destruct (String.eqb k' k); auto|].
  destruct (String.eqb_spec k a) as [->|N]; cbn [d_get].
  - destruct (String.eqb k' a); auto.
  - rewrite IH. destruct (String.eqb_spec k' a) as [->|N']; auto. destruct (String.eqb_spec a k); [congruence|auto].
Qed.
Lemma get_none : forall A (d : dict A) k, ~ In k (map fst d) -> d_get d k = None.
Proof.
  induction d as [|[a b] d IH]; intros k H; cbn [d_get map fst] in *; [auto|]. destruct (String.eqb_spec k a) as [->|N]; [exfalso; apply H; left; auto|].
  apply IH. intros I. apply H. right; auto.
Qed.
Lemma get_del : forall A (d : dict A) k k', unique d -> d_get (d_del d k) k' = if String.eqb k' k then None else d_get d k'.
Proof.
  induction d as [|[a b] d IH]; intros k k' U; cbn [d_del d_get]; [destruct (String.eqb k' k); auto|]. inversion U as [|? ? N U']; subst.
  destruct (String.eqb_spec k a) as [->|Nk]; cbn [d_get].
  - destruct (String.eqb_spec k' a) as [->|]; auto. apply get_none. auto.
  - rewrite IH by auto. destruct (String.eqb_spec k' a) as [->|N']; auto. destruct (String.eqb_spec a k); [congruence|auto].
Qed.
Lemma in_set : forall A (d : dict A) k v x, In x (map fst (d_set d k v)) -> x = k \/ In x (map fst d).
Proof.
  induction d as [|[a b] d IH]; intros k v x I; cbn [d_set map fst] in *; [destruct I as [->|[]]; auto|].
  destruct (String.eqb_spec k a) as [->|N]; cbn [map fst] in I; [right; auto|]. destruct I as [->|I]; [right; left; auto|]. destruct (IH _ _ _ I); [left; auto|right; right; auto].
Qed.
Lemma set_unique : forall A (d : dict A) k v, unique d -> unique (d_set d k v).
Proof.
  induction d as [|[a b] d IH]; intros k v U; cbn [d_set]; [apply NoDup_cons; [intros []|constructor]|]. inversion U as [|? ? N U']; subst.
  destruct (String.eqb_spec k a) as [->|Nk]; [exact U|]. apply NoDup_cons; [|apply IH; auto]. intros I. cbn in N, I. apply in_set in I as [E|I]; [congruence|auto].
Qed.
Lemma in_del : forall A (d : dict A) k x, In x (map fst (d_del d k)) -> In x (map fst d).
Proof.
  induction d as [|[a b] d IH]; intros k x I; cbn [d_del] in *; [auto|]. destruct (String.eqb k a); [right; auto|]. cbn in I. destruct I as [I|I]; [left; auto|right; eapply IH; eauto].
Qed.
Lemma del_unique : forall A (d : dict A) k, unique d -> unique (d_del d k).
Proof.
  induction d as [|[a b] d IH]; intros k U; cbn [d_del]; [auto|]. inversion U as [|? ? N U']; subst. destruct (String.eqb k a); [auto|].
  apply NoDup_cons; [|apply IH; auto]. intros I. apply N. eapply in_del; eauto.
Qed.

Lemma after9_run : forall s, after9 ("run_with_" ++ s)%string = s.
Proof.
  assert (S0 : forall s, substring 0 (String.length s) s = s) by (induction s; cbn [substring String.length]; [auto|rewrite IHs; auto]).
  intros s. unfold after9. cbn [append String.length substring]. replace (_ - _) with (String.length s) by lia. apply S0.
Qed.
Lemma runs_with_run : forall s, runs_with ("run_with_" ++ s)%string = true.
Proof. intros [|c s]; reflexivity. Qed.
Lemma run_with_inv : forall name, runs_with name = true -> name = ("run_with_" ++ after9 name)%string.
Proof.
  intros name H. unfold runs_with in H.
  assert (P : forall p s, prefix p s = true -> exists t, s = (p ++ t)%string).
  { induction p as [|c p IH]; intros s X; [exists s; auto|]. destruct s as [|d s]; [discriminate|]. cbn [prefix] in X. destruct (Ascii.ascii_dec c d) as [->|]; [|discriminate].
    destruct (IH s X) as [t ->]. exists t. auto. }
  destruct (P _ _ H) as [t ->]. rewrite after9_run. auto.
Qed.

Section Proofs.
Variable item : Type.
Variables object_name type_name : string -> bool.
Notation step := (rstep item object_name type_name).
Notation steps := (rsteps item object_name type_name).
Notation reg := (registry item).
Notation held := (held item).
Notation plain_registration := (plain_registration item).
Notation is_attribute := (is_attribute object_name).

Ltac split_step H := cbn [rstep] in H;
  repeat match type of H with
  | (if ?b then _ else _) = _ => destruct b eqn:?
  | match ?b with _ => _ end = _ => destruct b eqn:?
  | (_, _) = (_, _) => injection H as <- <-
  end.
Lemma backend_same : forall (r : reg) c name i r', get_backend item r c name = Ok (i, r') -> r_gates _ r' = r_gates _ r /\ r_macros _ r' = r_macros _ r /\ r_backends _ r' = r_backends _ r.
Proof.
  intros r c name i r' H. unfold get_backend in H. destruct (d_get (nth c (r_circuits item r) []) name); [injection H as <- <-; auto|].
  destruct (d_get (r_backends item r) name); [|discriminate]. injection H as <- <-. auto.
Qed.
(** tables after a step *)
Lemma step_tables : forall (r : reg) k a r', proper item r -> step r k = (a, r') -> proper item r' /\
  (forall name, d_get (r_gates _ r') name = latest item (gate_effect item name) (d_get (r_gates _ r) name) [(k, a)]) /\
  (forall name, d_get (r_macros _ r') name = latest item (macro_effect item name) (d_get (r_macros _ r) name) [(k, a)]) /\
  (forall name, d_get (r_backends _ r') name = latest item (backend_effect item name) (d_get (r_backends _ r) name) [(k, a)]).
Proof.
  intros r k a r' [U1 [U2 U3]] H. destruct k; split_step H;
  try (match goal with G : get_backend _ _ _ _ = Ok _ |- _ => apply backend_same in G as [E1 [E2 E3]]; unfold proper; rewrite E1, E2, E3 end; cbn; auto; fail);
  unfold proper; cbn [r_gates r_macros r_backends latest gate_effect macro_effect backend_effect];
  (split; [repeat split; auto using set_unique, del_unique|]); repeat split; intros n; auto.
  all: try (rewrite get_set; rewrite (String.eqb_sym n); destruct (String.eqb name n); reflexivity).
  all: rewrite get_del by auto; rewrite (String.eqb_sym n); destruct (String.eqb name n); reflexivity.
Qed.
Lemma steps_tables : forall ks (r : reg) l r', proper item r -> steps r ks = (l, r') -> proper item r' /\
  (forall name, d_get (r_gates _ r') name = latest item (gate_effect item name) (d_get (r_gates _ r) name) l) /\
  (forall name, d_get (r_macros _ r') name = latest item (macro_effect item name) (d_get (r_macros _ r) name) l) /\
  (forall name, d_get (r_backends _ r') name = latest item (backend_effect item name) (d_get (r_backends _ r) name) l).
Proof.
  induction ks as [|k ks IH]; intros r l r' U H; cbn [rsteps] in H; [injection H as <- <-; auto|].
  destruct (step r k) as [a r1] eqn:E1. destruct (steps r1 ks) as [l2 r2] eqn:E2. injection H as <- <-.
  destruct (step_tables r k a r1 U E1) as [U1 [A [B C]]]. destruct (IH r1 l2 r2 U1 E2) as [U2 [A2 [B2 C2]]]. split; auto.
  repeat split; intros n; [rewrite A2, A|rewrite B2, B|rewrite C2, C]; reflexivity.
Qed.

(** ** Lookups *)
Lemma lookup_now : forall ks (r : reg) l r' name c, proper item r -> steps r ks = (l, r') -> is_attribute name = false -> runs_with name = false ->
  fst (step r' (GetAttr item c name)) =
    match latest item (gate_effect item name) (d_get (r_gates _ r) name) l with
    | Some i => Ok (GateOf item i)
    | None => match latest item (macro_effect item name) (d_get (r_macros _ r) name) l with Some i => Ok (MacroOf item i) | None => Err AttributeError end
    end.
Proof.
  intros ks r l r' name c U H A W. destruct (steps_tables ks r l r' U H) as [_ [G [M _]]]. cbn [rstep]. unfold is_attribute in A. rewrite A, <- G, <- M, W.
  destruct (d_get (r_gates _ r') name); auto. destruct (d_get (r_macros _ r') name); auto.
Qed.
Lemma nth_set : forall A (l : list A) n a m d, nth m (set_nth l n a) d = if (m =? n) && (n <? length l) then a else nth m l d.
Proof.
  unfold set_nth. induction l as [|x l IH]; intros n a m d.
  - destruct n; cbn [firstn skipn]; destruct m; cbn; rewrite ?andb_false_r; auto.
  - destruct n as [|n]; cbn [firstn skipn List.app].
    + destruct m; reflexivity.
    + destruct m as [|m]; [reflexivity|]. cbn [nth]. rewrite IH. cbn. reflexivity.
Qed.
Lemma hold_step : forall (r : reg) k a r' c name, step r k = (a, r') -> held r c name = None -> ~ used item c name (k, a) -> held r' c name = None.
Proof.
  intros r k a r' c name H N NU.
  assert (GB : forall c' n i r2, get_backend item r c' n = Ok (i, r2) -> (c' <> c \/ n <> name) -> held r2 c name = None).
  { intros c' n i r2 G D. unfold get_backend in G. destruct (d_get (nth c' (r_circuits item r) []) n); [injection G as <- <-; auto|].
    destruct (d_get (r_backends item r) n); [|discriminate]. injection G as <- <-. unfold held. cbn [r_circuits]. rewrite nth_set.
    destruct (Nat.eqb_spec c c') as [->|]; cbn [andb]; [|auto]. destruct (c' <? length (r_circuits item r)); auto. rewrite get_set.
    destruct (String.eqb_spec name n) as [->|]; [destruct D; congruence|auto]. }
  destruct k; split_step H; auto.
  - unfold held in *. cbn [r_circuits]. destruct (Nat.lt_ge_cases c (length (r_circuits _ r))) as [L|L].
    + rewrite app_nth1; auto.
    + rewrite app_nth2 by auto. destruct (c - length (r_circuits item r)) as [|[|]]; reflexivity.
  - eapply GB; eauto. destruct (Nat.eq_dec c0 c) as [->|]; [|auto]. right. intros E. apply NU. cbn. split; auto. subst name. apply run_with_inv. auto.
  - eapply GB; eauto. destruct (Nat.eq_dec c0 c) as [->|]; [|auto]. right. intros E. apply NU. cbn. auto.
Qed.
Lemma hold_steps : forall ks (r : reg) l r' c name, steps r ks = (l, r') -> held r c name = None -> Forall (fun e => ~ used item c name e) l -> held r' c name = None.
Proof.
  induction ks as [|k ks IH]; intros r l r' c name H N F; cbn [rsteps] in H; [injection H as <- <-; auto|].
  destruct (step r k) as [a r1] eqn:E1. destruct (steps r1 ks) as [l2 r2] eqn:E2. injection H as <- <-. inversion F; subst.
  eapply IH; eauto. eapply hold_step; eauto.
Qed.
Lemma backend_now : forall ks (r : reg) l r' name c, proper item r -> steps r ks = (l, r') -> held r c name = None -> Forall (fun e => ~ used item c name e) l ->
  fst (step r' (RunWith item c name)) =
    match latest item (backend_effect item name) (d_get (r_backends _ r) name) l with Some i => Ok (BackendOf item i) | None => Err ValueError end.
Proof.
  intros ks r l r' name c U H N F. destruct (steps_tables ks r l r' U H) as [_ [_ [_ B]]]. pose proof (hold_steps ks r l r' c name H N F) as HN.
  cbn [rstep]. unfold get_backend. unfold held in HN. rewrite HN, <- B. destruct (d_get (r_backends _ r') name); auto.
Qed.
Lemma runner_now : forall ks (r : reg) l r' name c, proper item r -> steps r ks = (l, r') -> held r c name = None -> Forall (fun e => ~ used item c name e) l ->
  is_attribute ("run_with_" ++ name) = false -> d_get (r_gates _ r') ("run_with_" ++ name) = None -> d_get (r_macros _ r') ("run_with_" ++ name) = None ->
  fst (step r' (GetAttr item c ("run_with_" ++ name))) =
    match latest item (backend_effect item name) (d_get (r_backends _ r) name) l with Some i => Ok (RunnerOf item i) | None => Err AttributeError end.
Proof.
  intros ks r l r' name c U H N F A G M. destruct (steps_tables ks r l r' U H) as [_ [_ [_ B]]]. pose proof (hold_steps ks r l r' c name H N F) as HN.
  cbn [rstep]. unfold is_attribute in A. rewrite A, G, M, runs_with_run, after9_run. unfold d_in, get_backend. unfold held in HN. rewrite HN, <- B.
  destruct (d_get (r_backends _ r') name); auto.
Qed.

(** ** Registration *)
Lemma errors_change_nothing : forall (r : reg) k e r', step r k = (Err e, r') -> r' = r.
Proof. intros r k e r' H. destruct k; split_step H; auto; discriminate. Qed.
Lemma in_false : forall A (d : dict A) k, d_in d k = false -> d_get d k = None. Proof. intros A d k H. unfold d_in in H. destruct (d_get d k); [discriminate|auto]. Qed.
Lemma nothing_replaced : forall (r : reg) k a r', plain_registration k = true -> step r k = (a, r') -> forall n v,
  (d_get (r_gates _ r) n = Some v -> d_get (r_gates _ r') n = Some v) /\ (d_get (r_macros _ r) n = Some v -> d_get (r_macros _ r') n = Some v) /\
  (d_get (r_backends _ r) n = Some v -> d_get (r_backends _ r') n = Some v).
Proof.
  intros r k a r' P H n v. destruct k as [name i allow|name|name i allow|name|name i allow|name| |c name|c name]; try discriminate P; destruct allow; try discriminate P; cbn [rstep] in H.
  - destruct (name_free item object_name type_name r name false) eqn:F; injection H as <- <-; auto. cbn [r_gates r_macros r_backends]. repeat split; auto.
    intros X. rewrite get_set. destruct (String.eqb_spec n name) as [->|]; auto. unfold name_free in F. cbn [negb] in F. rewrite ?andb_true_r in F.
    destruct (class_has object_name type_name name); [discriminate|]. destruct (runs_with name); [discriminate|]. destruct (d_in (r_gates item r) name) eqn:D; [discriminate|].
    apply in_false in D. congruence.
  - destruct (name_free item object_name type_name r name false) eqn:F; injection H as <- <-; auto. cbn [r_gates r_macros r_backends]. repeat split; auto.
    intros X. rewrite get_set. destruct (String.eqb_spec n name) as [->|]; auto. unfold name_free in F. cbn [negb] in F. rewrite ?andb_true_r in F.
    destruct (class_has object_name type_name name); [discriminate|]. destruct (runs_with name); [discriminate|]. destruct (d_in (r_gates item r) name); [discriminate|].
    destruct (d_in (r_macros item r) name) eqn:D; [discriminate|]. apply in_false in D. congruence.
  - cbn [negb andb] in H. destruct (class_has object_name type_name ("run_with_" ++ name) && true); [injection H as <- <-; auto|].
    destruct (d_in (r_backends item r) name) eqn:D; injection H as <- <-; auto. cbn [r_gates r_macros r_backends]. repeat split; auto.
    intros X. rewrite get_set. destruct (String.eqb_spec n name) as [->|]; auto. apply in_false in D. congruence.
Qed.
(** names that already mean something are refused *)
Lemma plain_refused : forall (r : reg) name i,
  (forall c x, fst (step r (GetAttr item c name)) = Ok x -> mem name instance_names = false ->
     step r (RegGate item name i false) = (Err ValueError, r) /\ step r (RegMacro item name i false) = (Err ValueError, r)) /\
  (forall c x, held r c name = None -> fst (step r (RunWith item c name)) = Ok x -> step r (RegBackend item name i false) = (Err ValueError, r)).
Proof.
  intros r name i. split.
  - intros c x H I. assert (F : name_free item object_name type_name r name false = Err ValueError).
    { unfold name_free. cbn [negb]. rewrite !andb_true_r. cbn [rstep] in H. rewrite I, orb_false_r in H. unfold class_has.
      destruct (mem name class_names || object_name name); [reflexivity|]. cbn [orb]. destruct (type_name name); [auto|].
      destruct (runs_with name); [auto|]. unfold d_in. destruct (d_get (r_gates item r) name); [auto|]. destruct (d_get (r_macros item r) name); [auto|]. discriminate. }
    cbn [rstep]. rewrite F. auto.
  - intros c x N H. cbn [rstep] in *. unfold get_backend in H. unfold held in N. rewrite N in H. unfold d_in. cbn [negb andb].
    destruct (class_has object_name type_name ("run_with_" ++ name) && true); auto. destruct (d_get (r_backends item r) name); [auto|discriminate].
Qed.
Lemma unregister_iff : forall (r : reg) name, proper item r ->
  (d_get (r_gates _ r) name <> None -> exists r', step r (UnregGate item name) = (Ok (Done item), r') /\ d_get (r_gates _ r') name = None) /\
  (d_get (r_gates _ r) name = None -> step r (UnregGate item name) = (Err ValueError, r)) /\
  (d_get (r_macros _ r) name <> None -> exists r', step r (UnregMacro item name) = (Ok (Done item), r') /\ d_get (r_macros _ r') name = None) /\
  (d_get (r_macros _ r) name = None -> step r (UnregMacro item name) = (Err ValueError, r)).
Proof.
  intros r name [U1 [U2 _]]. cbn [rstep]. unfold d_in. repeat split; intros H.
  - destruct (d_get (r_gates item r) name); [|contradiction]. eexists. split; [reflexivity|]. cbn [r_gates]. rewrite get_del, String.eqb_refl; auto.
  - rewrite H. auto.
  - destruct (d_get (r_macros item r) name); [|contradiction]. eexists. split; [reflexivity|]. cbn [r_macros]. rewrite get_del, String.eqb_refl; auto.
  - rewrite H. auto.
Qed.
Lemma unregister_backend : forall (r : reg) name,
  (d_get (r_gates _ r) name = None -> step r (UnregBackend item name) = (Err ValueError, r)) /\
  (d_get (r_gates _ r) name <> None -> d_get (r_backends _ r) name = None -> step r (UnregBackend item name) = (Err KeyError, r)).
Proof.
  intros r name. cbn [rstep]. unfold d_in. split; [intros ->; auto|]. intros H ->. destruct (d_get (r_gates item r) name); [auto|contradiction].
Qed.
Lemma resolves : forall (r : reg) name i r' c,
  (step r (RegGate item name i false) = (Ok (Done item), r') -> mem name instance_names = false -> fst (step r' (GetAttr item c name)) = Ok (GateOf item i)) /\
  (step r (RegMacro item name i false) = (Ok (Done item), r') -> mem name instance_names = false -> fst (step r' (GetAttr item c name)) = Ok (MacroOf item i)) /\
  (forall allow, step r (RegBackend item name i allow) = (Ok (Done item), r') -> held r c name = None -> fst (step r' (RunWith item c name)) = Ok (BackendOf item i)).
Proof.
  intros r name i r' c. split; [|split].
  - intros H I. cbn [rstep] in H. destruct (name_free item object_name type_name r name false) eqn:F; [|discriminate]. injection H as <-.
    unfold name_free in F. cbn [negb] in F. rewrite ?andb_true_r in F. unfold class_has in F. cbn [rstep]. rewrite I, orb_false_r. cbn [r_gates].
    destruct (mem name class_names || object_name name); [discriminate|]. rewrite get_set, String.eqb_refl. auto.
  - intros H I. cbn [rstep] in H. destruct (name_free item object_name type_name r name false) eqn:F; [|discriminate]. injection H as <-.
    unfold name_free in F. cbn [negb] in F. rewrite ?andb_true_r in F. unfold class_has in F. cbn [rstep]. rewrite I, orb_false_r. cbn [r_gates r_macros].
    destruct (mem name class_names || object_name name); [discriminate|]. cbn [orb] in F. destruct (type_name name); [discriminate|]. destruct (runs_with name); [discriminate|].
    destruct (d_in (r_gates item r) name) eqn:D; [discriminate|]. apply in_false in D. rewrite D, get_set, String.eqb_refl. auto.
  - intros allow H N. cbn [rstep] in H. destruct (class_has object_name type_name ("run_with_" ++ name) && negb allow); [discriminate|].
    destruct (negb allow && d_in (r_backends item r) name); [discriminate|]. injection H as <-. cbn [rstep]. unfold get_backend, held in *. cbn [r_circuits r_backends]. rewrite N.
    rewrite get_set, String.eqb_refl. auto.
Qed.
End Proofs.

(** ** The registries at the start, with the names of the classes as items *)
Definition start : registry string :=
  Reg string gate_set [] [("numpy", "NumPyBackend"); ("numba", "numba_backend_lazy"); ("qasm_output", "QasmOutputBackend"); ("ibmq", "ibmq_backend");
    ("sympy_unitary", "SympyBackend"); ("qgate", "QgateBackend")]%string [].
Lemma start_proper : proper string start.
Proof. repeat split; cbn; repeat (apply NoDup_cons; [cbn; intuition discriminate|]); constructor. Qed.
Section Cases.
Local Open Scope string_scope.
Variables object_name type_name : string -> bool.
Hypothesis O : python_names object_name type_name.
Notation step := (rstep string object_name type_name).
Notation steps := (rsteps string object_name type_name).
Lemma no_object : forall s, prefix "__" s = false -> s <> "mro" -> object_name s = false /\ type_name s = false.
Proof. intros s P N. split; [destruct (object_name s) eqn:E|destruct (type_name s) eqn:E]; auto; destruct (O s); auto; congruence. Qed.
Lemma backend_stuck : step start (UnregBackend string "numpy") = (Err ValueError, start) /\
  (forall i, exists r, step start (RegBackend string "mine" i false) = (Ok (Done string), r) /\ step r (UnregBackend string "mine") = (Err ValueError, r)) /\
  step start (UnregBackend string "x") = (Err KeyError, start).
Proof.
  split; [reflexivity|]. split; [|reflexivity]. intros i. destruct (no_object "run_with_mine") as [A B]; [reflexivity|discriminate|]. eexists. split.
  - cbn [rstep append]. unfold class_has. rewrite A, B. reflexivity.
  - reflexivity.
Qed.
Lemma gate_of_attribute : forall i, exists r, step start (RegGate string "ops" i false) = (Ok (Done string), r) /\ fst (step r (GetAttr string 0 "ops")) = Ok (Attribute string).
Proof.
  intros i. destruct (no_object "ops") as [A B]; [reflexivity|discriminate|]. eexists. split.
  - cbn [rstep]. unfold name_free, class_has. rewrite A, B. reflexivity.
  - cbn [rstep]. rewrite A. reflexivity.
Qed.
Lemma macro_hidden : forall i, exists r, step start (RegMacro string "x" i true) = (Ok (Done string), r) /\ fst (step r (GetAttr string 0 "x")) = Ok (GateOf string "x").
Proof.
  intros i. destruct (no_object "x") as [A B]; [reflexivity|discriminate|]. eexists. split.
  - cbn [rstep]. unfold name_free, class_has. rewrite A, B. reflexivity.
  - cbn [rstep]. rewrite A. reflexivity.
Qed.
(** a circuit keeps the backend object that it has used *)
Lemma backend_kept : forall i j, i <> j -> exists l r,
  steps start [NewCircuit string; RegBackend string "mine" i false; RunWith string 0 "mine"; RegBackend string "mine" j true] = (l, r) /\
  Forall (fun e => exists a, snd e = Ok a) l /\ fst (step r (RunWith string 0 "mine")) = Ok (BackendOf string i).
Proof.
  intros i j N. destruct (no_object "run_with_mine") as [A B]; [reflexivity|discriminate|]. eexists. eexists. split; [|split].
  - cbn [rsteps rstep append]. unfold class_has. rewrite A, B. reflexivity.
  - repeat (apply Forall_cons; [eexists; reflexivity|]). constructor.
  - reflexivity.
Qed.
(** also when its name has been unregistered (which needs a gate of that name) *)
Lemma backend_unregistered : forall i, exists l r,
  steps start [NewCircuit string; RegBackend string "x" i false; RunWith string 0 "x"; UnregBackend string "x"] = (l, r) /\
  Forall (fun e => exists a, snd e = Ok a) l /\ fst (step r (RunWith string 0 "x")) = Ok (BackendOf string i).
Proof.
  intros i. destruct (no_object "run_with_x") as [A B]; [reflexivity|discriminate|]. eexists. eexists. split; [|split].
  - cbn [rsteps rstep append]. unfold class_has. rewrite A, B. reflexivity.
  - repeat (apply Forall_cons; [eexists; reflexivity|]). constructor.
  - reflexivity.
Qed.
End Cases.

Lemma names_case : python_names (fun s => prefix "__" s) (fun s => String.eqb s "mro").
Proof. intros s [H|H]; [left; auto|right]. apply String.eqb_eq in H. auto. Qed.
(** a history in which a name is registered, refused, overwritten and unregistered *)
Section History.
Local Open Scope string_scope.
Notation step := (rstep string (fun s => prefix "__" s) (fun s => String.eqb s "mro")).
Notation steps := (rsteps string (fun s => prefix "__" s) (fun s => String.eqb s "mro")).
Definition history : list (call string) :=
  [NewCircuit string; RegGate string "mine" "A" false; RegGate string "mine" "B" false; RegMacro string "mine" "C" false; RegGate string "mine" "D" true; UnregGate string "x";
   RegBackend string "sim" "E" false; UnregGate string "nope"].
Lemma history_case : exists l r, steps start history = (l, r) /\
  map snd l = [Ok (Done string); Ok (Done string); Err ValueError; Err ValueError; Ok (Done string); Ok (Done string); Ok (Done string); Err ValueError] /\
  is_attribute (fun s => prefix "__" s) "mine" = false /\ runs_with "mine" = false /\
  latest string (gate_effect string "mine") (d_get (r_gates string start) "mine") l = Some "D" /\ latest string (gate_effect string "x") (d_get (r_gates string start) "x") l = None /\
  held string start 0 "sim" = None /\ Forall (fun e => ~ used string 0 "sim" e) l /\ latest string (backend_effect string "sim") None l = Some "E" /\
  is_attribute (fun s => prefix "__" s) "run_with_sim" = false /\ d_get (r_gates string r) "run_with_sim" = None /\ d_get (r_macros string r) "run_with_sim" = None.
Proof.
  eexists. eexists. split; [reflexivity|]. split; [reflexivity|]. do 5 (split; [reflexivity|]). split; [|repeat split; reflexivity].
  repeat (apply Forall_cons; [cbn; tauto|]). constructor.
Qed.
Lemma registering_case : step start (RegGate string "mine" "A" false) = (Ok (Done string), snd (step start (RegGate string "mine" "A" false))) /\
  step start (RegMacro string "mine" "A" false) = (Ok (Done string), snd (step start (RegMacro string "mine" "A" false))) /\
  step start (RegBackend string "mine" "A" false) = (Ok (Done string), snd (step start (RegBackend string "mine" "A" false))) /\
  mem "mine" instance_names = false /\ fst (step start (GetAttr string 0 "x")) = Ok (GateOf string "x") /\ mem "x" instance_names = false.
Proof. repeat split. Qed.
End History.
