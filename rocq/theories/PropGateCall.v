(** C80: the arguments of a gate call become the parameters of the gate. *)
From Coq Require Import String List Arith ZArith Bool Reals Permutation.
Import ListNotations.
From Verif Require Import Base ModelTargets ModelGate ModelBackend ModelRepr ModelGateCall SpecAPI SpecGateCall ProofGateCall.
Local Open Scope string_scope.

(** C80: The call of a gate class with parameters succeeds exactly if every parameter gets one value, by place or by keyword, and no keyword is [self],
    [targets] or [params]; the other keywords are kept. Otherwise it raises TypeError. *)
Theorem C80_parameters : forall g tg args kw, params g <> [] -> is_dict kw ->
  (exists vals rest, binds (param_names g) args kw vals rest /\ without ["self"; "targets"; "params"] kw /\
     construct (lowername g) tg args kw = Ok (GObj (lowername g) tg (Own vals) (combine (param_names g) vals) rest)) \/
  ((~ exists vals rest, binds (param_names g) args kw vals rest /\ without ["self"; "targets"; "params"] kw) /\
   construct (lowername g) tg args kw = Err TypeError).
Proof. exact parameters_lemma. Qed.
Print Assumptions C80_parameters.

(** A class without parameters takes one argument, [params], that is kept *)
Theorem C80_no_parameters : forall g tg args kw, params g = [] -> is_dict kw ->
  (exists p rest, binds_params args kw p rest /\ without ["self"; "targets"] kw /\
     construct (lowername g) tg args kw = Ok (GObj (lowername g) tg (Given p) [] rest)) \/
  ((~ exists p rest, binds_params args kw p rest /\ without ["self"; "targets"] kw) /\ construct (lowername g) tg args kw = Err TypeError).
Proof. exact no_parameters_lemma. Qed.
Print Assumptions C80_no_parameters.

(** C80: The gate with parameters [x1, ..., xn] is made by the call with the first [k] of them in order and the others by keyword in any order *)
Theorem C80_any_order : forall g args kw extra, spelled g args kw extra ->
  exists o, construct (lowername g) (targets g) args kw = Ok o /\ stands_for o g /\ no_stray o g /\ Permutation (o_kwargs o) extra.
Proof. exact any_order_lemma. Qed.
Print Assumptions C80_any_order.

(** u3(0.5, lambd=2, tag=7, phi=1)[0] *)
Example C80_spelled_case : spelled (GOne (KU3 (1/2) 1 2) (TInt 0)) [ANum (1/2)] [("lambd", ANum 2); ("tag", ANum 7); ("phi", ANum 1)] [("tag", ANum 7)].
Proof.
  exists 1%nat. split; [apply le_n_S; apply Nat.le_0_l|]. split; [reflexivity|]. split.
  - unfold is_dict. cbn. repeat constructor; cbn; intuition discriminate.
  - split; [|intros k I J; cbn in I, J; intuition (subst; discriminate)]. cbn.
    apply Permutation_cons_app with (l1 := [("phi", ANum 1)]) (l2 := [("tag", ANum 7)]). apply perm_swap.
Qed.

(** C80: [dagger] of a gate object is the adjoint gate, with the same keywords *)
Theorem C80_dagger : forall o g, called o -> stands_for o g -> (In (lowername g) ["u2"; "cu2"] -> ~ In "theta" (keys (o_kwargs o))) ->
  match gate_dagger g with
  | Ok g' => exists o', object_dagger o = Ok o' /\ stands_for o' g' /\ called o' /\ o_kwargs o' = o_kwargs o /\
                        (params g = [] -> o_params o' = o_params o)
  | Err e => object_dagger o = Err e
  end.
Proof. exact dagger_lemma. Qed.
Print Assumptions C80_dagger.

(** Without the condition it fails: u2(1, 2, theta=3) is accepted and its [dagger] raises TypeError *)
Theorem C80_dagger_refuted : exists o, construct "u2" (TInt 0) [ANum 1; ANum 2] [("theta", ANum 3)] = Ok o /\
  stands_for o (GOne (KU2 1 2) (TInt 0)) /\ object_dagger o = Err TypeError.
Proof. exact theta_lemma. Qed.
Print Assumptions C80_dagger_refuted.

(** C80: A circuit that is written as a chain of calls has the gates that were written, the least width for them, and their text *)
Theorem C80_circuit : forall n l gs, (0 <= n)%Z -> Forall2 writes l gs ->
  exists rs s ops w, gsteps (Store [] []) (GNew n :: spell 0 l) = (rs, s) /\ Forall (fun r => exists v, r = Ok v) rs /\
    nth_error (s_circs s) 0 = Some (CObj ops w) /\ Forall2 (fun o g => stands_for o g /\ no_stray o g) ops gs /\ least_width n gs w /\
    forall show, object_repr show w ops = circuit_repr (fun x => show (ANum x)) w gs.
Proof. exact circuit_lemma. Qed.
Print Assumptions C80_circuit.

(** Circuit().h[:].r(theta=2, tag=7)[1, 3].m[0] *)
Example C80_circuit_case :
  Forall2 writes [("h", [], [], TSlice None None None); ("r", [], [("theta", ANum 2); ("tag", ANum 7)], TTuple [TInt 1; TInt 3]); ("m", [], [], TInt 0)]
    [GOne KH (TSlice None None None); GOne (KPhase 2) (TTuple [TInt 1; TInt 3]); GMeasure (TInt 0)].
Proof.
  apply Forall2_cons; [|apply Forall2_cons; [|apply Forall2_cons; [|apply Forall2_nil]]];
    (split; [cbn; tauto|]; split; [reflexivity|]; split; [cbn; repeat (apply Forall_cons; [exact I|]); auto|]).
  - exists []. exists 0%nat. cbn. split; [auto|]. split; [reflexivity|]. split; [constructor|]. split; [constructor|]. intros k _ [].
  - exists [("tag", ANum 7)]. exists 0%nat. cbn. split; [auto|]. split; [reflexivity|].
    split; [unfold is_dict; cbn; repeat constructor; cbn; intuition discriminate|].
    split; [apply Permutation_refl|]. intros k I J; cbn in I, J; intuition (subst; discriminate).
  - exists []. exists 0%nat. cbn. split; [auto|]. split; [reflexivity|]. split; [constructor|]. split; [constructor|]. intros k _ [].
Qed.

(** ** Steps *)
(** [c.name] is a new wrapper without arguments if there is such a gate *)
Theorem C80_attribute : forall s c v name, nth_error (s_circs s) c = Some v ->
  (forall cls, In (name, cls) gate_set ->
     gstep s (GAttr c name) = (Ok (VWrap (List.length (s_wraps s))), Store (s_circs s) (s_wraps s ++ [Wrap c cls [] []]))) /\
  ((forall cls, ~ In (name, cls) gate_set) -> gstep s (GAttr c name) = (Err AttributeError, s)).
Proof. exact attr_lemma. Qed.
Print Assumptions C80_attribute.

(** [w[tg]] appends the gate of the wrapper's class, arguments and keywords; if the call raises, nothing has changed; if only the width cannot be found, the
    gate has been appended nevertheless *)
Theorem C80_item : forall s w x c tg, nth_error (s_wraps s) w = Some x -> nth_error (s_circs s) (w_circ x) = Some c -> (0 <= k_n c)%Z ->
  match construct (w_class x) tg (w_args x) (w_kwargs x) with
  | Err e => gstep s (GItem w tg) = (Err e, s)
  | Ok o => (flat tg /\ exists n s', grown (k_n c) tg n /\ gstep s (GItem w tg) = (Ok (VCircuit (w_circ x)), s') /\
               only_changed (w_circ x) (CObj (k_ops c ++ [o]) n) s s') \/
            (~ flat tg /\ exists s', gstep s (GItem w tg) = (Err AttributeError, s') /\ only_changed (w_circ x) (CObj (k_ops c ++ [o]) (k_n c)) s s')
  end.
Proof. exact item_lemma. Qed.
Print Assumptions C80_item.

(** The arguments of a wrapper are those of its last call, whatever else is done in between *)
Theorem C80_last_call : forall s w x args kw ks, nth_error (s_wraps s) w = Some x -> ~ In "self" (keys kw) -> (forall a k, ~ In (GCall w a k) ks) ->
  nth_error (s_wraps (snd (gsteps s (GCall w args kw :: ks)))) w = Some (Wrap (w_circ x) (w_class x) args kw).
Proof. exact wrapper_lemma. Qed.
Print Assumptions C80_last_call.

(** A call with a keyword self raises TypeError and changes nothing *)
Theorem C80_self : forall s w x args kw, nth_error (s_wraps s) w = Some x -> In "self" (keys kw) -> gstep s (GCall w args kw) = (Err TypeError, s).
Proof. exact self_lemma. Qed.
Print Assumptions C80_self.
(** A number that was given to a gate without parameters cannot be printed, unless it is 0: then the gate is printed as without it *)
Theorem C80_number_str : forall show o x t, o_params o = Given (ANum x) -> str_targets (o_targets o) = Ok t ->
  (x = 0%R -> object_str show o = Ok (o_class o ++ t)%string) /\ (x <> 0%R -> object_str show o = Err TypeError).
Proof. exact number_str. Qed.
Print Assumptions C80_number_str.
Example C80_number_case : str_targets (TInt 3) = Ok "[3]".
Proof. reflexivity. Qed.

Example C80_steps_case : let s := Store [CObj [] 1] [Wrap 0 "rx" [] []] in
  nth_error (s_wraps s) 0 = Some (Wrap 0 "rx" [] []) /\ nth_error (s_circs s) 0 = Some (CObj [] 1) /\ ~ In "self" (keys [("theta", ANum 1)]) /\
  In ("r", "phase") gate_set /\ (forall cls, ~ In ("foo", cls) gate_set).
Proof.
  cbn. repeat split; try tauto; try (intuition discriminate).
Qed.

(** ** Findings *)
(** f = c.rx; a = f(1); b = f(2); a[0] adds rx(2): both calls return the same wrapper *)
Theorem C80_shared_refuted : exists s,
  gsteps (Store [CObj [] 1] []) [GAttr 0 "rx"; GCall 0 [ANum 1] []; GCall 0 [ANum 2] []; GItem 0 (TInt 0)] =
    ([Ok (VWrap 0); Ok (VWrap 0); Ok (VWrap 0); Ok (VCircuit 0)], s) /\
  exists c o, nth_error (s_circs s) 0 = Some c /\ k_ops c = [o] /\ stands_for o (GOne (KRX 2) (TInt 0)) /\ ~ stands_for o (GOne (KRX 1) (TInt 0)).
Proof. exact shared_lemma. Qed.
Print Assumptions C80_shared_refuted.

(** Circuit(1).x(1)[0] is accepted, and then the circuit cannot be printed *)
Theorem C80_stray_refuted : forall show, exists s,
  gsteps (Store [CObj [] 1] []) [GAttr 0 "x"; GCall 0 [ANum 1] []; GItem 0 (TInt 0)] = ([Ok (VWrap 0); Ok (VWrap 0); Ok (VCircuit 0)], s) /\
  exists c o, nth_error (s_circs s) 0 = Some c /\ k_ops c = [o] /\ stands_for o (GOne KX (TInt 0)) /\ object_repr show (k_n c) (k_ops c) = Err TypeError.
Proof. exact stray_lemma. Qed.
Print Assumptions C80_stray_refuted.

(** Circuit(1).rx((1,))[0] is accepted, and then the gate has no adjoint *)
Theorem C80_unchecked_refuted : exists s,
  gsteps (Store [CObj [] 1] []) [GAttr 0 "rx"; GCall 0 [ATuple [1%R]] []; GItem 0 (TInt 0)] = ([Ok (VWrap 0); Ok (VWrap 0); Ok (VCircuit 0)], s) /\
  exists c o, nth_error (s_circs s) 0 = Some c /\ k_ops c = [o] /\ object_dagger o = Err TypeError.
Proof. exact late_lemma. Qed.
Print Assumptions C80_unchecked_refuted.
