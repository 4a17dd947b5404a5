(** C95: macros. *)
From Coq Require Import String List Arith ZArith Bool Reals Lia.
Import ListNotations.
From Verif Require Import Base ModelTargets ModelGate ModelBackend ModelGateCall SpecAPI SpecGateCall ModelMacro SpecMacro ProofMacro.
Local Open Scope string_scope.

(** C95: A chain with macros, however nested, has the effect of the gate calls that are left when all macros are replaced by their bodies: the circuit gets
    these gates after those it has, the least width for them, and is the value of the chain. *)
Theorem C95_inlined : forall macros d D ks l gs s c, names_once macros -> expands macros d ks l -> Forall2 writes l gs -> (d <= D)%nat -> sound c s ->
  exists s', evaluate macros D s c ks = (Ok (MCircuit c), s') /\ extended c s s' gs.
Proof. exact (fun macros d D ks l gs s c N E W L S => expands_runs macros N d ks l E D s c gs L S W). Qed.
Print Assumptions C95_inlined.

Example C95_case : names_once ex_macros /\ expands ex_macros 2 [LAttr "twice"; LCall [ANum 1] []] (ex_calls (ANum 1)) /\
  Forall2 writes (ex_calls (ANum 1)) ex_gates /\ sound 0 ex_store.
Proof. exact (conj ex_once (conj (ex_twice_expands (ANum 1)) (conj ex_writes_all ex_sound))). Qed.

(** C95: If one of the gates cannot be made, its error is raised, however deep the macro is; the gates before it stay in the circuit, and those after it are
    not added. *)
Theorem C95_error : forall macros d D ks l1 q l2 gs e s c, names_once macros -> expands macros d ks (l1 ++ q :: l2) -> Forall2 writes l1 gs -> cannot_be_made q e ->
  (d <= D)%nat -> sound c s -> exists s', evaluate macros D s c ks = (Err e, s') /\ extended c s s' gs.
Proof. exact (fun macros d D ks l1 q l2 gs e s c N E W Q L S => expands_fails macros N d ks _ E D s c l1 q l2 gs e L S eq_refl W Q). Qed.
Print Assumptions C95_error.

(** c.bell().rz((), 1)[1].x[0] *)
Example C95_error_case : expands ex_macros 1 [LAttr "bell"; LCall [] []; LAttr "rz"; LCall [ATuple []; ANum 1] []; LItem (TInt 1); LAttr "x"; LItem (TInt 0)]
    (bell_calls ++ [("rz", [ATuple []; ANum 1], [], TInt 1); ("x", [], [], TInt 0)]) /\
  Forall2 writes bell_calls [GOne KH (TInt 0); GTwo KCX (TTuple [TInt 0; TInt 1])] /\ cannot_be_made ("rz", [ATuple []; ANum 1], [], TInt 1) TypeError.
Proof. exact (conj ex_broken_expands (conj ex_bell_writes ex_broken)). Qed.

(** C95: A macro that refuses its arguments leaves the circuit as it is; so does a name that is neither a gate nor a macro. *)
Theorem C95_refused : forall macros D s c name m args kw e ks, names_once macros -> is_macro macros name m -> m args kw = Err e ->
  evaluate macros (S D) s c (LAttr name :: LCall args kw :: ks) = (Err e, s).
Proof. exact (fun macros D s c name m args kw e ks N => refused_lemma macros N D s c name m args kw e ks). Qed.
Print Assumptions C95_refused.
Theorem C95_missing : forall macros D s c name ks, ~ gate_name name -> (forall m, ~ In (name, m) macros) ->
  evaluate macros D s c (LAttr name :: ks) = (Err AttributeError, s).
Proof. exact missing_lemma. Qed.
Print Assumptions C95_missing.

Example C95_refused_case : is_macro ex_macros "bell" ex_bell /\ ex_bell [ANum 1] [] = Err TypeError /\ ~ gate_name "belle" /\ forall m, ~ In ("belle", m) ex_macros.
Proof. split; [apply ex_is; reflexivity|]. split; [reflexivity|]. split; [apply no_gate; reflexivity|]. intros m I. cbn in I. intuition discriminate. Qed.

(** C95: A macro must be called before anything else is done with it, and a circuit can be neither called nor subscripted; the circuit stays as it is. *)
Theorem C95_not_called : forall macros D s c name m k ks, names_once macros -> is_macro macros name m -> (forall args kw, k <> LCall args kw) ->
  evaluate macros D s c (LAttr name :: k :: ks) = (Err (match k with LAttr _ => AttributeError | _ => TypeError end), s).
Proof. exact (fun macros D s c name m k ks N => misuse_lemma macros N D s c name m k ks). Qed.
Print Assumptions C95_not_called.
Theorem C95_no_name : forall macros D s c k ks, (forall name, k <> LAttr name) -> evaluate macros D s c (k :: ks) = (Err TypeError, s).
Proof. exact no_name_lemma. Qed.
Print Assumptions C95_no_name.

Example C95_not_called_case : is_macro ex_macros "bell" ex_bell /\ (forall args kw, LItem (TInt 0) <> LCall args kw) /\ (forall name, LItem (TInt 0) <> LAttr name).
Proof. split; [apply ex_is; reflexivity|]. split; [intros args kw H; discriminate H|intros name H; discriminate H]. Qed.

(** C95: The names of gates always mean the gates, whatever macros there are. *)
Theorem C95_gates_first : forall ks, only_gates ks -> forall macros D s c, evaluate macros D s c ks = evaluate [] 0 s c ks.
Proof. exact gates_lemma. Qed.
Print Assumptions C95_gates_first.

Example C95_gates_case : only_gates [LAttr "rz"; LCall [ANum 1] []; LItem (TInt 1)].
Proof. intros name [E|[E|[E|[]]]]; try discriminate E. injection E as <-. apply find_gate. discriminate. Qed.

(** C95: A macro that returns a gate with its arguments is used as that gate: c.turn(2)[3] for "return c.rx(theta)". *)
Theorem C95_gate_macro : forall macros D name m args kw gname gargs gkw tg g s c, names_once macros -> is_macro macros name m ->
  m args kw = Ok (Body [LAttr gname; LCall gargs gkw] true) -> writes (gname, gargs, gkw, tg) g -> sound c s ->
  exists s', evaluate macros (S D) s c [LAttr name; LCall args kw; LItem tg] = (Ok (MCircuit c), s') /\ extended c s s' [g].
Proof. exact (fun macros D name m args kw gname gargs gkw tg g s c N => wrapper_macro_lemma macros N D name m args kw gname gargs gkw tg g s c). Qed.
Print Assumptions C95_gate_macro.

Example C95_gate_macro_case : is_macro ex_macros "turn" ex_turn /\ ex_turn [ANum 2] [] = Ok (Body [LAttr "rx"; LCall [ANum 2] []] true) /\
  writes ("rx", [ANum 2], [], TInt 3) (GOne (KRX 2) (TInt 3)).
Proof. exact (conj (ex_is "turn" _ eq_refl eq_refl) (conj eq_refl ex_rx)). Qed.

(** C95: A macro without a return adds its gates, but the chain cannot go on after it: the error comes when the gates have been added. *)
Theorem C95_no_return : forall macros d name m args kw ks l gs s c D, names_once macros -> is_macro macros name m -> m args kw = Ok (Body ks false) ->
  expands macros d ks l -> (d < D)%nat -> sound c s -> Forall2 writes l gs -> exists s', extended c s s' gs /\
    evaluate macros D s c [LAttr name; LCall args kw] = (Ok MNone, s') /\
    forall k r, exists e, evaluate macros D s c (LAttr name :: LCall args kw :: k :: r) = (Err e, s') /\ In e [AttributeError; TypeError].
Proof. exact (fun macros d name m args kw ks l gs s c D N => none_lemma macros N d name m args kw ks l gs s c D). Qed.
Print Assumptions C95_no_return.

Example C95_no_return_case : is_macro ex_macros "quiet" ex_quiet /\ ex_quiet [] [] = Ok (Body [LAttr "x"; LItem (TInt 0)] false) /\
  expands ex_macros 0 [LAttr "x"; LItem (TInt 0)] [("x", [], [], TInt 0)] /\ Forall2 writes [("x", [], [], TInt 0)] [GOne KX (TInt 0)].
Proof. exact (conj (ex_is "quiet" _ eq_refl eq_refl) (conj eq_refl (conj ex_x_expands ex_x))). Qed.

(** C95: A macro that calls itself with the same arguments fails for every limit of nested calls, and leaves as many copies of its first gates in the circuit. *)
Theorem C95_recursion : forall macros name m args kw ks l gs rest ret, names_once macros -> is_macro macros name m ->
  m args kw = Ok (Body (ks ++ LAttr name :: LCall args kw :: rest) ret) -> expands macros 0 ks l -> Forall2 writes l gs ->
  forall D s c, sound c s -> exists s', evaluate macros D s c [LAttr name; LCall args kw] = (Err RecursionError, s') /\
    extended c s s' (List.concat (List.repeat gs D)).
Proof. exact (fun macros name m args kw ks l gs rest ret N => recursion_lemma macros N name m args kw ks l gs rest ret). Qed.
Print Assumptions C95_recursion.

Example C95_recursion_case : is_macro ex_macros "loop" ex_loop /\ ex_loop [] [] = Ok (Body ([LAttr "x"; LItem (TInt 0)] ++ LAttr "loop" :: LCall [] [] :: []) true).
Proof. exact (conj (ex_is "loop" _ eq_refl eq_refl) eq_refl). Qed.
