(** Specification of macros: a chain with macros stands for the gate calls that are left when every call of a macro is replaced by its body. *)
From Coq Require Import String List Arith ZArith Bool Reals.
Import ListNotations.
From Verif Require Import Base ModelTargets ModelGate ModelBackend ModelGateCall SpecAPI SpecGateCall ModelMacro.
Local Open Scope string_scope.

Definition gate_name (name : string) : Prop := exists cls, In (name, cls) gate_set.
(** a dictionary has every name once *)
Definition names_once (macros : list (string * macro)) : Prop := NoDup (map fst macros).
(** [name] is that of the macro [m] and not that of a gate *)
Definition is_macro (macros : list (string * macro)) (name : string) (m : macro) : Prop := In (name, m) macros /\ ~ gate_name name.

(** The chain [ks], with at most [d] nested macros, stands for the gate calls [l] *)
Inductive expands (macros : list (string * macro)) : nat -> list link -> list (string * list arg * dict * target) -> Prop :=
| ex_nil : forall d, expands macros d [] []
| ex_gate : forall d name args kw tg ks l, gate_name name -> expands macros d ks l ->
    expands macros d (LAttr name :: LCall args kw :: LItem tg :: ks) ((name, args, kw, tg) :: l)
| ex_bare : forall d name tg ks l, gate_name name -> expands macros d ks l ->
    expands macros d (LAttr name :: LItem tg :: ks) ((name, [], [], tg) :: l)
| ex_macro : forall d name m args kw body ks l1 l2, is_macro macros name m -> m args kw = Ok (Body body true) ->
    expands macros d body l1 -> expands macros (S d) ks l2 ->
    expands macros (S d) (LAttr name :: LCall args kw :: ks) (l1 ++ l2).

(** The circuit [c] of [s] has in [s'] the further gates [gs] and the least width that holds them, and other circuits are as before *)
Definition extended (c : nat) (s s' : store) (gs : list gate) : Prop :=
  (exists ops n new n', nth_error (s_circs s) c = Some (CObj ops n) /\ nth_error (s_circs s') c = Some (CObj (ops ++ new) n') /\
     Forall2 (fun o g => stands_for o g /\ no_stray o g) new gs /\ least_width n gs n') /\
  (List.length (s_circs s') = List.length (s_circs s)) /\ forall j, j <> c -> nth_error (s_circs s') j = nth_error (s_circs s) j.

(** [c] is a circuit of [s], and its width is not negative *)
Definition sound (c : nat) (s : store) : Prop := exists ops n, nth_error (s_circs s) c = Some (CObj ops n) /\ (0 <= n)%Z.
(** a call of a gate that fails when the gate is made, with the error [e] *)
Definition cannot_be_made (q : string * list arg * dict * target) (e : exn) : Prop :=
  let '(name, args, kw, tg) := q in ~ In "self" (keys kw) /\ exists cls, In (name, cls) gate_set /\ construct cls tg args kw = Err e.
(** all attributes of the chain are gates *)
Definition only_gates (ks : list link) : Prop := forall name, In (LAttr name) ks -> gate_name name.
