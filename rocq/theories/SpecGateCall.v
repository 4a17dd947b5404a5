(** Specification of gate calls: how arguments become the parameters of a gate. *)
From Coq Require Import String List Arith ZArith Bool Reals Permutation.
Import ListNotations.
From Verif Require Import Base ModelTargets ModelGate ModelBackend ModelGateCall SpecAPI.
Local Open Scope string_scope.

(** the names of the parameters of a gate, in the order of [params] *)
Definition param_names (g : gate) : list string :=
  match g with
  | GOne (KRX _) _ | GOne (KRY _) _ | GOne (KRZ _) _ | GOne (KPhase _) _ => ["theta"]
  | GOne (KU1 _) _ => ["lambd"] | GOne (KU2 _ _) _ => ["phi"; "lambd"] | GOne (KU3 _ _ _) _ => ["theta"; "phi"; "lambd"]
  | GTwo (KCRX _) _ | GTwo (KCRY _) _ | GTwo (KCRZ _) _ | GTwo (KCPhase _) _ => ["theta"]
  | GTwo (KRXX _) _ | GTwo (KRYY _) _ | GTwo (KRZZ _) _ => ["theta"]
  | GTwo (KCU1 _) _ => ["lambd"] | GTwo (KCU2 _ _) _ => ["phi"; "lambd"] | GTwo (KCU3 _ _ _) _ => ["theta"; "phi"; "lambd"]
  | _ => []
  end.

Definition keys (d : dict) : list string := map fst d.
(** a dictionary has every key once *)
Definition is_dict (d : dict) : Prop := NoDup (keys d).
(** none of the names [l] is a key of [d] *)
Definition without (l : list string) (d : dict) : Prop := forall k, In k l -> ~ In k (keys d).
(** [rest] is what [kw] holds under keys other than [names] *)
Definition leaves (names : list string) (kw rest : dict) : Prop :=
  is_dict rest /\ forall kv, In kv rest <-> In kv kw /\ ~ In (fst kv) names.

(** Called with [args] and the keywords [kw], the parameters [names] get the values [vals] and the keywords [rest] are left over: the arguments are the
    first values, the keywords are the others, and no parameter gets two. *)
Definition binds (names : list string) (args : list arg) (kw : dict) (vals : list arg) (rest : dict) : Prop :=
  List.length vals = List.length names /\
  (forall i a, nth_error args i = Some a -> nth_error vals i = Some a) /\
  (forall i p, (i < List.length args)%nat -> nth_error names i = Some p -> ~ In p (keys kw)) /\
  (forall i p, (List.length args <= i)%nat -> nth_error names i = Some p -> exists a, nth_error vals i = Some a /\ In (p, a) kw) /\
  leaves names kw rest.
(** The same for the one parameter [params], which may be missing and is then the empty tuple *)
Definition binds_params (args : list arg) (kw : dict) (p : arg) (rest : dict) : Prop :=
  (args = [p] /\ ~ In "params" (keys kw) \/ args = [] /\ In ("params", p) kw \/ args = [] /\ ~ In "params" (keys kw) /\ p = ATuple []) /\
  leaves ["params"] kw rest.

(** The object [o] is the gate [g]: class, targets, the attributes that backends read, and [params] if the gate has any *)
Definition stands_for (o : gobj) (g : gate) : Prop :=
  o_class o = lowername g /\ o_targets o = targets g /\
  List.length (o_attrs o) = List.length (params g) /\
  (forall i p x, nth_error (param_names g) i = Some p -> nth_error (params g) i = Some x -> In (p, ANum x) (o_attrs o)) /\
  (params g <> [] -> o_params o = Own (map ANum (params g))).
(** [params] is the empty tuple if the gate has none *)
Definition no_stray (o : gobj) (g : gate) : Prop := params g = [] -> o_params o = Given (ATuple []).

(** [args] and [kw] name the parameters of [g]: the first [k] by place, the others by keyword in any order, with the further keywords [extra] *)
Definition spelled (g : gate) (args : list arg) (kw extra : dict) : Prop :=
  exists k, (k <= List.length (params g))%nat /\ args = map ANum (firstn k (params g)) /\
    is_dict kw /\ Permutation kw (combine (skipn k (param_names g)) (map ANum (skipn k (params g))) ++ extra) /\
    without ("self" :: "targets" :: "params" :: param_names g) extra.

(** [o] was made by a call of its class *)
Definition called (o : gobj) : Prop := exists args kw, is_dict kw /\ construct (o_class o) (o_targets o) args kw = Ok o.

(** from [s] to [s'], the circuit at [c] has become [v] and nothing else has changed *)
Definition only_changed (c : nat) (v : cobj) (s s' : store) : Prop :=
  s_wraps s' = s_wraps s /\ List.length (s_circs s') = List.length (s_circs s) /\ nth_error (s_circs s') c = Some v /\
  forall j, j <> c -> nth_error (s_circs s') j = nth_error (s_circs s) j.

(** The calls [c.name(args, **kw)[tg]], one after the other, on circuit 0; the wrappers are [b], [b+1], ... *)
Fixpoint spell (b : nat) (l : list (string * list arg * dict * target)) : list gcall :=
  match l with
  | [] => []
  | (name, args, kw, tg) :: r => GAttr 0 name :: GCall b args kw :: GItem b tg :: spell (S b) r
  end.
(** such a call makes the gate [g] *)
Definition writes (q : string * list arg * dict * target) (g : gate) : Prop :=
  let '(name, args, kw, tg) := q in
  In (name, lowername g) gate_set /\ tg = targets g /\ flat tg /\ exists extra, spelled g args kw extra.
(** [w] is the least width from [n] on that holds all targets *)
Definition least_width (n : Z) (gs : list gate) (w : Z) : Prop :=
  (n <= w)%Z /\ Forall (fun g => holds w (targets g)) gs /\
  forall w', (n <= w')%Z -> Forall (fun g => holds w' (targets g)) gs -> (w <= w')%Z.
