(** Specification for the backend qgate: what the operators handed to qgate mean, and what a qgate that simulates them answers. *)
From Coq Require Import String Ascii List Arith ZArith Bool Reals Sorting.Sorted.
Import ListNotations.
From Verif Require Import Base Cplx Bits ModelTargets ModelGate ModelQgate SpecTargets SpecQuantum SpecCircuit SpecMeasure SpecQasm SpecQasmRun SpecIbmq.
Local Open Scope nat_scope.

(** ** Matrices of the gate types.  [phase] is the factor by which qgate's U differs from Rz(phi) Ry(theta) Rz(lambda), which is not known here. *)
Record usual (M : gtype -> list R -> mat2) (phase : R -> R -> R -> C) : Prop := Usual {
  us_id : M TID [] = mI; us_x : M TX [] = mX; us_y : M TY [] = mY; us_z : M TZ [] = mZ; us_h : M TH [] = mH;
  us_t : M TT [] = mPhase (PI / 4); us_s : M TS [] = mPhase (PI / 2);
  us_rx : forall x, M TRX [x] = mRX x; us_ry : forall x, M TRY [x] = mRY x; us_rz : forall x, M TRZ [x] = mRZ x;
  us_u1 : forall x, M TU1 [x] = mPhase x;
  us_u2 : forall x y, M TU2 [x; y] = mscale (phase (PI / 2)%R x y) (mU3 (PI / 2) x y);
  us_u : forall x y z, M TU [x; y; z] = mscale (phase x y z) (mU3 x y z);
  us_phase : forall x y z, Cnorm2 (phase x y z) = 1%R }.

Section Meaning.
Variable M : gtype -> list R -> mat2.
Variable rng : nat -> R.
(** the operation of a gate: the matrix, its adjoint if asked for, under the controls *)
Definition controlled (cs : list nat) (U : oper) : oper := fold_right ctl U cs.
Definition qgate_op (ty : gtype) (ps : list R) (adjoint : bool) (cs : list nat) (q : nat) : oper :=
  controlled cs (ap1 (if adjoint then madj (M ty ps) else M ty ps) q).
(** a measurement writes its outcome to its reference *)
Inductive qop_exec (n : nat) : qop -> world -> world -> Prop :=
| qe_gate : forall ty ps a cs q w, qop_exec n (QGate ty ps a cs q) w (World (qgate_op ty ps a cs q (w_psi w)) (w_bits w) (w_pos w))
| qe_swap : forall a b w, qop_exec n (QMulti TSWAP [] a b) w (World (swp a b (w_psi w)) (w_bits w) (w_pos w))
| qe_measure : forall r q w, qop_exec n (QMeasure r q) w (qmeasure rng n q r w).
Inductive qops_exec (n : nat) : list qop -> world -> world -> Prop :=
| qs_nil : forall w, qops_exec n [] w w
| qs_cons : forall o l w w1 w2, qop_exec n o w w1 -> qops_exec n l w1 w2 -> qops_exec n (o :: l) w w2.
End Meaning.

(** ** Circuits that have operators of qgate *)
(** swap takes two numbers only; there is nothing for cy, ch, rxx, ryy, rzz, ccz, cswap, reset *)
Definition convertible (g : gate) : Prop :=
  match g with
  | GOne _ _ | GMeasure _ => True
  | GTwo k tg =>
      match k with
      | KCY | KCH | KRXX _ | KRYY _ | KRZZ _ => False
      | KSwap => exists a b, tg = TTuple [TInt a; TInt b]
      | _ => True
      end
  | GThree k _ => k = KCCX
  | GReset _ => False
  end.
(** gates whose kind has no entry in the table *)
Definition unknown (g : gate) : Prop :=
  match g with
  | GTwo k _ => match k with KCY | KCH | KRXX _ | KRYY _ | KRZZ _ => True | _ => False end
  | GThree k _ => k <> KCCX
  | GReset _ => True
  | _ => False
  end.
Definition controlled_u (g : gate) : Prop := match g with GTwo (KCU2 _ _) _ | GTwo (KCU3 _ _ _) _ => True | _ => False end.

(** the operator for an application of a gate *)
Definition qop_of (a : app) : option qop :=
  match a with
  | A1 k q =>
      let g ty adj := Some (QGate ty (params1 k) adj [] q) in
      match k with
      | KI => g TID false | KX => g TX false | KY => g TY false | KZ => g TZ false | KH => g TH false
      | KT => g TT false | KTdg => g TT true | KS => g TS false | KSdg => g TS true
      | KRX _ => g TRX false | KRY _ => g TRY false | KRZ _ => g TRZ false | KPhase _ => g TU1 false
      | KU1 _ => g TRZ false | KU2 _ _ => g TU2 false | KU3 _ _ _ => g TU false
      end
  | A2 k c t =>
      let g ty := Some (QGate ty (params2 k) false [c] t) in
      match k with
      | KCX => g TX | KCZ => g TZ | KCRX _ => g TRX | KCRY _ => g TRY | KCRZ _ => g TRZ | KCPhase _ | KCU1 _ => g TU1
      | KCU2 _ _ => g TU2 | KCU3 _ _ _ => g TU | KSwap => Some (QMulti TSWAP [] c t)
      | _ => None
      end
  | A3 KCCX a b c => Some (QGate TX [] false [a; b] c)
  | A3 _ _ _ _ => None
  | AMeasure q => Some (QMeasure q q)
  | AReset _ => None
  end.

(** ** What a qgate that simulates answers *)
(** the number whose bit k is the outcome at the k-th place of the list *)
Fixpoint places (l : list nat) (w : world) : Z :=
  match l with [] => 0%Z | q :: r => ((if (w_bits w q =? 0)%nat then 0 else 1) + 2 * places r w)%Z end.
(** shots of measurements of [qs], in order, each from the state [psi] *)
Inductive pool_shots (rng : nat -> R) (n : nat) (psi : state) (qs : list nat) : nat -> list world -> Prop :=
| pl_nil : forall pos, pool_shots rng n psi qs pos []
| pl_cons : forall pos w ws, w = each (measure1 rng n) (map Z.of_nat qs) (World psi (fun _ => 0) pos) -> pool_shots rng n psi qs (w_pos w) ws ->
    pool_shots rng n psi qs pos (w :: ws).
Definition simulates (Q : qgate) (M : gtype -> list R -> mat2) (rng : nat -> R) (pos n : nat) : Prop :=
  forall runtime prep, In runtime ["cuda"; "cpu"; "py"]%string -> exists s0 s, qg_new Q runtime prep = Ok s0 /\ qg_ordering Q s0 n = Ok s /\
    forall ops w, qops_exec M rng n ops (start pos) w -> exists s', qg_run Q s ops = Ok s' /\
      qg_states Q s' = Ok (arr n (w_psi w)) /\
      (forall refs, qg_obs Q s' refs = Ok (places refs w)) /\
      (forall qs b N, NoDup qs -> exists us d, qg_hist Q s' qs b (Z.of_nat N) = Ok d /\ pool_shots rng n (w_psi w) qs (w_pos w) us /\ List.length us = N /\
        tallies Z.eq_dec d (map (places qs) us)).

(** ** The circuit with all measurements at the end, once for each qubit, from the lowest *)
Definition is_measure (g : gate) : bool := match g with GMeasure _ => true | _ => false end.
Definition measures (apps : list app) (q : nat) : Prop := In (AMeasure q) apps.
Definition ascending (l : list nat) : Prop := StronglySorted lt l.
Definition measured_last (gs : list gate) (qs : list nat) : list gate :=
  filter (fun g => negb (is_measure g)) gs ++ [GMeasure (TTuple (map (fun q => TInt (Z.of_nat q)) qs))].

(** ** What a call asks for: the text of [returns], without it the state vector unless a number of shots other than 0 is given *)
Definition asked (returns : option string) (shots : option Z) (s : string) : Prop :=
  (returns = Some s /\ s <> ""%string) \/
  ((returns = None \/ returns = Some ""%string) /\
   (((shots = None \/ shots = Some 0%Z) /\ s = "statevector"%string) \/ (exists z, shots = Some z /\ z <> 0%Z /\ s = "shots"%string))).
Definition runtime_known (r : option string) : Prop := match r with None => True | Some s => In s ["cuda"; "cpu"; "py"]%string end.

(** ** Values with empty lanes *)
(** the number of lanes below [j] *)
Definition lanes_below (lanes : list nat) (j : nat) : nat := List.length (filter (fun l => l <? j) lanes).
(** the probability array of the measurement of [qs] in the state [psi] *)
Definition marginal (n : nat) (qs : list nat) (psi : state) (v : nat) : R :=
  norm2 n (fun x => if forallb (fun e : nat * nat => Bool.eqb (bit x (snd e)) (bit v (fst e))) (combine (seq 0 (List.length qs)) qs) then psi x else C0).
