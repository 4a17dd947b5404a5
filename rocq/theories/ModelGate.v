(** Model of the gate classes of blueqat/gate.py (lines 11-632). *)
From Coq Require Import List Arith ZArith Bool String Reals.
Import ListNotations.
From Verif Require Import Base Cplx ModelTargets.
Local Open Scope R_scope.

(** The subclasses of [OneQubitGate] (gate.py:97-294), with their angle attributes.
    Simplification: [kwargs], which every class stores and passes on but nothing reads, are left out. *)
Inductive g1 : Type :=
| KI | KX | KY | KZ | KH | KT | KTdg | KS | KSdg
| KRX (theta : R) | KRY (theta : R) | KRZ (theta : R) | KPhase (theta : R)
| KU1 (lambd : R) | KU2 (phi lambd : R) | KU3 (theta phi lambd : R).

(** The subclasses of [TwoQubitGate] (gate.py:297-565). *)
Inductive g2 : Type :=
| KCX | KCZ | KCY | KCH
| KCRX (theta : R) | KCRY (theta : R) | KCRZ (theta : R) | KCPhase (theta : R)
| KRXX (theta : R) | KRYY (theta : R) | KRZZ (theta : R)
| KSwap | KCU1 (lambd : R) | KCU2 (phi lambd : R) | KCU3 (theta phi lambd : R).

(** The direct subclasses of [Gate] (gate.py:568-616). *)
Inductive g3 : Type := KCCX | KCCZ | KCSwap.

(** A gate object: its class and its [targets] attribute. *)
Inductive gate : Type :=
| GOne (k : g1) (tg : target)
| GTwo (k : g2) (tg : target)
| GThree (k : g3) (tg : target)
| GMeasure (tg : target)      (* gate.py:619-624 *)
| GReset (tg : target).       (* gate.py:627-632 *)

Definition targets (g : gate) : target :=
  match g with
  | GOne _ tg | GTwo _ tg | GThree _ tg | GMeasure tg | GReset tg => tg
  end.

(** The class attribute [lowername] of each class. *)
Definition lowername1 (k : g1) : string :=
  match k with
  | KI => "i" | KX => "x" | KY => "y" | KZ => "z" | KH => "h"
  | KT => "t" | KTdg => "tdg" | KS => "s" | KSdg => "sdg"
  | KRX _ => "rx" | KRY _ => "ry" | KRZ _ => "rz" | KPhase _ => "phase"
  | KU1 _ => "u1" | KU2 _ _ => "u2" | KU3 _ _ _ => "u3"
  end.
Definition lowername2 (k : g2) : string :=
  match k with
  | KCX => "cx" | KCZ => "cz" | KCY => "cy" | KCH => "ch"
  | KCRX _ => "crx" | KCRY _ => "cry" | KCRZ _ => "crz" | KCPhase _ => "cphase"
  | KRXX _ => "rxx" | KRYY _ => "ryy" | KRZZ _ => "rzz"
  | KSwap => "swap" | KCU1 _ => "cu1" | KCU2 _ _ => "cu2" | KCU3 _ _ _ => "cu3"
  end.
Definition lowername3 (k : g3) : string :=
  match k with KCCX => "ccx" | KCCZ => "ccz" | KCSwap => "cswap" end.
Definition lowername (g : gate) : string :=
  match g with
  | GOne k _ => lowername1 k
  | GTwo k _ => lowername2 k
  | GThree k _ => lowername3 k
  | GMeasure _ => "measure"
  | GReset _ => "reset"
  end.

(** The [params] tuple of each class (the [super().__init__(targets, (theta,), ...)] calls). *)
Definition params1 (k : g1) : list R :=
  match k with
  | KRX t | KRY t | KRZ t | KPhase t | KU1 t => [t]
  | KU2 p l => [p; l]
  | KU3 t p l => [t; p; l]
  | _ => []
  end.
Definition params2 (k : g2) : list R :=
  match k with
  | KCRX t | KCRY t | KCRZ t | KCPhase t | KRXX t | KRYY t | KRZZ t | KCU1 t => [t]
  | KCU2 p l => [p; l]
  | KCU3 t p l => [t; p; l]
  | _ => []
  end.
Definition params (g : gate) : list R :=
  match g with GOne k _ => params1 k | GTwo k _ => params2 k | _ => [] end.

(** The methods [dagger] of the one qubit classes: gate.py 104-105, 112-113, 120-121, 128-129, 136-137,
    148-149, 160-161, 172-173, 192-193, 204-205, 215-216, 226-227, 237-238, 258-259, 275-276, 293-294. *)
Definition dagger1 (k : g1) : g1 :=
  match k with
  | KI => KI | KX => KX | KY => KY | KZ => KZ | KH => KH
  | KRX t => KRX (- t) | KRY t => KRY (- t) | KRZ t => KRZ (- t) | KPhase t => KPhase (- t)
  | KT => KTdg | KTdg => KT | KS => KSdg | KSdg => KS
  | KU1 l => KU1 (- l)
  | KU2 p l => KU3 (- PI / 2) (- l) (- p)
  | KU3 t p l => KU3 (- t) (- l) (- p)
  end.

(** [dagger] of the two qubit classes: gate.py 301-302, 309-310, 317-318, 332-333, 352-353, 372-373,
    392-393, 412-413, 430-431, 452-453, 474-475, 490-491, 513-514, 536-537, 554-555. *)
Definition dagger2 (k : g2) : g2 :=
  match k with
  | KCX => KCX | KCZ => KCZ | KCY => KCY | KCH => KCH
  | KCRX t => KCRX (- t) | KCRY t => KCRY (- t) | KCRZ t => KCRZ (- t) | KCPhase t => KCPhase (- t)
  | KRXX t => KRXX (- t) | KRYY t => KRYY (- t) | KRZZ t => KRZZ (- t)
  | KSwap => KSwap
  | KCU1 l => KCU1 (- l)
  | KCU2 p l => KCU3 (- PI / 2) (- l) (- p)
  | KCU3 t p l => KCU3 (- t) (- l) (- p)
  end.

(** gate.py: the method [dagger] of every class (572-573, 600-601, 608-609, 623-624, 631-632 for the rest). *)
Definition gate_dagger (g : gate) : res gate :=
  match g with
  | GOne k tg => Ok (GOne (dagger1 k) tg)
  | GTwo k tg => Ok (GTwo (dagger2 k) tg)
  | GThree k tg => Ok (GThree k tg)
  | GMeasure _ | GReset _ => Err ValueError
  end.

(** The per-target lambdas of the one qubit fallbacks: gate.py 101-102 (IGate), 195-197, 207-208, 218-219,
    229-230, 240-241, 261-263, 278-280.  [None]: the class does not override [Gate.fallback], which raises. *)
Definition fallback1 (k : g1) : option (Z -> list gate) :=
  match k with
  | KI => Some (fun _ => [])
  | KPhase theta => Some (fun t => [GOne (KRZ theta) (TInt t)])
  | KT => Some (fun t => [GOne (KPhase (PI / 4)) (TInt t)])
  | KTdg => Some (fun t => [GOne (KPhase (- PI / 4)) (TInt t)])
  | KS => Some (fun t => [GOne (KPhase (PI / 2)) (TInt t)])
  | KSdg => Some (fun t => [GOne (KPhase (- PI / 2)) (TInt t)])
  | KU1 lambd => Some (fun t => [GOne (KU3 0 0 lambd) (TInt t)])
  | KU2 phi lambd => Some (fun t => [GOne (KU3 (PI / 2) phi lambd) (TInt t)])
  | _ => None
  end.

Definition pair_tg (a b : Z) : target := TTuple [TInt a; TInt b].

(** The lambdas of the two qubit fallbacks: gate.py 320-325, 335-341, 355-361, 375-381, 395-401, 415-419,
    433-441, 455-463, 477-483, 493-496, 516-524, 539-541, 557-565. *)
Definition fallback2 (k : g2) : option (Z -> Z -> list gate) :=
  match k with
  | KCX | KCZ => None
  | KCY => Some (fun c t => [GOne KSdg (TInt t); GTwo KCX (pair_tg c t); GOne KS (TInt t)])
  | KCH => Some (fun c t => [GOne (KRY (PI / 4)) (TInt t); GTwo KCX (pair_tg c t);
                             GOne (KRY (- PI / 4)) (TInt t)])
  | KCRX theta => Some (fun c t => [GOne (KRX (theta / 2)) (TInt t); GTwo KCZ (pair_tg c t);
                                    GOne (KRX (- theta / 2)) (TInt t); GTwo KCZ (pair_tg c t)])
  | KCRY theta => Some (fun c t => [GOne (KRY (theta / 2)) (TInt t); GTwo KCX (pair_tg c t);
                                    GOne (KRY (- theta / 2)) (TInt t); GTwo KCX (pair_tg c t)])
  | KCRZ theta => Some (fun c t => [GOne (KRZ (theta / 2)) (TInt t); GTwo KCX (pair_tg c t);
                                    GOne (KRZ (- theta / 2)) (TInt t); GTwo KCX (pair_tg c t)])
  | KCPhase theta => Some (fun c t => [GTwo (KCRZ theta) (pair_tg c t);
                                       GOne (KPhase (theta / 2)) (TInt c)])
  | KRXX theta => Some (fun c t => [GOne KH (TInt c); GOne KH (TInt t);
                                    GTwo (KRZZ theta) (pair_tg c t);
                                    GOne KH (TInt c); GOne KH (TInt t)])
  | KRYY theta => Some (fun c t => [GOne (KRX (- PI * (1/2))) (TInt c); GOne (KRX (- PI * (1/2))) (TInt t);
                                    GTwo (KRZZ theta) (pair_tg c t);
                                    GOne (KRX (PI * (1/2))) (TInt c); GOne (KRX (PI * (1/2))) (TInt t)])
  | KRZZ theta => Some (fun c t => [GTwo KCX (pair_tg c t); GOne (KRZ theta) (TInt t);
                                    GTwo KCX (pair_tg c t)])
  | KSwap => Some (fun c t => [GTwo KCX (pair_tg c t); GTwo KCX (pair_tg t c); GTwo KCX (pair_tg c t)])
  | KCU1 lambd => Some (fun c t => [GOne (KU1 (lambd / 2)) (TInt c); GTwo KCX (pair_tg c t);
                                    GOne (KU1 (- lambd / 2)) (TInt t); GTwo KCX (pair_tg c t);
                                    GOne (KU1 (lambd / 2)) (TInt t)])
  | KCU2 phi lambd => Some (fun c t => [GTwo (KCU3 (PI / 2) phi lambd) (pair_tg c t)])
  | KCU3 theta phi lambd =>
      Some (fun c t => [GOne (KU1 ((lambd - phi) / 2)) (TInt t); GTwo KCX (pair_tg c t);
                        GOne (KU3 (- theta / 2) 0 (- (phi + lambd) / 2)) (TInt t); GTwo KCX (pair_tg c t);
                        GOne (KU3 (theta / 2) phi 0) (TInt t)])
  end.

(** [c1, c2, t = self.targets] (gate.py:576, 613, numpy_backend.py:360, 371): unpacking fails with
    ValueError when a tuple does not have three members, with TypeError when the value is not iterable.
    Simplification: a [TOther] that happens to be iterable (a list of three) is not modelled. *)
Definition unpack3 (tg : target) : res (target * target * target) :=
  match tg with
  | TTuple [a; b; c] => Ok (a, b, c)
  | TTuple _ => Err ValueError
  | _ => Err TypeError
  end.

(** gate.py:575-593 and 611-616. CCZGate has no fallback (596-601). *)
Definition fallback3 (k : g3) (tg : target) : res (list gate) :=
  match k with
  | KCCX =>
      let* (c1, c2, t) := unpack3 tg in
      Ok [GOne KH t;
          GTwo KCX (TTuple [c2; t]);
          GOne KTdg t;
          GTwo KCX (TTuple [c1; t]);
          GOne KT t;
          GTwo KCX (TTuple [c2; t]);
          GOne KTdg t;
          GTwo KCX (TTuple [c1; t]);
          GOne KT c2;
          GOne KT t;
          GOne KH t;
          GTwo KCX (TTuple [c1; c2]);
          GOne KT c1;
          GOne KTdg c2;
          GTwo KCX (TTuple [c1; c2])]
  | KCCZ => Err NotImplementedError
  | KCSwap =>
      let* (c, t1, t2) := unpack3 tg in
      Ok [GTwo KCX (TTuple [t2; t1]); GThree KCCX (TTuple [c; t1; t2]); GTwo KCX (TTuple [t2; t1])]
  end.

(** [gate.fallback(n_qubits)] for every class; gate.py:29-31, 76-80, 90-94 for the generic parts.
    Measurement and Reset have none. *)
Definition fallback (g : gate) (n_qubits : Z) : res (list gate) :=
  match g with
  | GOne KI _ => Ok []
  | GOne k tg =>
      match fallback1 k with
      | None => Err NotImplementedError
      | Some f => let* ts := gen_list (slicing tg n_qubits) in Ok (flat_map f ts)
      end
  | GTwo k tg =>
      match fallback2 k with
      | None => Err NotImplementedError
      | Some f => let* ps := qubit_pairs tg n_qubits in Ok (flat_map (fun p => f (fst p) (snd p)) ps)
      end
  | GThree k tg => fallback3 k tg
  | GMeasure _ | GReset _ => Err NotImplementedError
  end.

(** gate.py:702-704 [find_n_qubits]. *)
Definition find_n_qubits (gates : list gate) : res Z :=
  let* ms := map_res (fun g => get_maximum_index (targets g)) gates in
  Ok (max_default ms + 1)%Z.
