(** How wrong rounded results may be. *)
From Coq Require Import List Arith ZArith Bool Reals.
Import ListNotations.
From Verif Require Import Base Cplx Bits ModelTargets ModelGate ModelFloat SpecTargets SpecQuantum SpecCircuit.
Local Open Scope R_scope.

(** The standard model of floating point arithmetic without overflow and underflow: every operation has a relative error of at most [u]; cos and sin have
    an absolute error of at most [u]. *)
Record rounds (A : arith) (u : R) : Prop := Rounds {
  r_add : forall a b, Rabs (f_add A a b - (a + b)) <= u * Rabs (a + b);
  r_sub : forall a b, Rabs (f_sub A a b - (a - b)) <= u * Rabs (a - b);
  r_mul : forall a b, Rabs (f_mul A a b - a * b) <= u * Rabs (a * b);
  r_div : forall a b, b <> 0 -> Rabs (f_div A a b - a / b) <= u * Rabs (a / b);
  r_sqrt : forall a, 0 <= a -> Rabs (f_sqrt A a - sqrt a) <= u * sqrt a;
  r_cos : forall a, Rabs (f_cos A a - cos a) <= u;
  r_sin : forall a, Rabs (f_sin A a - sin a) <= u;
  r_pi : Rabs (f_pi A - PI) <= u * PI }.

(** the angles of a gate *)
Definition angles1 (k : g1) : list R :=
  match k with
  | KRX a | KRY a | KRZ a | KPhase a | KU1 a => [a]
  | KU2 a b => [a; b]
  | KU3 a b c => [a; b; c]
  | _ => []
  end.
Definition angles2 (k : g2) : list R :=
  match k with
  | KCRX a | KCRY a | KCRZ a | KCPhase a | KRXX a | KRYY a | KRZZ a | KCU1 a => [a]
  | KCU2 a b => [a; b]
  | KCU3 a b c => [a; b; c]
  | _ => []
  end.
Definition angles (g : gate) : list R := match g with GOne k _ => angles1 k | GTwo k _ => angles2 k | _ => [] end.
Definition angles_within (M : R) (g : gate) : Prop := Forall (fun a => Rabs a <= M) (angles g).

(** the Euclidean norm *)
Definition norm (n : nat) (psi : state) : R := sqrt (norm2 n psi).
Definition dist (n : nat) (phi psi : state) : R := norm n (fun x => (phi x - psi x)%C).

Definition no_collapse (g : gate) : Prop := match g with GMeasure _ | GReset _ => False | _ => True end.

(** Numbers with [p] significant binary digits and any exponent, rounded to the nearest. *)
Definition round_to (p : nat) (x : R) : R :=
  if Req_EM_T x 0 then 0
  else let unit := powerRZ 2 (Int_part (ln (Rabs x) / ln 2) - Z.of_nat p + 1) in IZR (Int_part (x / unit + 1 / 2)) * unit.
Definition binary_arith (p : nat) : arith :=
  Arith (fun a b => round_to p (a + b)) (fun a b => round_to p (a - b)) (fun a b => round_to p (a * b)) (fun a b => round_to p (a / b))
        (fun a => round_to p (sqrt a)) (fun a => round_to p (cos a)) (fun a => round_to p (sin a)) (round_to p PI).
(** every operation rounds away from zero by the factor [1 + u] *)
Definition biased_arith (u : R) : arith :=
  Arith (fun a b => (a + b) * (1 + u)) (fun a b => (a - b) * (1 + u)) (fun a b => a * b * (1 + u)) (fun a b => a / b * (1 + u))
        (fun a => sqrt a * (1 + u)) (fun a => cos a * (1 + u)) (fun a => sin a * (1 + u)) (PI * (1 + u)).
