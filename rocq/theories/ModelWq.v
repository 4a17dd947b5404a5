(** Model of blueqat/wq.py: pauli (18-29), Ei (194-199), sel, mul, sqr, net, diag, zeros (208-301), class Opt: reJ (396-397), qi (399-424) and the
    simulated annealing of run (480-524).
    A vector of length n is a function on 0 .. n-1 and a square matrix a function of row and column; the size is given separately.
    Simplifications: real numbers for floating point; matrices are square and vectors of fitting length; [qubo] is not empty, so that run calls
    qi(); printing (verbose) is left out.  Not modelled here: optx, optm, make_qs, qubo_to_matrix, expand_qubo (ModelPoly), the quantum annealing
    sqa, the D-Wave client dw, and the Boltzmann machines (dbms, rbm_*, setRBM, fit). *)
From Coq Require Import List Arith ZArith Bool Reals.
Import ListNotations.
From Verif Require Import Base Cplx ModelPauli.
Local Open Scope R_scope.

Definition vec : Type := nat -> R.
Definition mat : Type := nat -> nat -> R.
(** [m[i][j] = v] *)
Definition upd (m : mat) (i j : nat) (v : R) : mat := fun a b => if (a =? i) && (b =? j) then v else m a b.
(** np.triu(m, k), m.T, m1 + m2, np.outer(a, b), np.diag(v) *)
Definition triu (k : nat) (m : mat) : mat := fun i j => if i + k <=? j then m i j else 0.
Definition transpose (m : mat) : mat := fun i j => m j i.
Definition madd (a b : mat) : mat := fun i j => a i j + b i j.
Definition msub (a b : mat) : mat := fun i j => a i j - b i j.
Definition mtimes (k : R) (a : mat) : mat := fun i j => k * a i j.
Definition outer (a b : vec) : mat := fun i j => a i * b j.
Definition diag (d : vec) : mat := fun i j => if i =? j then d i else 0.       (* 275-287 *)
Definition zeros : mat := fun _ _ => 0.                                        (* 289-301 *)
(** [for i in range(a, b): s = f(i, s)] *)
Definition for_range {S} (a b : nat) (s : S) (f : nat -> S -> S) : S := fold_left (fun s i => f i s) (seq a (b - a)) s.
(** [sum(f(i) for i in range(a, b))] *)
Definition sum_range (a b : nat) (f : nat -> R) : R := fold_left Rplus (map f (seq a (b - a))) 0.

(** pauli (18-29); [h] is the number 0.0 at first *)
Definition wq_pauli (n : nat) (qubo : mat) : pval :=
  for_range 0 n (VNum (NumR 0)) (fun i h =>
    for_range (i + 1) n (v_add h (v_mul (qubo_bit i) (VNum (NumR (qubo i i))))) (fun j h =>
      v_add h (v_mul (v_mul (qubo_bit i) (qubo_bit j)) (VNum (NumR (qubo i j + qubo j i)))))).

(** Ei (194-199) *)
Definition Ei (n : nat) (q3 : vec) (j3 : mat) : R :=
  for_range 0 n 0 (fun i EE => EE + q3 i * j3 i i + sum_range (i + 1) n (fun k => q3 i * q3 k * j3 i k)).

(** an index into an array of length [n] *)
Definition array_index (n : nat) (z : Z) : res nat :=
  if ((- Z.of_nat n <=? z) && (z <? Z.of_nat n))%Z then Ok (Z.to_nat (if (z <? 0)%Z then z + Z.of_nat n else z)%Z) else Err IndexError.

(** sel (208-239) *)
Fixpoint count_positions (n : nat) (arr : list Z) (selmat : vec) : res vec :=
  match arr with
  | [] => Ok selmat
  | z :: r => let* i := array_index n z in count_positions n r (fun k => if k =? i then selmat k + 1 else selmat k)
  end.
Definition sel (n : nat) (k : Z) (arr : list Z) : res mat :=
  let selres := madd (diag (fun _ => 1 - 2 * IZR k)) (triu 1 (fun _ _ => 2)) in
  let* selmat := count_positions n arr (fun _ => 0) in
  Ok (msub selres (mtimes (1 / 2) (diag selmat))).

(** mul (241-242), sqr (244-245) *)
Definition mul (a b : vec) : mat := madd (triu 0 (outer a b)) (triu 1 (outer a b)).
Definition sqr (a : vec) : mat := madd (triu 0 (outer a a)) (triu 1 (outer a a)).

(** net (247-266): the matrix, and the argument, whose pairs have been sorted in place *)
Definition sort_pair (p : Z * Z) : Z * Z := if (fst p <=? snd p)%Z then p else (snd p, fst p).
Fixpoint net_loop (n : nat) (narr : list (Z * Z)) (m : mat) : res mat :=
  match narr with
  | [] => Ok m
  | p :: r =>
      let* i := array_index n (fst (sort_pair p)) in
      let* j := array_index n (snd (sort_pair p)) in
      net_loop n r (upd m i j 1)
  end.
Definition net (n : nat) (narr : list (Z * Z)) : res (mat * list (Z * Z)) :=
  let* m := net_loop n narr zeros in Ok (m, map sort_pair narr).

(** ** class Opt *)
(** reJ (396-397) *)
Definition reJ (J : mat) : mat := madd (triu 0 J) (transpose (triu 1 J)).

(** qi (399-424): the coefficients [self.J] and the offset [self.ep].  np.random.choice([1.,1.], nn) is all ones (401). *)
Definition qi (nn : nat) (qubo : mat) : mat * R :=
  let J := fun _ _ => 1 in
  let J := for_range 0 nn J (fun i J => for_range (i + 1) nn J (fun j J => upd J i j (qubo i j / 4))) in       (* 402-404 *)
  let J := madd (triu 0 J) (transpose (triu 1 J)) in                                                          (* 406 *)
  let J := for_range 0 nn J (fun i J =>                                                                       (* 408-415 *)
    upd J i i (for_range 0 nn 0 (fun j sum => if i =? j then sum + qubo i i * (1 / 2) else sum + J i j))) in
  let ep := for_range 0 nn 0 (fun i ep => for_range (i + 1) nn (ep + J i i) (fun j ep => ep - J i j)) in      (* 417-422 *)
  (triu 0 J, ep).                                                                                             (* 424 *)

(** 507-509: the change of energy *)
Definition change (n : nat) (J : mat) (q : nat -> Z) (x : nat) : R :=
  let q2 := fun i => if i =? x then 1 else IZR (q x) in
  - 2 * sum_range 0 n (fun i => IZR (q i) * q2 i * J i x).

Section Annealing.
(** the random numbers: results of choice([-1,1]), of randint(0, N) and of rand() *)
Variable choices : nat -> bool.
Variable sites : nat -> nat.
Variable draws : nat -> R.

Definition real_spins (q : nat -> Z) : vec := fun i => IZR (q i).
(** [q[x] *= -1] *)
Definition turn (q : nat -> Z) (x : nat) : nat -> Z := fun i => if i =? x then (- q i)%Z else q i.
(** 506-512 for the proposals [xs]; [rand()] is called only if the energy does not fall; [d]: how many draws have been used *)
Fixpoint proposals (n : nat) (J : mat) (T : R) (xs : list nat) (q : nat -> Z) (d : nat) : (nat -> Z) * nat :=
  match xs with
  | [] => (q, d)
  | x :: xs =>
      let dE := change n J q x in
      if Rlt_dec dE 0 then proposals n J T xs (turn q x) d
      else if Rlt_dec (draws d) (exp (- dE / T)) then proposals n J T xs (turn q x) (S d)
      else proposals n J T xs q (S d)
  end.
(** 504-514; [None]: still running after [fuel] rounds *)
Fixpoint cooling (fuel n : nat) (Jt : mat) (ep targetT R_ : R) (ite : nat) (T : R) (q : nat -> Z) (s d : nat) (EE : list R)
    : option ((nat -> Z) * nat * nat * list R) :=
  match fuel with
  | O => None
  | S fuel =>
      if Rlt_dec targetT T then
        let (q, d) := proposals n (reJ Jt) T (map sites (seq s ite)) q d in
        cooling fuel n Jt ep targetT R_ ite (T * R_) q (s + ite) d (EE ++ [Ei n (real_spins q) Jt + ep])
      else Some (q, s, d, EE)
  end.
(** 516-517 *)
Definition to_bits (n : nat) (q : nat -> Z) : list Z := map (fun i => Z.quot (q i + 1) 2) (seq 0 n).
(** 499-517: [shots] times; the pairs of energies and bits *)
Fixpoint shots_loop (fuel n : nat) (J : mat) (ep Ts targetT R_ : R) (ite shots c s d : nat) : option (list (list R * list Z)) :=
  match shots with
  | O => Some []
  | S shots =>
      let q := fun i => if choices (c + i) then 1%Z else (-1)%Z in
      match cooling fuel n J ep targetT R_ ite Ts q s d [Ei n (real_spins q) J + ep] with
      | None => None
      | Some (q, s, d, EE) =>
          match shots_loop fuel n J ep Ts targetT R_ ite shots (c + n) s d with
          | None => None
          | Some r => Some ((EE, to_bits n q) :: r)
          end
      end
  end.
(** the attribute E and the answer of run: for one shot not lists of lists (520-523) *)
Inductive outcome : Type := Single (E : list R) (bits : list Z) | Several (E : list (list R)) (bits : list (list Z)).
(** run (480-524) of an Opt with attributes Ts, R, ite and qubo; the sampler "fast" has its own ite and R (490-495) *)
Definition opt_run (fuel n : nat) (qubo : mat) (Ts R_ : R) (ite : nat) (shots : nat) (fast : bool) (targetT : R) : option outcome :=
  let (J, ep) := qi n qubo in
  let itetemp := if fast then 100%nat else ite in
  let Rtemp := if fast then 3 / 4 else R_ in
  match shots_loop fuel n J ep Ts targetT Rtemp itetemp shots 0 0 0 with
  | None => None
  | Some [(EE, bits)] => Some (Single EE bits)   (* shots = 1 *)
  | Some l => Some (Several (map fst l) (map snd l))
  end.
End Annealing.
