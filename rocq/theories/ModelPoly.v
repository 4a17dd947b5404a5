(** Model of the functions of blueqat/wq.py that read polynomials of sympy: optx (31-42), optm (44-66), make_qs (68-92), and of class Opt: qubo_to_matrix
    (434-454), expand_qubo (456-467) and add (469-478) for a text.
    The symbol named q<i> is the number i.  The argument is a sum of products of symbols, as it is written; [collect] is sympy's form of it after
    sympy.expand: equal products are added up and no coefficient is 0.
    Of sympy: in [f.subs(x**k, y)] a power x**n becomes y**(n/k) if k divides n and stays otherwise (symbols without assumptions); [f.coeff(a)] sums up what
    is left of the terms with the factor a, where x is no factor of x**2; [sympy.poly(f)] has the symbols of f as generators, the lowest first,
    [.degree()] is the degree in the first generator, and an expression without symbols raises GeneratorsNeeded; a set of symbols is iterated in any
    order ([order]).
    Simplifications: real coefficients (sympy.re does nothing on them and makes a symbol x into re(x), which is 0 for x = 0); no other names of symbols;
    parsing of texts is left to sympy; sympy.var, which makes names in a frame that nothing reads, is left out. *)
From Coq Require Import String List Arith Bool Reals.
Import ListNotations.
From Verif Require Import Base Cplx ModelWq ModelOpt.
Local Open Scope nat_scope.

(** symbols with their exponents, lowest symbol first *)
Definition mono : Type := list (nat * nat).
Definition poly : Type := list (mono * R).
Inductive perror : Type := GeneratorsNeeded | Raised (e : exn).
Inductive pres (A : Type) : Type := POk (a : A) | PErr (e : perror).
Arguments POk {A} a.
Arguments PErr {A} e.

Fixpoint times (v : nat) (m : mono) : mono :=
  match m with
  | [] => [(v, 1)]
  | (w, k) :: r => if v <? w then (v, 1) :: m else if v =? w then (w, S k) :: r else (w, k) :: times v r
  end.
Definition mono_of (vars : list nat) : mono := fold_right times [] vars.
Definition mono_eq_dec : forall a b : mono, {a = b} + {a <> b}.
Proof. decide equality. decide equality; apply Nat.eq_dec. Defined.
(** adds a term to a collected sum *)
Fixpoint add_term (m : mono) (c : R) (p : poly) : poly :=
  match p with
  | [] => if Reqb c 0 then [] else [(m, c)]
  | (m', c') :: r =>
      if mono_eq_dec m m' then (if Reqb (c' + c) 0 then r else (m', (c' + c)%R) :: r) else (m', c') :: add_term m c r
  end.
Definition collect (l : list (mono * R)) : poly := fold_left (fun p t => add_term (fst t) (snd t) p) l [].
(** sympy.expand *)
Definition expand (s : list (R * list nat)) : poly := collect (map (fun t => (mono_of (snd t), fst t)) s).
(** [f.free_symbols] *)
Definition free_symbols (p : poly) : list nat := nodup Nat.eq_dec (flat_map (fun t => map fst (fst t)) p).
(** [f.subs(j**k, j)] *)
Definition subs_exp (k n : nat) : nat := if n mod k =? 0 then n / k else n.
Definition subs_mono (j k : nat) (m : mono) : mono := map (fun f => if fst f =? j then (fst f, subs_exp k (snd f)) else f) m.
Definition subs_power (j k : nat) (p : poly) : poly := collect (map (fun t => (subs_mono j k (fst t), snd t)) p).
(** the exponent of a symbol *)
Fixpoint exponent (m : mono) (v : nat) : nat := match m with [] => 0 | (w, k) :: r => if v =? w then k else exponent r v end.
(** [sympy.poly(f).degree()] *)
Definition first_generator (p : poly) : option nat :=
  match free_symbols p with [] => None | v :: l => Some (fold_left Nat.min l v) end.
Definition degree (p : poly) : pres nat :=
  match first_generator p with
  | None => PErr GeneratorsNeeded
  | Some v => POk (fold_left Nat.max (map (fun t => exponent (fst t) v) p) 0)
  end.
(** what is left of a product without the factors [fs], if it has them *)
Definition has_factor (m : mono) (f : nat * nat) : bool := existsb (fun g => (fst g =? fst f) && (snd g =? snd f)) m.
Definition without (m : mono) (fs : list (nat * nat)) : mono := filter (fun g => negb (has_factor fs g)) m.
(** [f.coeff(x1*x2*...)] for different symbols *)
Definition coeff (p : poly) (xs : list nat) : poly :=
  let fs := map (fun x => (x, 1)) xs in
  collect (map (fun t => (without (fst t) fs, snd t)) (filter (fun t => forallb (has_factor (fst t)) fs) p)).
(** conversion to a float *)
Definition to_float (p : poly) : option R :=
  match p with [] => Some 0%R | [([], c)] => Some c | _ => None end.
(** the sum with all its symbols replaced by 0; [coeff_monomial(1)] *)
Definition constant_part (p : poly) : R := fold_left (fun s t => match fst t with [] => (s + snd t)%R | _ => s end) p 0%R.

Section Sets.
(** in which order a set is iterated *)
Variable order : list nat -> list nat.

(** [for j in f.free_symbols: f = f.subs(j**k, j)] (465-466; with k = 2: 40-41 and 54-55) *)
Definition subs_all (k : nat) (f : poly) : poly := fold_left (fun f j => subs_power j k f) (order (free_symbols f)) f.
(** expand_qubo (456-467) *)
Definition expand_collected (f : poly) : pres poly :=
  match degree f with
  | PErr e => PErr e
  | POk deg => POk (fold_left (fun f i => subs_all (deg - i) f) (seq 0 deg) f)
  end.
Definition expand_qubo (s : list (R * list nat)) : pres poly := expand_collected (expand s).

(** 445-448: the value for [optm[i][j]]; [None]: it cannot become a float *)
Definition entry (q : poly) (i j : nat) : option R :=
  if i =? j then Some (constant_part (coeff q [i])) else to_float (coeff q [i; j]).
(** [optm[i][j] = ...] for an array of size [n] *)
Definition put (n : nat) (q : poly) (r : pres mat) (ij : nat * nat) : pres mat :=
  match r with
  | PErr e => PErr e
  | POk m =>
      if (fst ij <? n) && (snd ij <? n) then
        match entry q (fst ij) (snd ij) with Some v => POk (upd m (fst ij) (snd ij) v) | None => PErr (Raised TypeError) end
      else PErr (Raised IndexError)
  end.
(** qubo_to_matrix (434-454): the size and the entries *)
Definition matrix_of (f : poly) : pres (nat * mat) :=
  match expand_collected f with
  | PErr e => PErr e
  | POk q =>
      let n := length (free_symbols q) in
      match fold_left (put n q) (list_prod (order (free_symbols q)) (order (free_symbols q))) (POk zeros) with
      | PErr e => PErr e
      | POk m => POk (n, triu 0 m)
      end
  end.
Definition qubo_to_matrix (s : list (R * list nat)) : pres (nat * mat) := matrix_of (expand s).
(** add (469-478) with a text *)
Definition add_text (o : opt) (s : list (R * list nat)) (M : R) : pres opt :=
  match expand_qubo s with
  | PErr e => PErr e
  | POk q => match matrix_of q with PErr e => PErr e | POk (n, m) => POk (opt_add o n m M) end
  end.

(** optx (31-42) *)
Definition optx (s : list (R * list nat)) : poly := subs_all 2 (expand s).
(** optm (44-66): row [i] *)
Definition optm_row (n : nat) (q : poly) (r : pres mat) (i : nat) : pres mat :=
  let r := fold_left (fun r j =>
    match r with
    | PErr e => PErr e
    | POk m => match to_float (coeff q [i; j]) with Some v => POk (upd m i j v) | None => PErr (Raised TypeError) end
    end) (seq (i + 1) (n - (i + 1))) r in
  match r with
  | PErr e => PErr e
  | POk m =>
      match free_symbols (coeff q [i]) with
      | [] => PErr GeneratorsNeeded
      | _ => POk (upd m i i (constant_part (coeff q [i])))
      end
  end.
Definition optm (s : list (R * list nat)) (n : nat) : pres mat := fold_left (optm_row n (optx s)) (seq 0 n) (POk zeros).
End Sets.

(** make_qs (68-92): the numbers of the symbols; sympy.symbols raises ValueError without names *)
Definition make_qs (n : nat) (m : option nat) : res (list nat) :=
  match (match m with None => seq 0 n | Some m => seq n (m - n) end) with
  | [] => Err ValueError
  | l => Ok l
  end.
