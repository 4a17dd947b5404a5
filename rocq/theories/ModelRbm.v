(** Model of blueqat/wq.py: counter (268-273), dbms (316-331), sigm (333-334), rbm_hmodel (336-345), rbm_data_qubo (347-355), and of the class Opt: setRBM
    (598-601), rbm_model_qubo (603-612), fit (614-622).
    Matrices and vectors as in ModelWq.v, the annealing of run as modelled there.
    Simplifications: real numbers for floating point; data are integers; [self.qubo] has two or more rows, so that run() uses it; each epoch of fit
    has its own streams of random numbers; printing is left out. *)
From Coq Require Import String List Arith ZArith Bool Reals.
Import ListNotations.
From Verif Require Import Base Cplx ModelWq ModelQasm.
Local Open Scope R_scope.

(** counter (268-273): [str(x)] of each number, joined; collections.Counter counts the strings, in order of first occurrence *)
Definition row_key (row : list Z) : string := String.concat "" (map dec row).
Fixpoint count_key (s : string) (c : list (string * nat)) : list (string * nat) :=
  match c with
  | [] => [(s, 1%nat)]
  | (t, k) :: c => if String.eqb s t then (t, S k) :: c else (t, k) :: count_key s c
  end.
Definition counter (narr : list (list Z)) : list (string * nat) := fold_left (fun c row => count_key (row_key row) c) narr [].

Section Random.
(** results of np.random.rand() *)
Variable rand : nat -> R.

(** 324-329 for one [k]; the state: the matrix and how many random numbers have been used *)
Definition connect (w : R) (cc a b : nat) (st : mat * nat) : mat * nat :=
  for_range cc (cc + a) st (fun i st =>
    for_range (cc + a) (cc + a + b) st (fun j st =>
      let (m, u) := st in
      if Req_EM_T w 0 then (upd m i j (rand u), S u) else (upd m i j w, u))).
(** 323-330 *)
Fixpoint connect_all (w : R) (cc : nat) (arr : list nat) (st : mat * nat) : mat * nat :=
  match arr with
  | a :: (b :: _) as r => connect_all w (cc + a) r (connect w cc a b st)
  | _ => st
  end.
(** dbms (316-331) *)
Definition dbms (arr : list nat) (w : R) : mat :=
  let dbmN := list_sum arr in
  let st := if Req_EM_T w 0 then (diag rand, dbmN) else (diag (fun _ => 1 / 2), 0%nat) in
  fst (connect_all w 0 arr st).
(** setRBM (598-601): the attributes qubo, with its size, RBMvisible and RBMhidden *)
Definition set_rbm (arr : list nat) : res (mat * nat * nat * nat) :=
  match arr with a :: b :: _ => Ok (dbms arr 0, list_sum arr, a, b) | _ => Err IndexError end.
End Random.

(** sigm (333-334) *)
Definition sigm (x : R) : R := 1 / (1 + exp (- x)).
(** rbm_hmodel (336-345); [n] is len(dbms_mat1) *)
Definition hsum (vdata : list R) (m : mat) (i : nat) : R := for_range 0 (length vdata) (m i i) (fun j hsum => hsum + m j i * nth j vdata 0).
Definition rbm_hmodel (vdata : list R) (n : nat) (m : mat) : list R := map (fun i => sigm (hsum vdata m i)) (seq (length vdata) (n - length vdata)).
(** rbm_data_qubo (347-355): np.diag of the two lists, joined *)
Definition rbm_data_qubo (vdata : list R) (n : nat) (m : mat) : mat :=
  let hdata := rbm_hmodel vdata n m in
  let data_qubo := diag (fun i => nth i (vdata ++ hdata) 0) in
  let vdataN := length vdata in
  for_range 0 vdataN data_qubo (fun i q => for_range vdataN n q (fun j q => upd q i j (nth i vdata 0 * nth (j - vdataN) hdata 0))).

(** 605-612 for the answer of run() with several shots *)
Definition entry (row : list Z) (i : nat) : R := IZR (nth i row 0%Z).
Definition model_qubo (visible hidden : nat) (shots : nat) (result : list (list Z)) : mat :=
  let bias := fun i => Rsum (fun row => entry row i) result / INR shots in
  let weight := for_range 0 visible zeros (fun i w => for_range visible (visible + hidden) w (fun j w =>
    fold_left (fun w row => upd w i j (w i j + entry row i * entry row j)) result w)) in
  madd (diag bias) (mtimes (/ INR shots) weight).

Section Fit.
(** for each epoch: the row chosen, and the random numbers of run() *)
Variable rows : nat -> nat.
Variable choices : nat -> nat -> bool.
Variable sites : nat -> nat -> nat.
Variable draws : nat -> nat -> R.

(** rbm_model_qubo (603-612); [None]: the annealing goes on after [fuel] rounds.  With one shot [result] is one list: its sum is a number, which np.diag
    does not take; with none it is empty, with the same effect. *)
Definition rbm_model_qubo (e fuel n visible hidden : nat) (qubo : mat) (Ts R_ : R) (ite shots : nat) (targetT : R) : option (res mat) :=
  match opt_run (choices e) (sites e) (draws e) fuel n qubo Ts R_ ite shots true targetT with
  | None => None
  | Some (Single _ _) => Some (Err ValueError)
  | Some (Several _ []) => Some (Err ValueError)
  | Some (Several _ result) => Some (Ok (model_qubo visible hidden shots result))
  end.
(** fit (614-622) for an Opt with [n] units; [epoch] epochs, the first of them being number [e].  Data with more than [n] numbers make matrices that
    cannot be subtracted. *)
Fixpoint fit (epoch e fuel n visible hidden : nat) (Ts R_ : R) (ite : nat) (vdata : list (list Z)) (shots : nat) (targetT alpha epsilon : R) (qubo : mat)
    : option (res mat) :=
  match epoch with
  | O => Some (Ok qubo)
  | S epoch =>
      match vdata with
      | [] => Some (Err ValueError)
      | _ =>
          let row := nth (rows e) vdata [] in
          let vdata_in := map (fun i => IZR ((i - 1) * (-1))) row in
          let data := rbm_data_qubo vdata_in n qubo in
          match rbm_model_qubo e fuel n visible hidden qubo Ts R_ ite shots targetT with
          | None => None
          | Some (Err x) => Some (Err x)
          | Some (Ok model) =>
              if (n <? length row)%nat then Some (Err ValueError)
              else fit epoch (S e) fuel n visible hidden Ts R_ ite vdata shots targetT alpha epsilon
                     (madd (mtimes alpha qubo) (mtimes epsilon (msub data model)))
          end
      end
  end.
End Fit.
