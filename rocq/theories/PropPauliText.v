(** Property theorems: texts of Pauli operators (C79). *)
From Coq Require Import String List Reals.
Import ListNotations.
From Verif Require Import Base Cplx ModelPauli ModelPauliRepr SpecQuantum SpecPauli SpecPauliText ProofPauliTextRun.
Local Open Scope string_scope.

(** C79.  The repr of an operator, a term or an expression is a Python expression that means the same operator, and Python computes that operator from it; from the repr of an
    operator it computes the operator itself, from that of a term a term.  [show]: str of a coefficient; [read]: the value of a numeral. *)
Theorem C79_read : forall show read, reads read "0" 0 -> forall v, written show read v -> exists e w, python read (v_repr show v) = Some e /\ same_op (meaning e) (val_op v) /\
  eval e = Ok w /\ same_op (val_op w) (val_op v) /\ match v with VPauli _ => w = v | VTerm _ => exists t, w = VTerm t | _ => match w with VNum _ => False | _ => True end end.
Proof. exact repr_read. Qed.
Print Assumptions C79_read.
(** v == eval(repr(v)), unless v is a term with coefficient zero. *)
Theorem C79_equal : forall show read, reads read "0" 0 -> forall v, written show read v -> match v with VTerm t => t_coeff t <> C0 | _ => True end ->
  exists e w, python read (v_repr show v) = Some e /\ eval e = Ok w /\ v_eq v w = Ok true.
Proof. exact repr_equal. Qed.
Print Assumptions C79_equal.
(** Equal texts mean equal operators. *)
Theorem C79_injective : forall show read, reads read "0" 0 -> forall v w, written show read v -> written show read w -> v_repr show v = v_repr show w -> same_op (val_op v) (val_op w).
Proof. exact repr_injective. Qed.
Print Assumptions C79_injective.
Example C79_case : reads case_read "0" 0 /\ written case_show case_read (VExpr case_expr).
Proof. exact (conj read_zero case_written). Qed.
Example C79_case_text : v_repr case_show (VExpr case_expr) = "0.5*X[0]*Y[12] - I + (-2+1j)*Z[3] + 0*I".
Proof. exact case_text. Qed.
Example C79_case_read : python case_read "0.5*X[0]*Y[12] - I + (-2+1j)*Z[3] + 0*I" = Some
  (EAdd (EAdd (ESub (EMul (EMul (ENum (NumR (1 / 2))) (EPauli (PP (LX, 0%nat)))) (EPauli (PP (LY, 12%nat)))) (EPauli PId))
    (EMul (EAdd (ENeg (ENum (NumR 2))) (ENum (NumC (0, 1)%R))) (EPauli (PP (LZ, 3%nat))))) (EMul (ENum (NumR 0)) (EPauli PId))).
Proof. exact case_parsed. Qed.
(** eval(repr(v)) == v is False for every expression with one term, as the text gives a term. *)
Theorem C79_order_refuted : forall show read, reads read "0" 0 -> forall t, written show read (VTerm t) -> exists e w, python read (v_repr show (VExpr [t])) = Some e /\ eval e = Ok w /\
  v_eq (VExpr [t]) w = Ok true /\ v_eq w (VExpr [t]) = Ok false.
Proof. exact repr_single. Qed.
Print Assumptions C79_order_refuted.
(** A term with coefficient zero loses its operators in the text, and the two terms are not equal. *)
Theorem C79_zero_refuted : exists show read t e w, reads read "0" 0 /\ written show read (VTerm t) /\ python read (v_repr show (VTerm t)) = Some e /\ eval e = Ok w /\ v_eq (VTerm t) w = Ok false.
Proof. exact zero_lost. Qed.
Print Assumptions C79_zero_refuted.
