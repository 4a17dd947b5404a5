(** The texts of operators, terms and expressions are programs for the same operators. *)
From Coq Require Import String Ascii List Arith ZArith Bool Reals Lra Lia.
Import ListNotations.
From Verif Require Import Base Cplx Bits ModelPauli ModelPauliRepr SpecQuantum SpecCircuit SpecPauli SpecPauliText ProofPauli ProofPauliExpr ProofPauliArith ProofPauliEx ProofPauliText ProofPauliTerm.
Local Open Scope string_scope.

Section Read.
Variables (show : C -> string) (read : string -> option R).
Definition legible (t : term) : Prop := number_text read (show (t_coeff t)) (t_coeff t).
Lemma zero_text : reads read "0" 0 -> number_text read "0" C0.
Proof. intros Z. left. exists "", "0", 0%R. repeat split; auto; try apply Z. left; auto. Qed.
(** a number and operators *)
Lemma number_times : forall s c p ps, number_text read s c -> exists g s0 ts0 e0, shape read (s ++ "*" ++ pauli_repr p ++ stars ps) g s0 ts0 e0 (p :: ps) /\
  same_op (meaning (times (minus g e0) (p :: ps))) (op_scl c (paulis_op (p :: ps))) /\ exists t, eval (times (minus g e0) (p :: ps)) = Ok (VTerm t).
Proof.
  intros s c p ps N. destruct (number_shape read s c N) as (g & s0 & ts0 & e0 & v & -> & F & H & G & D & E & M). exists g, s0, ts0, e0. split; [|split].
  - constructor; auto; [rewrite app_assoc_s; reflexivity|discriminate].
  - intros psi x. rewrite times_meaning. rewrite (M (paulis_op (p :: ps) psi) x). reflexivity.
  - eapply times_term; [exact E|]. right. discriminate.
Qed.
Lemma term_shape : forall t, reads read "0" 0 -> legible t -> exists g s0 ts0 e0 qs, shape read (term_repr show t) g s0 ts0 e0 qs /\
  same_op (meaning (times (minus g e0) qs)) (term_op t) /\ exists t', eval (times (minus g e0) qs) = Ok (VTerm t').
Proof.
  intros [ops c] Z L. unfold legible in L. cbn [t_coeff] in L. unfold term_repr. cbn [t_coeff t_ops]. destruct (Ceqb c C0) eqn:E0.
  - apply Ceqb_true in E0. subst c. destruct (number_times "0" C0 PId [] (zero_text Z)) as (g & s0 & ts0 & e0 & S & M & T). exists g, s0, ts0, e0, [PId].
    split; [exact S|split; [|exact T]]. intros psi x. rewrite (M psi x). unfold term_op, op_scl. cbn [t_coeff]. apply C_ext; cbn; ring.
  - cbv zeta. match goal with |- context [(if Ceqb c (RtoC (-1)) then "-" else show c ++ "*") ++ ?m] => replace m with (String.concat "*" (map pauli_repr (paulis ops))) by (rewrite <- ops_text; destruct ops; reflexivity) end.
    assert (P : exists p ps, paulis ops = p :: ps) by (destruct ops as [|o ops]; [exists PId, []|exists (PP o), (map PP ops)]; reflexivity). destruct P as (p & ps & P).
    pose proof (concat_stars (paulis ops)) as K. rewrite P in K. rewrite P, K. destruct (Ceqb c (RtoC (-1))) eqn:E1.
    + apply Ceqb_true in E1. subst c. destruct (tok_factor read p) as (F & W & H). exists "-", (pauli_repr p), (tok_p p), (EPauli p), ps. split; [|split].
      * constructor; auto. cbn. auto.
      * intros psi x. rewrite minus_meaning by auto. cbn [String.eqb]. rewrite times_meaning. unfold term_op, op_scl. cbn [t_coeff t_ops]. rewrite <- paulis_word, P.
        cbn [paulis_op]. unfold op_mul. replace (meaning (EPauli p)) with (val_op (VPauli p)) by (destruct p as [|[l n]]; reflexivity). unfold RtoC. apply C_ext; cbn; ring.
      * apply (times_term ps (minus "-" (EPauli p)) (VTerm (from_pauli p (- C1)%C))); [reflexivity|]. left. exact I.
    + destruct (number_times (show c) c p ps L) as (g & s0 & ts0 & e0 & S & M & T). exists g, s0, ts0, e0, (p :: ps). rewrite app_assoc_s. split; [exact S|split; [|exact T]].
      intros psi x. rewrite (M psi x). unfold term_op, op_scl. cbn [t_coeff t_ops]. rewrite <- paulis_word, P. reflexivity.
Qed.

(** sums *)
Fixpoint spaced (l : list string) : string := match l with [] => "" | s :: r => " " ++ s ++ spaced r end.
Lemma concat_spaces : forall l s, String.concat " " (s :: l) = s ++ spaced l.
Proof.
  induction l as [|u l IH]; intros s; [cbn; rewrite app_nil; reflexivity|].
  change (String.concat " " (s :: u :: l)) with (s ++ " " ++ String.concat " " (u :: l)). rewrite IH. reflexivity.
Qed.
Lemma space_token : forall r, tokens None (" " ++ r) = tokens None r. Proof. reflexivity. Qed.
Lemma further_shape : forall t g s0 ts0 e0 qs, shape read (term_repr show t) g s0 ts0 e0 qs -> further show t = [if String.eqb g "" then "+" else "-"; s0 ++ stars qs].
Proof.
  intros t g s0 ts0 e0 qs [T _ _ H G _]. unfold further. rewrite T. destruct G as [->| ->]; [|reflexivity]. cbn [append String.eqb].
  destruct s0 as [|a s0]; [destruct H|]. cbn [head_ok] in H. cbn [append]. unfold sign in H. apply orb_false_iff in H as [Hp Hm].
  apply Ascii.eqb_neq in Hp, Hm. destruct a as [b0 b1 b2 b3 b4 b5 b6 b7]. destruct b0, b1, b2, b3, b4, b5, b6, b7; try reflexivity; congruence.
Qed.
Definition operand (e : pexp) : Prop := exists v, eval e = Ok v /\ match v with VNum _ => False | _ => True end.
Lemma stars_length : forall qs, (List.length qs <= List.length (tok_stars qs))%nat.
Proof. induction qs as [|q qs IH]; [cbn; lia|]. cbn [tok_stars flat_map List.length]. rewrite app_length. cbn [List.length app]. fold (tok_stars qs). lia. Qed.
Lemma rest_read : reads read "0" 0 -> forall ts, Forall legible ts -> exists rest, tokens None (spaced (flat_map (further show) ts)) = rest /\ after rest /\
  forall fuel e, (List.length rest + 15 <= fuel)%nat -> defined e /\ tame e -> operand e ->
    exists e', p_adds read fuel e rest = Some (e', []) /\ (defined e' /\ tame e') /\ operand e' /\ same_op (meaning e') (op_add (meaning e) (expr_op ts)).
Proof.
  intros Z. induction ts as [|t ts IH]; intros L.
  - exists []. split; [reflexivity|split; [constructor|]]. intros fuel e F D O. destruct fuel as [|fuel]; [cbn in F; lia|]. exists e. rewrite adds_end. repeat split; auto; try apply D.
    intros psi x. unfold op_add. cbn [expr_op]. apply C_ext; cbn; ring.
  - inversion L as [|? ? Lt Ls]; subst. destruct (IH Ls) as (rest & R & A & P). destruct (term_shape t Z Lt) as (g & s0 & ts0 & e0 & qs & S & M & T).
    pose proof (body_whole _ _ _ _ _ _ _ S) as B. pose proof (sh_sign _ _ _ _ _ _ _ S) as G.
    exists (TChar (if String.eqb g "" then "+"%char else "-"%char) :: (ts0 ++ tok_stars qs) ++ rest)%list. split; [|split].
    + cbn [flat_map]. rewrite (further_shape _ _ _ _ _ _ S). cbn [app spaced]. rewrite space_token. destruct G as [->| ->]; cbn [String.eqb append];
        rewrite plain_token by reflexivity; change (String " " ((s0 ++ stars qs) ++ spaced (flat_map (further show) ts))) with (" " ++ (s0 ++ stars qs) ++ spaced (flat_map (further show) ts));
        rewrite space_token, B, R; reflexivity.
    + destruct G as [->| ->]; constructor.
    + intros fuel e F D O. cbn [List.length] in F. rewrite !app_length in F. pose proof (stars_length qs). destruct fuel as [|fuel]; [lia|].
      assert (N : p_product read fuel ((ts0 ++ tok_stars qs) ++ rest)%list = Some (times e0 qs, rest)) by (eapply later_read; eauto; lia).
      pose proof (times_fine qs e0 (sh_fine _ _ _ _ _ _ _ S)) as [Df Tf]. destruct D as [De Te]. destruct O as (v & Ev & Nv).
      destruct (eval_program (times e0 qs) Df Tf) as (w & Ew & _).
      assert (K : forall m, (m = EAdd \/ m = ESub) -> operand (m e (times e0 qs))).
      { intros m [->| ->]; eexists; cbn [eval]; rewrite Ev, Ew; cbn [bind]; (split; [reflexivity|]); destruct v, w; cbn; auto. }
      destruct G as [->| ->]; cbn [String.eqb] in *; [rewrite adds_plus|rewrite adds_minus]; rewrite N.
      * destruct (P fuel (EAdd e (times e0 qs))) as (e' & P1 & P2 & P3 & P4); [lia|cbn; auto|auto|]. exists e'. repeat split; auto; try apply P2. intros psi x. rewrite (P4 psi x).
        specialize (M psi x). cbn [minus String.eqb] in M. cbn [meaning expr_op]. unfold op_add. rewrite M. apply C_ext; cbn; ring.
      * destruct (P fuel (ESub e (times e0 qs))) as (e' & P1 & P2 & P3 & P4); [lia|cbn; auto|auto|]. exists e'. repeat split; auto; try apply P2. intros psi x. rewrite (P4 psi x).
        specialize (M psi x). rewrite minus_meaning in M by auto. cbn [String.eqb] in M. cbn [meaning expr_op]. unfold op_add, op_sub. rewrite <- M. apply C_ext; cbn; ring.
Qed.
Lemma first_after : forall s g s0 ts0 e0 qs rest r, shape read s g s0 ts0 e0 qs -> tokens None r = rest -> after rest ->
  exists fuel, tokens None (s ++ r) = (tok_g g ++ (ts0 ++ tok_stars qs) ++ rest)%list /\ (List.length rest + 15 <= fuel)%nat /\
  p_sum read (List.length (tokens None (s ++ r)) + 20) (tokens None (s ++ r)) = p_adds read fuel (times (minus g e0) qs) rest.
Proof.
  intros s g s0 ts0 e0 qs rest r S R A. pose proof (shape_tokens _ _ _ _ _ _ _ S r) as T. rewrite R in T. pose proof (stars_length qs).
  exists (List.length (tokens None (s ++ r)) + 19)%nat. rewrite T at 1. split; [rewrite <- !app_assoc; reflexivity|]. split; [rewrite T, !app_length; lia|].
  replace (List.length (tokens None (s ++ r)) + 20)%nat with (Datatypes.S (List.length (tokens None (s ++ r)) + 19)) by lia. rewrite sum_S.
  set (n := (List.length (tokens None (s ++ r)) + 19)%nat). assert (L : (List.length qs + 13 <= n)%nat) by (unfold n; rewrite T, !app_length; lia). rewrite T, <- app_assoc.
  rewrite (first_read read _ _ _ _ _ _ _ _ S A L). reflexivity.
Qed.
Lemma python_term : forall t, reads read "0" 0 -> legible t -> exists e t', python read (term_repr show t) = Some e /\ (defined e /\ tame e) /\ eval e = Ok (VTerm t') /\ same_op (meaning e) (term_op t).
Proof.
  intros t Z L. destruct (term_shape t Z L) as (g & s0 & ts0 & e0 & qs & S & M & (t' & T)). destruct (first_after _ _ _ _ _ _ [] "" S eq_refl after_end) as (fuel & _ & F & P).
  rewrite app_nil in P. exists (times (minus g e0) qs), t'. split; [|split; [|auto]].
  - unfold python. rewrite P. destruct fuel as [|fuel]; [cbn in F; lia|]. rewrite adds_end. reflexivity.
  - apply times_fine. pose proof (sh_fine _ _ _ _ _ _ _ S). destruct (sh_sign _ _ _ _ _ _ _ S) as [->| ->]; exact H.
Qed.
Lemma python_expr : forall l, reads read "0" 0 -> Forall legible l -> exists e, python read (expr_repr show l) = Some e /\ (defined e /\ tame e) /\ operand e /\ same_op (meaning e) (expr_op l).
Proof.
  intros [|t l] Z L.
  - exists (EAdd (EMul (ENum (NumR 0)) (EPauli PId)) (ENum (NumR 0))). split; [|split; [|split]].
    + unfold python, expr_repr. change (tokens None "0*I+0") with [TNum "0"; TChar "*"; TChar "I"; TChar "+"; TNum "0"]. destruct Z as [_ Z].
      cbn [List.length Nat.add]. rewrite sum_S, product_S, f_num, Z. cbn [option_map]. rewrite muls_star, f_id. rewrite muls_stop by constructor. rewrite adds_plus, product_S, f_num, Z. cbn [option_map].
      rewrite muls_stop by constructor. rewrite adds_end. reflexivity.
    + cbn; auto.
    + eexists. split; [reflexivity|exact I].
    + intros psi x. cbn [meaning nval]. unfold op_add, op_mul, op_scl, op_one, RtoC. apply C_ext; cbn; ring.
  - inversion L as [|? ? Lt Ls]; subst. destruct (rest_read Z l Ls) as (rest & R & A & P). destruct (term_shape t Z Lt) as (g & s0 & ts0 & e0 & qs & S & M & (t' & T)).
    destruct (first_after _ _ _ _ _ _ rest _ S R A) as (fuel & _ & F & Q).
    assert (D : defined (times (minus g e0) qs) /\ tame (times (minus g e0) qs)).
    { apply times_fine. pose proof (sh_fine _ _ _ _ _ _ _ S). destruct (sh_sign _ _ _ _ _ _ _ S) as [->| ->]; exact H. }
    destruct (P fuel (times (minus g e0) qs) F D) as (e' & P1 & P2 & P3 & P4); [exists (VTerm t'); split; [exact T|exact I]|].
    exists e'. split; [|split; [exact P2|split; [exact P3|]]].
    + unfold python, expr_repr. rewrite concat_spaces, Q, P1. reflexivity.
    + intros psi x. rewrite (P4 psi x). unfold op_add at 1. rewrite (M psi x). reflexivity.
Qed.
Lemma python_pauli : forall p, python read (pauli_repr p) = Some (EPauli p).
Proof.
  intros p. destruct (tok_factor read p) as ([_ F] & W & _). specialize (W ""). rewrite app_nil in W. cbn [tokens] in W. unfold python. rewrite W.
  set (n := List.length _). replace (n + 20)%nat with (S (S (S (n + 17)))) by lia. rewrite sum_S, product_S, F by lia. rewrite muls_stop by constructor. rewrite adds_end. reflexivity.
Qed.

Lemma repr_read : reads read "0" 0 -> forall v, written show read v -> exists e w, python read (v_repr show v) = Some e /\ same_op (meaning e) (val_op v) /\
  eval e = Ok w /\ same_op (val_op w) (val_op v) /\ match v with VPauli _ => w = v | VTerm _ => exists t, w = VTerm t | _ => match w with VNum _ => False | _ => True end end.
Proof.
  intros Z [x|p|t|l] W; cbn [written] in W; [destruct W| | |]; cbn [v_repr].
  - exists (EPauli p), (VPauli p). split; [apply python_pauli|]. repeat split; auto; try (intros psi x; destruct p as [|[q n]]; reflexivity).
  - destruct (python_term t Z W) as (e & t' & P & [D T] & E & M). exists e, (VTerm t'). repeat split; auto; [|eauto]. destruct (eval_program e D T) as (w & Ew & Sw). rewrite E in Ew. injection Ew as <-.
    intros psi x. rewrite (Sw psi x). apply M.
  - destruct (python_expr l Z W) as (e & P & [D T] & (v & E & N) & M). exists e, v. repeat split; auto. destruct (eval_program e D T) as (w & Ew & Sw). rewrite E in Ew. injection Ew as <-.
    intros psi x. rewrite (Sw psi x). apply M.
Qed.
Lemma repr_equal : reads read "0" 0 -> forall v, written show read v -> match v with VTerm t => t_coeff t <> C0 | _ => True end ->
  exists e w, python read (v_repr show v) = Some e /\ eval e = Ok w /\ v_eq v w = Ok true.
Proof.
  intros Z v W N. destruct (repr_read Z v W) as (e & w & P & _ & E & S & K). exists e, w. split; [exact P|split; [exact E|]]. destruct v as [x|p|t|l]; [destruct W| | |].
  - subst w. destruct p as [|o]; cbn [v_eq]; [reflexivity|]. rewrite pop_eqb_refl. reflexivity.
  - destruct K as [t' ->]. cbn [v_eq]. f_equal. apply term_eq_complete; auto. intros psi x. symmetry. apply S.
  - apply (proj1 (expr_eq_operand l w K)). intros psi x. symmetry. apply S.
Qed.
End Read.

Lemma repr_injective : forall show read, reads read "0" 0 -> forall v w, written show read v -> written show read w -> v_repr show v = v_repr show w -> same_op (val_op v) (val_op w).
Proof.
  intros show read Z v w V W T. destruct (repr_read show read Z v V) as (e & _ & P & M & _). destruct (repr_read show read Z w W) as (f & _ & Q & N & _).
  rewrite T, Q in P. injection P as <-. intros psi x. rewrite <- (M psi x). apply N.
Qed.
(** an expression with one term has the text of the term *)
Lemma repr_single : forall show read, reads read "0" 0 -> forall t, written show read (VTerm t) -> exists e w, python read (v_repr show (VExpr [t])) = Some e /\ eval e = Ok w /\
  v_eq (VExpr [t]) w = Ok true /\ v_eq w (VExpr [t]) = Ok false.
Proof.
  intros show read Z t W. destruct (repr_read show read Z (VTerm t) W) as (e & w & P & M & E & S & (t' & ->)). exists e, (VTerm t'). split; [exact P|split; [exact E|split; [|reflexivity]]].
  apply (proj1 (expr_eq_operand [t] (VTerm t') I)). intros psi x. rewrite (S psi x). cbn [val_op expr_op]. unfold op_add. apply C_ext; cbn; ring.
Qed.
(** a case *)
Definition case_read (s : string) : option R :=
  if String.eqb s "0" then Some 0%R else if String.eqb s "0.0" then Some 0%R else if String.eqb s "0.5" then Some (1 / 2)%R else if String.eqb s "1" then Some 1%R
  else if String.eqb s "1.0" then Some 1%R else if String.eqb s "2" then Some 2%R else None.
Definition case_show (c : C) : string :=
  if Ceqb c C0 then "0.0" else if Ceqb c (RtoC (1 / 2)) then "0.5" else if Ceqb c (RtoC (-1)) then "-1.0" else "(-2+1j)".
Definition case_expr : expr := [Term [(LX, 0%nat); (LY, 12%nat)] (RtoC (1 / 2)); Term [] (RtoC (-1)); Term [(LZ, 3%nat)] (-2, 1)%R; Term [(LX, 1%nat)] C0].
Ltac numbers := repeat match goal with |- context [Ceqb ?a ?b] =>
  let H := fresh in destruct (Ceqb a b) eqn:H; [try (exfalso; apply Ceqb_true in H; unfold RtoC, C0 in H; injection H; intros; lra)|try (exfalso; apply Ceqb_false in H; apply H; reflexivity)] end.
Ltac reading := match goal with |- reads _ ?s _ => split; [|reflexivity]; match s with String ?d ?r =>
  match r with EmptyString => exists s, "", "" | String _ ?f => exists (String d ""), r, "" end end; repeat split; auto; try discriminate; right; eexists; split; reflexivity end.
Lemma read_zero : reads case_read "0" 0.
Proof. reading. Qed.
Lemma case_written : written case_show case_read (VExpr case_expr).
Proof.
  cbn [written case_expr]. repeat apply Forall_cons; [| | | |constructor]; cbn [t_coeff]; unfold case_show; numbers.
  - left. exists "", "0.5", (1 / 2)%R. split; [reflexivity|split; [reading|split; [left; auto|reflexivity]]].
  - left. exists "-", "1.0", 1%R. split; [reflexivity|split; [reading|split; [right; split; [reflexivity|cbn; lra]|reflexivity]]].
  - right. right. exists "-", "2", 2%R, "+", "1", 1%R. split; [reflexivity|split; [reading|split; [reading|split; [right; split; [reflexivity|cbn; lra]|left; auto]]]].
  - left. exists "", "0.0", 0%R. split; [reflexivity|split; [reading|split; [left; auto|reflexivity]]].
Qed.
Lemma case_text : v_repr case_show (VExpr case_expr) = "0.5*X[0]*Y[12] - I + (-2+1j)*Z[3] + 0*I".
Proof. cbn [v_repr case_expr expr_repr flat_map]. unfold further, term_repr. cbn [t_coeff t_ops]. unfold case_show. numbers. reflexivity. Qed.
Lemma case_parsed : python case_read "0.5*X[0]*Y[12] - I + (-2+1j)*Z[3] + 0*I" = Some
  (EAdd (EAdd (ESub (EMul (EMul (ENum (NumR (1 / 2))) (EPauli (PP (LX, 0%nat)))) (EPauli (PP (LY, 12%nat)))) (EPauli PId))
    (EMul (EAdd (ENeg (ENum (NumR 2))) (ENum (NumC (0, 1)%R))) (EPauli (PP (LZ, 3%nat))))) (EMul (ENum (NumR 0)) (EPauli PId))).
Proof. reflexivity. Qed.
Lemma zero_lost : exists show read t e w, reads read "0" 0 /\ written show read (VTerm t) /\ python read (v_repr show (VTerm t)) = Some e /\ eval e = Ok w /\ v_eq (VTerm t) w = Ok false.
Proof.
  exists case_show, case_read, (Term [(LX, 1%nat)] C0), (EMul (ENum (NumR 0)) (EPauli PId)). eexists. split; [exact read_zero|split; [|split; [|split; [reflexivity|]]]].
  - pose proof case_written as W. cbn [written case_expr] in W. cbn [written]. do 3 (inversion W as [|? ? _ W']; subst; clear W; rename W' into W). inversion W; subst; assumption.
  - cbn [v_repr]. unfold term_repr. cbn [t_coeff]. rewrite Ceqb_refl. reflexivity.
  - reflexivity.
Qed.
