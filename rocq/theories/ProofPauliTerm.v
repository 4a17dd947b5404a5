(** The texts of terms and expressions are read back. *)
From Coq Require Import String Ascii List Arith ZArith Bool Reals Lra Lia.
Import ListNotations.
From Verif Require Import Base Cplx Bits ModelPauli ModelPauliRepr SpecQuantum SpecCircuit SpecPauli SpecPauliText ProofPauli ProofPauliExpr ProofPauliArith ProofPauliEx ProofPauliText.
Local Open Scope string_scope.

Definition tok_p (p : pauli) : list token :=
  match p with PId => [TChar "I"] | PP (l, n) => [TChar (match l with LX => "X" | LY => "Y" | LZ => "Z" end); TChar "["; TNum (nat_str n); TChar "]"] end.
Fixpoint stars (qs : list pauli) : string := match qs with [] => "" | q :: r => "*" ++ pauli_repr q ++ stars r end.
Definition tok_stars (qs : list pauli) : list token := flat_map (fun q => TChar "*" :: tok_p q) qs.
Definition times (e : pexp) (qs : list pauli) : pexp := fold_left EMul (map EPauli qs) e.
Definition head_ok (s : string) : Prop := match s with EmptyString => False | String c _ => sign c = false end.

Section Read.
Variables (show : C -> string) (read : string -> option R).
Lemma tok_factor : forall p, factor read (pauli_repr p) (tok_p p) (EPauli p) /\ whole (pauli_repr p) (tok_p p) /\ head_ok (pauli_repr p).
Proof.
  intros [|[l n]]; [destruct (factor_id read) as [F W]; split; [exact F|split; [exact W|reflexivity]]|]. destruct (factor_op read (l, n)) as [ts [F W]].
  assert (W' : whole (pop_repr (l, n)) (tok_p (PP (l, n)))).
  { intros r. unfold pop_repr. cbn [fst snd tok_p]. replace (letter_str l) with (String (match l with LX => "X" | LY => "Y" | LZ => "Z" end) "") by (destruct l; reflexivity). cbn [append].
    rewrite plain_token by (destruct l; reflexivity). rewrite plain_token by reflexivity. rewrite app_assoc_s. cbn [append]. rewrite numeral_end.
    - rewrite plain_token by reflexivity. reflexivity.
    - destruct (index_text n) as [N D]. exists (nat_str n), "", "". rewrite !app_nil. cbn [append]. repeat split; auto.
    - reflexivity. }
  split; [|split; [exact W'|destruct l; reflexivity]]. split; [intros; apply W'|]. intros fuel r L. destruct fuel; [lia|]. apply f_op.
Qed.
Lemma stars_whole : forall qs, whole (stars qs) (tok_stars qs).
Proof.
  induction qs as [|q qs IH]; intros r; [reflexivity|]. cbn [stars tok_stars flat_map]. change ("*" ++ pauli_repr q ++ stars qs) with (String "*" (pauli_repr q ++ stars qs)).
  cbn [append app]. rewrite plain_token by reflexivity. rewrite app_assoc_s. destruct (tok_factor q) as [_ [W _]]. rewrite W, IH. fold (tok_stars qs). rewrite <- app_assoc. reflexivity.
Qed.
Lemma muls_read : forall qs fuel e r, after r -> (List.length qs + 12 <= fuel)%nat -> p_muls read fuel e (tok_stars qs ++ r)%list = Some (times e qs, r).
Proof.
  induction qs as [|q qs IH]; intros fuel e r A L; cbn [List.length] in L; (destruct fuel as [|fuel]; [lia|]); [apply muls_stop, A|].
  cbn [tok_stars flat_map app]. rewrite muls_star. rewrite <- app_assoc. destruct (tok_factor q) as [[_ F] _]. rewrite F by lia. fold (tok_stars qs). rewrite IH by (auto; lia). reflexivity.
Qed.
(** a product: a first factor and operators *)
Record shape (s : string) (g s0 : string) (ts0 : list token) (e0 : pexp) (qs : list pauli) : Prop := Shape
  { sh_text : s = g ++ s0 ++ stars qs; sh_factor : factor read s0 ts0 e0; sh_whole : qs = [] -> whole s0 ts0; sh_head : head_ok s0;
    sh_sign : g = "" \/ g = "-"; sh_fine : defined e0 /\ tame e0 }.
Definition minus (g : string) (e : pexp) : pexp := if String.eqb g "" then e else ENeg e.
Definition tok_g (g : string) : list token := if String.eqb g "" then [] else [TChar "-"].
Lemma body_whole : forall s g s0 ts0 e0 qs, shape s g s0 ts0 e0 qs -> whole (s0 ++ stars qs) (ts0 ++ tok_stars qs)%list.
Proof.
  intros s g s0 ts0 e0 qs [_ [F _] W _ _ _] r. destruct qs as [|q qs].
  - cbn [stars tok_stars flat_map]. rewrite app_nil, List.app_nil_r. apply W; reflexivity.
  - rewrite app_assoc_s. cbn [stars]. change (("*" ++ pauli_repr q ++ stars qs) ++ r) with (String "*" ((pauli_repr q ++ stars qs) ++ r)). rewrite F by reflexivity.
    rewrite <- app_assoc. f_equal. exact (stars_whole (q :: qs) r).
Qed.
Lemma shape_tokens : forall s g s0 ts0 e0 qs, shape s g s0 ts0 e0 qs -> whole s (tok_g g ++ ts0 ++ tok_stars qs)%list.
Proof.
  intros s g s0 ts0 e0 qs H r. pose proof (body_whole _ _ _ _ _ _ H) as B. destruct H as [-> _ _ _ G _]. destruct G as [->| ->].
  - cbn [append tok_g String.eqb app]. apply B.
  - change (("-" ++ s0 ++ stars qs) ++ r) with (String "-" ((s0 ++ stars qs) ++ r)). rewrite plain_token by reflexivity. rewrite B. reflexivity.
Qed.
Lemma first_read : forall s g s0 ts0 e0 qs fuel r, shape s g s0 ts0 e0 qs -> after r -> (List.length qs + 13 <= fuel)%nat ->
  p_product read fuel (tok_g g ++ (ts0 ++ tok_stars qs) ++ r)%list = Some (times (minus g e0) qs, r).
Proof.
  intros s g s0 ts0 e0 qs fuel r [_ [_ F] _ _ G _] A L. destruct fuel as [|fuel]; [lia|]. rewrite product_S, <- app_assoc. destruct G as [->| ->].
  - cbn [tok_g String.eqb app]. rewrite F by lia. apply muls_read; auto. lia.
  - cbn [tok_g String.eqb app]. destruct fuel as [|fuel]; [lia|]. rewrite f_minus, F by lia. cbn [option_map fst snd]. apply muls_read; auto. lia.
Qed.
Lemma later_read : forall s g s0 ts0 e0 qs fuel r, shape s g s0 ts0 e0 qs -> after r -> (List.length qs + 13 <= fuel)%nat ->
  p_product read fuel ((ts0 ++ tok_stars qs) ++ r)%list = Some (times e0 qs, r).
Proof.
  intros s g s0 ts0 e0 qs fuel r [_ [_ F] _ _ _ _] A L. destruct fuel as [|fuel]; [lia|]. rewrite product_S, <- app_assoc. rewrite F by lia. apply muls_read; auto. lia.
Qed.
(** what a product means *)
Fixpoint paulis_op (qs : list pauli) : oper := match qs with [] => op_one | q :: r => op_mul (val_op (VPauli q)) (paulis_op r) end.
Lemma times_meaning : forall qs e psi, meaning (times e qs) psi = meaning e (paulis_op qs psi).
Proof. induction qs as [|q qs IH]; intros e psi; [reflexivity|]. unfold times. cbn [map fold_left]. fold (times (EMul e (EPauli q)) qs). rewrite IH. destruct q as [|[l n]]; reflexivity. Qed.
Lemma minus_meaning : forall g e qs psi x, g = "" \/ g = "-" -> meaning (times (minus g e) qs) psi x = (if String.eqb g "" then meaning (times e qs) psi x else - meaning (times e qs) psi x)%C.
Proof. intros g e qs psi x [->| ->]; unfold minus; cbn [String.eqb]; rewrite !times_meaning; reflexivity. Qed.
Lemma times_fine : forall qs e, defined e /\ tame e -> defined (times e qs) /\ tame (times e qs).
Proof. induction qs as [|q qs IH]; intros e [D T]; [auto|]. apply (IH (EMul e (EPauli q))). cbn. auto. Qed.
Definition is_term (v : pval) : Prop := match v with VTerm _ => True | _ => False end.
Lemma times_term : forall qs e v, eval e = Ok v -> is_term v \/ match v with VExpr _ => False | _ => qs <> [] end -> exists t, eval (times e qs) = Ok (VTerm t).
Proof.
  induction qs as [|q qs IH]; intros e v E H.
  - destruct v; cbn in H; try tauto. exists t. exact E.
  - unfold times. cbn [map fold_left]. apply (IH (EMul e (EPauli q)) (v_mul v (VPauli q))); [cbn; rewrite E; reflexivity|]. left. destruct v; cbn in *; tauto.
Qed.
(** terms *)
Definition paulis (ops : list pop) : list pauli := match ops with [] => [PId] | _ => map PP ops end.
Lemma concat_stars : forall l, match l with [] => True | p :: ps => String.concat "*" (map pauli_repr l) = pauli_repr p ++ stars ps end.
Proof.
  induction l as [|p l IH]; [exact I|]. destruct l as [|q l]; [cbn; rewrite app_nil; reflexivity|].
  change (String.concat "*" (map pauli_repr (p :: q :: l))) with (pauli_repr p ++ "*" ++ String.concat "*" (map pauli_repr (q :: l))). rewrite IH. reflexivity.
Qed.
Lemma ops_text : forall ops, (match ops with [] => "I" | ops => String.concat "*" (map pop_repr ops) end) = String.concat "*" (map pauli_repr (paulis ops)).
Proof. intros [|o ops]; [reflexivity|]. unfold paulis. rewrite map_map. reflexivity. Qed.
Lemma paulis_word : forall ops psi, paulis_op (paulis ops) psi = word_op ops psi.
Proof.
  assert (G : forall ops psi, paulis_op (map PP ops) psi = word_op ops psi).
  { induction ops as [|[l q] ops IH]; intros psi; [reflexivity|]. cbn [map paulis_op word_op]. unfold op_mul. rewrite IH. reflexivity. }
  intros [|o ops] psi; [reflexivity|]. apply G.
Qed.
Lemma number_shape : forall s c, number_text read s c -> exists g s0 ts0 e0 v, s = g ++ s0 /\ factor read s0 ts0 e0 /\ head_ok s0 /\ (g = "" \/ g = "-") /\ (defined e0 /\ tame e0) /\
  (eval (minus g e0) = Ok (VNum v)) /\ same_op (meaning (minus g e0)) (op_scl c op_one).
Proof.
  assert (H0 : forall t x, reads read t x -> head_ok t).
  { intros t x [(i & f & e & -> & Ni & Di & _) _]. destruct i as [|a i]; [congruence|]. cbn [append head_ok]. cbn [all_digits] in Di. apply andb_true_iff in Di as [Di _].
    unfold sign. destruct (Ascii.eqb_spec a "+") as [->|]; [discriminate Di|]. destruct (Ascii.eqb_spec a "-") as [->|]; [discriminate Di|reflexivity]. }
  assert (Ha : forall t u, head_ok t -> head_ok (t ++ u)) by (intros [|a t] u H; [destruct H|exact H]).
  intros s [a b] H. unfold number_text in H. cbn [Cre Cim fst snd] in H.
  destruct H as [(g & t & x & -> & R & G & B)|[(g & t & x & -> & R & G & B)|(g & t & x & m & u & y & -> & Rt & Ru & G & M)]].
  - exists g, t, [TNum t], (ENum (NumR x)). destruct G as [[-> ->]|[-> ->]]; eexists; (split; [reflexivity|]); (split; [apply factor_num, R|]); (split; [eapply H0, R|]); (split; [auto|]);
      (split; [cbn; auto|]); (split; [reflexivity|]); intros psi z; cbn [minus String.eqb meaning nval]; unfold op_neg, op_scl, op_one, RtoC; apply C_ext; cbn; rewrite ?B; ring.
  - exists g, (t ++ "j"), [TImag t], (ENum (NumC (0%R, x))). destruct G as [[-> ->]|[-> ->]]; eexists; (split; [reflexivity|]); (split; [apply factor_imag, R|]); (split; [apply Ha; eapply H0, R|]); (split; [auto|]);
      (split; [cbn; auto|]); (split; [reflexivity|]); intros psi z; cbn [minus String.eqb meaning nval]; unfold op_neg, op_scl, op_one, RtoC; apply C_ext; cbn; rewrite ?B; ring.
  - destruct (factor_complex read g t x m u y Rt Ru) as [ts F]; [destruct G as [[-> _]|[-> _]]; auto|destruct M as [[-> _]|[-> _]]; auto|].
    exists "", ("(" ++ g ++ t ++ m ++ u ++ "j)"), ts, ((if String.eqb m "+" then EAdd else ESub) (if String.eqb g "" then ENum (NumR x) else ENeg (ENum (NumR x))) (ENum (NumC (0%R, y)))).
    destruct G as [[-> ->]|[-> ->]], M as [[-> ->]|[-> ->]]; eexists; (split; [reflexivity|]); (split; [exact F|]); (split; [reflexivity|]); (split; [auto|]);
      (split; [cbn; auto|]); (split; [reflexivity|]); intros psi z; cbn [minus String.eqb meaning nval Ascii.eqb eqb]; unfold op_add, op_neg, op_scl, op_one, RtoC; apply C_ext; cbn; ring.
Qed.
End Read.
