(** The texts of operators are read back. *)
From Coq Require Import String Ascii DecimalString DecimalNat List Arith ZArith Bool Reals Lra Lia.
Import ListNotations.
From Verif Require Import Base Cplx Bits ModelPauli ModelPauliRepr SpecQuantum SpecCircuit SpecPauli SpecPauliText ProofPauli ProofPauliExpr ProofPauliArith.
Local Open Scope string_scope.

(** ** Characters *)
Lemma app_nil : forall s, s ++ "" = s. Proof. induction s as [|c s IH]; cbn; congruence. Qed.
Lemma app_assoc_s : forall a b c : string, (a ++ b) ++ c = a ++ b ++ c. Proof. induction a as [|x a IH]; intros; cbn; congruence. Qed.
Lemma index_read : forall n, read_index (nat_str n) = Some n.
Proof.
  intros n. unfold read_index, nat_str. assert (N : Nat.to_uint n <> Decimal.Nil).
  { intros H. pose proof (Unsigned.of_to n) as E. destruct n; [discriminate H|]. rewrite H in E. discriminate E. }
  replace (NilEmpty.string_of_uint (Nat.to_uint n)) with (NilZero.string_of_uint (Nat.to_uint n)) by (destruct (Nat.to_uint n); [congruence|reflexivity..]).
  rewrite NilZero.usu by exact N. cbn [option_map]. rewrite Unsigned.of_to. reflexivity.
Qed.
Lemma uint_digits : forall u, all_digits (NilEmpty.string_of_uint u) = true.
Proof. induction u; cbn [NilEmpty.string_of_uint all_digits]; rewrite ?IHu; reflexivity. Qed.
Lemma index_text : forall n, nat_str n <> "" /\ all_digits (nat_str n) = true.
Proof.
  intros n. split; [|apply uint_digits]. intros H. pose proof (index_read n) as E. rewrite H in E. cbn in E. discriminate E.
Qed.
Lemma more_digits : forall d b r, all_digits d = true -> tokens (Some b) (d ++ r) = tokens (Some (b ++ d)) r.
Proof.
  induction d as [|c d IH]; intros b r H; [cbn; rewrite app_nil; reflexivity|]. cbn [all_digits] in H. apply andb_true_iff in H as [H1 H2].
  cbn [append tokens]. unfold continues. rewrite H1. cbn [orb]. rewrite IH by auto. rewrite app_assoc_s. reflexivity.
Qed.
Lemma begin_digits : forall d r, d <> "" -> all_digits d = true -> tokens None (d ++ r) = tokens (Some d) r.
Proof.
  intros [|c d] r N H; [congruence|]. cbn [all_digits] in H. apply andb_true_iff in H as [H1 H2]. cbn [append tokens]. rewrite H1. cbn [orb].
  rewrite more_digits by auto. reflexivity.
Qed.
Lemma ends_app : forall a c, ends_in_e (a ++ String c "") = Ascii.eqb c "e".
Proof. induction a as [|x a IH]; intros c; [reflexivity|]. cbn [append ends_in_e]. rewrite IH. destruct a; reflexivity. Qed.
Lemma digits_end : forall b d, d <> "" -> all_digits d = true -> ends_in_e (b ++ d) = false.
Proof.
  intros b d. revert b. induction d as [|c d IH]; intros b N H; [congruence|]. cbn [all_digits] in H. apply andb_true_iff in H as [H1 H2]. destruct d as [|c' d].
  - rewrite ends_app. destruct (Ascii.eqb_spec c "e") as [->|]; [discriminate H1|reflexivity].
  - change (String c (String c' d)) with (String c "" ++ String c' d). rewrite <- app_assoc_s. apply IH; [discriminate|auto].
Qed.
Lemma more_char : forall b c r, continues b c = true -> tokens (Some b) (String c r) = tokens (Some (b ++ String c "")) r.
Proof. intros b c r H. cbn [tokens]. rewrite H. reflexivity. Qed.
(** a numeral is one token *)
Lemma numeral_buffer : forall s r, numeral s -> tokens None (s ++ r) = tokens (Some s) r /\ ends_in_e s = false.
Proof.
  intros s r (i & f & e & -> & Ni & Di & F & E).
  assert (A : forall r, tokens None ((i ++ f) ++ r) = tokens (Some (i ++ f)) r /\ ends_in_e (i ++ f) = false).
  { intros r'. destruct F as [->|[d [-> Dd]]].
    - rewrite app_nil. split; [apply begin_digits; auto|]. change i with ("" ++ i). apply digits_end; auto.
    - change ("." ++ d) with (String "." "" ++ d). rewrite <- (app_assoc_s i), app_assoc_s, app_assoc_s, begin_digits by auto. change (String "." "" ++ d ++ r') with (String "." (d ++ r')).
      rewrite more_char by reflexivity. rewrite more_digits by auto. split; [reflexivity|].
      destruct d as [|c d]; [rewrite app_nil; apply ends_app|]. apply digits_end; [discriminate|auto]. }
  rewrite <- app_assoc_s. destruct E as [->|[g [d [-> [G [Nd Dd]]]]]].
  - rewrite app_nil. apply A.
  - change ("e" ++ g ++ d) with (String "e" "" ++ g ++ d). rewrite <- (app_assoc_s (i ++ f)), <- (app_assoc_s _ g d). rewrite (app_assoc_s _ d r), (app_assoc_s _ g).
    rewrite (app_assoc_s (i ++ f)). destruct (A (String "e" "" ++ g ++ d ++ r)) as [-> _].
    change (String "e" "" ++ g ++ d ++ r) with (String "e" (g ++ d ++ r)). rewrite more_char by reflexivity.
    set (b := (i ++ f) ++ String "e" ""). assert (Eb : ends_in_e b = true) by apply ends_app.
    destruct G as [->|G].
    + cbn [append]. rewrite more_digits by auto. rewrite app_nil. split; [reflexivity|]. apply digits_end; auto.
    + assert (exists c, g = String c "" /\ sign c = true) as [c [-> Sc]] by (destruct G as [->| ->]; eexists; split; reflexivity).
      change (String c "" ++ d ++ r) with (String c (d ++ r)). rewrite more_char by (unfold continues; rewrite Sc, Eb, orb_true_r; reflexivity).
      rewrite more_digits by auto. split; [reflexivity|]. apply digits_end; auto.
Qed.
(** the end of a numeral *)
Definition ends_numeral (c : ascii) : bool := negb (digit c || Ascii.eqb c "." || Ascii.eqb c "e" || Ascii.eqb c "j").
Lemma numeral_end : forall s c r, numeral s -> ends_numeral c = true -> tokens None (s ++ String c r) = TNum s :: tokens None (String c r).
Proof.
  intros s c r H E. destruct (numeral_buffer s (String c r) H) as [-> En]. cbn [tokens]. unfold continues. rewrite En, andb_false_r.
  unfold ends_numeral in E. apply negb_true_iff in E. apply orb_false_iff in E as [E Ej]. apply orb_false_iff in E as [E Ee]. rewrite E, Ee, Ej. reflexivity.
Qed.
Lemma numeral_imag : forall s r, numeral s -> tokens None (s ++ String "j" r) = TImag s :: tokens None r.
Proof. intros s r H. destruct (numeral_buffer s (String "j" r) H) as [-> En]. cbn [tokens]. unfold continues. rewrite En, andb_false_r. reflexivity. Qed.
(** other characters *)
Definition plain (c : ascii) : bool := negb (digit c || Ascii.eqb c "." || Ascii.eqb c " ").
Lemma plain_token : forall c r, plain c = true -> tokens None (String c r) = TChar c :: tokens None r.
Proof.
  intros c r H. unfold plain in H. apply negb_true_iff, orb_false_iff in H as [H1 H2]. cbn [tokens]. rewrite H1, H2. reflexivity.
Qed.

(** ** Factors *)
Section Read.
Variables (show : C -> string) (read : string -> option R).
(** the reader, step by step *)
Lemma f_num : forall f s r, p_factor read (S f) (TNum s :: r) = option_map (fun x => (ENum (NumR x), r)) (read s). Proof. reflexivity. Qed.
Lemma f_imag : forall f s r, p_factor read (S f) (TImag s :: r) = option_map (fun x => (ENum (NumC (0%R, x)), r)) (read s). Proof. reflexivity. Qed.
Lemma f_minus : forall f r, p_factor read (S f) (TChar "-" :: r) = option_map (fun p => (ENeg (fst p), snd p)) (p_factor read f r). Proof. reflexivity. Qed.
Lemma f_paren : forall f r, p_factor read (S f) (TChar "(" :: r) = match p_sum read f r with Some (e, TChar ")" :: r') => Some (e, r') | _ => None end. Proof. reflexivity. Qed.
Lemma f_id : forall f r, p_factor read (S f) (TChar "I" :: r) = Some (EPauli PId, r). Proof. reflexivity. Qed.
Lemma f_op : forall f l n r, p_factor read (S f) (TChar (match l with LX => "X" | LY => "Y" | LZ => "Z" end) :: TChar "[" :: TNum (nat_str n) :: TChar "]" :: r) = Some (EPauli (PP (l, n)), r).
Proof. intros f l n r. pose proof (index_read n) as E. destruct l; cbn [p_factor name Ascii.eqb eqb]; rewrite E; reflexivity. Qed.
Lemma product_S : forall f ts, p_product read (S f) ts = match p_factor read f ts with Some (e, r) => p_muls read f e r | None => None end. Proof. reflexivity. Qed.
Lemma muls_star : forall f e r, p_muls read (S f) e (TChar "*" :: r) = match p_factor read f r with Some (e', r') => p_muls read f (EMul e e') r' | None => None end. Proof. reflexivity. Qed.
Lemma sum_S : forall f ts, p_sum read (S f) ts = match p_product read f ts with Some (e, r) => p_adds read f e r | None => None end. Proof. reflexivity. Qed.
Lemma adds_plus : forall f e r, p_adds read (S f) e (TChar "+" :: r) = match p_product read f r with Some (e', r') => p_adds read f (EAdd e e') r' | None => None end. Proof. reflexivity. Qed.
Lemma adds_minus : forall f e r, p_adds read (S f) e (TChar "-" :: r) = match p_product read f r with Some (e', r') => p_adds read f (ESub e e') r' | None => None end. Proof. reflexivity. Qed.
Lemma adds_paren : forall f e r, p_adds read (S f) e (TChar ")" :: r) = Some (e, TChar ")" :: r). Proof. reflexivity. Qed.
Lemma adds_end : forall f e, p_adds read (S f) e [] = Some (e, []). Proof. reflexivity. Qed.
(** the end of a product *)
Inductive after : list token -> Prop := after_end : after [] | after_plus r : after (TChar "+" :: r) | after_minus r : after (TChar "-" :: r) | after_paren r : after (TChar ")" :: r).
Lemma muls_stop : forall f e r, after r -> p_muls read (S f) e r = Some (e, r). Proof. intros f e r []; reflexivity. Qed.
(** [factor s ts e]: the text [s] has the tokens [ts], which are one factor, [e] *)
Definition factor (s : string) (ts : list token) (e : pexp) : Prop :=
  (forall c r, ends_numeral c = true -> tokens None (s ++ String c r) = (ts ++ tokens None (String c r))%list) /\
  (forall fuel r, (10 <= fuel)%nat -> p_factor read fuel (ts ++ r)%list = Some (e, r)).
Definition whole (s : string) (ts : list token) : Prop := forall r, tokens None (s ++ r) = (ts ++ tokens None r)%list.
Lemma factor_op : forall o, exists ts, factor (pop_repr o) ts (EPauli (PP o)) /\ whole (pop_repr o) ts.
Proof.
  intros [l n]. set (c := match l with LX => "X"%char | LY => "Y"%char | LZ => "Z"%char end).
  exists [TChar c; TChar "["; TNum (nat_str n); TChar "]"].
  assert (W : whole (pop_repr (l, n)) [TChar c; TChar "["; TNum (nat_str n); TChar "]"]).
  { intros r. unfold pop_repr. cbn [fst snd]. replace (letter_str l) with (String c "") by (destruct l; reflexivity). cbn [append].
    rewrite plain_token by (destruct l; reflexivity). rewrite plain_token by reflexivity. rewrite app_assoc_s. cbn [append]. rewrite numeral_end.
    - rewrite plain_token by reflexivity. reflexivity.
    - destruct (index_text n) as [N D]. exists (nat_str n), "", "". rewrite !app_nil. cbn [append]. repeat split; auto.
    - reflexivity. }
  split; [|exact W]. split; [intros; apply W|]. intros fuel r L. destruct fuel; [lia|]. apply f_op.
Qed.
Lemma factor_id : factor "I" [TChar "I"] (EPauli PId) /\ whole "I" [TChar "I"].
Proof.
  assert (W : whole "I" [TChar "I"]) by (intros r; cbn [append]; apply plain_token; reflexivity). split; [|exact W].
  split; [intros; apply W|]. intros fuel r L. destruct fuel; [lia|]. apply f_id.
Qed.
Lemma factor_num : forall s x, reads read s x -> factor s [TNum s] (ENum (NumR x)).
Proof. intros s x [N R]. split; [intros; apply numeral_end; auto|]. intros fuel r L. destruct fuel; [lia|]. cbn [app]. rewrite f_num, R. reflexivity. Qed.
Lemma factor_imag : forall s x, reads read s x -> factor (s ++ "j") [TImag s] (ENum (NumC (0%R, x))).
Proof.
  intros s x [N R]. split; [intros c r _; rewrite app_assoc_s; cbn [append]; apply numeral_imag; auto|].
  intros fuel r L. destruct fuel; [lia|]. cbn [app]. rewrite f_imag, R. reflexivity.
Qed.
Lemma factor_complex : forall g t x m u y, reads read t x -> reads read u y -> (g = "" \/ g = "-") -> (m = "+" \/ m = "-") ->
  exists ts, factor ("(" ++ g ++ t ++ m ++ u ++ "j)") ts
    ((if String.eqb m "+" then EAdd else ESub) (if String.eqb g "" then ENum (NumR x) else ENeg (ENum (NumR x))) (ENum (NumC (0%R, y)))).
Proof.
  intros g t x m u y [Nt Rt] [Nu Ru] G M.
  exists ([TChar "("] ++ (if String.eqb g "" then [] else [TChar "-"]) ++ [TNum t; if String.eqb m "+" then TChar "+" else TChar "-"; TImag u; TChar ")"])%list. split.
  - intros c r _. assert (A : tokens None (t ++ m ++ u ++ String "j" (String ")" (String c r)))
      = TNum t :: (if String.eqb m "+" then TChar "+" else TChar "-") :: TImag u :: TChar ")" :: tokens None (String c r)).
    { destruct M as [->| ->]; cbn [append]; rewrite numeral_end by auto; rewrite plain_token by reflexivity; rewrite numeral_imag by auto; rewrite plain_token by reflexivity; reflexivity. }
    change ("(" ++ g ++ t ++ m ++ u ++ "j)") with (String "(" (g ++ t ++ m ++ u ++ "j)")). cbn [append]. rewrite plain_token by reflexivity. rewrite !app_assoc_s. cbn [append].
    destruct G as [->| ->]; cbn [append String.eqb]; [|rewrite plain_token by reflexivity]; rewrite A; reflexivity.
  - intros fuel r L. do 9 (destruct fuel as [|fuel]; [lia|]).
    assert (A : forall f e q, p_adds read (S (S (S (S f)))) e ((if String.eqb m "+" then TChar "+" else TChar "-") :: TImag u :: TChar ")" :: q)
      = Some ((if String.eqb m "+" then EAdd else ESub) e (ENum (NumC (0%R, y))), TChar ")" :: q)).
    { intros f e q. destruct M as [->| ->]; cbn [String.eqb Ascii.eqb eqb]; [rewrite adds_plus|rewrite adds_minus]; rewrite product_S, f_imag, Ru; cbn [option_map];
        rewrite muls_stop by constructor; rewrite adds_paren; reflexivity. }
    assert (B : after ((if String.eqb m "+" then TChar "+" else TChar "-") :: TImag u :: TChar ")" :: r)) by (destruct M as [->| ->]; constructor).
    cbn [app]. rewrite f_paren, sum_S, product_S. destruct G as [->| ->]; cbn [String.eqb app]; [|rewrite f_minus]; rewrite f_num, Rt; cbn [option_map fst snd];
      rewrite muls_stop by exact B; rewrite A; reflexivity.
Qed.
End Read.
