(** Proofs for the OpenQASM output: the text is read back as the statements of the circuit. *)
From Coq Require Decimal.
From Coq Require Import DecimalString DecimalFacts DecimalZ String Ascii List Arith ZArith Bool Reals Lia.
Import ListNotations.
From Verif Require Import Base Cplx Bits ModelTargets ModelGate ModelNumpy ModelBackend ModelQasm SpecTargets SpecQuantum SpecCircuit SpecQasm
  ProofTargets ProofPair ProofBackend ProofSympy.
Local Open Scope string_scope.

(** ** Tokens *)
Lemma sapp_assoc : forall a b c : string, (a ++ b) ++ c = a ++ (b ++ c). Proof. induction a; intros; cbn [append]; [auto|rewrite IHa; auto]. Qed.
Lemma sapp_nil : forall a : string, a ++ "" = a. Proof. induction a; cbn [append]; [auto|rewrite IHa; auto]. Qed.
Lemma tok_word : forall s w r, all_word s = true -> tokens false w (s ++ r) = tokens false (w ++ s) r.
Proof.
  induction s as [|c s IH]; intros w r H; [cbn [append]; rewrite sapp_nil; auto|]. cbn [all_word] in H. apply andb_prop in H as [H1 H2].
  cbn [append tokens]. rewrite H1, IH by auto. rewrite sapp_assoc. reflexivity.
Qed.
Lemma tok_char : forall c w r, word_char c = true -> tokens false w (String c r) = tokens false (w ++ String c "") r.
Proof. intros. cbn [tokens]. rewrite H. auto. Qed.
Lemma tok_blank : forall c w r, word_char c = false -> blank c = true -> tokens false w (String c r) = emit w (tokens false "" r).
Proof. intros. cbn [tokens]. rewrite H, H0. auto. Qed.
Lemma tok_punct : forall c w r, word_char c = false -> blank c = false -> Ascii.eqb c "/" = false ->
  tokens false w (String c r) = emit w (Punct c :: tokens false "" r).
Proof. intros. cbn [tokens]. rewrite H, H0, H1. auto. Qed.
Lemma emit_ne : forall w l, w <> "" -> emit w l = Word w :: l.
Proof. intros. unfold emit. destruct (String.eqb_spec w ""); [contradiction|auto]. Qed.
Lemma emit_nil : forall l, emit "" l = l. Proof. auto. Qed.

Definition ends (r : string) : Prop := r = "" \/ exists r', r = newline ++ r'.
Lemma comment_skip : forall s r, ends r -> (forall c, In c (list_ascii_of_string s) -> Ascii.eqb c (ascii_of_nat 10) = false) ->
  tokens true "" (s ++ r) = tokens false "" r.
Proof.
  induction s as [|c s IH]; intros r E H.
  - destruct E as [-> | [r' ->]]; reflexivity.
  - cbn [append tokens]. rewrite (H c) by (left; auto). cbn [negb]. apply IH; auto. intros; apply H; right; auto.
Qed.

Lemma dec_word : forall z, (0 <= z)%Z -> all_word (dec z) = true.
Proof.
  assert (U : forall u, all_word (NilEmpty.string_of_uint u) = true) by (induction u; cbn [NilEmpty.string_of_uint all_word]; auto).
  intros z Hz. unfold dec. destruct z as [|p|p]; [reflexivity| |lia]. cbn [Z.to_int]. unfold NilZero.string_of_int, NilZero.string_of_uint.
  destruct (Pos.to_uint p) eqn:E; auto. all: rewrite <- E; auto.
Qed.
Lemma to_uint_nonnil : forall p, Pos.to_uint p <> Decimal.Nil.
Proof. intros p E. pose proof (DecimalPos.Unsigned.to_uint_nonzero p). pose proof (DecimalPos.Unsigned.of_to p) as X. rewrite E in X. discriminate. Qed.
Lemma dec_ne : forall z, (0 <= z)%Z -> dec z <> "".
Proof.
  intros z Hz. unfold dec. destruct z as [|p|p]; [discriminate| |lia]. cbn [Z.to_int]. unfold NilZero.string_of_int, NilZero.string_of_uint.
  pose proof (to_uint_nonnil p). destruct (Pos.to_uint p) eqn:E; try contradiction; discriminate.
Qed.
Lemma dec_read : forall n, read_nat (dec (Z.of_nat n)) = Some n.
Proof.
  intros n. unfold read_nat, dec. destruct (Z.of_nat n) as [|p|p] eqn:E; [replace n with 0 by lia; reflexivity| |lia].
  cbn [Z.to_int NilZero.string_of_int]. rewrite NilZero.usu by apply to_uint_nonnil. cbn [option_map]. f_equal.
  pose proof (DecimalZ.of_to (Z.pos p)) as X. cbn [Z.to_int Z.of_int] in X. rewrite X. rewrite <- E. apply Nat2Z.id.
Qed.

Section Lines.
Variable show : R -> string.
Variable read : string -> option R.

(** the tokens of a statement *)
Fixpoint qtoks (qs : list nat) : list token :=
  match qs with
  | [] => []
  | [q] => [Word "q"; Punct "["; Word (dec (Z.of_nat q)); Punct "]"; Punct ";"]
  | q :: r => [Word "q"; Punct "["; Word (dec (Z.of_nat q)); Punct "]"; Punct ","] ++ qtoks r
  end%list.
Fixpoint ptoks (ps : list R) : list token :=
  match ps with
  | [] => []
  | [x] => [Word (show x); Punct ")"]
  | x :: r => [Word (show x); Punct ","] ++ ptoks r
  end%list.
Definition stoks (s : stmt) : list token :=
  match s with
  | SGate name ps qs => (Word name :: (match ps with [] => [] | _ => Punct "(" :: ptoks ps end) ++ qtoks qs)%list
  | SMeasure q c => [Word "measure"; Word "q"; Punct "["; Word (dec (Z.of_nat q)); Punct "]"; Word "-"; Punct ">";
                     Word "c"; Punct "["; Word (dec (Z.of_nat c)); Punct "]"; Punct ";"]
  | SReset q => (Word "reset" :: qtoks [q])%list
  end.

(** ** Parsing *)
Definition parsable (s : stmt) : Prop :=
  match s with SGate name _ qs => String.eqb name "measure" = false /\ String.eqb name "reset" = false /\ qs <> [] | _ => True end.
Lemma index_read : forall x q r, p_index x ((Word x :: Punct "[" :: Word (dec (Z.of_nat q)) :: Punct "]" :: r)) = Some (q, r).
Proof. intros. cbn [p_index]. rewrite String.eqb_refl, dec_read. auto. Qed.
Lemma qubits_read : forall qs fuel r, qs <> [] -> (List.length qs <= fuel)%nat -> p_qubits fuel (qtoks qs ++ r) = Some (qs, r).
Proof.
  induction qs as [|q qs IH]; intros fuel r N L; [contradiction|]. destruct fuel as [|f]; [cbn in L; lia|].
  destruct qs as [|q' qs].
  - cbn [qtoks List.app p_qubits]. rewrite index_read. auto.
  - change (qtoks (q :: q' :: qs)) with ([Word "q"; Punct "["; Word (dec (Z.of_nat q)); Punct "]"; Punct ","] ++ qtoks (q' :: qs))%list.
    rewrite <- app_assoc. cbn [List.app p_qubits]. rewrite index_read. rewrite IH; [auto|discriminate|cbn in *; lia].
Qed.
Lemma qtoks_length : forall qs, (List.length qs <= List.length (qtoks qs))%nat.
Proof. induction qs as [|q [|q' qs] IH]; [cbn; lia|cbn; lia|]. cbn [qtoks List.app List.length] in *. lia. Qed.
Lemma params_read : forall ps r, ps <> [] -> Forall (legible show read) ps -> p_params read (ptoks ps ++ r) = Some (ps, r).
Proof.
  induction ps as [|x ps IH]; intros r N F; [contradiction|]. inversion F as [|? ? L F']; subst. destruct L as [_ [_ L]].
  destruct ps as [|y ps].
  - cbn [ptoks List.app p_params]. rewrite L. auto.
  - change (ptoks (x :: y :: ps)) with ([Word (show x); Punct ","] ++ ptoks (y :: ps))%list. rewrite <- app_assoc. cbn [List.app p_params].
    rewrite L, IH; [auto|discriminate|auto].
Qed.
Lemma stmt_read : forall s r, parsable s -> Forall (legible show read) (stmt_params s) -> p_stmt read (stoks s ++ r) = Some (s, r).
Proof.
  intros [name ps qs|q c|q] r P F.
  - destruct P as [P1 [P2 P3]]. cbn [stmt_params] in F. unfold stoks. cbn [List.app]. unfold p_stmt. rewrite P1, P2.
    assert (Q : forall r, p_qubits (List.length (qtoks qs ++ r)) (qtoks qs ++ r) = Some (qs, r)).
    { intros. apply qubits_read; auto. rewrite app_length. pose proof (qtoks_length qs). lia. }
    destruct ps as [|x ps].
    + cbn [List.app]. specialize (Q r). destruct qs as [|q qs]; [contradiction|]. destruct (qtoks (q :: qs)) as [|t ts] eqn:E; [destruct qs; discriminate|].
      assert (T : t = Word "q") by (destruct qs; cbn in E; injection E; auto). subst t. cbn [List.app] in *. rewrite Q. auto.
    + rewrite <- app_comm_cons, <- app_assoc, <- app_comm_cons || (cbn [List.app]; rewrite <- app_assoc). 
      rewrite params_read by (auto; discriminate). rewrite Q. auto.
  - unfold stoks. cbn [List.app]. unfold p_stmt. cbn [String.eqb Ascii.eqb Bool.eqb]. rewrite index_read. rewrite index_read. auto.
  - unfold stoks. cbn [List.app qtoks]. unfold p_stmt. cbn [String.eqb Ascii.eqb Bool.eqb]. rewrite index_read. auto.
Qed.
Lemma stoks_cons : forall s, exists w l, stoks s = (Word w :: l)%list. Proof. intros [name ps qs|q c|q]; cbn [stoks]; eauto. Qed.
Lemma stmts_read : forall l fuel, Forall parsable l -> Forall (legible show read) (flat_map stmt_params l) -> (List.length l <= fuel)%nat ->
  p_stmts read fuel (flat_map stoks l) = Some l.
Proof.
  induction l as [|s l IH]; intros fuel P F L; [destruct fuel; reflexivity|]. inversion P; subst. cbn [flat_map] in *. apply Forall_app in F as [F1 F2].
  destruct fuel as [|f]; [cbn in L; lia|]. pose proof (stmt_read s (flat_map stoks l) H1 F1) as E. destruct (stoks_cons s) as [w [ts T]].
  rewrite T in *. cbn [List.app] in *. cbn [p_stmts]. rewrite E, IH; auto. cbn in L. lia.
Qed.
Lemma stoks_length : forall l, (List.length l <= List.length (flat_map stoks l))%nat.
Proof. induction l as [|s l IH]; [auto|]. cbn [flat_map]. rewrite app_length. destruct (stoks_cons s) as [w [ts ->]]. cbn [List.length]. lia. Qed.

(** ** Lines *)
Definition raw_line (line : string) (ts : list token) : Prop := forall r, ends r -> tokens false "" (line ++ r) = (ts ++ tokens false "" r)%list.
Lemma lines_tokens : forall lines ts, Forall2 raw_line lines ts -> tokens false "" (String.concat newline lines) = List.concat ts.
Proof.
  intros lines ts F. induction F as [|a t lines ts H F IH]; [reflexivity|]. cbn [List.concat]. rewrite <- IH. clear IH.
  destruct F as [|b u lines ts H' F].
  - cbn [String.concat]. rewrite <- (sapp_nil a), H by (left; auto). auto.
  - change (String.concat newline (a :: b :: lines)) with (a ++ newline ++ String.concat newline (b :: lines)).
    rewrite H by (right; eexists; reflexivity). reflexivity.
Qed.

Definition line_stmt (line : string) (s : stmt) : Prop := Forall (legible show read) (stmt_params s) -> raw_line line (stoks s).
Definition good_name (s : string) : bool := all_word s && negb (String.eqb s "").
Lemma good_ne : forall s, good_name s = true -> all_word s = true /\ s <> "".
Proof. intros s H. apply andb_prop in H as [H1 H2]. split; auto. intros ->. discriminate. Qed.
Lemma inside_dec : forall n z, inside n z -> all_word (dec z) = true /\ dec z <> "" /\ Z.of_nat (Z.to_nat z) = z.
Proof. intros n z [H _]. split; [apply dec_word|split; [apply dec_ne|]]; auto. apply Z2Nat.id. auto. Qed.

Ltac lex1 := first
  [ rewrite tok_word by assumption
  | rewrite tok_char by reflexivity
  | rewrite tok_blank by reflexivity
  | rewrite tok_punct by reflexivity
  | rewrite emit_ne by (assumption || discriminate)
  | rewrite emit_nil ].
Ltac lex := rewrite ?sapp_assoc; cbn [append]; repeat (progress (repeat lex1; cbn [append])).
Ltac legibles := repeat match goal with
  | [ H : Forall (legible _ _) (_ :: _) |- _ ] => let A := fresh in let B := fresh in inversion H as [|? ? [A [B _]] ?]; clear H; subst
  | [ H : Forall (legible _ _) [] |- _ ] => clear H
  end.
Ltac line := 
  repeat match goal with
  | [ H : inside _ _ |- _ ] => let D1 := fresh in let D2 := fresh in let D3 := fresh in apply inside_dec in H as [D1 [D2 D3]]
  | [ H : good_name _ = true |- _ ] => let D1 := fresh in let D2 := fresh in apply good_ne in H as [D1 D2]
  end;
  let F := fresh in let r := fresh in let E := fresh in intros F r E; cbn [stmt_params] in F; legibles;
  cbn [stoks qtoks ptoks]; 
  repeat match goal with [ H : Z.of_nat (Z.to_nat _) = _ |- _ ] => rewrite H; clear H end.

Section Shapes.
Variables (n : nat).
Lemma noargs_line : forall name i, good_name name = true -> inside n i -> line_stmt (line_noargs name i) (SGate name [] [Z.to_nat i]).
Proof. intros. line. unfold line_noargs. lex. reflexivity. Qed.
Lemma reset_line : forall i, inside n i -> line_stmt (line_noargs "reset" i) (SReset (Z.to_nat i)).
Proof. intros. line. unfold line_noargs. lex. reflexivity. Qed.
Lemma measure_line : forall i, inside n i -> line_stmt (line_measure i) (SMeasure (Z.to_nat i) (Z.to_nat i)).
Proof. intros. line. unfold line_measure. lex. reflexivity. Qed.
Lemma two_line : forall name c t, good_name name = true -> inside n c -> inside n t -> line_stmt (line_two name c t) (SGate name [] [Z.to_nat c; Z.to_nat t]).
Proof. intros. line. unfold line_two. lex. reflexivity. Qed.
Lemma theta_line : forall name th i, good_name name = true -> inside n i -> line_stmt (line_theta show name th i) (SGate name [th] [Z.to_nat i]).
Proof. intros. line. unfold line_theta. lex. reflexivity. Qed.
Lemma u2_line : forall name p l i, good_name name = true -> inside n i -> line_stmt (line_u2 show name p l i) (SGate name [p; l] [Z.to_nat i]).
Proof. intros. line. unfold line_u2. lex. reflexivity. Qed.
Lemma u3_line : forall name th p l i, good_name name = true -> inside n i -> line_stmt (line_u3 show name th p l i) (SGate name [th; p; l] [Z.to_nat i]).
Proof. intros. line. unfold line_u3. lex. reflexivity. Qed.
Lemma cu1_line : forall name l c t, good_name name = true -> inside n c -> inside n t -> line_stmt (line_cu1 show name l c t) (SGate name [l] [Z.to_nat c; Z.to_nat t]).
Proof. intros. line. unfold line_cu1. lex. reflexivity. Qed.
Lemma cu2_line : forall name p l c t, good_name name = true -> inside n c -> inside n t -> line_stmt (line_cu2 show name p l c t) (SGate name [p; l] [Z.to_nat c; Z.to_nat t]).
Proof. intros. line. unfold line_cu2. lex. reflexivity. Qed.
Lemma cu3_line : forall name th p l c t, good_name name = true -> inside n c -> inside n t -> line_stmt (line_cu3 show name th p l c t) (SGate name [th; p; l] [Z.to_nat c; Z.to_nat t]).
Proof. intros. line. unfold line_cu3. lex. reflexivity. Qed.
Lemma three_line : forall name a b c, good_name name = true -> inside n a -> inside n b -> inside n c ->
  line_stmt (line_three name (TInt a) (TInt b) (TInt c)) (SGate name [] [Z.to_nat a; Z.to_nat b; Z.to_nat c]).
Proof. intros. line. unfold line_three. cbn [str_target]. lex. reflexivity. Qed.
Lemma remark : forall w r, ends r -> w <> "" -> tokens false w ("]; // Global phase is ignored." ++ r) = (Word w :: Punct "]" :: Punct ";" :: tokens false "" r)%list.
Proof.
  intros w r E W. change ("]; // Global phase is ignored." ++ r) with (String "]" (String ";" (String " " (String "/" ("/ Global phase is ignored." ++ r))))).
  rewrite tok_punct by reflexivity. rewrite emit_ne by auto. rewrite tok_punct, emit_nil by reflexivity. rewrite tok_blank, emit_nil by reflexivity.
  do 3 f_equal. rewrite <- (comment_skip "/ Global phase is ignored." r E); [reflexivity|].
  intros c I. cbn in I. repeat (destruct I as [<- |I]; [reflexivity|]). destruct I.
Qed.
Lemma phase_line : forall th i, inside n i -> line_stmt (line_phase show th i) (SGate "u1" [th] [Z.to_nat i]).
Proof. intros. line. unfold line_phase. rewrite ?sapp_assoc. set (T := "]; // Global phase is ignored." ++ _). lex. subst T. rewrite remark by auto. reflexivity. Qed.
End Shapes.

(** ** Running *)
Notation act n := (qasm_action show (Z.of_nat n)).
Lemma each_ok : forall n tg l line ctx, denotes (Z.of_nat n) tg l -> each_target tg (Z.of_nat n) line ctx = Ok (ctx ++ map line l)%list.
Proof. intros n tg l line ctx D. unfold each_target. rewrite (slicing_list n tg l D). reflexivity. Qed.
Lemma pair_ok : forall n tg ps line ctx, denotes_pairs (Z.of_nat n) tg ps ->
  each_pair tg (Z.of_nat n) line ctx = Ok (ctx ++ map (fun p => line (fst p) (snd p)) ps)%list.
Proof. intros n tg ps line ctx D. unfold each_pair. rewrite (proj2 (pairs_iff (Z.of_nat n) tg ps ltac:(lia)) D). reflexivity. Qed.
Lemma at_int : forall n z, inside n z -> denotes (Z.of_nat n) (TInt z) [z].
Proof. intros n z [H1 H2]. replace [z] with [rel (Z.of_nat n) z]; [repeat constructor|]. unfold rel. destruct (z <? 0)%Z eqn:E; [lia|auto]. Qed.
Lemma at_pair : forall n c t, inside n c -> inside n t -> c <> t -> denotes_pairs (Z.of_nat n) (pair_tg c t) [(c, t)].
Proof.
  intros n c t Hc Ht N. exists (TInt c), (TInt t), [c], [t]. split; [auto|]. split; [apply at_int; auto|]. split; [apply at_int; auto|].
  repeat split. apply Forall_cons; auto.
Qed.

(** the lines of an application *)
Definition lines_of (lines : list string) (a : app) : Prop := Forall2 line_stmt lines (block a).
Lemma lines_map : forall A (line : A -> list string) (f : A -> app) (P : A -> Prop) l, (forall a, P a -> lines_of (line a) (f a)) -> Forall P l ->
  Forall2 line_stmt (flat_map line l) (flat_map block (map f l)).
Proof. intros A line f P l H F. induction F; cbn [flat_map map]; [constructor|]. apply Forall2_app; auto. apply H; auto. Qed.
Lemma flat_single : forall A B (f : A -> B) l, map f l = flat_map (fun a => [f a]) l. Proof. induction l; cbn [map flat_map]; [auto|rewrite IHl; auto]. Qed.

Definition writes (f n : nat) (g : gate) (lines : list string) : Prop :=
  forall ctx, run_gate qasm_names (act n) f g (Z.of_nat n) ctx = Ok (ctx ++ lines)%list.
Lemma has_run : forall f n g ctx, has_action qasm_names g = true -> run_gate qasm_names (act n) f g (Z.of_nat n) ctx = act n g ctx.
Proof. intros. destruct f; cbn [run_gate]; rewrite H; auto. Qed.
Lemma writes_list : forall f n gs lss, Forall2 (writes f n) gs lss ->
  forall ctx, for_list gs (fun g => run_gate qasm_names (act n) f g (Z.of_nat n)) ctx = Ok (ctx ++ List.concat lss)%list.
Proof.
  intros f n gs lss F. induction F as [|g ls gs lss H F IH]; intros ctx; cbn [for_list List.concat]; [rewrite app_nil_r; auto|].
  rewrite H. cbn [bind]. rewrite IH, app_assoc. auto.
Qed.
Lemma writes_flat : forall A (P : A -> Prop) f n (fb : A -> list gate) (lss : A -> list (list string)) l,
  (forall a, P a -> Forall2 (writes f n) (fb a) (lss a)) -> Forall P l ->
  forall ctx, for_list (flat_map fb l) (fun g => run_gate qasm_names (act n) f g (Z.of_nat n)) ctx = Ok (ctx ++ flat_map (fun a => List.concat (lss a)) l)%list.
Proof.
  intros A P f n fb lss l H F ctx. rewrite (writes_list f n (flat_map fb l) (flat_map lss l)).
  - do 2 f_equal. clear. induction l; cbn [flat_map]; [auto|]. rewrite concat_app, IHl. auto.
  - induction F; cbn [flat_map]; [constructor|]. apply Forall2_app; auto.
Qed.
(** gates with one integer target, with a pair of integers *)
Lemma w_noargs : forall f n k t, inside n t -> In k [KX; KY; KZ; KH; KT; KS] -> writes f n (GOne k (TInt t)) [line_noargs (lowername (GOne k (TInt t))) t].
Proof.
  intros f n k t I K ctx. repeat (destruct K as [<- |K]; [rewrite has_run by reflexivity; cbn [qasm_action]; rewrite (each_ok n _ [t]) by (apply at_int; auto); reflexivity|]).
  destruct K.
Qed.
Lemma w_rot : forall f n k th t, inside n t -> In k [KRX th; KRY th; KRZ th] -> writes f n (GOne k (TInt t)) [line_theta show (lowername (GOne k (TInt t))) th t].
Proof.
  intros f n k th t I K ctx. repeat (destruct K as [<- |K]; [rewrite has_run by reflexivity; cbn [qasm_action]; rewrite (each_ok n _ [t]) by (apply at_int; auto); reflexivity|]).
  destruct K.
Qed.
Lemma w_phase : forall f n th t, inside n t -> writes f n (GOne (KPhase th) (TInt t)) [line_phase show th t].
Proof. intros f n th t I ctx. rewrite has_run by reflexivity. cbn [qasm_action]. rewrite (each_ok n _ [t]) by (apply at_int; auto). reflexivity. Qed.
Lemma w_two : forall f n k c t, inside n c -> inside n t -> c <> t -> In k [KCX; KCZ] -> writes f n (GTwo k (pair_tg c t)) [line_two (lowername (GTwo k (pair_tg c t))) c t].
Proof.
  intros f n k c t I J N K ctx. repeat (destruct K as [<- |K]; [rewrite has_run by reflexivity; cbn [qasm_action]; rewrite (pair_ok n _ [(c, t)]) by (apply at_pair; auto); reflexivity|]).
  destruct K.
Qed.
Definition rzz_lines (th : R) (c t : Z) : list string := [line_two "cx" c t; line_theta show "rz" th t; line_two "cx" c t].
Lemma w_rzz : forall f n th c t, inside n c -> inside n t -> c <> t -> writes (S f) n (GTwo (KRZZ th) (pair_tg c t)) (rzz_lines th c t).
Proof.
  intros f n th c t I J N ctx. cbn [run_gate]. change (has_action qasm_names (GTwo (KRZZ th) (pair_tg c t))) with false. cbv iota. cbn [fallback fallback2].
  rewrite (proj2 (pairs_iff (Z.of_nat n) _ [(c, t)] ltac:(lia)) (at_pair n c t I J N)). cbn [bind flat_map fst snd List.app].
  rewrite (writes_list f n _ [[line_two "cx" c t]; [line_theta show "rz" th t]; [line_two "cx" c t]]); [reflexivity|].
  apply Forall2_cons; [apply w_two; auto; cbn; auto|]. apply Forall2_cons; [apply (w_rot f n (KRZ th) th); auto; cbn; auto|]. apply Forall2_cons; [apply w_two; auto; cbn; auto|]. constructor.
Qed.

Ltac name_ok := reflexivity.
Ltac one_line := match goal with
  | |- line_stmt (line_noargs _ _) (SReset _) => eapply reset_line; eassumption
  | |- line_stmt (line_noargs _ _) _ => eapply noargs_line; [name_ok|eassumption]
  | |- line_stmt (line_two _ _ _) _ => eapply two_line; [name_ok|eassumption..]
  | |- line_stmt (line_theta _ _ _ _) _ => eapply theta_line; [name_ok|eassumption]
  | |- line_stmt (line_u2 _ _ _ _ _) _ => eapply u2_line; [name_ok|eassumption]
  | |- line_stmt (line_u3 _ _ _ _ _ _) _ => eapply u3_line; [name_ok|eassumption]
  | |- line_stmt (line_cu1 _ _ _ _ _) _ => eapply cu1_line; [name_ok|eassumption..]
  | |- line_stmt (line_cu2 _ _ _ _ _ _) _ => eapply cu2_line; [name_ok|eassumption..]
  | |- line_stmt (line_cu3 _ _ _ _ _ _ _) _ => eapply cu3_line; [name_ok|eassumption..]
  | |- line_stmt (line_three _ _ _ _) _ => eapply three_line; [name_ok|eassumption..]
  | |- line_stmt (line_phase _ _ _) _ => eapply phase_line; eassumption
  | |- line_stmt (line_measure _) _ => eapply measure_line; eassumption
  end.
Ltac block_lines := unfold lines_of; cbn [block List.concat List.app rzz_lines]; unfold rzz_lines; cbn [List.app]; repeat (apply Forall2_cons; [one_line|]); constructor.
Ltac w1 := first [apply w_noargs; [assumption|cbn; tauto] | (eapply w_rot; [assumption|cbn; tauto]) | apply w_phase; assumption
  | apply w_two; [assumption|assumption|assumption|cbn; tauto] | apply w_rzz; assumption].

Lemma run_app : forall f n g apps, gate_apps n g apps -> no_ccz g ->
  exists lines, writes (S (S f)) n g lines /\ Forall2 line_stmt lines (flat_map block apps).
Proof.
  intros f n g apps G NC. destruct G as [k tg l D F|k tg ps D F|k a b c Ia Ib Ic Nab Nac Nbc|tg l D F|tg l D F].
  - assert (DIR : forall line, (forall ctx, run_gate qasm_names (act n) (S (S f)) (GOne k tg) (Z.of_nat n) ctx = each_target tg (Z.of_nat n) line ctx) ->
      (forall i, inside n i -> line_stmt (line i) (hd (SReset 0) (block (A1 k (Z.to_nat i))))) -> (forall q, List.length (block (A1 k q)) = 1%nat) ->
      exists lines, writes (S (S f)) n (GOne k tg) lines /\ Forall2 line_stmt lines (flat_map block (map (fun t => A1 k (Z.to_nat t)) l))).
    { intros line E H L1. exists (map line l). split; [intros ctx; rewrite E; apply each_ok; auto|]. rewrite flat_single. eapply lines_map; [|exact F].
      intros a Ia. specialize (H a Ia). specialize (L1 (Z.to_nat a)). unfold lines_of. destruct (block (A1 k (Z.to_nat a))) as [|s [|]]; try discriminate L1.
      apply Forall2_cons; [exact H|constructor]. }
    assert (FB : forall th, fallback1 k = Some (fun t => [GOne (KPhase th) (TInt t)]) -> k <> KI -> has_action qasm_names (GOne k tg) = false ->
      (forall q, block (A1 k q) = [SGate "u1" [th] [q]]) ->
      exists lines, writes (S (S f)) n (GOne k tg) lines /\ Forall2 line_stmt lines (flat_map block (map (fun t => A1 k (Z.to_nat t)) l))).
    { intros th E NI HA B. exists (flat_map (fun t => [line_phase show th t]) l). split.
      - intros ctx. cbn [run_gate]. rewrite HA. replace (fallback (GOne k tg) (Z.of_nat n)) with (Ok (flat_map (fun t => [GOne (KPhase th) (TInt t)]) l) : res (list gate)).
        + cbn [bind]. apply (writes_flat Z (inside n) (S f) n _ (fun t => [[line_phase show th t]])); auto. intros a Ia. apply Forall2_cons; [w1|constructor].
        + destruct k; try contradiction; cbn [fallback]; rewrite E, (slicing_list n tg l D); reflexivity.
      - eapply lines_map; [|exact F]. intros a Ia. unfold lines_of. rewrite B. apply Forall2_cons; [one_line|constructor]. }
    destruct k; try (eapply DIR; [intros ctx; rewrite has_run by reflexivity; cbn [qasm_action]; reflexivity|intros i Ii; cbn [block hd]; one_line|reflexivity]);
      (eapply FB; [reflexivity|discriminate|reflexivity|reflexivity]).
  - assert (NE : Forall (fun p => (inside n (fst p) /\ inside n (snd p)) /\ fst p <> snd p) ps).
    { destruct D as [? [? [? [? [_ [_ [_ [_ [_ D]]]]]]]]]. clear - F D. induction F; [constructor|]. inversion D; subst. apply Forall_cons; auto. }
    assert (DIR : forall line, (forall ctx, run_gate qasm_names (act n) (S (S f)) (GTwo k tg) (Z.of_nat n) ctx = each_pair tg (Z.of_nat n) line ctx) ->
      (forall c t, inside n c -> inside n t -> line_stmt (line c t) (hd (SReset 0) (block (A2 k (Z.to_nat c) (Z.to_nat t))))) -> (forall c t, List.length (block (A2 k c t)) = 1%nat) ->
      exists lines, writes (S (S f)) n (GTwo k tg) lines /\ Forall2 line_stmt lines (flat_map block (map (fun p => A2 k (Z.to_nat (fst p)) (Z.to_nat (snd p))) ps))).
    { intros line E H L1. exists (map (fun p => line (fst p) (snd p)) ps). split; [intros ctx; rewrite E; apply pair_ok; auto|]. rewrite flat_single. eapply lines_map; [|exact NE].
      intros [c t] [[Ic It] _]. cbn [fst snd] in *. specialize (H c t Ic It). specialize (L1 (Z.to_nat c) (Z.to_nat t)). unfold lines_of.
      destruct (block (A2 k (Z.to_nat c) (Z.to_nat t))) as [|s [|]]; try discriminate L1. apply Forall2_cons; [exact H|constructor]. }
    assert (FB : forall fb lss, fallback2 k = Some fb -> has_action qasm_names (GTwo k tg) = false ->
      (forall c t, inside n c -> inside n t -> c <> t -> Forall2 (writes (S f) n) (fb c t) (lss c t) /\ lines_of (List.concat (lss c t)) (A2 k (Z.to_nat c) (Z.to_nat t))) ->
      exists lines, writes (S (S f)) n (GTwo k tg) lines /\ Forall2 line_stmt lines (flat_map block (map (fun p => A2 k (Z.to_nat (fst p)) (Z.to_nat (snd p))) ps))).
    { intros fb lss E HA B. exists (flat_map (fun p => List.concat (lss (fst p) (snd p))) ps). split.
      - intros ctx. cbn [run_gate]. rewrite HA. cbn [fallback]. rewrite E, (proj2 (pairs_iff (Z.of_nat n) tg ps ltac:(lia)) D). cbn [bind].
        apply (writes_flat (Z * Z) (fun p => (inside n (fst p) /\ inside n (snd p)) /\ fst p <> snd p) (S f) n _ (fun p => lss (fst p) (snd p))); auto.
        intros [c t] [[Ic It] N]. apply B; auto.
      - eapply lines_map; [|exact NE]. intros [c t] [[Ic It] N]. apply B; auto. }
    destruct k;
      try (eapply DIR; [intros ctx; rewrite has_run by reflexivity; cbn [qasm_action]; reflexivity|intros i j Ii Ij; cbn [block hd]; one_line|reflexivity]).
    + eapply (FB _ (fun c t => [[line_theta show "rx" (theta / 2) t]; [line_two "cz" c t]; [line_theta show "rx" (- theta / 2) t]; [line_two "cz" c t]])); [reflexivity|reflexivity|].
      intros c t Ic It N. split; [repeat (apply Forall2_cons; [w1|]); constructor|]. block_lines.
    + eapply (FB _ (fun c t => [[line_theta show "ry" (theta / 2) t]; [line_two "cx" c t]; [line_theta show "ry" (- theta / 2) t]; [line_two "cx" c t]])); [reflexivity|reflexivity|].
      intros c t Ic It N. split; [repeat (apply Forall2_cons; [w1|]); constructor|]. block_lines.
    + eapply (FB _ (fun c t => [[line_theta show "rz" (theta / 2) t]; [line_two "cx" c t]; [line_theta show "rz" (- theta / 2) t]; [line_two "cx" c t]])); [reflexivity|reflexivity|].
      intros c t Ic It N. split; [repeat (apply Forall2_cons; [w1|]); constructor|]. block_lines.
    + eapply (FB _ (fun c t => [[line_noargs "h" c]; [line_noargs "h" t]; rzz_lines theta c t; [line_noargs "h" c]; [line_noargs "h" t]])); [reflexivity|reflexivity|].
      intros c t Ic It N. split; [repeat (apply Forall2_cons; [w1|]); constructor|]. block_lines.
    + eapply (FB _ (fun c t => [[line_theta show "rx" (- PI * (1/2)) c]; [line_theta show "rx" (- PI * (1/2)) t]; rzz_lines theta c t;
        [line_theta show "rx" (PI * (1/2)) c]; [line_theta show "rx" (PI * (1/2)) t]])); [reflexivity|reflexivity|].
      intros c t Ic It N. split; [repeat (apply Forall2_cons; [w1|]); constructor|]. block_lines.
    + eapply (FB _ (fun c t => [[line_two "cx" c t]; [line_theta show "rz" theta t]; [line_two "cx" c t]])); [reflexivity|reflexivity|].
      intros c t Ic It N. split; [repeat (apply Forall2_cons; [w1|]); constructor|]. block_lines.
  - destruct k; try contradiction.
    + exists [line_three "ccx" (TInt a) (TInt b) (TInt c)]. split; [intros ctx; reflexivity|]. cbn [flat_map List.app]. block_lines.
    + exists [line_three "cswap" (TInt a) (TInt b) (TInt c)]. split; [intros ctx; reflexivity|]. cbn [flat_map List.app]. block_lines.
  - exists (map line_measure l). split.
    + intros ctx. rewrite has_run by reflexivity. cbn [qasm_action]. apply each_ok; auto.
    + rewrite flat_single. eapply lines_map; [|exact F]. intros i Ii. block_lines.
  - exists (map (line_noargs "reset") l). split.
    + intros ctx. rewrite has_run by reflexivity. cbn [qasm_action lowername]. apply each_ok; auto.
    + rewrite flat_single. eapply lines_map; [|exact F]. intros i Ii. block_lines.
Qed.
Lemma run_apps : forall n gs apps, circuit_apps n gs apps -> Forall no_ccz gs ->
  exists lines, (forall ctx, run_gates qasm_names (act n) recursion_limit gs (Z.of_nat n) ctx = Ok (ctx ++ lines)%list) /\ Forall2 line_stmt lines (flat_map block apps).
Proof.
  intros n gs apps C. unfold run_gates. induction C as [|g gs a l G C IH]; intros NC.
  - exists []. split; [intros; rewrite app_nil_r; reflexivity|constructor].
  - inversion NC as [|? ? N1 N2]; subst. destruct (IH N2) as [ls [E F]]. 
    assert (R : exists f, recursion_limit = S (S f)) by (unfold recursion_limit; eexists; reflexivity). destruct R as [f R].
    destruct (run_app f n g a G N1) as [l1 [E1 F1]]. unfold writes in E1. rewrite <- R in E1. exists (l1 ++ ls)%list. split.
    + intros ctx. cbn [for_list]. rewrite E1. cbn [bind]. rewrite E, app_assoc. auto.
    + rewrite flat_map_app. apply Forall2_app; auto.
Qed.
Lemma block_parsable : forall a, Forall parsable (block a).
Proof. intros [k q|k c t|k x y z|q|q]; try destruct k; cbn [block]; repeat (apply Forall_cons; [cbn; repeat split; discriminate|]); constructor. Qed.

(** ** The whole text *)
Lemma prologue_lines : forall n, Forall2 raw_line (qasm_prologue (Z.of_nat n) true)
  [[Word "OPENQASM"; Word "2.0"; Punct ";"]; [Word "include"; Punct """"; Word "qelib1.inc"; Punct """"; Punct ";"];
   [Word "qreg"; Word "q"; Punct "["; Word (dec (Z.of_nat n)); Punct "]"; Punct ";"]; [Word "creg"; Word "c"; Punct "["; Word (dec (Z.of_nat n)); Punct "]"; Punct ";"]].
Proof.
  intros n. assert (A : all_word (dec (Z.of_nat n)) = true) by (apply dec_word; lia). assert (B : dec (Z.of_nat n) <> "") by (apply dec_ne; lia).
  unfold qasm_prologue. repeat (apply Forall2_cons; [intros r E; lex; reflexivity|]). constructor.
Qed.
Lemma stmt_lines : forall lines l, Forall2 line_stmt lines l -> Forall (legible show read) (flat_map stmt_params l) -> Forall2 raw_line lines (map stoks l).
Proof.
  intros lines l F. induction F as [|a s lines l H F IH]; intros L; cbn [map flat_map] in *; [constructor|]. apply Forall_app in L as [L1 L2].
  apply Forall2_cons; auto.
Qed.
Lemma flat_parsable : forall apps, Forall parsable (flat_map block apps).
Proof. induction apps; cbn [flat_map]; [constructor|]. apply Forall_app. split; auto. apply block_parsable. Qed.
Lemma register_read : forall kw x n r, p_register kw x ((Word kw :: Word x :: Punct "[" :: Word (dec (Z.of_nat n)) :: Punct "]" :: Punct ";" :: r)) = Some (n, r).
Proof. intros. unfold p_register. rewrite String.eqb_refl, index_read. auto. Qed.
Lemma text_ok : forall n gs apps, circuit_apps n gs apps -> Forall is_method gs -> Forall (legible show read) (flat_map stmt_params (flat_map block apps)) ->
  (exists text, qasm_run show gs n true = Ok text /\ read_program read text = Some (Prog n n (flat_map block apps))) /\
  (exists text, qasm_run show gs n false = Ok text /\ read_body read text = Some (flat_map block apps)).
Proof.
  intros n gs apps C M L. destruct (run_apps n gs apps C) as [lines [E F]]; [eapply Forall_impl; [|exact M]; intros g; apply method_no_ccz|].
  pose proof (stmt_lines lines _ F L) as RL. unfold qasm_run. rewrite !E. cbn [bind]. split; eexists; (split; [reflexivity|]).
  - unfold read_program. rewrite (lines_tokens _ _ (Forall2_app (prologue_lines n) RL)). cbn [List.concat List.app].
    rewrite register_read, register_read.
    rewrite <- flat_map_concat_map, stmts_read; auto; [apply flat_parsable|apply stoks_length].
  - unfold read_body. cbn [qasm_prologue List.app]. rewrite (lines_tokens _ _ RL), <- flat_map_concat_map. apply stmts_read; auto; [apply flat_parsable|apply stoks_length].
Qed.
End Lines.
