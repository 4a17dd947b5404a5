(** Proofs for the text of circuits. *)
From Coq Require Decimal.
From Coq Require Import DecimalString DecimalFacts DecimalZ String Ascii List Arith ZArith Bool Reals Lia Lra.
Import ListNotations.
From Verif Require Import Base Cplx ModelTargets ModelGate ModelBackend ModelNumpy ModelNumba ModelCircuit ModelOps ModelQasm ModelRepr
  SpecTargets SpecAPI SpecOps SpecQasm SpecRepr ProofTargets ProofBackend ProofQasm ProofAPI ProofProgram ProofReach ProofCircuit ProofCircuitEx ProofQasmProps.
Local Open Scope string_scope.

Ltac flatten := repeat first [rewrite sapp_assoc | progress cbn [append]].

(** ** Integers *)
Lemma uint_chars : forall u, number_chars (NilEmpty.string_of_uint u) = true.
Proof. induction u; cbn [NilEmpty.string_of_uint number_chars]; auto. Qed.
Lemma uint_word : forall u, number_word (NilZero.string_of_uint u) = true.
Proof.
  intros u. unfold NilZero.string_of_uint. pose proof (uint_chars u) as H.
  destruct u; [reflexivity|..]; cbn [NilEmpty.string_of_uint number_chars] in H; apply andb_prop in H as [_ H]; cbn [NilEmpty.string_of_uint number_word]; rewrite H; reflexivity.
Qed.
Lemma word_chars : forall s, number_word s = true -> number_chars s = true.
Proof.
  intros [|c s]; [discriminate|]. cbn [number_word number_chars]. intros H. apply andb_prop in H as [H1 H2]. rewrite H2.
  apply orb_prop in H1 as [-> | ->]; rewrite ?orb_true_r; reflexivity.
Qed.
Lemma dec_number : forall z, number_word (dec z) = true.
Proof.
  intros z. unfold dec. destruct z as [|p|p]; [reflexivity| |]; cbn [Z.to_int NilZero.string_of_int]; [apply uint_word|].
  cbn [number_word]. rewrite word_chars by apply uint_word. reflexivity.
Qed.
Lemma nzhead_0 : forall u v, Decimal.nzhead u <> Decimal.D0 v.
Proof. induction u; intros v; cbn [Decimal.nzhead]; try discriminate; auto. Qed.
Lemma unorm_0 : forall u v, Decimal.unorm u = Decimal.D0 v -> v = Decimal.Nil.
Proof.
  intros u v H. unfold Decimal.unorm in H. destruct (Decimal.nzhead u) eqn:E; try discriminate.
  - injection H as <-. reflexivity.
  - exfalso. apply (nzhead_0 _ _ E).
Qed.
Lemma pos_unorm : forall p, Decimal.unorm (Pos.to_uint p) = Pos.to_uint p.
Proof.
  intros p. pose proof (DecimalZ.to_of (Decimal.Pos (Pos.to_uint p))) as H. cbn [Decimal.norm] in H.
  pose proof (DecimalZ.of_to (Z.pos p)) as X. cbn [Z.to_int] in X. rewrite X in H. cbn [Z.to_int] in H. injection H as H. auto.
Qed.
Lemma pos_lead : forall p, match Pos.to_uint p with Decimal.Nil | Decimal.D0 _ => False | _ => True end.
Proof.
  intros p. pose proof (to_uint_nonnil p). pose proof (DecimalPos.Unsigned.to_uint_nonzero p). pose proof (pos_unorm p).
  destruct (Pos.to_uint p) eqn:E; try tauto. apply unorm_0 in H1. subst. apply H0. reflexivity.
Qed.
Lemma lead_digit : forall u, match u with Decimal.Nil | Decimal.D0 _ => False | _ => True end ->
  exists c s, NilZero.string_of_uint u = String c s /\ Ascii.eqb "0" c = false /\ Ascii.eqb "-" c = false.
Proof. intros []; intros H; try tauto; eexists; eexists; (split; [reflexivity|split; reflexivity]). Qed.
Lemma prefix_cons : forall a b s t, prefix (String a s) (String b t) = Ascii.eqb a b && prefix s t.
Proof. intros. cbn [prefix]. destruct (ascii_dec a b) as [<-|N]; [rewrite Ascii.eqb_refl; auto|]. destruct (Ascii.eqb_spec a b); [contradiction|auto]. Qed.
Lemma dec_lead : forall z, leading_zero (dec z) = false.
Proof.
  intros z. unfold dec, leading_zero. destruct z as [|p|p]; [reflexivity| |]; cbn [Z.to_int NilZero.string_of_int];
    destruct (lead_digit _ (pos_lead p)) as (c & s & -> & H0 & H1); rewrite !prefix_cons; rewrite ?H0, ?H1; reflexivity.
Qed.
Lemma dec_int : forall z, read_int (dec z) = Some z.
Proof.
  intros z. unfold read_int. rewrite dec_lead. unfold dec. rewrite NilZero.isi.
  - cbn [option_map]. rewrite DecimalZ.of_to. reflexivity.
  - destruct z; cbn [Z.to_int]; [discriminate|..]; intros E; try discriminate; injection E as E; apply (to_uint_nonnil _ E).
  - destruct z; cbn [Z.to_int]; [discriminate|..]; intros E; try discriminate; injection E as E; apply (to_uint_nonnil _ E).
Qed.

(** ** Words *)
Definition delimiter (c : ascii) : Prop := In c ["("; ")"; "["; "]"; ","; ":"]%char.
Lemma delim_stops : forall c w, delimiter c -> continues w c = false.
Proof.
  intros c w H. unfold delimiter in H. cbn [In] in H. decompose [or] H; subst; try contradiction; destruct w as [|a w]; try reflexivity;
    cbn [continues]; destruct (letter a); reflexivity.
Qed.
Lemma lex_delim : forall c w r, delimiter c -> py_tokens w (String c r) = emit w (Punct c :: py_tokens "" r).
Proof.
  intros c w r H. cbn [py_tokens]. rewrite delim_stops by auto.
  unfold delimiter in H. cbn [In] in H. decompose [or] H; subst; try contradiction; reflexivity.
Qed.
Lemma lex_dot : forall r, py_tokens "" (String "." r) = Punct "." :: py_tokens "" r. Proof. reflexivity. Qed.
Lemma lex_blank : forall r, py_tokens "" (String " " r) = py_tokens "" r. Proof. reflexivity. Qed.
Fixpoint name_chars (s : string) : bool := match s with "" => true | String c r => (letter c || digit c) && name_chars r end.
Definition name_word (s : string) : bool := match s with "" => false | String c r => letter c && name_chars r end.
Lemma lex_more : forall s a w r, (letter a = true -> name_chars s = true) -> number_chars s = true ->
  py_tokens (String a w) (s ++ r) = py_tokens (String a w ++ s) r.
Proof.
  induction s as [|c s IH]; intros a w r N C; [rewrite sapp_nil; reflexivity|].
  cbn [number_chars] in C. apply andb_prop in C as [C1 C2].
  assert (E : continues (String a w) c = true).
  { cbn [continues]. destruct (letter a); cbn [negb andb].
    - specialize (N eq_refl). cbn [name_chars] in N. apply andb_prop in N as [N _]. rewrite N. reflexivity.
    - rewrite !orb_assoc. exact C1. }
  cbn [append]. change (py_tokens (String a w) (String c (s ++ r))) with
    (if continues (String a w) c then py_tokens (String a w ++ String c "") (s ++ r)
     else emit (String a w) (if blank c then py_tokens "" (s ++ r) else Punct c :: py_tokens "" (s ++ r))).
  rewrite E. change (String a w ++ String c "") with (String a (w ++ String c "")). rewrite IH; auto.
  - change (String a (w ++ String c "") ++ s) with (String a ((w ++ String c "") ++ s)). rewrite sapp_assoc. reflexivity.
  - intros L. specialize (N L). cbn [name_chars] in N. apply andb_prop in N as [_ N]. auto.
Qed.
Lemma name_number : forall s, name_chars s = true -> number_chars s = true.
Proof. induction s as [|c s IH]; [auto|]. cbn [name_chars number_chars]. intros H. apply andb_prop in H as [H1 H2]. rewrite H1, IH; auto. Qed.
Definition wordy (s : string) : bool := name_word s || number_word s.
Lemma lex_word : forall s r, wordy s = true -> py_tokens "" (s ++ r) = py_tokens s r.
Proof.
  intros [|a s] r H; [discriminate|]. unfold wordy in H. cbn [name_word number_word] in H.
  assert (L : letter a = true -> digit a || Ascii.eqb a "-" = false).
  { destruct a as [[] [] [] [] [] [] [] []]; cbn; intros E; try discriminate; reflexivity. }
  cbn [append py_tokens]. assert (E : continues "" a = true).
  { cbn [continues]. unfold starts. destruct (letter a); [reflexivity|]. cbn [andb orb] in H. apply andb_prop in H as [H _]. exact H. }
  rewrite E. cbn [append]. apply (lex_more s a "" r).
  - intros La. rewrite (L La), La in H. cbn [andb] in H. rewrite orb_false_r in H. exact H.
  - apply orb_prop in H as [H|H]; apply andb_prop in H as [_ H]; auto using name_number.
Qed.
Lemma wordy_ne : forall s, wordy s = true -> s <> "". Proof. intros s H ->. discriminate. Qed.
Lemma lex_wd : forall s c r, wordy s = true -> delimiter c -> py_tokens "" (s ++ String c r) = Word s :: Punct c :: py_tokens "" r.
Proof. intros s c r H D. rewrite lex_word, lex_delim, emit_ne by auto using wordy_ne. reflexivity. Qed.
Lemma dec_wordy : forall z, wordy (dec z) = true. Proof. intros. unfold wordy. rewrite dec_number. apply orb_true_r. Qed.
Lemma lower_wordy : forall g, wordy (lowername g) = true. Proof. intros [k tg|k tg|k tg|tg|tg]; [destruct k|destruct k|destruct k|..]; reflexivity. Qed.

(** ** Subscripts *)
Definition btoks (o : option Z) : list token := match o with None => [] | Some z => [Word (dec z)] end.
Definition itoks (t : target) : list token :=
  match t with
  | TInt z => [Word (dec z)]
  | TSlice a b None => btoks a ++ [Punct ":"] ++ btoks b
  | TSlice a b (Some c) => btoks a ++ [Punct ":"] ++ btoks b ++ [Punct ":"; Word (dec c)]
  | _ => []
  end%list.
Ltac delim := unfold delimiter; cbn [In]; tauto.
Lemma lex_bound : forall o c r, delimiter c -> py_tokens "" (bound_str o ++ String c r) = (btoks o ++ Punct c :: py_tokens "" r)%list.
Proof.
  intros [z|] c r D; cbn [bound_str btoks List.app].
  - apply lex_wd; auto using dec_wordy.
  - change ("" ++ String c r) with (String c r). rewrite lex_delim by auto. reflexivity.
Qed.
Lemma lex_item : forall t s c r, slice_to_str t = Ok s -> delimiter c -> py_tokens "" (s ++ String c r) = (itoks t ++ Punct c :: py_tokens "" r)%list.
Proof.
  intros [z|a b [st|]|l|] s c r E D; cbn [slice_to_str] in E; try discriminate; injection E as <-; cbn [itoks].
  - apply lex_wd; auto using dec_wordy.
  - flatten.
    rewrite lex_bound by delim. rewrite lex_bound by delim. rewrite lex_wd by (auto using dec_wordy). rewrite <- !app_assoc. reflexivity.
  - flatten.
    rewrite lex_bound by delim. rewrite lex_bound by auto. rewrite <- !app_assoc. reflexivity.
Qed.
(** the tokens of the items and the closing bracket *)
Fixpoint ltoks (l : list target) : list token :=
  match l with
  | [] => [Punct "]"]
  | [t] => itoks t ++ [Punct "]"]
  | t :: r => itoks t ++ Punct "," :: ltoks r
  end%list.
Lemma lex_items : forall l ss r, map_res slice_to_str l = Ok ss -> py_tokens "" (String.concat ", " ss ++ String "]" r) = (ltoks l ++ py_tokens "" r)%list.
Proof.
  induction l as [|t l IH]; intros ss r E; cbn [map_res] in E; [injection E as <-; reflexivity|].
  destruct (slice_to_str t) as [s|] eqn:Es; cbn [bind] in E; [|discriminate].
  destruct (map_res slice_to_str l) as [ss'|] eqn:El; cbn [bind] in E; [|discriminate]. injection E as <-.
  destruct l as [|t' l].
  - injection El as <-. cbn [String.concat ltoks]. rewrite (lex_item _ _ _ _ Es) by delim. rewrite <- app_assoc. reflexivity.
  - destruct ss' as [|s' ss']; [cbn [map_res] in El; destruct (slice_to_str t'); cbn [bind] in El; try discriminate; destruct (map_res slice_to_str l); discriminate|].
    change (String.concat ", " (s :: s' :: ss')) with (s ++ ", " ++ String.concat ", " (s' :: ss')). rewrite !sapp_assoc.
    change (", " ++ String.concat ", " (s' :: ss') ++ String "]" r) with (String "," (String " " (String.concat ", " (s' :: ss') ++ String "]" r))).
    rewrite (lex_item _ _ _ _ Es) by delim. rewrite lex_blank. rewrite (IH _ r eq_refl).
    change (ltoks (t :: t' :: l)) with (itoks t ++ Punct "," :: ltoks (t' :: l))%list. rewrite <- app_assoc. reflexivity.
Qed.
Definition ttoks (t : target) : list token := (Punct "[" :: match t with TTuple l => ltoks l | _ => itoks t ++ [Punct "]"] end)%list.
Lemma lex_targets : forall t s r, str_targets t = Ok s -> py_tokens "" (s ++ r) = (ttoks t ++ py_tokens "" r)%list.
Proof.
  intros t s r E.
  destruct t as [z|a b st|l|]; cbn [str_targets] in E; try discriminate.
  - cbn [slice_to_str bind] in E. injection E as <-. flatten. rewrite lex_delim by delim. rewrite (lex_item (TInt z) (dec z)) by (auto; delim).
    unfold ttoks. rewrite emit_nil. cbn [List.app]. rewrite <- app_assoc. reflexivity.
  - destruct (slice_to_str (TSlice a b st)) as [s'|] eqn:Es; cbn [bind] in E; [|discriminate]. injection E as <-. flatten. rewrite lex_delim by delim.
    rewrite (lex_item _ _ _ _ Es) by delim. unfold ttoks. rewrite emit_nil. cbn [List.app]. rewrite <- app_assoc. reflexivity.
  - destruct (map_res slice_to_str l) as [ss|] eqn:Es; cbn [bind] in E; [|discriminate]. injection E as <-. flatten. rewrite lex_delim by delim.
    rewrite (lex_items _ _ _ Es). reflexivity.
Qed.

Definition closes (ts : list token) : Prop := exists r, ts = Punct "," :: r \/ ts = Punct "]" :: r.
Lemma item_read : forall t r, flat1 t -> closes r -> p_item (itoks t ++ r) = Some (t, r).
Proof.
  intros [z|a b [c|]|l|] r F [r' C]; cbn [flat1] in F; try contradiction.
  - cbn [itoks List.app p_item]. rewrite dec_int. destruct C as [-> | ->]; reflexivity.
  - destruct a as [a|], b as [b|]; cbn [itoks btoks List.app p_item]; rewrite ?dec_int; cbn [p_slice]; rewrite ?dec_int; destruct C as [-> | ->]; reflexivity.
  - destruct a as [a|], b as [b|]; cbn [itoks btoks List.app p_item]; rewrite ?dec_int; cbn [p_slice]; rewrite ?dec_int; destruct C as [-> | ->];
      rewrite ?dec_int; reflexivity.
Qed.
Lemma itoks_open : forall t r, flat1 t -> match itoks t ++ r with Punct "]" :: _ => False | [] => False | _ => True end%list.
Proof. intros [z|[a|] b [c|]|l|] r F; cbn [flat1] in F; try contradiction; cbn; auto. Qed.
Lemma ltoks_cons : forall t t' l, ltoks (t :: t' :: l) = (itoks t ++ Punct "," :: ltoks (t' :: l))%list. Proof. reflexivity. Qed.
Lemma ltoks_open : forall l r, l <> [] -> Forall flat1 l -> match ltoks l ++ r with Punct "]" :: _ => False | [] => False | _ => True end%list.
Proof.
  intros [|t [|t' l]] r N F; [contradiction|..]; inversion F; subst; [cbn [ltoks]|rewrite ltoks_cons]; rewrite <- app_assoc; apply itoks_open; auto.
Qed.
Lemma items_read : forall l fuel r, l <> [] -> Forall flat1 l -> (List.length l <= fuel)%nat -> p_items fuel (ltoks l ++ r) = Some (l, false, r).
Proof.
  induction l as [|t l IH]; intros fuel r N F L; [contradiction|]. destruct fuel as [|f]; [cbn in L; lia|]. inversion F as [|? ? F1 F2]; subst.
  cbn [p_items]. destruct l as [|t' l].
  - cbn [ltoks]. rewrite <- app_assoc. rewrite item_read by (auto; eexists; cbn [List.app]; eauto). reflexivity.
  - rewrite ltoks_cons. rewrite <- app_assoc. rewrite item_read by (auto; eexists; cbn [List.app]; eauto). cbn [List.app].
    pose proof (ltoks_open (t' :: l) r ltac:(discriminate) F2) as O. specialize (IH f r ltac:(discriminate) F2 ltac:(cbn in *; lia)).
    rewrite IH. destruct (ltoks (t' :: l) ++ r)%list as [|[w|a] q]; try contradiction; [reflexivity|].
    destruct a as [[] [] [] [] [] [] [] []]; try contradiction; reflexivity.
Qed.
Lemma itoks_length : forall t, flat1 t -> (1 <= List.length (itoks t))%nat.
Proof. intros [z|[a|] b [c|]|l|] F; cbn [flat1] in F; try contradiction; cbn; lia. Qed.
Lemma ltoks_length : forall l, Forall flat1 l -> (List.length l <= List.length (ltoks l))%nat.
Proof.
  induction l as [|t l IH]; intros F; [cbn; lia|]. inversion F as [|? ? F1 F2]; subst. specialize (IH F2). pose proof (itoks_length t F1).
  destruct l as [|t' l]; [cbn [ltoks]; rewrite app_length; cbn in *; lia|]. rewrite ltoks_cons, app_length. cbn [List.length] in *. lia.
Qed.
Lemma subscript_read : forall t r, writable t -> p_subscript (ttoks t ++ r) = Some (unwrap t, r).
Proof.
  intros t r [F N]. unfold ttoks. cbn [List.app p_subscript].
  destruct t as [z|a b st|l|].
  - change (itoks (TInt z) ++ [Punct "]"])%list with (ltoks [TInt z]). rewrite items_read; [reflexivity|discriminate|repeat constructor|cbn; lia].
  - change (itoks (TSlice a b st) ++ [Punct "]"])%list with (ltoks [TSlice a b st]).
    rewrite items_read; [reflexivity|discriminate|repeat constructor|rewrite app_length; pose proof (ltoks_length [TSlice a b st] ltac:(repeat constructor)); cbn [List.length] in *; lia].
  - cbn [flat] in F. rewrite items_read; auto; [|intros ->; auto|rewrite app_length; pose proof (ltoks_length l F); lia].
    destruct l as [|t [|t' l]]; [contradiction|reflexivity|reflexivity].
  - destruct F.
Qed.
Lemma subscript_empty : forall r, p_subscript (ttoks (TTuple []) ++ r) = None. Proof. reflexivity. Qed.

(** ** Calls *)
Section Show.
Variable show : R -> string.
Variable read : string -> option R.
Notation "'good' ps" := (Forall (printable show read) ps) (at level 10, ps at level 9).
Definition atoks (ps : list R) : list token := match ps with [] => [] | _ => Punct "(" :: ptoks show ps end.
Lemma lex_params : forall ps r, ps <> [] -> good ps -> py_tokens "" (String.concat ", " (map show ps) ++ String ")" r) = (ptoks show ps ++ py_tokens "" r)%list.
Proof.
  induction ps as [|x ps IH]; intros r N F; [contradiction|]. inversion F as [|? ? [W _] F']; subst.
  assert (Wx : wordy (show x) = true) by (unfold wordy; rewrite W; apply orb_true_r).
  destruct ps as [|y ps].
  - cbn [map String.concat ptoks List.app]. apply lex_wd; [auto|delim].
  - change (String.concat ", " (map show (x :: y :: ps))) with (show x ++ ", " ++ String.concat ", " (map show (y :: ps))). rewrite !sapp_assoc.
    change (", " ++ String.concat ", " (map show (y :: ps)) ++ String ")" r) with (String "," (String " " (String.concat ", " (map show (y :: ps)) ++ String ")" r))).
    rewrite lex_wd by (auto; delim). rewrite lex_blank. rewrite IH; [reflexivity|discriminate|auto].
Qed.
Lemma lex_call : forall g s r, good (params g) -> gate_str show g = Ok s ->
  py_tokens "" (String "." (s ++ r)) = (Punct "." :: Word (lowername g) :: atoks (params g) ++ ttoks (targets g) ++ py_tokens "" r)%list.
Proof.
  intros g s r F E. unfold gate_str in E. destruct (str_targets (targets g)) as [tg|] eqn:Et; cbn [bind] in E; [|discriminate]. injection E as <-.
  rewrite lex_dot. f_equal. rewrite !sapp_assoc.
  assert (T : exists u, tg = String "[" u).
  { destruct (targets g); cbn [str_targets slice_to_str bind] in Et; try discriminate; try (injection Et as <-; cbn [append]; eauto).
    - destruct step; cbn [bind] in Et; injection Et as <-; cbn [append]; eauto.
    - destruct (map_res slice_to_str l); cbn [bind] in Et; [injection Et as <-; cbn [append]; eauto|discriminate]. }
  destruct (params g) as [|x ps] eqn:Ep.
  - cbn [str_args atoks]. cbn [append List.app]. destruct T as [u Tu]. rewrite <- (lex_targets _ _ r Et). subst tg. cbn [append].
    rewrite lex_wd by (auto using lower_wordy; delim). rewrite lex_delim by delim. reflexivity.
  - unfold str_args, atoks. rewrite !sapp_assoc.
    flatten.
    rewrite lex_wd by (auto using lower_wordy; delim). rewrite lex_params by (auto; discriminate). rewrite (lex_targets _ _ r Et). reflexivity.
Qed.
Lemma args_read : forall ps r, ps <> [] -> good ps -> p_params read (ptoks show ps ++ r) = Some (ps, r).
Proof.
  induction ps as [|x ps IH]; intros r N F; [contradiction|]. inversion F as [|? ? L F']; subst. destruct L as [_ L].
  destruct ps as [|y ps].
  - cbn [ptoks List.app p_params]. rewrite L. auto.
  - change (ptoks show (x :: y :: ps)) with ([Word (show x); Punct ","] ++ ptoks show (y :: ps))%list. rewrite <- app_assoc. cbn [List.app p_params].
    rewrite L, IH; [auto|discriminate|auto].
Qed.
Definition call_read (g : gate) : string * list R * target := (lowername g, params g, unwrap (targets g)).
Definition ctoks (g : gate) : list token := (Punct "." :: Word (lowername g) :: atoks (params g) ++ ttoks (targets g))%list.
(** the outcome for a gate whose subscript may be unreadable *)
Lemma call_any : forall g r, good (params g) ->
  p_call read (ctoks g ++ r) = match p_subscript (ttoks (targets g) ++ r) with Some (t, r) => Some (lowername g, params g, t, r) | None => None end.
Proof.
  intros g r F. unfold ctoks. cbn [List.app]. rewrite <- app_assoc. unfold atoks. destruct (params g) as [|x ps] eqn:Ep.
  - cbn [List.app p_call]. unfold ttoks. cbn [List.app]. reflexivity.
  - cbn [List.app]. assert (P : exists w q, (ptoks show (x :: ps) ++ ttoks (targets g) ++ r = Word w :: q)%list).
    { destruct ps; cbn [ptoks List.app]; eauto. }
    destruct P as (w & q & P). pose proof (args_read (x :: ps) (ttoks (targets g) ++ r) ltac:(discriminate) F) as A. rewrite P in *.
    cbn [p_call]. rewrite A. reflexivity.
Qed.
Lemma calls_read : forall gs fuel, Forall (fun g => writable (targets g)) gs -> good (flat_map params gs) -> (List.length gs <= fuel)%nat ->
  p_calls read fuel (flat_map ctoks gs) = Some (map call_read gs).
Proof.
  induction gs as [|g gs IH]; intros fuel W F L; [destruct fuel; reflexivity|]. inversion W as [|? ? W1 W2]; subst. cbn [flat_map] in F. apply Forall_app in F as [F1 F2].
  destruct fuel as [|f]; [cbn in L; lia|]. cbn [flat_map].
  assert (E : exists t q, (ctoks g ++ flat_map ctoks gs = t :: q)%list) by (unfold ctoks; cbn [List.app]; eauto). destruct E as (t & q & E).
  cbn [p_calls]. rewrite E. rewrite <- E. rewrite call_any by auto. rewrite subscript_read by auto. rewrite IH; [reflexivity|auto|auto|cbn in L; lia].
Qed.
(** a gate with an empty tuple cannot be read, whatever surrounds it *)
Lemma calls_unread : forall gs fuel, Forall (fun g => flat (targets g)) gs -> good (flat_map params gs) -> Exists (fun g => targets g = TTuple []) gs ->
  p_calls read fuel (flat_map ctoks gs) = None.
Proof.
  induction gs as [|g gs IH]; intros fuel W F X; [inversion X|]. inversion W as [|? ? W1 W2]; subst. cbn [flat_map] in F. apply Forall_app in F as [F1 F2].
  cbn [flat_map]. assert (E : exists t q, (ctoks g ++ flat_map ctoks gs = t :: q)%list) by (unfold ctoks; cbn [List.app]; eauto). destruct E as (t & q & E).
  destruct fuel as [|f]; cbn [p_calls]; rewrite E; [reflexivity|]. rewrite <- E. rewrite call_any by auto.
  assert (D : {targets g = TTuple []} + {targets g <> TTuple []}).
  { destruct (targets g) as [| |[|]|]; first [left; reflexivity|right; discriminate]. }
  destruct D as [D|D]; [rewrite D, subscript_empty; reflexivity|]. rewrite subscript_read by (split; auto).
  inversion X as [? ? X1|? ? X1]; subst; [contradiction|]. rewrite IH; auto.
Qed.

(** ** Circuits *)
Lemma text_tokens : forall n gs ss, good (flat_map params gs) -> gs <> [] -> map_res (gate_str show) gs = Ok ss ->
  py_tokens "" ("Circuit(" ++ dec n ++ ")." ++ String.concat "." ss) = (Word "Circuit" :: Punct "(" :: Word (dec n) :: Punct ")" :: flat_map ctoks gs)%list.
Proof.
  intros n gs ss F N E. change ("Circuit(" ++ dec n ++ ")." ++ String.concat "." ss) with ("Circuit" ++ String "(" (dec n ++ String ")" (String "." (String.concat "." ss)))).
  rewrite lex_wd by (auto; delim). rewrite lex_wd by (auto using dec_wordy; delim). do 4 f_equal.
  clear n. revert ss E F N. induction gs as [|g gs IH]; intros ss E F N; [contradiction|]. cbn [map_res] in E.
  destruct (gate_str show g) as [s|] eqn:Es; cbn [bind] in E; [|discriminate]. destruct (map_res (gate_str show) gs) as [ss'|] eqn:El; cbn [bind] in E; [|discriminate].
  injection E as <-. cbn [flat_map] in *. apply Forall_app in F as [F1 F2]. unfold ctoks at 1. cbn [List.app]. rewrite <- app_assoc.
  destruct gs as [|g' gs].
  - injection El as <-. cbn [String.concat flat_map]. rewrite <- (sapp_nil s) at 1. rewrite (lex_call g) by auto. reflexivity.
  - destruct ss' as [|s' ss']; [cbn [map_res] in El; destruct (gate_str show g'); cbn [bind] in El; try discriminate; destruct (map_res (gate_str show) gs); discriminate|].
    change (String.concat "." (s :: s' :: ss')) with (s ++ String "." (String.concat "." (s' :: ss'))). rewrite (lex_call g) by auto.
    rewrite (IH _ eq_refl F2) by discriminate. reflexivity.
Qed.
Lemma target_text : forall t, flat t -> exists s, str_targets t = Ok s.
Proof.
  assert (A : forall t, flat1 t -> exists s, slice_to_str t = Ok s) by (intros [z|a b [c|]|l|] F; cbn [flat1] in F; try contradiction; cbn [slice_to_str]; eauto).
  intros [z|a b st|l|] F; cbn [flat] in F; [cbn; eauto|..].
  - cbn [str_targets]. destruct (A _ F) as [s ->]. cbn [bind]. eauto.
  - cbn [str_targets]. assert (exists ss, map_res slice_to_str l = Ok ss) as [ss ->]; [|cbn [bind]; eauto].
    induction F as [|t l F1 F2 [ss IH]]; [cbn; eauto|]. cbn [map_res]. destruct (A _ F1) as [s ->]. rewrite IH. cbn [bind]. eauto.
  - destruct F.
Qed.
Lemma text_exists : forall gs, Forall (fun g => flat (targets g)) gs -> exists ss, map_res (gate_str show) gs = Ok ss.
Proof.
  induction 1 as [|g gs F1 F2 [ss IH]]; [cbn; eauto|]. cbn [map_res]. unfold gate_str at 1. destruct (target_text _ F1) as [s ->]. cbn [bind]. rewrite IH. cbn [bind]. eauto.
Qed.
Lemma text_fails : forall t e, str_targets t = Err e -> e = AttributeError /\ ~ flat t.
Proof.
  intros t e E. destruct t as [z|a b st|l|]; cbn [str_targets] in E; [discriminate| | |injection E as <-; split; [auto|intros []]].
  - destruct st; discriminate.
  - assert (K : forall l e, map_res slice_to_str l = Err e -> e = AttributeError /\ ~ Forall flat1 l).
    { clear. induction l as [|t l IH]; intros e E; cbn [map_res] in E; [discriminate|]. destruct (slice_to_str t) as [s|e'] eqn:Es; cbn [bind] in E.
      - destruct (map_res slice_to_str l) as [|e'] eqn:El; cbn [bind] in E; [discriminate|]. injection E as <-. destruct (IH _ eq_refl). split; auto. intros F. inversion F; auto.
      - injection E as <-. destruct t as [z|a b [c|]|l'|]; cbn [slice_to_str] in Es; try discriminate; injection Es as <-; split; auto; intros F; inversion F; auto. }
    destruct (map_res slice_to_str l) as [|e'] eqn:El; cbn [bind] in E; [discriminate|]. injection E as <-. apply K. auto.
Qed.
Lemma repr_raises : forall n gs e, circuit_repr show n gs = Err e <-> e = AttributeError /\ Exists (fun g => ~ flat (targets g)) gs.
Proof.
  intros n gs e. split.
  - unfold circuit_repr. intros E. destruct (map_res (gate_str show) gs) as [ss|e'] eqn:Em; cbn [bind] in E; [discriminate|]. injection E as <-.
    revert e' Em. induction gs as [|g gs IH]; intros e' Em; cbn [map_res] in Em; [discriminate|]. destruct (gate_str show g) as [s|e0] eqn:Eg; cbn [bind] in Em.
    + destruct (map_res (gate_str show) gs) as [|e0]; cbn [bind] in Em; [discriminate|]. injection Em as <-. destruct (IH _ eq_refl). split; auto.
    + injection Em as <-. unfold gate_str in Eg. destruct (str_targets (targets g)) as [|e1] eqn:Et; cbn [bind] in Eg; [discriminate|]. injection Eg as <-.
      apply text_fails in Et as [-> Nf]. split; auto.
  - intros [-> X]. unfold circuit_repr. assert (exists e, map_res (gate_str show) gs = Err e) as [e E].
    { induction X as [g gs Nf|g gs X [e IH]]; cbn [map_res].
      - destruct (gate_str show g) as [s|e] eqn:Eg; cbn [bind]; [|eauto]. exfalso. unfold gate_str in Eg. destruct (str_targets (targets g)) as [s'|] eqn:Et; [|discriminate].
        apply Nf. clear - Et. destruct (targets g) as [z|a b st|l|]; cbn [flat flat1]; auto; [|discriminate].
        cbn [str_targets] in Et. destruct (map_res slice_to_str l) as [ss|] eqn:El; cbn [bind] in Et; [|discriminate]. clear Et. revert ss El.
        induction l as [|t l IH]; intros ss El; cbn [map_res] in El; [constructor|]. destruct (slice_to_str t) eqn:Es; cbn [bind] in El; [|discriminate].
        destruct (map_res slice_to_str l) eqn:El'; cbn [bind] in El; [|discriminate]. constructor; eauto. destruct t; cbn in *; auto; discriminate.
      - destruct (gate_str show g); cbn [bind]; [rewrite IH; cbn [bind]|]; eauto. }
    rewrite E. cbn [bind]. f_equal. revert e E. clear X. induction gs as [|g gs IH]; intros e E; cbn [map_res] in E; [discriminate|].
    destruct (gate_str show g) as [s|e0] eqn:Eg; cbn [bind] in E.
    + destruct (map_res (gate_str show) gs); cbn [bind] in E; [discriminate|]. injection E as <-. eauto.
    + injection E as <-. unfold gate_str in Eg. destruct (str_targets (targets g)) as [|e1] eqn:Et; cbn [bind] in Eg; [discriminate|]. injection Eg as <-.
      apply text_fails in Et as [-> _]. auto.
Qed.
Lemma ctoks_length : forall gs, (List.length gs <= List.length (flat_map ctoks gs))%nat.
Proof. induction gs as [|g gs IH]; [cbn; lia|]. cbn [flat_map]. rewrite app_length. unfold ctoks at 1. cbn [List.length]. lia. Qed.
Lemma repr_read : forall n gs text, (0 <= n)%Z -> gs <> [] -> Forall (fun g => writable (targets g)) gs -> good (flat_map params gs) ->
  circuit_repr show n gs = Ok text -> read_circuit read text = Some (Z.to_nat n, map call_read gs).
Proof.
  intros n gs text Hn N W F E. unfold circuit_repr in E. destruct (map_res (gate_str show) gs) as [ss|] eqn:Em; cbn [bind] in E; [|discriminate]. assert (E' : text = "Circuit(" ++ dec n ++ ")." ++ String.concat "." ss) by congruence. subst text.
  unfold read_circuit. rewrite (text_tokens n gs ss) by auto. rewrite dec_int. rewrite (proj2 (Z.leb_le 0 n)) by auto. rewrite calls_read by (auto using ctoks_length). reflexivity.
Qed.
Lemma repr_unread : forall n gs text, Forall (fun g => flat (targets g)) gs -> good (flat_map params gs) -> Exists (fun g => targets g = TTuple []) gs ->
  circuit_repr show n gs = Ok text -> read_circuit read text = None.
Proof.
  intros n gs text W F X E. unfold circuit_repr in E. destruct (map_res (gate_str show) gs) as [ss|] eqn:Em; cbn [bind] in E; [|discriminate]. assert (E' : text = "Circuit(" ++ dec n ++ ")." ++ String.concat "." ss) by congruence. subst text.
  unfold read_circuit. rewrite (text_tokens n gs ss); [|auto|intros ->; inversion X|auto]. rewrite dec_int. rewrite calls_unread by auto. destruct (0 <=? n)%Z; reflexivity.
Qed.
Lemma repr_empty : forall n, exists text, circuit_repr show n [] = Ok text /\ read_circuit read text = None.
Proof.
  intros n. eexists. split; [reflexivity|]. cbn [String.concat]. unfold read_circuit.
  change ("Circuit(" ++ dec n ++ ")." ++ "") with ("Circuit" ++ String "(" (dec n ++ String ")" ".")).
  rewrite lex_wd by (auto; delim). rewrite lex_wd by (auto using dec_wordy; delim). rewrite dec_int. destruct (0 <=? n)%Z; reflexivity.
Qed.
End Show.

(** ** Evaluation *)
Lemma own_name : forall g y, In (lowername g, y) gate_set -> y = lowername g.
Proof.
  intros g y H. unfold gate_set in H. cbn [In] in H.
  destruct g as [k tg|k tg|k tg|tg|tg]; [destruct k|destruct k|destruct k|..]; cbn [lowername lowername1 lowername2 lowername3] in *;
    repeat (destruct H as [H|H]; [first [discriminate | injection H as <-; reflexivity]|]); destruct H.
Qed.
Lemma same_class : forall g g', lowername g' = lowername g -> params g' = params g -> g' = retarget g (targets g').
Proof.
  intros g g' L P. destruct g as [k tg|k tg|k tg|tg|tg]; [destruct k|destruct k|destruct k|..];
    (destruct g' as [k' tg'|k' tg'|k' tg'|tg'|tg']; [destruct k'|destruct k'|destruct k'|..]);
    cbn [lowername lowername1 lowername2 lowername3] in L; try discriminate; cbn [params params1 params2] in P; try (injection P; intros; subst); reflexivity.
Qed.
Lemma takes_same : forall g g', lowername g' = lowername g -> takes g' (params g) -> params g' = params g.
Proof.
  intros g g' L [P|[P [a Q]]]; [auto|]. exfalso. destruct g as [k tg|k tg|k tg|tg|tg]; [destruct k|destruct k|destruct k|..];
    cbn [params params1 params2] in Q; try discriminate Q;
    (destruct g' as [k' tg'|k' tg'|k' tg'|tg'|tg']; [destruct k'|destruct k'|destruct k'|..]);
    cbn [lowername lowername1 lowername2 lowername3] in L; try discriminate L; discriminate P.
Qed.
Lemma made_back : forall g t g', builds (lowername g) (params g) t g' -> g' = retarget g t.
Proof. intros g t g' (H & P & T). apply own_name in H. rewrite (same_class _ _ H (takes_same _ _ H P)), T. reflexivity. Qed.
Lemma retarget_lower : forall g t, lowername (retarget g t) = lowername g. Proof. intros [] t; reflexivity. Qed.
Lemma retarget_params : forall g t, params (retarget g t) = params g. Proof. intros [] t; reflexivity. Qed.
Lemma retarget_targets : forall g t, targets (retarget g t) = t. Proof. intros [] t; reflexivity. Qed.
Lemma makes : forall g t, has_method g -> builds (lowername g) (params g) t (retarget g t).
Proof.
  intros g t N. unfold builds. rewrite retarget_lower, retarget_targets. split; [|split; [left; symmetry; apply retarget_params|auto]].
  destruct g as [k tg|k tg|k tg|tg|tg]; [destruct k|destruct k|destruct k|..]; cbn [lowername lowername1 lowername2 lowername3]; unfold gate_set; cbn [In];
    try solve [repeat first [left; reflexivity|right]]. exfalso. apply (N tg). reflexivity.
Qed.
Lemma ccz_unmade : forall ps t tg g', ~ builds (lowername (GThree KCCZ tg)) ps t g'.
Proof.
  intros ps t tg g' [H _]. cbn [lowername lowername3] in H. unfold gate_set in H. cbn [In] in H.
  repeat (destruct H as [H|H]; [discriminate|]). destruct H.
Qed.
Lemma unwrap_flat : forall t, flat t -> flat (unwrap t).
Proof. intros [z|a b s|[|t [|t' l]]|] F; auto. cbn [unwrap]. cbn [flat] in F. inversion F; subst. destruct t; cbn [flat1] in *; auto; contradiction. Qed.
Lemma unwrap_holds : forall w t, flat t -> holds w t -> holds w (unwrap t).
Proof. intros w [z|a b s|[|t [|t' l]]|] F H; auto. cbn [unwrap]. cbn [holds flat] in *. inversion H; inversion F; subst. destruct t; cbn [flat1] in *; auto; contradiction. Qed.

Section Evaluate.
Variable rng : nat -> R.
Lemma gate_added : forall h c v g, (0 <= v_n v)%Z -> circuit_is h c v -> flat (targets g) -> holds (v_n v) (targets g) ->
  exists h', step rng h (OGate c g) = (Ok (OutCirc c), h') /\ circuit_is h' c (VCirc (v_gates v ++ [g]) (v_n v) (v_default v)).
Proof.
  intros h c v g N (x & Hx & Hl & En & Ed) F H.
  destruct (get_maximum_index (targets g)) as [m|e] eqn:E; [|apply max_index_err in E as [_ E]; contradiction].
  pose proof (proj1 (proj2 (max_index _ _ E) (v_n v) N) H) as M.
  eexists. split.
  - cbn [step]. unfold get_circ, get. rewrite Hx, Hl, E. reflexivity.
  - unfold circuit_is. cbn. eexists. split; [apply (nth_put_eq _ _ _ _ _ Hx)|]. cbn. split; [apply (nth_put_eq _ _ _ _ _ Hl)|]. split; [lia|auto].
Qed.
Lemma gates_added : forall gs h c v, (0 <= v_n v)%Z -> circuit_is h c v -> Forall (fun g => flat (targets g) /\ holds (v_n v) (targets g)) gs ->
  exists rs h', steps rng h (map (OGate c) gs) = (rs, h') /\ all_ok rs /\ circuit_is h' c (VCirc (v_gates v ++ gs) (v_n v) (v_default v)).
Proof.
  induction gs as [|g gs IH]; intros h c v N C F.
  - exists [], h. split; [reflexivity|]. split; [constructor|]. rewrite app_nil_r. destruct v; auto.
  - inversion F as [|? ? [F1 F2] F3]; subst. destruct (gate_added h c v g N C F1 F2) as (h1 & E1 & C1).
    destruct (IH h1 c (VCirc (v_gates v ++ [g]) (v_n v) (v_default v)) N C1 F3) as (rs & h2 & E2 & A2 & C2). exists (Ok (OutCirc c) :: rs), h2. cbn [map steps]. rewrite E1, E2.
    split; [reflexivity|]. split; [constructor; [eauto|auto]|]. cbn [v_gates v_n v_default] in C2. rewrite <- app_assoc in C2. exact C2.
Qed.
Lemma circuit_new : forall h n, exists h', step rng h (ONew n) = (Ok (OutCirc (List.length (h_circs h))), h') /\ circuit_is h' (List.length (h_circs h)) (VCirc [] (Z.of_nat n) None).
Proof.
  intros h n. eexists. split; [reflexivity|]. unfold circuit_is. cbn. eexists. split; [apply nth_new|]. cbn. split; [apply nth_new|auto].
Qed.
Lemma made_all : forall gs gs', Forall2 (fun c g => builds (fst (fst c)) (snd (fst c)) (snd c) g) (map call_read gs) gs' -> gs' = map as_written gs.
Proof.
  induction gs as [|g gs IH]; intros gs' H; inversion H; subst; [reflexivity|]. cbn [map]. f_equal; auto. apply made_back; auto.
Qed.
Lemma makes_all : forall gs, Forall has_method gs -> Forall2 (fun c g => builds (fst (fst c)) (snd (fst c)) (snd c) g) (map call_read gs) (map as_written gs).
Proof. induction 1; cbn [map]; constructor; auto. apply makes; auto. Qed.


Lemma made_methods : forall gs gs', Forall2 (fun c g => builds (fst (fst c)) (snd (fst c)) (snd c) g) (map call_read gs) gs' -> Forall has_method gs.
Proof.
  induction gs as [|g gs IH]; intros gs' M; [constructor|]. cbn [map] in M. inversion M as [|? g' ? gs'' M1 M2]; subst. constructor; eauto.
  intros tg ->. apply (ccz_unmade _ _ tg _ M1).
Qed.
Variable show : R -> string.
Variable read : string -> option R.
Lemma written_holds : forall n gs, Forall (fun g => writable (targets g) /\ has_method g) gs -> Forall (fits n) gs ->
  Forall (fun g => flat (targets g) /\ holds n (targets g)) (map as_written gs).
Proof.
  intros n gs W F. induction gs as [|g gs IH]; [constructor|]. inversion W as [|? ? [[W1 _] _] W2]; inversion F; subst. cbn [map]. constructor; auto.
  unfold as_written. rewrite retarget_targets. split; [apply unwrap_flat; auto|apply unwrap_holds; auto].
Qed.
Lemma repr_back : forall seen h c v, reachable rng seen h -> circuit_is h c v -> expressible (v_gates v) -> Forall (printable show read) (flat_map params (v_gates v)) ->
  exists text, circuit_repr show (v_n v) (v_gates v) = Ok text /\ (exists h', evaluates read rng text h h') /\
    forall h', evaluates read rng text h h' -> circuit_is h' (List.length (h_circs h)) (VCirc (map as_written (v_gates v)) (v_n v) None).
Proof.
  intros seen h c v Re C [N W] F. pose proof (width_nonneg rng _ _ _ _ Re C) as P. pose proof (reach_fits rng _ _ Re _ _ C) as Fi.
  assert (Wf : Forall (fun g => flat (targets g)) (v_gates v)) by (eapply Forall_impl; [|exact W]; intros g [[A _] _]; exact A).
  assert (Ww : Forall (fun g => writable (targets g)) (v_gates v)) by (eapply Forall_impl; [|exact W]; intros g [A _]; exact A).
  assert (Wm : Forall has_method (v_gates v)) by (eapply Forall_impl; [|exact W]; intros g [_ A]; exact A).
  destruct (text_exists show _ Wf) as [ss Ess]. eexists. assert (E : circuit_repr show (v_n v) (v_gates v) = Ok _) by (unfold circuit_repr; rewrite Ess; reflexivity).
  split; [exact E|]. pose proof (repr_read show read _ _ _ P N Ww F E) as Rd.
  destruct (circuit_new h (Z.to_nat (v_n v))) as (h1 & E1 & C1). rewrite Z2Nat.id in C1 by auto.
  destruct (gates_added (map as_written (v_gates v)) h1 _ (VCirc [] (v_n v) None) P C1 (written_holds _ _ W Fi)) as (rs & h2 & E2 & A2 & C2).
  assert (S : steps rng h (ONew (Z.to_nat (v_n v)) :: map (OGate (List.length (h_circs h))) (map as_written (v_gates v))) = (Ok (OutCirc (List.length (h_circs h))) :: rs, h2)).
  { cbn [steps]. rewrite E1, E2. reflexivity. }
  split.
  - exists h2. unfold evaluates. do 4 eexists. split; [exact Rd|]. split; [apply makes_all; auto|]. split; [exact S|]. constructor; eauto.
  - intros h' (n & calls & gs & rs' & Rd' & M & S' & A). rewrite Rd in Rd'. injection Rd' as <- <-. apply made_all in M. subst gs. rewrite S in S'. injection S' as <- <-. exact C2.
Qed.
Lemma written_same : forall gs, Forall (fun g => forall t, targets g <> TTuple [t]) gs -> map as_written gs = gs.
Proof.
  intros gs H. induction H as [|g gs H1 H2 IH]; [reflexivity|]. cbn [map]. rewrite IH. f_equal. unfold as_written.
  assert (E : unwrap (targets g) = targets g) by (destruct (targets g) as [| |[|t [|]]|]; auto; exfalso; apply (H1 t); reflexivity).
  rewrite E. destruct g; reflexivity.
Qed.
(** conversely, the text of the other circuits cannot be evaluated *)
Lemma repr_not : forall n gs text h, Forall (printable show read) (flat_map params gs) -> ~ expressible gs ->
  circuit_repr show n gs = Ok text -> forall h', ~ evaluates read rng text h h'.
Proof.
  intros n gs text h F X E h' (m & calls & gs' & rs & Rd & M & _).
  assert (Wf : Forall (fun g => flat (targets g)) gs).
  { destruct (Forall_Exists_dec (fun g => flat (targets g))) with (l := gs) as [A|A]; auto.
    - intros g. destruct (str_targets (targets g)) as [s|e] eqn:Et; [left|right; apply (text_fails _ _ Et)].
      destruct (targets g) as [z|a b st|l|]; cbn [flat flat1]; auto; [|discriminate].
      cbn [str_targets] in Et. destruct (map_res slice_to_str l) as [ss|] eqn:El; cbn [bind] in Et; [|discriminate]. clear Et. revert ss El.
      induction l as [|t l IH]; intros ss El; cbn [map_res] in El; [constructor|]. destruct (slice_to_str t) eqn:Es; cbn [bind] in El; [|discriminate].
      destruct (map_res slice_to_str l) eqn:El'; cbn [bind] in El; [|discriminate]. constructor; eauto. destruct t; cbn in *; auto; discriminate.
    - pose proof (proj2 (repr_raises show n gs AttributeError) (conj eq_refl A)) as R. rewrite R in E. discriminate. }
  destruct gs as [|g0 gs0].
  { destruct (repr_empty show read n) as (t & Et & Nt). rewrite Et in E. injection E as <-. rewrite Nt in Rd. discriminate. }
  destruct (Forall_Exists_dec (fun g => targets g <> TTuple [])) with (l := g0 :: gs0) as [A|A].
  { intros g. destruct (targets g) as [| |[|]|]; first [left; discriminate|right; intros K; apply K; reflexivity]. }
  2:{ rewrite (repr_unread show read n (g0 :: gs0) text) in Rd; auto; [discriminate|]. apply Exists_exists in A as (g & I & K). apply Exists_exists. exists g. split; auto.
      destruct (targets g) as [| |[|]|]; auto; exfalso; apply K; discriminate. }
  assert (Ww : Forall (fun g => writable (targets g)) (g0 :: gs0)).
  { apply Forall_forall. intros g I. split; [apply (proj1 (Forall_forall _ _) Wf g I)|apply (proj1 (Forall_forall _ _) A g I)]. }
  destruct (Z_le_gt_dec 0 n) as [P|P].
  - rewrite (repr_read show read n (g0 :: gs0) text P ltac:(discriminate) Ww F E) in Rd. injection Rd as <- <-.
    apply X. split; [discriminate|]. apply (made_methods (g0 :: gs0)) in M. apply Forall_forall. intros g I.
    split; [apply (proj1 (Forall_forall _ _) Ww g I)|apply (proj1 (Forall_forall _ _) M g I)].
  - unfold circuit_repr in E. destruct (map_res (gate_str show) (g0 :: gs0)) as [ss|] eqn:Em; cbn [bind] in E; [|discriminate].
    assert (E' : text = "Circuit(" ++ dec n ++ ")." ++ String.concat "." ss) by congruence. subst text. unfold read_circuit in Rd.
    rewrite (text_tokens show read n _ ss F ltac:(discriminate) Em) in Rd. rewrite dec_int in Rd. destruct (Z.leb_spec 0 n); [lia|discriminate].
Qed.
End Evaluate.

(** ** A tuple of one names the same qubits *)
Lemma unwrap_denotes : forall n t l, flat t -> (denotes n (unwrap t) l <-> denotes n t l).
Proof.
  intros n t l F. destruct t as [z|a b c|[|t [|t' ts]]|]; try tauto. cbn [unwrap]. cbn [flat] in F. inversion F as [|? ? F1 _]; subst. split; intros H.
  - inversion H as [? ? H1|ts ls H1]; subst; [|destruct F1]. rewrite <- (app_nil_r l). change (l ++ [])%list with (List.concat [l]). apply den_tuple. constructor; auto.
  - inversion H as [? ? H1|ts ls H1]; subst; [inversion H1|]. inversion H1 as [|? ? ? ? D N]; subst. inversion N; subst. cbn [List.concat]. rewrite app_nil_r. constructor. auto.
Qed.
Lemma unwrap_pairs : forall n t ps, flat t -> (denotes_pairs n (unwrap t) ps <-> denotes_pairs n t ps).
Proof.
  intros n t ps F. destruct t as [z|a b c|[|t [|t' ts]]|]; try tauto. cbn [unwrap]. cbn [flat] in F. inversion F as [|? ? F1 _]; subst.
  split; intros (a & b & la & lb & E & _); [subst t; destruct F1|discriminate].
Qed.

(** ** An example: Circuit().rz(1.0)[0, -2::-1].cx[0, 3].m[:] *)
Definition repr_program : list op :=
  [ONew 0; OGate 0 (GOne (KRZ 1) (TTuple [TInt 0; TSlice (Some (-2)%Z) None (Some (-1)%Z)])); OGate 0 (CX 0 3); OGate 0 (GMeasure (TSlice None None None))].
Definition repr_v : vcirc :=
  VCirc [GOne (KRZ 1) (TTuple [TInt 0; TSlice (Some (-2)%Z) None (Some (-1)%Z)]); CX 0 3; GMeasure (TSlice None None None)] 4 None.
Lemma repr_case : exists h, (exists seen, reachable r0 seen h) /\ circuit_is h 0 repr_v /\ expressible (v_gates repr_v) /\
  Forall (printable show_ex read_ex) (flat_map params (v_gates repr_v)) /\ Forall (fun g => forall t, targets g <> TTuple [t]) (v_gates repr_v) /\
  circuit_repr show_ex (v_n repr_v) (v_gates repr_v) = Ok "Circuit(4).rz(1.0)[0, -2::-1].cx[0, 3].measure[:]".
Proof.
  exists (snd (steps r0 (empty_heap 0) repr_program)). split.
  { eapply steps_reachable; [apply (reach_start r0 0)| |]; [apply surjective_pairing|]. vm_compute. repeat split. }
  split; [eexists; split; [vm_compute; reflexivity|]; split; [vm_compute; reflexivity|]; split; reflexivity|].
  split.
  { split; [discriminate|]. unfold repr_v. cbn [v_gates].
    repeat (apply Forall_cons; [split; [split; [cbn; repeat constructor|discriminate]|intros tg; discriminate]|]). apply Forall_nil. }
  split.
  { cbn. apply Forall_cons; [|apply Forall_nil]. unfold printable, show_ex. destruct (Rle_dec 0 1); [|lra]. split; reflexivity. }
  split.
  { unfold repr_v. cbn [v_gates]. repeat (apply Forall_cons; [intros t; cbn; discriminate|]). apply Forall_nil. }
  unfold circuit_repr, repr_v. cbn [v_gates v_n map_res gate_str params params1 targets]. unfold gate_str. cbn [params params1 targets str_args map].
  unfold show_ex. destruct (Rle_dec 0 1); [|lra]. vm_compute. reflexivity.
Qed.
(** x[(3,)] is read back as x[3] *)
Lemma tuple_of_one : forall show read, exists text, circuit_repr show 4 [GOne KX (TTuple [TInt 3])] = Ok text /\
  read_circuit read text = Some (4%nat, [("x", [], TInt 3)]) /\ TInt 3 <> TTuple [TInt 3].
Proof. intros. eexists. split; [reflexivity|]. split; [vm_compute; reflexivity|discriminate]. Qed.
(** cx[(0, 1), (2, 3)] is refused, but appended; after that the circuit has no text *)
Lemma nested_raises : forall show, exists h v, (exists seen, reachable r0 seen h) /\ circuit_is h 0 v /\ circuit_repr show (v_n v) (v_gates v) = Err AttributeError.
Proof.
  intros show. set (g := GTwo KCX (TTuple [TTuple [TInt 0; TInt 1]; TTuple [TInt 2; TInt 3]])).
  exists (snd (steps r0 (empty_heap 0) [ONew 4; OGate 0 g])), (VCirc [g] 4 None). split.
  { eapply steps_reachable; [apply (reach_start r0 0)| |]; [apply surjective_pairing|]. vm_compute. repeat split. }
  split; [eexists; split; [vm_compute; reflexivity|]; split; [vm_compute; reflexivity|]; split; reflexivity|]. reflexivity.
Qed.
Lemma repr_exact : forall show read rng seen h c v, reachable rng seen h -> circuit_is h c v -> expressible (v_gates v) ->
  Forall (printable show read) (flat_map params (v_gates v)) -> Forall (fun g => forall t, targets g <> TTuple [t]) (v_gates v) ->
  exists text, circuit_repr show (v_n v) (v_gates v) = Ok text /\ (exists h', evaluates read rng text h h') /\
    forall h', evaluates read rng text h h' -> circuit_is h' (List.length (h_circs h)) (VCirc (v_gates v) (v_n v) None).
Proof. intros show read rng seen h c v Re C X F N. pose proof (repr_back rng show read seen h c v Re C X F) as H. rewrite written_same in H by auto. exact H. Qed.
Lemma unexpressible : ~ expressible [] /\ (forall g, targets g = TTuple [] -> ~ expressible [g]) /\ forall tg, ~ expressible [GThree KCCZ tg].
Proof.
  split; [intros [H _]; apply H; reflexivity|]. split.
  - intros g E [_ H]. inversion H as [|? ? [[_ W] _] _]; subst. contradiction.
  - intros tg [_ H]. inversion H as [|? ? [_ M] _]; subst. apply (M tg). reflexivity.
Qed.
