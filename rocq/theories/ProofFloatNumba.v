(** Loops of the numba backend whose assignments are rounded, differently at every index *)
From Coq Require Import List Arith NArith Nnat ZArith Bool Reals Lia Lra Psatz FunctionalExtensionality.
Import ListNotations.
From Verif Require Import Base Cplx Bits ModelTargets ModelGate ModelNumpy ModelNumba ModelFloat ModelFloatNumba SpecTargets SpecQuantum SpecCircuit SpecMeasure SpecNumba SpecFinite
  SpecFloatNumba ProofTargets ProofArray ProofNumpy ProofUnitary ProofRun ProofMeasure ProofIndex ProofKernel ProofPair ProofNumba ProofNumbaRun ProofFloat ProofFloatOps
  ProofFloatKern ProofFloatCoef ProofFinite ProofFiniteKern.
Local Arguments N.pow : simpl never.
Local Arguments N.ones : simpl never.
Local Arguments shl1 : simpl never.
Local Open Scope R_scope.

(** ** Kernels with functions of the index *)
Lemma one_kernel_at : forall n t, (n <= 64)%nat -> (t < N.of_nat n)%N -> forall body f0 f1,
  (forall a b, (N.to_nat a < 2 ^ n)%nat -> (N.to_nat b < 2 ^ n)%nat -> a <> b ->
     forall i, idx0 t i = a -> idx1 t i = b -> pair_body n (body i) a b (f0 (N.to_nat a)) (f1 (N.to_nat b))) ->
  kacts n (Kernel (half (N.of_nat n)) body) (pairop_at [] t f0 f1).
Proof.
  intros n t Hn Ht body f0 f1 Hb.
  pose proof (shifted_visits (N.of_nat n) t ltac:(lia) Ht) as V.
  assert (Hqs : forall q, In q [t] <-> In q [] \/ q = t) by (simpl; intuition).
  assert (Hcm : forall b, N.testbit 0 b = mem b []) by (intros; apply N.bits_0).
  assert (Hcs : forall c, In c [] -> (c < N.of_nat n)%N) by (intros c []).
  assert (B : forall i, (i < half (N.of_nat n))%N ->
    pair_body n (k_body (Kernel (half (N.of_nat n)) body) i) (p0 (idx0 t) 0 i) (p1 t (idx0 t) 0 i) (f0 (N.to_nat (p0 (idx0 t) 0 i))) (f1 (N.to_nat (p1 t (idx0 t) 0 i)))).
  { intros i Hi. destruct (idx1_lor (N.of_nat n) t i ltac:(lia) Ht Hi) as [E L].
    assert (E0 : p0 (idx0 t) 0 i = idx0 t i) by (unfold p0; apply N.lor_0_r).
    assert (E1 : p1 t (idx0 t) 0 i = idx1 t i) by (unfold p1; rewrite E0; auto).
    apply Hb; auto.
    - apply to_nat_lt. apply (p0_lt n [] t [t] (half (N.of_nat n)) (idx0 t) 0); auto.
    - apply to_nat_lt. apply (p1_lt n [] t [t] (half (N.of_nat n)) (idx0 t) 0); auto.
    - apply (p_ne n [] t [t] (half (N.of_nat n)) (idx0 t) 0); auto. }
  split.
  - apply (pair_safe_at n [] t [t] (half (N.of_nat n)) (idx0 t) 0) with (f0 := f0) (f1 := f1); auto.
  - intros psi. apply (pair_run_at n [] t [t] (half (N.of_nat n)) (idx0 t) 0); auto.
Qed.

Section Ctl.
Variables (n : nat) (cs : list N) (t : N).
Hypothesis Hn : (n <= 64)%nat.
Hypothesis Hd : NoDup (cs ++ [t]).
Hypothesis Hin : Forall (fun q => q < N.of_nat n)%N (cs ++ [t]).

Lemma ctl_kernel_at : forall body f0 f1,
  (forall a b, (N.to_nat a < 2 ^ n)%nat -> (N.to_nat b < 2 ^ n)%nat -> a <> b ->
     b = N.lor a (shl1 t) -> pair_body n (body a (shl1 t)) a b (f0 (N.to_nat a)) (f1 (N.to_nat b))) ->
  exists k, ctl_kernel (N.of_nat n) (cs ++ [t]) body = Ok k /\ kacts n k (pairop_at cs t f0 f1).
Proof.
  intros body f0 f1 Hb.
  pose proof (Ht' n cs t Hin) as T1. pose proof (Hcs' n cs t Hin) as T2. pose proof (Htc' cs t Hd) as T3. pose proof (Hqs' cs t) as T4. pose proof (Hcm' n cs t Hn Hin) as T5.
  destruct (mult_visits (N.of_nat n) (cs ++ [t]) ltac:(lia) Hd Hin) as [masks [Em [Hle V]]].
  unfold ctl_kernel. rewrite rev_app_distr. cbn [rev app]. rewrite rev_involutive, Em. cbn [bind].
  destruct (N.ltb_spec (N.of_nat n) (N.of_nat (List.length (cs ++ [t])))); [lia|].
  eexists. split; [reflexivity|]. rewrite (nloop n cs t Hn) by auto.
  match goal with |- kacts _ ?k _ => set (K := k) end.
  set (cnt := (2 ^ (N.of_nat n - N.of_nat (List.length (cs ++ [t]))))%N) in *.
  assert (E : shl1 t = (2 ^ t)%N) by (apply shl1_pow; lia).
  set (q0 := p0 (mult_shifted masks) (or_bits cs)). set (q1 := p1 t (mult_shifted masks) (or_bits cs)).
  assert (B : forall i, (i < cnt)%N -> pair_body n (k_body K i) (q0 i) (q1 i) (f0 (N.to_nat (q0 i))) (f1 (N.to_nat (q1 i)))).
  { intros i Hi. unfold K. cbn [k_body]. apply Hb.
    - apply to_nat_lt. apply (p0_lt n cs t (cs ++ [t]) cnt (mult_shifted masks) (or_bits cs)); auto.
    - apply to_nat_lt. apply (p1_lt n cs t (cs ++ [t]) cnt (mult_shifted masks) (or_bits cs)); auto.
    - apply (p_ne n cs t (cs ++ [t]) cnt (mult_shifted masks) (or_bits cs)); auto.
    - rewrite E. reflexivity. }
  split.
  - apply (pair_safe_at n cs t (cs ++ [t]) cnt (mult_shifted masks) (or_bits cs)) with (f0 := f0) (f1 := f1); auto.
  - intros psi. apply (pair_run_at n cs t (cs ++ [t]) cnt (mult_shifted masks) (or_bits cs)); auto.
Qed.

Lemma cz_kernel_at : forall c f, (forall b v, f (N.to_nat b) v = c_mul c b v (- C1)%C) ->
  exists k, fk_cz c (N.of_nat n) (cs ++ [t]) = Ok k /\ kacts n k (pairop_at cs t (fun _ x _ => x) (fun b _ y => f b y)).
Proof.
  intros c f Hf. pose proof (Ht' n cs t Hin) as T1. pose proof (Hcs' n cs t Hin) as T2. pose proof (Htc' cs t Hd) as T3. pose proof (Hqs' cs t) as T4. pose proof (Hcm' n cs t Hn Hin) as T5.
  destruct (mult_visits (N.of_nat n) (cs ++ [t]) ltac:(lia) Hd Hin) as [masks [Em [Hle V]]].
  unfold fk_cz. rewrite Em. cbn [bind].
  destruct (N.ltb_spec (N.of_nat n) (N.of_nat (List.length (cs ++ [t])))); [lia|].
  eexists. split; [reflexivity|]. rewrite (nloop n cs t Hn) by auto.
  match goal with |- kacts _ ?k _ => set (K := k) end.
  set (cnt := (2 ^ (N.of_nat n - N.of_nat (List.length (cs ++ [t]))))%N) in *.
  assert (E : or_bits (cs ++ [t]) = N.lor (or_bits cs) (2 ^ t)).
  { unfold or_bits. rewrite fold_left_app. simpl. rewrite shl1_pow; auto. lia. }
  set (q0 := p0 (mult_shifted masks) (or_bits cs)). set (q1 := p1 t (mult_shifted masks) (or_bits cs)).
  assert (B : forall i, (i < cnt)%N -> pair_body n (k_body K i) (q0 i) (q1 i) (fun x _ => x) (fun _ y => f (N.to_nat (q1 i)) y)).
  { intros i Hi. unfold K. cbn [k_body]. rewrite E, N.lor_assoc. change (N.lor (N.lor (mult_shifted masks i) (or_bits cs)) (2 ^ t)) with (q1 i).
    assert (L1 : (N.to_nat (q1 i) < 2 ^ n)%nat).
    { apply to_nat_lt. apply (p1_lt n cs t (cs ++ [t]) cnt (mult_shifted masks) (or_bits cs)); auto. }
    assert (NE : q0 i <> q1 i) by (apply (p_ne n cs t (cs ++ [t]) cnt (mult_shifted masks) (or_bits cs)); auto).
    split; [cbn; intuition auto|]. intros psi. eexists. unfold exec_body, fk_scale_at. cbn [for_list exec_instr bind]. rewrite load_arr by auto. cbn [bind exec_instr].
    rewrite store_arr by auto. cbn [bind fst]. split; [reflexivity|]. unfold update, set_reg. cbn [Nat.eqb]. rewrite Nat.eqb_refl.
    split; [|rewrite Hf; reflexivity]. destruct (Nat.eqb_spec (N.to_nat (q0 i)) (N.to_nat (q1 i))) as [X|_]; [apply N2Nat.inj in X; contradiction|reflexivity]. }
  split.
  - apply (pair_safe_at n cs t (cs ++ [t]) cnt (mult_shifted masks) (or_bits cs)) with (f0 := (fun _ x _ => x)) (f1 := (fun b _ y => f b y)); auto.
  - intros psi. apply (pair_run_at n cs t (cs ++ [t]) cnt (mult_shifted masks) (or_bits cs)); auto.
Qed.
End Ctl.

Section Bodies.
Variables (n : nat) (a b : N).
Hypothesis Ha : (N.to_nat a < 2 ^ n)%nat.
Hypothesis Hb : (N.to_nat b < 2 ^ n)%nat.
Hypothesis Hab : a <> b.
Variable c : compiled.

Ltac body := split; [simpl; intuition auto|]; intros psi; eexists; unfold exec_body;
  repeat (cbn [app fk_scale_at for_list exec_instr bind fst]; rewrite ?load_arr, ?store_arr by assumption);
  cbn [app fk_scale_at for_list exec_instr bind fst];
  split; [reflexivity|]; unfold set_reg, update; cbn [Nat.eqb];
  rewrite ?Nat.eqb_refl, ?(proj2 (Nat.eqb_neq _ _) (nab a b Hab)), ?(proj2 (Nat.eqb_neq _ _) (not_eq_sym (nab a b Hab))), ?Nat.eqb_refl; split; reflexivity.

Lemma fbody_scale1 : forall f, pair_body n (fk_scale_at c b f) a b (fun x _ => x) (fun _ y => c_mul c b y f).
Proof. intros f. body. Qed.
Lemma fbody_scale01 : forall f g, pair_body n (fk_scale_at c a f ++ fk_scale_at c b g) a b (fun x _ => c_mul c a x f) (fun _ y => c_mul c b y g).
Proof. intros f g. body. Qed.
Lemma fbody_rz : forall f g, pair_body n ([Load 0 a; Load 1 b] ++ fk_scale_at c a f ++ fk_scale_at c b g) a b (fun x _ => c_mul c a x f) (fun _ y => c_mul c b y g).
Proof. intros f g. body. Qed.
End Bodies.

(** ** Loops that are close to operators *)
Definition nb_rep (n : nat) (s : carr) (psi : state) : Prop := s = arr n psi.
Definition rows (f0 f1 : nat -> C -> C -> C) (M : mat2) (r g : R) : Prop := forall x a b, n1 a <= 6 -> n1 b <= 6 ->
  n1 (f0 x a b - (M false false * a + M false true * b))%C <= r * (n1 a + n1 b + g) /\
  n1 (f1 x a b - (M true false * a + M true true * b))%C <= r * (n1 a + n1 b + g).

Lemma controlled_case : forall cs t M psi x, controlled cs t M psi x =
  if forallb (fun c => bit x (N.to_nat c)) cs then ap1 M (N.to_nat t) psi x else psi x.
Proof.
  intros cs t M psi x. unfold controlled. induction cs as [|c l IH]; simpl; [reflexivity|]. unfold ctl at 1. destruct (bit x (N.to_nat c)); simpl; auto.
Qed.
Lemma kernel_nearly : forall n k cs t f0 f1 M r g, kacts n k (pairop_at cs t f0 f1) -> (t < N.of_nat n)%N -> rows f0 f1 M r g -> 0 <= r -> 0 <= g ->
  nearly n (nb_rep n) (g * sqrt (2 ^ n)) (run_kernel k) (controlled cs t M) (3 * r).
Proof.
  intros n k cs t f0 f1 M r g [_ K] T H P G s psi -> W. pose proof (sqrt_pos (2 ^ n)) as SP. assert (0 <= g * sqrt (2 ^ n)) by (apply Rmult_le_pos; auto).
  pose proof (norm_pos n psi) as NP. set (u := N.to_nat t). assert (TL : (u < n)%nat) by (unfold u; lia).
  assert (SM : small n psi) by (intros x L; apply (entry_small n); auto; nra).
  exists (arr n (pairop_at cs t f0 f1 psi)), (pairop_at cs t f0 f1 psi). split; [apply K|]. split; [reflexivity|].
  apply (pair_bound_add n u); auto. intros x L. rewrite controlled_case. unfold pairop_at. fold u.
  pose proof (SM x L) as S1. pose proof (SM _ (flip_lt n x u TL L)) as S2. pose proof (n1_pos (psi x)). pose proof (n1_pos (psi (flip x u))).
  destruct (forallb _ cs); [|rewrite n1_self; apply Rmult_le_pos; lra]. cbv zeta. rewrite ap1_flip. rewrite flip_setb in *.
  destruct (bit x u); cbn [negb] in *.
  - destruct (H x (psi (setb x u false)) (psi x) S2 S1) as [_ E]. rewrite Cadd_comm. rewrite (Rplus_comm (n1 (psi x))). exact E.
  - destruct (H x (psi x) (psi (setb x u true)) S1 S2) as [E _]. exact E.
Qed.
Lemma kacts_nearly : forall n k U r g, kacts n k U -> 0 <= r -> 0 <= g -> nearly n (nb_rep n) g (run_kernel k) U r.
Proof. intros n k U r g [_ H] R G. apply nearly_same; auto. intros s psi ->. exists (arr n (U psi)). split; [apply H|reflexivity]. Qed.

Lemma nb_loop1_nearly : forall n tg l k U e m g, denotes (Z.of_nat n) tg l -> Forall (inside n) l -> 0 <= e -> 0 <= g ->
  (forall t, (t < N.of_nat n)%N -> nearly n (nb_rep n) g (run_kernel (k (N.of_nat n) t)) (U (N.to_nat t)) (cost e m)) -> (forall t, inside n t -> good n (U (Z.to_nat t))) ->
  nearly n (nb_rep n) g (nb_loop1 n tg k) (apply_all (map (fun t => U (Z.to_nat t)) l)) (cost e (m * List.length l)).
Proof.
  intros n tg l k U e m g D F K G H HG s psi R W. unfold nb_loop1, for_gen. apply slicing_iff in D; [|lia]. rewrite D. cbn [yields raised].
  rewrite Forall_forall in F.
  destruct (nearly_for n (nb_rep n) g G Z (fun t a => if in_reg n t then run_kernel (k (N.of_nat n) (Z.to_N t)) a else Err Undefined) (fun t => U (Z.to_nat t)) e m l K) with (s := s) (psi := psi)
    as [s' [phi [E B]]]; auto.
  - intros t I. pose proof (F t I) as Ht. destruct (inside_reg n t Ht) as [RG [L E]]. rewrite RG. split; [rewrite <- E; apply (H (Z.to_N t) L)|apply HG; auto].
  - exists s', phi. rewrite E. auto.
Qed.
Lemma nb_loop2_nearly : forall n tg ps k U e m g, denotes_pairs (Z.of_nat n) tg ps ->
  Forall (fun p => inside n (fst p) /\ inside n (snd p)) ps -> 0 <= e -> 0 <= g ->
  (forall c t, (c < N.of_nat n)%N -> (t < N.of_nat n)%N -> c <> t ->
     exists K, k (N.of_nat n) [c; t] = Ok K /\ nearly n (nb_rep n) g (run_kernel K) (U (N.to_nat c) (N.to_nat t)) (cost e m)) ->
  (forall c t, inside n c -> inside n t -> c <> t -> good n (U (Z.to_nat c) (Z.to_nat t))) ->
  nearly n (nb_rep n) g (nb_loop2 n tg k) (apply_all (map (fun p => U (Z.to_nat (fst p)) (Z.to_nat (snd p))) ps)) (cost e (m * List.length ps)).
Proof.
  intros n tg ps k U e m g D F K G H HG s psi R W. unfold nb_loop2.
  pose proof (proj2 (pairs_iff (Z.of_nat n) tg ps ltac:(lia)) D) as E. rewrite E. cbn [bind].
  destruct D as [a [b [la [lb [_ [_ [_ [_ [_ Hd]]]]]]]]]. rewrite Forall_forall in F, Hd.
  apply (nearly_for n (nb_rep n) g G _ (fun p a => if in_reg n (fst p) && in_reg n (snd p)
    then let* k := k (N.of_nat n) [Z.to_N (fst p); Z.to_N (snd p)] in run_kernel k a else Err Undefined) (fun p => U (Z.to_nat (fst p)) (Z.to_nat (snd p))) e m ps); auto.
  intros p I. destruct (F _ I) as [Hc Ht]. pose proof (Hd _ I) as NE. destruct (inside_reg n _ Hc) as [Rc [Lc Ec]]. destruct (inside_reg n _ Ht) as [Rt [Lt Et]].
  split; [|apply HG; auto]. destruct (H (Z.to_N (fst p)) (Z.to_N (snd p)) Lc Lt) as [K0 [EK N0]].
  { intros X. apply NE. unfold inside in *. lia. }
  intros s0 psi0 R0 W0. rewrite Rc, Rt, EK. cbn [andb bind]. rewrite <- Ec, <- Et. apply N0; auto.
Qed.
Lemma nb_raw_nearly : forall n a b c k U e g, inside n a -> inside n b -> inside n c -> a <> b -> a <> c -> b <> c ->
  (forall x y z, (x < N.of_nat n)%N -> (y < N.of_nat n)%N -> (z < N.of_nat n)%N -> x <> y -> x <> z -> y <> z ->
     exists K, k (N.of_nat n) [x; y; z] = Ok K /\ nearly n (nb_rep n) g (run_kernel K) (U (N.to_nat x) (N.to_nat y) (N.to_nat z)) e) ->
  nearly n (nb_rep n) g (nb_raw n (TTuple [TInt a; TInt b; TInt c]) k) (U (Z.to_nat a) (Z.to_nat b) (Z.to_nat c)) e.
Proof.
  intros n a b c k U e g Ha Hb Hc Hab Hac Hbc H s psi R W. unfold nb_raw, raw_targets. cbn [map_res].
  destruct (inside_reg n _ Ha) as [Ra [La Ea]]. destruct (inside_reg n _ Hb) as [Rb [Lb Eb]]. destruct (inside_reg n _ Hc) as [Rc [Lc Ec]].
  rewrite Ra, Rb, Rc. cbn [bind].
  destruct (H (Z.to_N a) (Z.to_N b) (Z.to_N c) La Lb Lc) as [K [EK A]]; try (unfold inside in *; lia).
  rewrite EK. cbn [bind]. rewrite <- Ea, <- Eb, <- Ec. apply A; auto.
Qed.
