(** The kernels of the numba backend: loops over pairs of indices that differ in the bit of the target. *)
From Coq Require Import List Arith NArith Nnat ZArith Bool Reals Lia Lra Permutation.
Import ListNotations.
From Verif Require Import Base Cplx Bits ModelNumpy ModelNumba SpecQuantum SpecMeasure SpecNumba ProofArray ProofNumpy ProofMeasure
  ProofIndex ProofKernel.
Local Arguments N.pow : simpl never.
Local Arguments N.ones : simpl never.
Local Arguments shl1 : simpl never.

(** ** Bits of N and nat *)
Lemma bit_to_nat : forall x b, bit (N.to_nat x) b = N.testbit x (N.of_nat b).
Proof.
  intros. rewrite Nat.testbit_eqb, N.testbit_eqb.
  rewrite <- (Nat2N.id b) at 1. change 2 with (N.to_nat 2). rewrite <- N2Nat.inj_pow, <- N2Nat.inj_div, <- N2Nat.inj_mod.
  change 1 with (N.to_nat 1). rewrite to_nat_eqb. reflexivity.
Qed.
Lemma to_nat_lt : forall n x, (x < 2 ^ N.of_nat n)%N <-> N.to_nat x < 2 ^ n.
Proof.
  intros. change 2 with (N.to_nat 2). rewrite <- (Nat2N.id n) at 2. rewrite <- N2Nat.inj_pow. lia.
Qed.
Lemma bit_of_N : forall x b, N.testbit x b = bit (N.to_nat x) (N.to_nat b).
Proof. intros. rewrite bit_to_nat, N2Nat.id. reflexivity. Qed.

(** ** Bodies of loops *)
Lemma load_arr : forall n psi i, N.to_nat i < 2 ^ n -> load (arr n psi) i = Ok (psi (N.to_nat i)).
Proof.
  intros n psi i H. unfold load. destruct (nth_error (arr n psi) (N.to_nat i)) as [v|] eqn:E.
  - apply nth_error_nth with (d := C0) in E. rewrite arr_nth in E by auto. congruence.
  - apply nth_error_None in E. rewrite arr_length in E. lia.
Qed.
Lemma cell_arr : forall n psi i, N.to_nat i < 2 ^ n -> cell (arr n psi) i = Some (psi (N.to_nat i)).
Proof. intros n psi i H. pose proof (load_arr n psi i H) as E. unfold load, cell in *. destruct (nth_error _ _); congruence. Qed.
Lemma store_arr : forall n psi i v, N.to_nat i < 2 ^ n -> store (arr n psi) i v = Ok (arr n (update psi (N.to_nat i) v)).
Proof.
  intros n psi i v H. unfold store.
  destruct (list_set_ok C (arr n psi) (N.to_nat i) v) as [a' [E [L Hn]]]; [rewrite arr_length; auto|].
  rewrite E. f_equal. apply nth_error_ext. intros j. rewrite Hn. destruct (Nat.ltb_spec j (2 ^ n)) as [Hj|Hj].
  - rewrite <- (Nat2N.id j). change (nth_error (arr n psi)) with (fun k => nth_error (arr n psi) k).
    pose proof (cell_arr n (update psi (N.to_nat i) v) (N.of_nat j) ltac:(rewrite Nat2N.id; auto)) as E1.
    pose proof (cell_arr n psi (N.of_nat j) ltac:(rewrite Nat2N.id; auto)) as E2. unfold cell in E1, E2. cbv beta.
    rewrite E1, E2. unfold update. rewrite !Nat2N.id. destruct (j =? N.to_nat i); reflexivity.
  - destruct (Nat.eqb_spec j (N.to_nat i)); [lia|].
    rewrite !(proj2 (nth_error_None _ _)); auto; rewrite arr_length; auto.
Qed.

(** the body works on the entries [a] and [b] *)
Definition pair_body (n : nat) (body : list instr) (a b : N) (f0 f1 : C -> C -> C) : Prop :=
  (forall y, In y (map addr body) -> y = a \/ y = b) /\
  forall psi : state, exists phi : state, exec_body body (arr n psi) = Ok (arr n phi) /\
    phi (N.to_nat a) = f0 (psi (N.to_nat a)) (psi (N.to_nat b)) /\ phi (N.to_nat b) = f1 (psi (N.to_nat a)) (psi (N.to_nat b)).

(** the functions may depend on the index of the entry they compute *)
Definition pairop_at (cs : list N) (t : N) (f0 f1 : nat -> C -> C -> C) (psi : state) : state := fun x =>
  if forallb (fun c => bit x (N.to_nat c)) cs then
    let t := N.to_nat t in
    if bit x t then f1 x (psi (setb x t false)) (psi x) else f0 x (psi x) (psi (setb x t true))
  else psi x.
Definition pairop (cs : list N) (t : N) (f0 f1 : C -> C -> C) (psi : state) : state := fun x =>
  if forallb (fun c => bit x (N.to_nat c)) cs then
    let t := N.to_nat t in
    if bit x t then f1 (psi (setb x t false)) (psi x) else f0 (psi x) (psi (setb x t true))
  else psi x.

Section Pair.
Variable n : nat.
Variables (cs : list N) (t : N) (qs : list N) (cnt : N) (e : N -> N) (cm : N).
Hypothesis Hcs : forall c, In c cs -> (c < N.of_nat n)%N.
Hypothesis Ht : (t < N.of_nat n)%N.
Hypothesis Htc : ~ In t cs.
Hypothesis Hqs : forall q, In q qs <-> In q cs \/ q = t.
Hypothesis Hv : visits_once (N.of_nat n) qs cnt e.
Hypothesis Hcm : forall b, N.testbit cm b = mem b cs.

Definition p0 (i : N) : N := N.lor (e i) cm.
Definition p1 (i : N) : N := N.lor (p0 i) (2 ^ t).

Lemma e_spec : forall i, (i < cnt)%N -> (e i < 2 ^ N.of_nat n)%N /\ forall q, In q cs \/ q = t -> N.testbit (e i) q = false.
Proof.
  intros i Hi. destruct (visits_elim _ _ _ _ Hv) as [H _]. destruct (H i Hi) as [A B]. split; auto. intros q Hq. apply B. apply Hqs; auto.
Qed.
Lemma p0_bits : forall i b, N.testbit (p0 i) b = N.testbit (e i) b || mem b cs.
Proof. intros. unfold p0. rewrite N.lor_spec, Hcm. reflexivity. Qed.
Lemma p1_bits : forall i b, N.testbit (p1 i) b = N.testbit (e i) b || mem b cs || (b =? t)%N.
Proof. intros. unfold p1. rewrite N.lor_spec, p0_bits, pow_bits. reflexivity. Qed.
Lemma mem_false : forall b, ~ In b cs -> mem b cs = false.
Proof. intros b H. destruct (mem b cs) eqn:E; auto. apply mem_in in E. contradiction. Qed.

Lemma p1_lt : forall i, (i < cnt)%N -> (p1 i < 2 ^ N.of_nat n)%N.
Proof.
  intros i Hi. destruct (e_spec i Hi) as [L _]. rewrite ltN_bits in *. intros b Hb. rewrite p1_bits, L, mem_false by (auto; intros I; apply Hcs in I; lia).
  simpl. apply N.eqb_neq. lia.
Qed.
Lemma p0_lt : forall i, (i < cnt)%N -> (p0 i < 2 ^ N.of_nat n)%N.
Proof.
  intros i Hi. destruct (e_spec i Hi) as [L _]. rewrite ltN_bits in *. intros b Hb. rewrite p0_bits, L, mem_false by (auto; intros I; apply Hcs in I; lia).
  reflexivity.
Qed.
Lemma p0_clear : forall i, (i < cnt)%N -> N.ldiff (p0 i) (N.lor cm (2 ^ t)) = e i.
Proof.
  intros i Hi. destruct (e_spec i Hi) as [_ Z]. apply N.bits_inj. intro b. rewrite N.ldiff_spec, N.lor_spec, p0_bits, Hcm, pow_bits.
  destruct (mem b cs) eqn:M.
  - apply mem_in in M. rewrite Z by auto. reflexivity.
  - destruct (N.eqb_spec b t) as [->|]; simpl; [rewrite Z by auto; reflexivity|]. rewrite orb_false_r, andb_true_r. reflexivity.
Qed.
Lemma p1_clear : forall i, (i < cnt)%N -> N.ldiff (p1 i) (N.lor cm (2 ^ t)) = e i.
Proof.
  intros i Hi. destruct (e_spec i Hi) as [_ Z]. apply N.bits_inj. intro b. rewrite N.ldiff_spec, N.lor_spec, p1_bits, Hcm, pow_bits.
  destruct (mem b cs) eqn:M.
  - apply mem_in in M. rewrite Z by auto. apply andb_false_r.
  - destruct (N.eqb_spec b t) as [->|]; simpl; [rewrite Z by auto; reflexivity|]. rewrite !orb_false_r, andb_true_r. reflexivity.
Qed.
Lemma p_bit_t : forall i, (i < cnt)%N -> N.testbit (p0 i) t = false /\ N.testbit (p1 i) t = true.
Proof.
  intros i Hi. destruct (e_spec i Hi) as [_ Z]. rewrite p0_bits, p1_bits, Z, mem_false, N.eqb_refl by auto. auto.
Qed.
Lemma p_ne : forall i, (i < cnt)%N -> p0 i <> p1 i.
Proof. intros i Hi E. destruct (p_bit_t i Hi) as [A B]. congruence. Qed.
Lemma p_bit_c : forall i c, In c cs -> N.testbit (p0 i) c = true /\ N.testbit (p1 i) c = true.
Proof. intros i c Hc. apply mem_in in Hc. rewrite p0_bits, p1_bits, Hc. simpl. rewrite !orb_true_r. auto. Qed.

Lemma to_nat_p1 : forall i, (i < cnt)%N -> N.to_nat (p1 i) = setb (N.to_nat (p0 i)) (N.to_nat t) true.
Proof.
  intros i Hi. apply Nat.bits_inj. intro b. change (Nat.testbit ?x ?y) with (bit x y). rewrite testbit_setb, !bit_to_nat, p1_bits, p0_bits.
  destruct (Nat.eqb_spec (N.to_nat t) b) as [<-|Hb].
  - rewrite N2Nat.id, N.eqb_refl. apply orb_true_r.
  - destruct (N.eqb_spec (N.of_nat b) t); [subst; rewrite Nat2N.id in Hb; congruence|]. apply orb_false_r.
Qed.
Lemma to_nat_p0 : forall i, (i < cnt)%N -> N.to_nat (p0 i) = setb (N.to_nat (p1 i)) (N.to_nat t) false.
Proof.
  intros i Hi. rewrite to_nat_p1 by auto. rewrite setb_setb. symmetry. apply setb_same. rewrite bit_to_nat, N2Nat.id. apply p_bit_t; auto.
Qed.

(** every index with the control bits set belongs to an iteration *)
Lemma p_cover : forall x, x < 2 ^ n -> forallb (fun c => bit x (N.to_nat c)) cs = true ->
  exists i, (i < cnt)%N /\ (if bit x (N.to_nat t) then N.to_nat (p1 i) = x else N.to_nat (p0 i) = x).
Proof.
  intros x Hx Hc. rewrite forallb_forall in Hc.
  set (y := N.ldiff (N.of_nat x) (N.lor cm (2 ^ t))).
  assert (Yb : forall b, N.testbit y b = bit x (N.to_nat b) && negb (mem b cs || (b =? t)%N)).
  { intros b. unfold y. rewrite N.ldiff_spec, N.lor_spec, Hcm, pow_bits, bit_of_N, Nat2N.id. reflexivity. }
  destruct (visits_elim _ _ _ _ Hv) as [_ [_ H]]. destruct (H y) as [i [Hi E]].
  - apply ltN_bits. intros b Hb. rewrite Yb. rewrite (proj1 (lt_pow2_bits n x) Hx) by lia. reflexivity.
  - intros q Hq. rewrite Yb. apply Hqs in Hq. destruct Hq as [Hq| ->].
    + apply mem_in in Hq. rewrite Hq. apply andb_false_r.
    + rewrite N.eqb_refl, orb_true_r. apply andb_false_r.
  - exists i. split; auto. destruct (bit x (N.to_nat t)) eqn:Bt; apply Nat.bits_inj; intro b;
      change (bit (N.to_nat (if true then p1 i else p0 i)) b = bit x b) || change (bit (N.to_nat (if false then p1 i else p0 i)) b = bit x b);
      rewrite bit_to_nat, ?p1_bits, ?p0_bits, E, Yb, Nat2N.id.
    + destruct (mem (N.of_nat b) cs) eqn:M.
      * apply mem_in in M. apply Hc in M. rewrite Nat2N.id in M. rewrite M. rewrite orb_true_r. reflexivity.
      * simpl. destruct (N.eqb_spec (N.of_nat b) t) as [<-|]; [rewrite Nat2N.id in Bt; rewrite Bt; reflexivity|].
        rewrite !orb_false_r. apply andb_true_r.
    + destruct (mem (N.of_nat b) cs) eqn:M.
      * apply mem_in in M. apply Hc in M. rewrite Nat2N.id in M. rewrite M. apply orb_true_r.
      * simpl. destruct (N.eqb_spec (N.of_nat b) t) as [<-|]; [rewrite Nat2N.id in Bt; rewrite Bt; reflexivity|].
        simpl. rewrite !orb_false_r. apply andb_true_r.
Qed.

Variables (k : kernel) (f0 f1 : nat -> C -> C -> C).
Hypothesis Hk : k_count k = cnt.
Hypothesis Hbody : forall i, (i < cnt)%N -> pair_body n (k_body k i) (p0 i) (p1 i) (f0 (N.to_nat (p0 i))) (f1 (N.to_nat (p1 i))).

Lemma in_its : forall i, In i (iterations k) <-> (i < cnt)%N.
Proof. intros. unfold iterations. rewrite Hk. apply in_range. Qed.

Lemma pair_safe_at : safe k (2 ^ n).
Proof.
  split.
  - intros i x Hi Hx. apply in_its in Hi. apply to_nat_lt. destruct (proj1 (Hbody i Hi) x Hx) as [->| ->]; [apply p0_lt|apply p1_lt]; auto.
  - intros i j x Hi Hj Hx Hx'. apply in_its in Hi, Hj. destruct (visits_elim _ _ _ _ Hv) as [_ [Inj _]]. apply Inj; auto.
    transitivity (N.ldiff x (N.lor cm (2 ^ t))).
    + destruct (proj1 (Hbody i Hi) x Hx) as [->| ->]; [rewrite p0_clear|rewrite p1_clear]; auto.
    + destruct (proj1 (Hbody j Hj) x Hx') as [->| ->]; [rewrite p0_clear|rewrite p1_clear]; auto.
Qed.

Lemma pair_run_at : forall psi, run_kernel k (arr n psi) = Ok (arr n (pairop_at cs t f0 f1 psi)).
Proof.
  intros psi. pose proof pair_safe_at as S. rewrite <- (arr_length n psi) in S.
  destruct (kernel_final k (arr n psi) S) as [a' [E [L [F U]]]]. rewrite E. f_equal.
  rewrite arr_length in L. rewrite (arr_of_list n a' L). apply arr_ext. intros x Hx.
  set (X := N.of_nat x). assert (HX : N.to_nat X = x) by apply Nat2N.id.
  assert (N1 : forall v, cell a' X = Some v -> nth x a' C0 = v).
  { intros v Hc. apply nth_error_nth. unfold cell in Hc. rewrite HX in Hc. exact Hc. }
  apply N1. unfold pairop_at.
  destruct (forallb (fun c => bit x (N.to_nat c)) cs) eqn:Hc.
  - destruct (p_cover x Hx Hc) as [i [Hi Ei]].
    assert (Hi' : In i (iterations k)) by (apply in_its; auto).
    destruct (Hbody i Hi) as [Hfp Hb]. destruct (Hb psi) as [phi [Eb [P0 P1]]].
    destruct (F i Hi') as [b [Eb' Cb]]. rewrite Eb in Eb'. injection Eb' as <-.
    assert (V : phi x = if bit x (N.to_nat t) then f1 x (psi (setb x (N.to_nat t) false)) (psi x) else f0 x (psi x) (psi (setb x (N.to_nat t) true))).
    { destruct (bit x (N.to_nat t)).
      - rewrite <- Ei, <- to_nat_p0 by auto. exact P1.
      - rewrite <- Ei, <- to_nat_p1 by auto. exact P0. }
    cbv zeta. rewrite <- V.
    destruct (in_dec N.eq_dec X (fp k i)) as [I|I].
    + rewrite Cb by auto. rewrite cell_arr; rewrite HX; auto.
    + assert (Ux : forall j, In j (iterations k) -> ~ In X (fp k j)).
      { intros j Hj Ij. apply in_its in Hj. destruct (visits_elim _ _ _ _ Hv) as [_ [Inj _]].
        assert (j = i); [|congruence]. apply Inj; auto.
        transitivity (N.ldiff X (N.lor cm (2 ^ t))).
        - destruct (proj1 (Hbody j Hj) X Ij) as [->| ->]; [rewrite p0_clear|rewrite p1_clear]; auto.
        - assert (EX : X = if bit x (N.to_nat t) then p1 i else p0 i).
          { destruct (bit x (N.to_nat t)); apply N2Nat.inj; rewrite HX; auto. }
          rewrite EX. destruct (bit x (N.to_nat t)); [rewrite p1_clear|rewrite p0_clear]; auto. }
      rewrite U by exact Ux.
      destruct (exec_list_ok (k_body k i) (arr n psi) no_regs) as [c [rg [Ec [Lc [Uc _]]]]].
      { intros y Hy. eapply (proj1 S); eauto. }
      unfold exec_body in Eb. rewrite Ec in Eb. simpl in Eb. injection Eb as ->.
      rewrite <- Uc by exact I. rewrite cell_arr; rewrite HX; auto.
  - rewrite U.
    + rewrite cell_arr; rewrite HX; auto.
    + intros i Hi I. apply in_its in Hi.
      assert (T : forallb (fun c => bit x (N.to_nat c)) cs = true); [|congruence].
      apply forallb_forall. intros c Ic. rewrite <- HX, <- bit_of_N.
      destruct (proj1 (Hbody i Hi) X I) as [->| ->]; apply p_bit_c; auto.
Qed.
End Pair.

Lemma pair_safe : forall n cs t qs cnt e cm, (forall c, In c cs -> (c < N.of_nat n)%N) -> (t < N.of_nat n)%N -> ~ In t cs ->
  (forall q, In q qs <-> In q cs \/ q = t) -> visits_once (N.of_nat n) qs cnt e -> (forall b, N.testbit cm b = mem b cs) ->
  forall k f0 f1, k_count k = cnt -> (forall i, (i < cnt)%N -> pair_body n (k_body k i) (p0 e cm i) (p1 t e cm i) f0 f1) -> safe k (2 ^ n).
Proof. intros. apply (pair_safe_at n cs t qs cnt e cm) with (f0 := fun _ => f0) (f1 := fun _ => f1); auto. Qed.
Lemma pair_run : forall n cs t qs cnt e cm, (forall c, In c cs -> (c < N.of_nat n)%N) -> (t < N.of_nat n)%N -> ~ In t cs ->
  (forall q, In q qs <-> In q cs \/ q = t) -> visits_once (N.of_nat n) qs cnt e -> (forall b, N.testbit cm b = mem b cs) ->
  forall k f0 f1, k_count k = cnt -> (forall i, (i < cnt)%N -> pair_body n (k_body k i) (p0 e cm i) (p1 t e cm i) f0 f1) ->
  forall psi, run_kernel k (arr n psi) = Ok (arr n (pairop cs t f0 f1 psi)).
Proof. intros. apply (pair_run_at n cs t qs cnt e cm) with (f0 := fun _ => f0) (f1 := fun _ => f1); auto. Qed.

(** ** The shapes of bodies *)
Section Bodies.
Variables (n : nat) (a b : N).
Hypothesis Ha : N.to_nat a < 2 ^ n.
Hypothesis Hb : N.to_nat b < 2 ^ n.
Hypothesis Hab : a <> b.

Lemma nab : N.to_nat a <> N.to_nat b.
Proof. intros E. apply Hab, N2Nat.inj, E. Qed.

Ltac body := split; [simpl; intuition auto|]; intros psi; eexists; unfold exec_body;
  repeat (cbn [app scale_at for_list exec_instr bind fst]; rewrite ?load_arr, ?store_arr by assumption);
  cbn [app scale_at for_list exec_instr bind fst];
  split; [reflexivity|]; unfold set_reg, update; cbn [Nat.eqb];
  rewrite ?Nat.eqb_refl, ?(proj2 (Nat.eqb_neq _ _) nab), ?(proj2 (Nat.eqb_neq _ _) (not_eq_sym nab)), ?Nat.eqb_refl; split.

Lemma body_swap : forall g0 g1 : (nat -> C) -> C, (forall r r', r 0 = r' 0 -> r 1 = r' 1 -> g0 r = g0 r' /\ g1 r = g1 r') ->
  pair_body n [Load 0 a; Load 1 b; Store a g0; Store b g1] a b
    (fun x y => g0 (fun r => if r =? 0 then x else y)) (fun x y => g1 (fun r => if r =? 0 then x else y)).
Proof. intros g0 g1 E. body; apply E; reflexivity. Qed.
Lemma body_scale1 : forall f, pair_body n (scale_at b f) a b (fun x _ => x) (fun _ y => y * f)%C.
Proof. intros f. body; reflexivity. Qed.
Lemma body_scale01 : forall f g, pair_body n (scale_at a f ++ scale_at b g) a b (fun x _ => x * f)%C (fun _ y => y * g)%C.
Proof. intros f g. body; reflexivity. Qed.
Lemma body_rz : forall f g, pair_body n ([Load 0 a; Load 1 b] ++ scale_at a f ++ scale_at b g) a b (fun x _ => x * f)%C (fun _ y => y * g)%C.
Proof. intros f g. body; reflexivity. Qed.
Lemma body_reduce0 : forall f, pair_body n (scale_at a f ++ [Store b (fun _ => C0)]) a b (fun x _ => x * f)%C (fun _ _ => C0).
Proof. intros f. body; reflexivity. Qed.
Lemma body_reduce1 : forall f, pair_body n (scale_at b f ++ [Store a (fun _ => C0)]) a b (fun _ _ => C0) (fun _ y => y * f)%C.
Proof. intros f. body; reflexivity. Qed.
Lemma body_reset1 : forall f, pair_body n [Load 0 b; Store a (fun r => r 0 * f)%C; Store b (fun _ => C0)] a b (fun _ y => y * f)%C (fun _ _ => C0).
Proof. intros f. body; reflexivity. Qed.
End Bodies.
