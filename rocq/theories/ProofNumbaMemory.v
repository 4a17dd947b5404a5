From Coq Require Import List Arith ZArith Bool String Reals Lia Permutation.
Import ListNotations.
From Verif Require Import Base Cplx ModelTargets ModelGate ModelNumpy ModelNumba ModelCircuit ModelMemory ModelNumbaMemory SpecNumbaMemory ProofAPI ProofMemory.
Local Open Scope nat_scope.

Lemma fill_length : forall m l v, List.length (fill m l v) = List.length m.
Proof. intros. apply put_length. Qed.
Lemma put_nth : forall A (m : list A) l v d, l < List.length m -> nth l (put m l v) d = v.
Proof. induction m; intros [|l] v d H; simpl in *; try lia; auto. apply IHm. lia. Qed.
Lemma put_other : forall A (m : list A) l k v d, l <> k -> nth k (put m l v) d = nth k m d.
Proof. induction m; intros [|l] [|k] v d H; simpl; auto; try congruence. Qed.
Lemma arr_fill_eq : forall m l v, l < List.length m -> arr (fill m l v) l = (fst (arr m l), v).
Proof. intros. apply put_nth. auto. Qed.
Lemma arr_fill_neq : forall m l k v, l <> k -> arr (fill m l v) k = arr m k.
Proof. intros. apply put_other. auto. Qed.
Lemma arr_app : forall m v l, l < List.length m -> arr (m ++ v) l = arr m l.
Proof. intros. unfold arr. apply app_nth1. auto. Qed.
Lemma arr_new : forall m v, arr (m ++ [v]) (List.length m) = v.
Proof. intros. unfold arr. rewrite app_nth2 by lia. rewrite Nat.sub_diag. reflexivity. Qed.
Lemma dtype_eqb_true : forall a b, dtype_eqb a b = true <-> a = b.
Proof. intros [|] [|]; split; simpl; congruence. Qed.

(** ** One run: the array [M] of dtype [dt] is its own *)
Definition keep (M : nat) (m m' : nmem) : Prop :=
  List.length m <= List.length m' /\ forall l, l < List.length m -> l <> M -> arr m' l = arr m l.
Lemma keep_refl : forall M m, keep M m m.
Proof. split; auto. Qed.
Lemma keep_trans : forall M a b c, keep M a b -> keep M b c -> keep M a c.
Proof. intros M a b c [L1 F1] [L2 F2]. split; [lia|]. intros l H N1. rewrite F2 by (auto; lia). apply F1; auto. Qed.
Lemma keep_fill : forall M m v, keep M m (fill m M v).
Proof. intros. split; [rewrite fill_length; lia|]. intros. apply arr_fill_neq. auto. Qed.
Lemma keep_app : forall M m v, keep M m (m ++ v).
Proof. intros. split; [rewrite app_length; lia|]. intros. apply arr_app. auto. Qed.

Section Random.
Variable rng : nat -> R.
Section Run.
Variables (mine : list nat) (dt : dtype) (M : nat).
Hypothesis below : forall l, In l mine -> l < M.

Definition good (c : nctx) (m : nmem) : Prop := nx_q c = M /\ M < List.length m /\ fst (arr m M) = dt.
Definition sim_cache (own : list nat) (t : dtype) (m : nmem) (b : mback) (v : backend) : Prop :=
  mb_idx b = b_idx v /\
  match mb_cache b, b_cache v with
  | None, None => True
  | Some l, Some a => l < List.length m /\ ~ In l own /\ arr m l = (t, a)
  | _, _ => False
  end.
Definition sim (m0 : nmem) (r : nmres) (v : nres) : Prop :=
  match r, v with
  | NMOk c b m, NOk x w => good c m /\ nview c m = x /\ keep M m0 m /\ sim_cache (M :: mine) dt m b w
  | NMErr e p b m, NErr e' p' w => e = e' /\ p = p' /\ keep M m0 m /\ sim_cache (M :: mine) dt m b w
  | _, _ => False
  end.
Lemma sim_shift1 : forall m m' r v, keep M m m' -> sim m' r v -> sim m r v.
Proof.
  intros m m' [c b w|e p b w] [x v|e' p' v] O; simpl; auto; intros (A & B & F & G); split; auto; split; auto; split; auto; apply (keep_trans _ _ _ _ O F).
Qed.
Lemma cache_keep : forall m m' b v, keep M m m' -> sim_cache (M :: mine) dt m b v -> sim_cache (M :: mine) dt m' b v.
Proof.
  intros m m' b v [L F] [E H]. split; auto. destruct (mb_cache b) as [l|]; destruct (b_cache v); auto.
  destruct H as (A & B & <-). repeat split; auto; [lia|]. apply F; auto; intros ->; apply B; simpl; auto.
Qed.
Lemma good_fill : forall c m v, good c m -> good c (fill m (nx_q c) v).
Proof. intros c m v (A & B & C). rewrite A. split; auto. rewrite fill_length. split; auto. rewrite arr_fill_eq by auto. exact C. Qed.
Lemma good_app : forall c m v, good c m -> good c (m ++ v).
Proof. intros c m v (A & B & C). split; auto. rewrite app_length. split; [lia|]. rewrite arr_app by auto. exact C. Qed.
Lemma view_app : forall c m v, good c m -> nview c (m ++ v) = nview c m.
Proof. intros c m v (A & B & C). unfold nview. rewrite A. rewrite arr_app by auto. reflexivity. Qed.
Lemma view_fill : forall c m v, good c m -> nview c (fill m (nx_q c) v) = set_bufs (nview c m) (v, []).
Proof. intros c m v (A & B & C). unfold nview, set_bufs. cbn. rewrite A. rewrite arr_fill_eq by auto. reflexivity. Qed.
Lemma cache_fill : forall c m v b w, good c m -> sim_cache (M :: mine) dt m b w -> sim_cache (M :: mine) dt (fill m (nx_q c) v) b w.
Proof. intros c m v b w (A & _) H. rewrite A. eapply cache_keep; [apply keep_fill|exact H]. Qed.
Lemma fresh_cache : forall c m i, good c m -> sim_cache (M :: mine) dt (m ++ [arr m (nx_q c)]) (MBack (Some (List.length m)) i) (Backend (Some (snd (arr m (nx_q c)))) i).
Proof.
  intros c m i (A & B & C). split; auto. cbn [mb_cache b_cache]. rewrite app_length. cbn [List.length]. split; [lia|]. split.
  - intros [K|K]; [lia|]. apply below in K. lia.
  - rewrite arr_new. rewrite A. rewrite <- C. destruct (arr m M). reflexivity.
Qed.

Lemma ncollapse_sim : forall step tg c b m v, good c m -> sim_cache (M :: mine) dt m b v ->
  sim m (nm_collapse step tg c b m) (nb_collapse step tg (nview c m) v).
Proof.
  intros step tg c b m v G B. unfold nm_collapse, nb_collapse. cbv zeta.
  change (x_save (nview c m)) with (nx_save c). change (x_n (nview c m)) with (nx_n c).
  change (x_cregs (nview c m)) with (nx_cregs c). change (x_pos (nview c m)) with (nx_pos c). change (x_buf (nview c m)) with (@nil C).
  change (x_shots (nview c m)) with (nx_shots c). change (x_qubits (nview c m)) with (snd (arr m (nx_q c))).
  set (p := if nx_save c then let (l, m0) := alloc m (arr m (nx_q c)) in (MBack (Some l) (mb_idx b), m0) else (b, m)).
  set (w := if nx_save c then Backend (Some (snd (arr m (nx_q c)))) (b_idx v) else v).
  assert (P : good c (snd p) /\ arr (snd p) (nx_q c) = arr m (nx_q c) /\ keep M m (snd p) /\ sim_cache (M :: mine) dt (snd p) (fst p) w).
  { unfold p, w. destruct (nx_save c); cbn [alloc fst snd].
    - split; [apply good_app; auto|]. split; [apply arr_app; destruct G as (-> & L & _); auto|]. split; [apply keep_app|].
      destruct B as [<- _]. apply fresh_cache. exact G.
    - split; auto. split; auto. split; [apply keep_refl|exact B]. }
  destruct p as [b1 m1]. clearbody w. cbn [fst snd] in P. destruct P as (G1 & <- & K1 & B1).
  destruct (loop_state _ _ _) as [[[q cr] pos] e].
  assert (K2 : keep M m (fill m1 (nx_q c) q)). { apply (keep_trans _ _ _ _ K1). destruct G1 as (-> & _). apply keep_fill. }
  assert (B2 := cache_fill c m1 q b1 w G1 B1).
  destruct e as [e|]; [cbn; repeat split; auto; apply K2 || apply B2|].
  destruct (raised _) as [e|]; [cbn; repeat split; auto; apply K2 || apply B2|].
  cbn [sim]. split; [exact (good_fill c m1 q G1)|]. split; [|split; auto].
  unfold nview. cbn [nx_n nx_q nx_save nx_shots nx_cregs nx_pos]. destruct G1 as (E & L & _). rewrite E. rewrite arr_fill_eq by auto. reflexivity.
Qed.

Lemma naction_sim : forall g n, match nm_action rng g n, nb_action rng g n with
  | Some F, Some f => forall c b m v, good c m -> sim_cache (M :: mine) dt m b v -> sim m (F c b m) (f (nview c m) v)
  | None, None => True | _, _ => False end.
Proof.
  intros g n. destruct g as [k tg|k tg|k tg|tg|tg]; cbn [nm_action nb_action].
  4,5: intros; apply ncollapse_sim; auto.
  all: destruct (nb_unitary _ n) as [f|]; auto; intros c b m v G B; change (x_qubits (nview c m)) with (snd (arr m (nx_q c)));
    destruct (f (snd (arr m (nx_q c)))) as [a|e]; cbn [sim];
    [split; [apply good_fill; exact G|]; split; [apply view_fill; exact G|]; split; [destruct G as (-> & _); apply keep_fill|apply cache_fill; auto]
    |repeat split; auto; apply B].
Qed.

Lemma nlist_sim : forall F f l, (forall g c b m v, good c m -> sim_cache (M :: mine) dt m b v -> sim m (F g c b m) (f g (nview c m) v)) ->
  forall c b m v, good c m -> sim_cache (M :: mine) dt m b v -> sim m (nm_run_list F l c b m) (nb_run_list f l (nview c m) v).
Proof.
  intros F f l K. induction l as [|g l IH]; intros c b m v G B; cbn [nm_run_list nb_run_list].
  - simpl. repeat split; auto; try apply G; apply B.
  - generalize (K g c b m v G B). destruct (F g c b m) as [c1 b1 m1|e p b1 m1]; destruct (f g (nview c m) v) as [x w|e' p' w]; cbn [sim]; try tauto.
    intros (G1 & <- & H & B1). apply (sim_shift1 m m1); auto.
Qed.
Lemma nsingle_sim : forall fuel g c b m v, good c m -> sim_cache (M :: mine) dt m b v ->
  sim m (nm_run_single rng fuel g c b m) (nb_run_single rng fuel g (nview c m) v).
Proof.
  assert (Hd : forall fuel g c b m v, good c m -> sim_cache (M :: mine) dt m b v ->
    (forall f, fuel = S f -> forall g c b m v, good c m -> sim_cache (M :: mine) dt m b v -> sim m (nm_run_single rng f g c b m) (nb_run_single rng f g (nview c m) v)) ->
    sim m (nm_run_single rng fuel g c b m) (nb_run_single rng fuel g (nview c m) v)).
  { intros fuel g c b m v G B IH. generalize (naction_sim g (nx_n c)).
    destruct fuel as [|fuel]; cbn [nm_run_single nb_run_single]; change (x_n (nview c m)) with (nx_n c);
      destruct (nm_action rng g (nx_n c)) as [F|]; destruct (nb_action rng g (nx_n c)) as [f|]; try tauto; auto; intros _.
    - simpl. repeat split; auto; apply B.
    - destruct (fallback g (Z.of_nat (nx_n c))) as [gs|e].
      + apply nlist_sim; auto.
      + simpl. repeat split; auto; apply B. }
  induction fuel; intros; apply Hd; auto; intros f E; [discriminate|]. injection E as <-. auto.
Qed.
Lemma ngates_sim : forall gs c b m v i, good c m -> sim_cache (M :: mine) dt m b v ->
  let (r, j) := nm_run_gates rng gs c b m i in let (x, j') := nb_run_gates rng gs (nview c m) v i in j = j' /\ sim m r x.
Proof.
  induction gs as [|g gs IH]; intros c b m v i G B; cbn [nm_run_gates nb_run_gates].
  - simpl. repeat split; auto; try apply G; apply B.
  - generalize (nsingle_sim recursion_limit g c b m v G B).
    destruct (nm_run_single rng recursion_limit g c b m) as [c1 b1 m1|e p b1 m1]; destruct (nb_run_single rng recursion_limit g (nview c m) v) as [x w|e' p' w]; cbn [sim]; try tauto.
    intros (G1 & <- & H & B1). change (x_save (nview c1 m1)) with (nx_save c1).
    specialize (IH c1 b1 m1 w (if nx_save c1 then i + 1 else i)%Z G1 B1).
    destruct (nm_run_gates rng gs c1 b1 m1 _) as [r j]. destruct (nb_run_gates rng gs (nview c1 m1) w _) as [x j']. destruct IH as [-> S1]. split; auto.
    apply (sim_shift1 m m1); auto.
Qed.
Lemma nprepare_sim : forall c m b v, good c m -> sim_cache (M :: mine) dt m b v ->
  let (c', m') := nm_prepare c (mb_cache b) m in good c' m' /\ nview c' m' = prepare (nview c m) (b_cache v) /\ keep M m m' /\ sim_cache (M :: mine) dt m' b v.
Proof.
  intros c m b v G B. unfold nm_prepare. set (w := match mb_cache b with Some l => snd (arr m l) | None => basis0 (nx_n c) end).
  assert (W : w = match b_cache v with Some a => a | None => basis0 (nx_n c) end).
  { unfold w. destruct B as [_ B]. destruct (mb_cache b); destruct (b_cache v); try tauto. destruct B as (_ & _ & ->). reflexivity. }
  split; [exact (good_fill c m w G)|]. split; [|split; [destruct G as (-> & _); apply keep_fill|apply cache_fill; auto]].
  unfold nview, prepare. cbn. rewrite <- W. destruct G as (-> & L & _). rewrite arr_fill_eq by auto. reflexivity.
Qed.

Lemma nshots_sim : forall k gs c b m v, good c m -> sim_cache (M :: mine) dt m b v ->
  sim m (nm_shots rng k gs c b m) (nb_shots rng k gs (nview c m) v).
Proof.
  induction k as [|k IH]; intros gs c b m v G B; cbn [nm_shots nb_shots].
  - simpl. repeat split; auto; try apply G; apply B.
  - generalize (nprepare_sim c m b v G B). destruct (nm_prepare c (mb_cache b) m) as [c1 m1]. intros (G1 & <- & H1 & B1). cbv zeta.
    replace (b_idx v) with (mb_idx b) by apply B.
    generalize (ngates_sim (skipn (Z.to_nat (mb_idx b + 1)) gs) c1 b m1 v (mb_idx b) G1 B1).
    destruct (nm_run_gates rng _ c1 b m1 _) as [r j]. destruct (nb_run_gates rng _ (nview c1 m1) v _) as [x j']. intros [<- S1].
    destruct r as [c2 b2 m2|e p b2 m2]; destruct x as [x w|e' p' w]; cbn [sim] in S1; try tauto.
    2:{ destruct S1 as (-> & -> & H2 & B2). cbn. repeat split; auto; [apply (keep_trans _ _ _ _ H1 H2)|apply (keep_trans _ _ _ _ H1 H2)|apply B2|apply B2]. }
    destruct S1 as (G2 & <- & H2 & B2).
    change (x_save (nview c2 m2)) with (nx_save c2). change (x_qubits (nview c2 m2)) with (snd (arr m2 (nx_q c2))). change (x_cregs (nview c2 m2)) with (nx_cregs c2).
    replace (b_idx w) with (mb_idx b2) by apply B2.
    set (p := if (mb_idx b2 =? j)%Z then (b2, m2) else if nx_save c2 then let (l, m0) := alloc m2 (arr m2 (nx_q c2)) in (MBack (Some l) j, m0) else (MBack (mb_cache b2) j, m2)).
    set (w' := if (mb_idx b2 =? j)%Z then w else Backend (if nx_save c2 then Some (snd (arr m2 (nx_q c2))) else b_cache w) j).
    assert (P : good c2 (snd p) /\ nview c2 (snd p) = nview c2 m2 /\ keep M m2 (snd p) /\ sim_cache (M :: mine) dt (snd p) (fst p) w').
    { unfold p, w'. destruct (mb_idx b2 =? j)%Z; [cbn; split; [exact G2|split; [reflexivity|split; [apply keep_refl|exact B2]]]|].
      destruct (nx_save c2); cbn [alloc fst snd].
      - split; [apply good_app; auto|]. split; [apply view_app; auto|]. split; [apply keep_app|]. apply fresh_cache. exact G2.
      - split; auto. split; auto. split; [apply keep_refl|]. destruct B2 as [_ B2]. split; auto. }
    destruct p as [b3 m3]. clearbody w'. cbn [fst snd] in P. destruct P as (G3 & <- & K3 & B3).
    assert (E : (match nx_cregs c2 with [] => nview c2 m3 | _ => store_shot (nview c2 m3) end) = nview (match nx_cregs c2 with [] => c2 | _ => nm_store_shot c2 end) m3) by (destruct (nx_cregs c2) eqn:E; unfold store_shot, nview; cbn; rewrite ?E; reflexivity).
    rewrite E. apply (sim_shift1 m m3); [apply (keep_trans _ _ _ _ H1); apply (keep_trans _ _ _ _ H2 K3)|].
    apply IH; auto. destruct (nx_cregs c2); exact G3.
Qed.
End Run.

Definition nkept (m m' : nmem) : Prop := List.length m <= List.length m' /\ forall l, l < List.length m -> arr m' l = arr m l.

Lemma nclear_sim : forall mine m b v t n dt, sim_cache mine t m b v ->
  sim_cache mine dt m (nm_clear_cache_if_invalid b n dt m) (clear_cache_if_invalid (if dtype_eqb t dt then v else new_backend) n).
Proof.
  intros mine m b v t n dt B. unfold nm_clear_cache_if_invalid, clear_cache_if_invalid. generalize B. intros [B0 B2].
  destruct (dtype_eqb t dt) eqn:D; [apply dtype_eqb_true in D; subst t|];
    destruct (mb_cache b) as [l|]; destruct (b_cache v) as [c|]; try tauto; cbn [b_cache new_backend]; try (split; reflexivity).
  - destruct B2 as (_ & _ & ->). cbn [fst snd]. destruct (Nat.eqb _ _); cbn [negb]; [|split; reflexivity].
    replace (dtype_eqb dt dt) with true by (destruct dt; reflexivity). exact B.
  - destruct B2 as (_ & _ & ->). cbn [fst snd]. destruct (Nat.eqb _ _); cbn [negb]; [|split; reflexivity]. rewrite D. split; reflexivity.
Qed.
Lemma nrun_sim : forall mine b gs n dt a pos m v, (forall l, In l mine -> l < List.length m) -> sim_cache mine (snd v) m b (fst v) ->
  let '(r, b', p, m') := nm_run rng b gs n dt a pos m in
  let '(x, v', p') := value_run rng v gs n dt a pos in
  p = p' /\ nkept m m' /\ rmap (nlook m') (rmap BGot r) = x /\
  (forall l, In l (nhanded (rmap BGot r)) -> List.length m <= l < List.length m') /\ NoDup (nhanded (rmap BGot r)) /\
  sim_cache (nhanded (rmap BGot r) ++ mine) (snd v') m' b' (fst v').
Proof.
  intros mine b gs n dt a pos m v MI B. unfold nm_run, value_run, nb_run. destruct (parse_run_args (na_args a)) as [[[k returns] ig]|e].
  2:{ simpl. repeat split; auto; try constructor; try (intros; tauto); apply B. }
  cbv zeta.
  set (b1 := if na_enable_cache a then nm_clear_cache_if_invalid b n dt m else new_mback).
  set (v1 := if na_enable_cache a then clear_cache_if_invalid (if dtype_eqb (snd v) dt then fst v else new_backend) n else new_backend).
  assert (B1 : sim_cache mine dt m b1 v1) by (unfold b1, v1; destruct (na_enable_cache a); [apply nclear_sim; exact B|split; reflexivity]).
  clearbody b1 v1. clear b v B.
  unfold alloc. cbv beta iota zeta.
  set (M := List.length m). set (m1 := m ++ [(dt, zeros n)]). set (c1 := NCtx n M (na_enable_cache a) [] [] pos).
  assert (L1 : List.length m1 = S M) by (unfold m1; rewrite app_length; simpl; unfold M; lia).
  assert (V1 : nview c1 m1 = nb_new_ctx n (na_enable_cache a) pos) by (unfold nview, c1, nb_new_ctx; cbn; unfold m1, M; rewrite arr_new; reflexivity).
  assert (K1 : nkept m m1) by (split; [rewrite L1; unfold M; lia|]; intros; apply arr_app; auto).
  assert (B2 : sim_cache (M :: mine) dt m1 b1 v1).
  { destruct B1 as [E H]. split; auto. destruct (mb_cache b1) as [l|]; destruct (b_cache v1); auto. destruct H as (A & A' & <-). repeat split; [rewrite L1; unfold M; lia| |apply K1; auto].
    simpl. unfold M. intros [K|K]; try lia. auto. }
  assert (G1 : good dt M c1 m1) by (split; [reflexivity|split; [lia|unfold m1, M; rewrite arr_new; reflexivity]]).
  generalize (nshots_sim mine dt M MI (Z.to_nat k) gs c1 b1 m1 v1 G1 B2). rewrite V1.
  destruct (nm_shots rng (Z.to_nat k) gs c1 b1 m1) as [c2 b' m2|e p b' m2]; destruct (nb_shots rng (Z.to_nat k) gs _ v1) as [x v'|e' p' v']; cbn [sim]; try tauto.
  all: assert (KB : forall m2, keep M m1 m2 -> nkept m m2) by
    (intros m0 [L F]; split; [rewrite L1 in L; unfold M in L; lia|]; intros l Hl; rewrite F by (rewrite ?L1; unfold M; lia); apply K1; auto).
  2:{ intros (-> & -> & H2 & B3). cbn [rmap nhanded app fst snd]. split; [reflexivity|]. split; [apply (KB _ H2)|]. split; [reflexivity|]. split; [intros l []|].
      split; [constructor|]. destruct B3 as [B30 B3]. split; auto. destruct (mb_cache b'); destruct (b_cache v'); auto.
      destruct B3 as (A1 & A2 & A3). repeat split; auto. intros K. apply A2. right. exact K. }
  intros (G2 & <- & H2 & B3).
  set (m3 := if ig then fill m2 (nx_q c2) (ignore_global_phase (snd (arr m2 (nx_q c2)))) else m2).
  assert (V3 : (if ig then set_bufs (nview c2 m2) (ignore_global_phase (x_qubits (nview c2 m2)), x_buf (nview c2 m2)) else nview c2 m2) = nview c2 m3).
  { unfold m3. destruct ig; auto. symmetry. change (x_qubits (nview c2 m2)) with (snd (arr m2 (nx_q c2))). change (x_buf (nview c2 m2)) with (@nil C). eapply view_fill; eauto. }
  rewrite V3.
  assert (O3 : keep M m2 m3). { unfold m3. destruct ig; [|apply keep_refl]. destruct G2 as (-> & _). apply keep_fill. }
  assert (G3 : good dt M c2 m3) by (unfold m3; destruct ig; auto; apply good_fill; auto).
  assert (B4 := cache_keep _ _ _ _ _ _ _ O3 B3).
  destruct G3 as (E3 & L3 & D3).
  split; [reflexivity|]. split; [apply KB; apply (keep_trans _ _ _ _ H2 O3)|]. cbn [rmap fst snd].
  split. { change (x_pos (nview c2 m3)) with (nx_pos c2). unfold nm_return, return_type, nlook, nseen. cbn [x_qubits x_shots nview]. fold (arr m3 (nx_q c2)).
    repeat match goal with |- context [if ?c then _ else _] => destruct c end; cbn [result_dtype]; rewrite ?E3; fold (arr m3 M); rewrite ?D3; unfold nview; rewrite ?E3; reflexivity. }
  assert (I : forall l, In l (nhanded (rmap BGot (Ok (nm_return returns c2)))) -> l = M).
  { unfold nm_return. intros l. simpl. repeat match goal with |- context [if ?c then _ else _] => destruct c end; simpl; rewrite ?E3; intuition. }
  split. { intros l H. apply I in H. subst l. fold M. lia. }
  split. { unfold nm_return. simpl. repeat match goal with |- context [if ?c then _ else _] => destruct c end; simpl; repeat constructor; simpl; intuition. }
  destruct B4 as [E B4]. split; auto. destruct (mb_cache b') as [l|]; destruct (b_cache v'); auto. destruct B4 as (A1 & A2 & A3). repeat split; auto.
  intros H. apply in_app_or in H. destruct H as [H|H]; [apply I in H|]; apply A2; simpl; intuition.
Qed.

(** ** Programs *)
Definition ninv (s : nmstate) (mine : list nat) (bs : list (backend * dtype)) : Prop :=
  Forall2 (fun b v => sim_cache mine (snd v) (t_mem s) b (fst v)) (t_backs s) bs /\ (forall l, In l mine -> l < List.length (t_mem s)) /\ NoDup mine.

Lemma sim_cache_grow : forall own own' t m m' b v, nkept m m' -> (forall l, l < List.length m -> In l own' -> In l own) -> sim_cache own t m b v -> sim_cache own' t m' b v.
Proof.
  intros own own' t m m' b v [L F] K [E H]. split; auto. destruct (mb_cache b) as [l|]; destruct (b_cache v); auto.
  destruct H as (A & B & <-). repeat split; auto; lia.
Qed.
Lemma sim_cache_fill : forall own t m l w b v, In l own -> sim_cache own t m b v -> sim_cache own t (fill m l w) b v.
Proof.
  intros own t m l w b v K [E H]. split; auto. destruct (mb_cache b) as [k|]; destruct (b_cache v); auto.
  destruct H as (A & B & <-). rewrite fill_length. repeat split; auto. apply arr_fill_neq. intros ->. auto.
Qed.
Definition nkeeps (m m' : nmem) (o : nmop) : Prop := match o with BWrite l v => m' = fill m l v | _ => nkept m m' end.
Definition nvalue_step (bs : list (backend * dtype)) (pos : nat) (o : nmop) : list (backend * dtype) * nat :=
  match o with
  | BNew => (bs ++ [(new_backend, Complex128)], pos)
  | BCopy i => match nth_error bs i with None => (bs, pos) | Some b => (bs ++ [b], pos) end
  | BRun i gs n dt a => match nth_error bs i with None => (bs, pos) | Some b => let '(x, b', p) := value_run rng b gs n dt a pos in (firstn i bs ++ b' :: skipn (S i) bs, p) end
  | BWrite _ _ => (bs, pos)
  end.
Definition nvalue_sight (bs : list (backend * dtype)) (pos : nat) (o : nmop) : list (res nsight) :=
  match o with
  | BNew => [Ok NSDone]
  | BCopy i => match nth_error bs i with None => [Err Undefined] | Some b => [Ok NSDone] end
  | BRun i gs n dt a => match nth_error bs i with None => [Err Undefined] | Some b => let '(x, b', p) := value_run rng b gs n dt a pos in [x] end
  | BWrite _ _ => []
  end.
Lemma nvalue_cons : forall bs pos o os, nvalue_sights rng bs pos (o :: os) =
  nvalue_sight bs pos o ++ nvalue_sights rng (fst (nvalue_step bs pos o)) (snd (nvalue_step bs pos o)) os.
Proof.
  intros bs pos [|i|i gs n dt a|l v] os; cbn [nvalue_sights nvalue_sight nvalue_step app fst snd]; auto.
  - destruct (nth_error bs i); reflexivity.
  - destruct (nth_error bs i); auto. destruct (value_run rng p gs n dt a pos) as [[x b'] q]. reflexivity.
Qed.

Lemma nstep_inv : forall s mine bs o, ninv s mine bs -> match o with BWrite l _ => In l mine | _ => True end ->
  let (x, s') := nm_step rng s o in
  ninv s' (nhanded x ++ mine) (fst (nvalue_step bs (t_pos s) o)) /\ t_pos s' = snd (nvalue_step bs (t_pos s) o) /\
  nkeeps (t_mem s) (t_mem s') o /\ (if nis_write o then [] else [rmap (nlook (t_mem s')) x]) = nvalue_sight bs (t_pos s) o.
Proof.
  intros s mine bs o (F & I & D) W. destruct o as [|i|i gs n dt a|l v]; cbn [nm_step nvalue_step nvalue_sight nis_write].
  - cbn. repeat split; auto. apply Forall2_app; auto. constructor; auto. split; simpl; auto.
  - unfold get. generalize (Forall2_nth _ _ _ _ _ i F). destruct (nth_error (t_backs s) i) as [b|]; destruct (nth_error bs i) as [v|]; try tauto; intros B.
    + destruct (mb_cache b) as [l|] eqn:E.
      * cbn. split; [split; [|split; auto; cbn; intros k K; rewrite app_length; apply I in K; simpl; lia]|].
        -- cbn [t_mem t_backs].
           assert (KB : nkept (t_mem s) (t_mem s ++ [arr (t_mem s) l])) by (split; [rewrite app_length; lia|intros; apply arr_app; auto]).
           apply Forall2_app; [eapply Forall2_impl; [|exact F]; intros; eapply sim_cache_grow; eauto|]. constructor; auto.
           destruct B as [B1 B2]. rewrite E in B2. split; auto. cbn [mb_cache]. destruct (b_cache (fst v)); try tauto.
           rewrite app_length. simpl. split; [lia|]. rewrite arr_new. split; [|apply B2]. intros K. apply I in K. lia.
        -- repeat split; cbn; auto. rewrite app_length; lia. intros; apply arr_app; auto.
      * cbn. repeat split; auto. apply Forall2_app; auto.
    + cbn. repeat split; auto.
  - unfold get. generalize (Forall2_nth _ _ _ _ _ i F). destruct (nth_error (t_backs s) i) as [b|] eqn:E1; destruct (nth_error bs i) as [v|] eqn:E2; try tauto; intros B.
    + generalize (nrun_sim mine b gs n dt a (t_pos s) (t_mem s) v I B). destruct (nm_run rng b gs n dt a (t_pos s) (t_mem s)) as [[[r b'] p] m'].
      destruct (value_run rng v gs n dt a (t_pos s)) as [[x v'] p']. intros (-> & KB & <- & NW & ND & B').
      cbn [fst snd t_pos t_mem t_backs nkeeps]. split; [|split; [reflexivity|split; [exact KB|]]].
      * split; [|split].
        -- cbn [t_mem t_backs].
           rewrite <- (put_skip _ bs i v') by (apply nth_error_Some; congruence).
           assert (LM : forall k, k < List.length (t_mem s) -> In k (nhanded (rmap BGot r) ++ mine) -> In k mine).
           { intros k K H. apply in_app_or in H. destruct H as [H|H]; auto. apply NW in H. lia. }
           apply Forall2_put.
           ++ eapply Forall2_impl; [|exact F]. intros b0 v0 H. eapply sim_cache_grow; eauto.
           ++ exact B'.
        -- cbn [t_mem]. intros k K. apply in_app_or in K. destruct K as [K|K]; [apply NW in K; lia|]. apply I in K. destruct KB. lia.
        -- apply NoDup_two; auto. intros k K1 K2. apply NW in K1. apply I in K2. lia.
      * reflexivity.
    + cbn. repeat split; auto.
  - cbn. repeat split; auto; cbn; try (intros k K; rewrite fill_length; auto).
    eapply Forall2_impl; [|exact F]. intros. apply sim_cache_fill; auto.
Qed.

Definition nafter (s : nmstate) (os : list nmop) : nmstate := snd (nm_steps rng s os).
Lemma nm_steps_cons : forall s o os, nm_steps rng s (o :: os) = (fst (nm_step rng s o) :: fst (nm_steps rng (snd (nm_step rng s o)) os), nafter (snd (nm_step rng s o)) os).
Proof. intros. unfold nafter. cbn [nm_steps]. destruct (nm_step rng s o) as [x s']. simpl. destruct (nm_steps rng s' os). reflexivity. Qed.

Lemma nsights_inv : forall os s mine bs, ninv s mine bs -> nowned rng s mine os -> nsights rng s os = nvalue_sights rng bs (t_pos s) os.
Proof.
  induction os as [|o os IH]; intros s mine bs I OW; auto. destruct OW as [W O].
  rewrite nvalue_cons. cbn [nsights]. generalize (nstep_inv s mine bs o I W). destruct (nm_step rng s o) as [x s']. intros (I' & P & _ & <-).
  f_equal. rewrite <- P. eapply IH; eauto.
Qed.
Lemma nvalue_hands_off : forall os bs pos, nvalue_sights rng bs pos (nhands_off os) = nvalue_sights rng bs pos os.
Proof.
  unfold nhands_off. induction os as [|o os IH]; intros; auto. cbn [filter]. destruct (nis_write o) eqn:E.
  - destruct o; try discriminate. simpl. apply IH.
  - cbn [negb]. rewrite !nvalue_cons. f_equal. apply IH.
Qed.
Lemma nowned_hands_off : forall os s mine, nowned rng s mine (nhands_off os).
Proof.
  unfold nhands_off. induction os as [|o os IH]; intros; simpl; auto. destruct (nis_write o) eqn:E; simpl; auto. split; auto. destruct o; auto. discriminate.
Qed.
Lemma ninv_start : forall pos, ninv (nm_start pos) [] [].
Proof. intros. split; [constructor|split; [intros l []|constructor]]. Qed.

Lemma nprogram_values : forall pos os, nowned rng (nm_start pos) [] os -> nsights rng (nm_start pos) os = nvalue_sights rng [] pos os.
Proof. intros. apply (nsights_inv os (nm_start pos) [] []); auto. apply ninv_start. Qed.
Lemma nprogram_hands_off : forall pos os, nowned rng (nm_start pos) [] os -> nsights rng (nm_start pos) os = nsights rng (nm_start pos) (nhands_off os).
Proof. intros. rewrite !nprogram_values; auto. symmetry. apply nvalue_hands_off. apply nowned_hands_off. Qed.

Lemma nprogram_inv : forall os s mine bs, ninv s mine bs -> nowned rng s mine os ->
  exists mine' bs', ninv (nafter s os) mine' bs' /\ Permutation mine' (ngiven (fst (nm_steps rng s os)) ++ mine).
Proof.
  induction os as [|o os IH]; intros s mine bs I OW.
  - exists mine, bs. split; auto.
  - destruct OW as [W O]. generalize (nstep_inv s mine bs o I W). generalize (nm_steps_cons s o os). destruct (nm_step rng s o) as [x s'] eqn:E. cbn [fst snd] in *. intros H (I' & P & _ & _).
    destruct (IH s' _ _ I' O) as (mine' & bs' & J & K). exists mine', bs'. unfold nafter at 1. rewrite H. cbn [fst snd]. split; auto.
    rewrite K. unfold ngiven. cbn [flat_map]. rewrite !app_assoc. apply Permutation_app_tail. apply Permutation_app_comm.
Qed.
Lemma nowned_perm : forall os s mine mine', Permutation mine mine' -> nowned rng s mine os -> nowned rng s mine' os.
Proof.
  induction os as [|o os IH]; intros s mine mine' P OW; auto. destruct OW as [W O]. split.
  - destruct o; auto. eapply Permutation_in; eauto.
  - eapply IH; [|exact O]. apply Permutation_app_head. auto.
Qed.
Lemma nowned_split : forall os os' s mine, nowned rng s mine (os ++ os') ->
  nowned rng s mine os /\ nowned rng (nafter s os) (ngiven (fst (nm_steps rng s os)) ++ mine) os'.
Proof.
  induction os as [|o os IH]; intros os' s mine H; cbn [app] in H; [split; [exact I|exact H]|]. destruct H as [W H].
  apply IH in H. destruct H as [H1 H2]. split; [split; auto|].
  unfold nafter. rewrite nm_steps_cons. cbn [fst snd]. eapply nowned_perm; [|exact H2].
  unfold ngiven. cbn [flat_map]. rewrite !app_assoc. apply Permutation_app_tail. apply Permutation_app_comm.
Qed.
Lemma nafter_app : forall os os' s, nafter s (os ++ os') = nafter (nafter s os) os'.
Proof. induction os as [|o os IH]; intros; auto. cbn [app]. unfold nafter at 1 3. rewrite !nm_steps_cons. cbn [snd]. apply IH. Qed.

Lemma nkept_from : forall os s mine bs l, ninv s mine bs -> nowned rng s mine os -> In l mine -> (forall v, ~ In (BWrite l v) os) ->
  arr (t_mem (nafter s os)) l = arr (t_mem s) l.
Proof.
  induction os as [|o os IH]; intros s mine bs l I OW M N; auto. destruct OW as [W O].
  unfold nafter. rewrite nm_steps_cons. cbn [snd]. generalize (nstep_inv s mine bs o I W).
  destruct (nm_step rng s o) as [x s'] eqn:E. cbn [fst snd] in *. intros (I' & _ & K & _).
  rewrite (IH s' _ _ l I' O).
  - destruct I as (_ & I & _). destruct o; cbn [nkeeps] in K; try (apply K; apply I; exact M).
    rewrite K. apply arr_fill_neq. intros ->. apply (N v). left. reflexivity.
  - apply in_or_app. auto.
  - intros v Hv. apply (N v). right. exact Hv.
Qed.

Lemma nprogram_kept : forall pos os os' l, nowned rng (nm_start pos) [] (os ++ os') -> In l (ngiven (fst (nm_steps rng (nm_start pos) os))) ->
  (forall v, ~ In (BWrite l v) os') ->
  nth_error (t_mem (snd (nm_steps rng (nm_start pos) (os ++ os')))) l = nth_error (t_mem (snd (nm_steps rng (nm_start pos) os))) l.
Proof.
  intros pos os os' l H G N. assert (H0 := H). apply nowned_split in H. destruct H as [H1 H2].
  destruct (nprogram_inv _ _ _ _ (ninv_start pos) H1) as (mine & bs & I & P). rewrite app_nil_r in *.
  destruct (nprogram_inv _ _ _ _ (ninv_start pos) H0) as (mine2 & bs2 & (_ & I2 & _) & P2). rewrite app_nil_r in *.
  assert (A : arr (t_mem (nafter (nm_start pos) (os ++ os'))) l = arr (t_mem (nafter (nm_start pos) os)) l).
  { rewrite nafter_app. apply (nkept_from os' (nafter (nm_start pos) os) mine bs l); auto.
    - eapply nowned_perm; [|exact H2]. symmetry. exact P.
    - eapply Permutation_in; [symmetry; exact P|exact G]. }
  assert (L1 : l < List.length (t_mem (nafter (nm_start pos) os))) by (destruct I as (_ & I & _); apply I; eapply Permutation_in; [symmetry; exact P|exact G]).
  assert (G2 : In l (ngiven (fst (nm_steps rng (nm_start pos) (os ++ os'))))).
  { clear - G. revert G. generalize (nm_start pos). induction os as [|o os IH]; intros s; cbn [app]; [intros []|].
    rewrite !nm_steps_cons. cbn [fst]. unfold ngiven. cbn [flat_map]. intros H. apply in_app_or in H. apply in_or_app. destruct H; auto. }
  assert (L2 : l < List.length (t_mem (nafter (nm_start pos) (os ++ os')))) by (apply I2; eapply Permutation_in; [symmetry; exact P2|exact G2]).
  unfold nafter, arr in *. rewrite (nth_error_nth' _ (Complex128, []) L1). rewrite (nth_error_nth' _ (Complex128, []) L2). congruence.
Qed.
Lemma nprogram_fresh : forall pos os, nowned rng (nm_start pos) [] os -> NoDup (ngiven (fst (nm_steps rng (nm_start pos) os))).
Proof.
  intros pos os H. destruct (nprogram_inv _ _ _ _ (ninv_start pos) H) as (mine & bs & (_ & _ & D) & P). rewrite app_nil_r in P. eapply Permutation_NoDup; eauto.
Qed.
Lemma nprogram_exists : forall pos os l, nowned rng (nm_start pos) [] os -> In l (ngiven (fst (nm_steps rng (nm_start pos) os))) ->
  l < List.length (t_mem (snd (nm_steps rng (nm_start pos) os))).
Proof.
  intros pos os l H G. destruct (nprogram_inv _ _ _ _ (ninv_start pos) H) as (mine & bs & (_ & D & _) & P). rewrite app_nil_r in P. apply D.
  eapply Permutation_in; [symmetry; exact P|exact G].
Qed.

Lemma nlook_dtype : forall m r v dt l, nlook m (BGot r) = NSRun v (result_dtype dt v) -> In l (nplaces r) -> fst (arr m l) = dt.
Proof.
  intros m r v dt l. destruct r; cbn; intros E; injection E as <- E; cbn in E; try (injection E as E; intros [<- | []]; exact E); intros [].
Qed.
Lemma value_run_dtype : forall v gs n dt a pos x v' p, value_run rng v gs n dt a pos = (Ok x, v', p) -> exists r, x = NSRun r (result_dtype dt r).
Proof.
  intros v gs n dt a pos x v' p. unfold value_run. destruct (parse_run_args _); [|discriminate].
  destruct (nb_run rng _ gs n a pos) as [[[r|e] b'] q]; cbn; [|discriminate]. intros E. injection E as <- _ _. eauto.
Qed.
Lemma ntype_kept : forall os s mine bs l, ninv s mine bs -> nowned rng s mine os -> l < List.length (t_mem s) ->
  l < List.length (t_mem (nafter s os)) /\ fst (arr (t_mem (nafter s os)) l) = fst (arr (t_mem s) l).
Proof.
  induction os as [|o os IH]; intros s mine bs l I OW L; auto. destruct OW as [W O].
  unfold nafter. rewrite nm_steps_cons. cbn [snd]. generalize (nstep_inv s mine bs o I W).
  destruct (nm_step rng s o) as [x s'] eqn:E. cbn [fst snd] in *. intros (I' & _ & K & _).
  assert (T : l < List.length (t_mem s') /\ fst (arr (t_mem s') l) = fst (arr (t_mem s) l)).
  { destruct o; cbn [nkeeps] in K; try (destruct K as [K1 K2]; split; [lia|rewrite K2; auto]).
    rewrite K. rewrite fill_length. split; auto. destruct (Nat.eq_dec l0 l) as [-> |]; [rewrite arr_fill_eq by auto; reflexivity|rewrite arr_fill_neq by auto; reflexivity]. }
  destruct T as [T1 T2]. destruct (IH s' _ _ l I' O T1) as [H1 H2]. split; auto. congruence.
Qed.
Lemma ndtype_from : forall os s mine bs k i gs n dt a r l, ninv s mine bs -> nowned rng s mine os -> nth_error os k = Some (BRun i gs n dt a) ->
  nth_error (fst (nm_steps rng s os)) k = Some (Ok (BGot r)) -> In l (nplaces r) -> exists v, nth_error (t_mem (nafter s os)) l = Some (dt, v).
Proof.
  induction os as [|o os IH]; intros s mine bs k i gs n dt a r l I OW N A P; [destruct k; discriminate|].
  destruct OW as [W O]. assert (SI := nstep_inv s mine bs o I W). revert A. unfold nafter. rewrite nm_steps_cons. cbn [fst snd].
  destruct (nm_step rng s o) as [x s'] eqn:E. cbn [fst snd] in *. destruct SI as (I' & _ & _ & V).
  destruct k as [|k]; cbn [nth_error] in *.
  - injection N as ->. intros A. injection A as ->. cbn [nis_write nvalue_sight] in V.
    assert (L : l < List.length (t_mem s')) by (destruct I' as (_ & I' & _); apply I'; apply in_or_app; left; exact P).
    assert (D : fst (arr (t_mem s') l) = dt).
    { destruct (nth_error bs i) as [b|]; [|discriminate]. destruct (value_run rng b gs n dt a (t_pos s)) as [[y v'] p] eqn:VR.
      injection V as V. subst y. destruct (value_run_dtype _ _ _ _ _ _ _ _ _ VR) as [q Q]. eapply nlook_dtype; eauto. }
    destruct (ntype_kept os s' _ _ l I' O L) as [H1 H2]. exists (snd (arr (t_mem (nafter s' os)) l)).
    rewrite (nth_error_nth' _ (Complex128, []) H1). fold (arr (t_mem (nafter s' os)) l). rewrite <- D, <- H2. rewrite <- surjective_pairing. reflexivity.
  - intros A. apply (IH s' _ _ k i gs n dt a r l I' O); auto.
Qed.
Lemma nprogram_dtype : forall pos os k i gs n dt a r l, nowned rng (nm_start pos) [] os -> nth_error os k = Some (BRun i gs n dt a) ->
  nth_error (fst (nm_steps rng (nm_start pos) os)) k = Some (Ok (BGot r)) -> In l (nplaces r) ->
  exists v, nth_error (t_mem (snd (nm_steps rng (nm_start pos) os))) l = Some (dt, v).
Proof. intros. eapply ndtype_from; eauto. apply ninv_start. Qed.
End Random.
