(** The operator of a gate's [dagger] undoes the operator of the gate. *)
From Coq Require Import List Arith ZArith Bool Reals Lia Lra FunctionalExtensionality.
Import ListNotations.
From Verif Require Import Base Cplx Bits ModelTargets ModelGate SpecTargets SpecQuantum SpecCircuit
  ProofTargets ProofNumpy ProofFallback ProofFallback3 ProofRun ProofUnitary.
Local Open Scope R_scope.

Definition undoes (V U : oper) : Prop := forall psi, V (U psi) = psi.
Definition commutes (U V : oper) : Prop := forall psi, U (V psi) = V (U psi).

(** ** One qubit *)
Lemma madj_mmul : forall A B r s, madj (mmul A B) r s = mmul (madj B) (madj A) r s.
Proof. intros. unfold madj, mmul. rewrite Cconj_add, !Cconj_mul. ring. Qed.

Lemma mat2_ext : forall A B : mat2, (forall r s, A r s = B r s) -> A = B.
Proof. intros. apply functional_extensionality; intro. apply functional_extensionality; intro. auto. Qed.

Lemma adj_rx : forall t, mRX (- t) = madj (mRX t).
Proof.
  intros t. apply mat2_ext. intros r s. unfold mRX, madj, mk2. replace (- t / 2) with (- (t / 2)) by field.
  rewrite cos_neg, sin_neg. destruct r, s; ceq.
Qed.
Lemma adj_ry : forall t, mRY (- t) = madj (mRY t).
Proof.
  intros t. apply mat2_ext. intros r s. unfold mRY, madj, mk2. replace (- t / 2) with (- (t / 2)) by field.
  rewrite cos_neg, sin_neg. destruct r, s; ceq.
Qed.
Lemma adj_rz : forall t, mRZ (- t) = madj (mRZ t).
Proof.
  intros t. apply mat2_ext. intros r s. unfold mRZ, madj, mk2. replace (- t / 2) with (- (t / 2)) by field.
  rewrite !cis_opp, ?Cconj_conj. destruct r, s; try reflexivity; ceq.
Qed.
Lemma adj_phase : forall t, mPhase (- t) = madj (mPhase t).
Proof. intros t. apply mat2_ext. intros r s. unfold mPhase, madj, mk2. rewrite cis_opp. destruct r, s; ceq. Qed.
Lemma adj_u3 : forall t p l, mU3 (- t) (- l) (- p) = madj (mU3 t p l).
Proof.
  intros. apply mat2_ext. intros r s. unfold mU3. rewrite madj_mmul. rewrite adj_rz, adj_ry, adj_rz.
  unfold mmul at 1 3. rewrite !madj_mmul. unfold mmul. ring.
Qed.

Lemma mat1_dagger : forall k, mat1 (dagger1 k) = madj (mat1 k).
Proof.
  destruct k; simpl; auto using adj_rx, adj_ry, adj_rz, adj_phase, adj_u3.
  - apply mat2_ext; intros r s; destruct r, s; unfold madj, mI, mk2; ceq.
  - apply mat2_ext; intros r s; destruct r, s; unfold madj, mX, mk2; ceq.
  - apply mat2_ext; intros r s; destruct r, s; unfold madj, mY, mk2; ceq.
  - apply mat2_ext; intros r s; destruct r, s; unfold madj, mZ, mk2; ceq.
  - apply mat2_ext; intros r s; destruct r, s; unfold madj, mH, mscale, mk2; ceq.
  - rewrite <- adj_phase, Ropp_involutive. reflexivity.
  - rewrite <- adj_phase, Ropp_involutive. reflexivity.
  - replace (- PI / 2) with (- (PI / 2)) by field. apply adj_u3.
Qed.

(** a matrix applied after another one, for the indices satisfying a condition that does not look at the qubit *)
Lemma where_comp : forall A B t (p : nat -> bool), (forall x b, p (setb x t b) = p x) -> forall psi x,
  (if p x then ap1 A t (fun y => if p y then ap1 B t psi y else psi y) x else (if p x then ap1 B t psi x else psi x)) =
  (if p x then ap1 (mmul A B) t psi x else psi x).
Proof.
  intros A B t p Hp psi x. destruct (p x) eqn:E; auto.
  unfold ap1 at 1. rewrite !Hp, E. unfold ap1, mmul. rewrite !testbit_setb_eq, !setb_setb. ring.
Qed.

Lemma setb_pred : forall c t, c <> t -> forall x b, bit (setb x t b) c = bit x c.
Proof. intros. apply testbit_setb_neq. auto. Qed.

Lemma ap1_comp : forall A B t psi, ap1 A t (ap1 B t psi) = ap1 (mmul A B) t psi.
Proof.
  intros. apply functional_extensionality; intro x. exact (where_comp A B t (fun _ => true) (fun _ _ => eq_refl) psi x).
Qed.
Lemma ctl_comp : forall A B c t psi, c <> t -> ctl c (ap1 A t) (ctl c (ap1 B t) psi) = ctl c (ap1 (mmul A B) t) psi.
Proof.
  intros. apply functional_extensionality; intro x. exact (where_comp A B t (fun x => bit x c) (setb_pred c t H) psi x).
Qed.
Lemma ctl2_comp : forall A B a b t psi, a <> t -> b <> t ->
  ctl a (ctl b (ap1 A t)) (ctl a (ctl b (ap1 B t)) psi) = ctl a (ctl b (ap1 (mmul A B) t)) psi.
Proof.
  intros A B a b t psi Ha Hb. apply functional_extensionality; intro x.
  pose proof (where_comp A B t (fun x => bit x a && bit x b)) as H.
  assert (Hp : forall x c, bit (setb x t c) a && bit (setb x t c) b = bit x a && bit x b) by (intros; rewrite !setb_pred; auto).
  specialize (H Hp psi x). unfold ctl. destruct (bit x a) eqn:E; [|reflexivity].
  destruct (bit x b) eqn:E2; [|reflexivity]. cbv beta in H. rewrite E, E2 in H. cbn [andb] in H. rewrite <- H. unfold ap1. rewrite !(setb_pred a), !(setb_pred b), E, E2 by auto. reflexivity.
Qed.

Lemma mI_where : forall M, munitary M -> mmul (madj M) M = mI.
Proof. intros. apply mat2_ext. auto. Qed.

Lemma sem1_undo : forall k t, undoes (sem1 (dagger1 k) t) (sem1 k t).
Proof.
  intros k t psi. unfold sem1. rewrite ap1_comp, mat1_dagger, mI_where by apply mu_mat1. apply ap1_I.
Qed.

(** ** Two and three qubits *)
Lemma ctl_I : forall c t psi, ctl c (ap1 mI t) psi = psi.
Proof. intros. apply functional_extensionality; intro x. unfold ctl. rewrite ap1_I. destruct (bit x c); auto. Qed.
Lemma ctl_undo : forall N M c t, c <> t -> munitary M -> N = madj M -> undoes (ctl c (ap1 N t)) (ctl c (ap1 M t)).
Proof. intros N M c t H HM -> psi. rewrite ctl_comp, mI_where by auto. apply ctl_I. Qed.

Lemma ap1_comm : forall A B t u psi, t <> u -> ap1 A t (ap1 B u psi) = ap1 B u (ap1 A t psi).
Proof.
  intros. apply functional_extensionality; intro x. unfold ap1.
  rewrite !(testbit_setb_neq _ t _ u), !(testbit_setb_neq _ u _ t) by auto.
  rewrite !(setb_comm x t u) by auto. ring.
Qed.

Lemma ap1_add : forall M t f g, ap1 M t (fun x => (f x + g x)%C) = (fun x => (ap1 M t f x + ap1 M t g x)%C).
Proof. intros. apply functional_extensionality; intro x. unfold ap1. ring. Qed.

Lemma rot2_undo : forall P th a b, a <> b -> mmul P P = mI -> undoes (rot2 P (- th) a b) (rot2 P th a b).
Proof.
  intros P th a b Hab HP psi. apply functional_extensionality; intro x.
  set (Q := fun f => ap1 P a (ap1 P b f)).
  assert (Lin : forall k l f g y, Q (fun x => (k * f x - l * g x)%C) y = (k * Q f y - l * Q g y)%C).
  { intros. unfold Q, ap1. ring. }
  assert (QQ : forall f, Q (Q f) = f).
  { intros. unfold Q. rewrite (ap1_comm P P b a) by auto. rewrite !ap1_comp, !HP, !ap1_I. reflexivity. }
  unfold rot2 at 1. replace (- th / 2) with (- (th / 2)) by field. rewrite cos_neg, sin_neg.
  fold (Q (rot2 P th a b psi)). unfold rot2 at 2.
  change (fun x0 : nat => (RtoC (cos (th / 2)) * psi x0 - Ci * RtoC (sin (th / 2)) * ap1 P a (ap1 P b psi) x0)%C) with
    (fun x0 : nat => (RtoC (cos (th / 2)) * psi x0 - (Ci * RtoC (sin (th / 2))) * Q psi x0)%C).
  rewrite Lin, QQ. unfold rot2. fold (Q psi). pose proof (sq_cs (th / 2)) as E. rewrite RtoC_opp.
  set (c := RtoC (cos (th / 2))). set (s := RtoC (sin (th / 2))).
  assert (E' : (s * s + c * c)%C = C1) by (unfold s, c; rewrite <- !RtoC_mul, <- RtoC_add, E; reflexivity).
  transitivity ((s * s + c * c) * psi x + (Ci * Ci + C1) * (- (s * s) * psi x))%C; [ring|]. rewrite E', Ci_sq. ring.
Qed.

Lemma sq_x : mmul mX mX = mI. Proof. apply mat2_ext. intros r s; destruct r, s; unfold mmul, mX, mI, mk2; ceq. Qed.
Lemma sq_y : mmul mY mY = mI. Proof. apply mat2_ext. intros r s; destruct r, s; unfold mmul, mY, mI, mk2; ceq. Qed.
Lemma sq_z : mmul mZ mZ = mI. Proof. apply mat2_ext. intros r s; destruct r, s; unfold mmul, mZ, mI, mk2; ceq. Qed.

Lemma swp_undo : forall a b, a <> b -> undoes (swp a b) (swp a b).
Proof.
  intros a b Hab psi. apply functional_extensionality; intro x. unfold swp. f_equal.
  apply Nat.bits_inj. intro u. rewrite !testbit_setb.
  repeat match goal with |- context [?p =? ?q] => destruct (Nat.eqb_spec p q); subst; try congruence end.
Qed.

Lemma ctl_scl : forall c U k psi, (forall f, U (scl k f) = scl k (U f)) -> ctl c U (scl k psi) = scl k (ctl c U psi).
Proof.
  intros. apply functional_extensionality; intro x. unfold ctl. rewrite H. unfold scl. destruct (bit x c); reflexivity.
Qed.

Lemma adj_of1 : forall k, mat1 (dagger1 k) = madj (mat1 k). Proof. exact mat1_dagger. Qed.

Lemma sem2_undo : forall k c t, c <> t -> undoes (sem2 (dagger2 k) c t) (sem2 k c t).
Proof.
  intros k c t Hct. destruct k; simpl.
  - apply ctl_undo; auto using mu_x. apply (adj_of1 KX).
  - apply ctl_undo; auto using mu_z. apply (adj_of1 KZ).
  - apply ctl_undo; auto using mu_y. apply (adj_of1 KY).
  - apply ctl_undo; auto using mu_h. apply (adj_of1 KH).
  - apply ctl_undo; auto using mu_rx, adj_rx.
  - apply ctl_undo; auto using mu_ry, adj_ry.
  - apply ctl_undo; auto using mu_rz, adj_rz.
  - apply ctl_undo; auto using mu_phase, adj_phase.
  - apply rot2_undo; auto using sq_x.
  - apply rot2_undo; auto using sq_y.
  - apply rot2_undo; auto using sq_z.
  - apply swp_undo; auto.
  - intros psi. rewrite ctl_scl by (intros; apply ap1_scl). rewrite (ctl_undo (mPhase (- lambd)) (mPhase lambd)); auto using mu_phase, adj_phase.
    rewrite scl_scl. replace (- (- lambd / 4)) with (- (- (lambd / 4))) by field. rewrite cis_opp_l. apply scl_1.
  - apply ctl_undo; auto using mu_u3. replace (- PI / 2) with (- (PI / 2)) by field. apply adj_u3.
  - apply ctl_undo; auto using mu_u3, adj_u3.
Qed.

Lemma sem3_undo : forall k a b c, a <> b -> a <> c -> b <> c -> undoes (sem3 k a b c) (sem3 k a b c).
Proof.
  intros k a b c Hab Hac Hbc. destruct k; simpl; intros psi.
  - rewrite ctl2_comp, sq_x by auto. apply functional_extensionality; intro x. unfold ctl. rewrite ap1_I.
    destruct (bit x a), (bit x b); reflexivity.
  - rewrite ctl2_comp, sq_z by auto. apply functional_extensionality; intro x. unfold ctl. rewrite ap1_I.
    destruct (bit x a), (bit x b); reflexivity.
  - apply functional_extensionality; intro x. unfold ctl. destruct (bit x a) eqn:E; auto.
    assert (H : forall v w, bit (setb (setb x b v) c w) a = true) by (intros; rewrite !setb_pred; auto).
    unfold swp at 1. rewrite H. exact (equal_f (swp_undo b c Hbc psi) x).
Qed.

(** ** Lists of operators *)
Lemma apply_comm : forall U ops psi, Forall (commutes U) ops -> U (apply_all ops psi) = apply_all ops (U psi).
Proof.
  intros U ops psi H. revert psi. induction H as [|V ops HV HF IH]; intros psi; [reflexivity|].
  rewrite !apply_all_cons, IH, HV. reflexivity.
Qed.

(** the inverses of pairwise commuting operators undo them in the same order, too *)
Lemma undo_same_order : forall A (U V : A -> oper) l, (forall a, In a l -> undoes (V a) (U a)) ->
  (forall a b, In a l -> In b l -> commutes (U a) (U b)) ->
  undoes (apply_all (map V l)) (apply_all (map U l)).
Proof.
  induction l as [|a l IH]; intros Hu Hc psi; [reflexivity|].
  cbn [map]. rewrite !apply_all_cons.
  rewrite <- (apply_comm (U a) (map U l) psi).
  - rewrite Hu by (left; auto). apply IH; [intros; apply Hu; right; auto|intros; apply Hc; right; auto].
  - apply Forall_map, Forall_forall. intros b Hb. apply Hc; [left; auto|right; auto].
Qed.

Lemma sem1_commutes : forall k t u, commutes (sem1 k t) (sem1 k u).
Proof. intros k t u psi. destruct (Nat.eq_dec t u); [subst; reflexivity|]. apply ap1_comm; auto. Qed.

(** ** Elementary operators on separate qubits commute *)
Inductive elem : oper -> list nat -> Prop :=
| el_ap1 : forall M t, elem (ap1 M t) [t]
| el_ctl : forall M c t, c <> t -> elem (ctl c (ap1 M t)) [c; t].

Lemma where_commutes : forall A B t u (p q : nat -> bool) (U V : oper), t <> u ->
  (forall x b, p (setb x u b) = p x) -> (forall x b, q (setb x t b) = q x) ->
  (forall psi x, U psi x = if p x then ap1 A t psi x else psi x) ->
  (forall psi x, V psi x = if q x then ap1 B u psi x else psi x) ->
  (forall x b, p (setb x t b) = p x) -> (forall x b, q (setb x u b) = q x) -> commutes U V.
Proof.
  intros A B t u p q U V Htu Hp Hq HU HV Hpt Hqu psi. apply functional_extensionality; intro x.
  rewrite (HU (V psi) x), (HV (U psi) x). destruct (p x) eqn:P, (q x) eqn:Q.
  - pose proof (equal_f (ap1_comm A B t u psi Htu) x) as E. unfold ap1 in E at 1 3. unfold ap1 at 1 2.
    rewrite !HU, !HV, !Hp, !Hq, P, Q. exact E.
  - rewrite HU, P. unfold ap1. rewrite !HV, !Hq, Q. reflexivity.
  - rewrite HV, Q. unfold ap1. rewrite !HU, !Hp, P. reflexivity.
  - rewrite HV, HU, P, Q. reflexivity.
Qed.

Lemma elem_commutes : forall U V S T, elem U S -> elem V T -> (forall q, In q S -> In q T -> False) -> commutes U V.
Proof.
  intros U V S T HU HV HD. destruct HU as [A t|A c t Hct]; destruct HV as [B u|B d u Hdu]; simpl in HD.
  - apply (where_commutes A B t u (fun _ => true) (fun _ => true)); auto.
    intros ->. apply (HD u); auto.
  - apply (where_commutes A B t u (fun _ => true) (fun x => bit x d)); auto.
    + intros ->. apply (HD u); auto.
    + intros; apply setb_pred. intros ->. apply (HD t); auto.
    + intros; apply setb_pred. auto.
  - apply (where_commutes A B t u (fun x => bit x c) (fun _ => true)); auto.
    + intros ->. apply (HD u); auto.
    + intros; apply setb_pred. intros ->. apply (HD u); auto.
    + intros; apply setb_pred. auto.
  - apply (where_commutes A B t u (fun x => bit x c) (fun x => bit x d)); auto.
    + intros ->. apply (HD u); auto.
    + intros; apply setb_pred. intros ->. apply (HD u); auto.
    + intros; apply setb_pred. intros ->. apply (HD t); auto.
    + intros; apply setb_pred. auto.
    + intros; apply setb_pred. auto.
Qed.

Lemma commutes_all : forall U ops, Forall (commutes U) ops -> commutes U (apply_all ops).
Proof. intros U ops H psi. apply apply_comm; auto. Qed.
Lemma commutes_sym : forall U V, commutes U V -> commutes V U.
Proof. intros U V H psi. symmetry. apply H. Qed.
Lemma commutes_eq : forall U U' V, (forall psi, U psi = U' psi) -> commutes U V -> commutes U' V.
Proof. intros U U' V E H psi. rewrite <- !E. apply H. Qed.

(** every two qubit gate is made of elementary operators on its two qubits, up to a factor *)
Definition on_qubits (S : list nat) (U : oper) : Prop :=
  exists k ops, Forall (fun V => exists T, elem V T /\ incl T S) ops /\ forall psi, U psi = scl k (apply_all ops psi).

Lemma scl_elem : forall U S k psi, elem U S -> U (scl k psi) = scl k (U psi).
Proof.
  intros U S k psi []; [apply ap1_scl|]. apply ctl_scl. intros. apply ap1_scl.
Qed.
Lemma scl_all : forall S ops k psi, Forall (fun V => exists T, elem V T /\ incl T S) ops ->
  apply_all ops (scl k psi) = scl k (apply_all ops psi).
Proof.
  intros S ops k psi H. revert psi. induction H as [|V ops [T [HV _]] HF IH]; intros psi; [reflexivity|].
  rewrite !apply_all_cons, (scl_elem V T) by auto. apply IH.
Qed.

Lemma on_qubits_commute : forall S T U V, on_qubits S U -> on_qubits T V -> (forall q, In q S -> In q T -> False) ->
  commutes U V.
Proof.
  intros S T U V [k [ou [FU EU]]] [l [ov [FV EV]]] HD psi.
  rewrite !EU, !EV. rewrite (scl_all S ou) by auto. rewrite (scl_all T ov) by auto. rewrite !scl_scl, Cmul_comm. f_equal.
  apply apply_comm. eapply Forall_impl; [|exact FV]. intros W [T' [HW HT']]. apply commutes_sym, commutes_all.
  eapply Forall_impl; [|exact FU]. intros X [S' [HX HS']]. eapply elem_commutes; eauto.
Qed.

Lemma on_one : forall S U T, elem U T -> incl T S -> on_qubits S U.
Proof.
  intros S U T H I. exists C1, [U]. split; [constructor; eauto|]. intros. rewrite scl_1. reflexivity.
Qed.
Lemma on_list : forall S U ops, (forall psi, apply_all ops psi = U psi) ->
  Forall (fun V => exists T, elem V T /\ incl T S) ops -> on_qubits S U.
Proof. intros S U ops E F. exists C1, ops. split; auto. intros. rewrite scl_1. auto. Qed.

Ltac el := repeat first [apply Forall_nil | apply Forall_cons; [first
  [eexists; split; [apply el_ap1|intros ? [<-|[]]; simpl; auto; fail]
  |eexists; split; [apply el_ctl; auto; fail|intros ? [<-|[<-|[]]]; simpl; auto; fail]]|]].

Lemma sem2_on : forall k c t, c <> t -> on_qubits [c; t] (sem2 k c t).
Proof.
  intros k c t Hct.
  assert (RZZ : forall th psi, apply_all [sem2 KCX c t; sem1 (KRZ th) t; sem2 KCX c t] psi = sem2 (KRZZ th) c t psi) by (intro; apply fb_rzz; auto).
  assert (Hct' : t <> c) by auto.
  destruct k; try (simpl; eapply on_one; [apply el_ctl; auto|apply incl_refl]; fail).
  - apply (on_list _ _ ([sem1 KH c; sem1 KH t] ++ [sem2 KCX c t; sem1 (KRZ theta) t; sem2 KCX c t] ++ [sem1 KH c; sem1 KH t])).
    + intros psi. rewrite !apply_all_app, RZZ. exact (fb_rxx c t Hct theta psi).
    + simpl. el.
  - apply (on_list _ _ ([sem1 (KRX (- PI * (1/2))) c; sem1 (KRX (- PI * (1/2))) t] ++ [sem2 KCX c t; sem1 (KRZ theta) t; sem2 KCX c t] ++ [sem1 (KRX (PI * (1/2))) c; sem1 (KRX (PI * (1/2))) t])).
    + intros psi. rewrite !apply_all_app, RZZ. exact (fb_ryy c t Hct theta psi).
    + simpl. el.
  - eapply on_list; [exact (RZZ theta)|]. el.
  - eapply on_list; [exact (fb_swap c t Hct)|]. el.
  - exists (cis (- (lambd / 4))), [ctl c (ap1 (mPhase lambd) t)]. split; [el|]. reflexivity.
Qed.

Lemma sem2_commutes : forall k c t c' t', c <> t -> c' <> t' -> c <> c' -> c <> t' -> t <> c' -> t <> t' ->
  commutes (sem2 k c t) (sem2 k c' t').
Proof.
  intros. eapply on_qubits_commute; [apply sem2_on; auto|apply sem2_on; auto|].
  intros q [<-|[<-|[]]] [E|[E|[]]]; congruence.
Qed.

(** ** Gates and circuits *)
(** The operators of one call commute.  Always so for one qubit gates; for a two qubit gate it is enough that the
    addressed pairs are the same or have no qubit in common. *)
Definition call_commutes (ops : list oper) : Prop := forall U V, In U ops -> In V ops -> commutes U V.

Lemma gate_undo : forall n g g' ops, gate_ops n g ops -> gate_dagger g = Ok g' -> call_commutes ops ->
  exists ops', gate_ops n g' ops' /\ undoes (apply_all ops') (apply_all ops).
Proof.
  intros n g g' ops H Hd HC. destruct H as [k tg l D F|k tg ps D F|k a b c Ha Hb Hc Hab Hac Hbc]; simpl in Hd; injection Hd; intros <-.
  - eexists. split; [constructor; eauto|].
    apply (undo_same_order Z (fun t => sem1 k (Z.to_nat t)) (fun t => sem1 (dagger1 k) (Z.to_nat t))).
    + intros. apply sem1_undo.
    + intros. apply sem1_commutes.
  - eexists. split; [constructor; eauto|].
    apply (undo_same_order _ (fun p => sem2 k (Z.to_nat (fst p)) (Z.to_nat (snd p))) (fun p => sem2 (dagger2 k) (Z.to_nat (fst p)) (Z.to_nat (snd p)))).
    + intros p Hp. apply sem2_undo. destruct D as [A [B [la [lb [_ [_ [_ [_ [_ Hne]]]]]]]]].
      rewrite Forall_forall in *. pose proof (F p Hp) as [H1 H2]. pose proof (Hne p Hp). unfold inside in *. lia.
    + intros p q Hp Hq. apply HC; apply (in_map (fun p => sem2 k (Z.to_nat (fst p)) (Z.to_nat (snd p)))); auto.
  - eexists. split; [constructor; auto|]. intros psi. apply sem3_undo; unfold inside in *; lia.
Qed.

Inductive circuit_commutes (n : nat) : list gate -> Prop :=
| cc_nil : circuit_commutes n []
| cc_cons : forall g gs o, gate_ops n g o -> call_commutes o -> circuit_commutes n gs -> circuit_commutes n (g :: gs).

Lemma circuit_undo : forall n gs gs', circuit_commutes n gs -> map_res gate_dagger gs = Ok gs' ->
  exists ops ops', circuit_ops n gs ops /\ circuit_ops n (rev gs') ops' /\ undoes (apply_all ops') (apply_all ops).
Proof.
  intros n gs gs' H. revert gs'. induction H as [|g gs o Hg Hc Hgs IH]; intros gs' E.
  - injection E; intros <-. exists [], []. repeat split; try constructor. 
  - cbn [map_res] in E. destruct (gate_dagger g) as [g'|] eqn:Ed; [|discriminate]. simpl in E.
    destruct (map_res gate_dagger gs) as [gs0|] eqn:Eg; [|discriminate]. simpl in E. injection E; intros <-.
    destruct (gate_undo n g g' o Hg Ed Hc) as [o' [Hg' Hu]].
    destruct (IH gs0 eq_refl) as [ops [ops' [H1 [H2 H3]]]].
    exists (o ++ ops), (ops' ++ o'). split; [constructor; auto|]. split.
    + cbn [rev]. apply circuit_ops_app; auto. rewrite <- (app_nil_r o'). constructor; [auto|constructor].
    + intros psi. rewrite !apply_all_app, H3. apply Hu.
Qed.

(** Sufficient conditions for [call_commutes] *)
Lemma one_commutes : forall n k tg ops, gate_ops n (GOne k tg) ops -> call_commutes ops.
Proof.
  intros n k tg ops H. inversion H; subst. intros U V HU HV. apply in_map_iff in HU, HV.
  destruct HU as [t [<- _]], HV as [u [<- _]]. apply sem1_commutes.
Qed.
Definition apart (p q : Z * Z) : Prop :=
  p = q \/ (fst p <> fst q /\ fst p <> snd q /\ snd p <> fst q /\ snd p <> snd q).
Lemma two_commutes : forall n k tg ps, denotes_pairs (Z.of_nat n) tg ps ->
  Forall (fun p => inside n (fst p) /\ inside n (snd p)) ps -> (forall p q, In p ps -> In q ps -> apart p q) ->
  call_commutes (map (fun p => sem2 k (Z.to_nat (fst p)) (Z.to_nat (snd p))) ps).
Proof.
  intros n k tg ps D F HA U V HU HV. apply in_map_iff in HU, HV.
  destruct HU as [p [<- Hp]], HV as [q [<- Hq]]. destruct (HA p q Hp Hq) as [->|[H1 [H2 [H3 H4]]]]; [intro; reflexivity|].
  destruct D as [A [B [la [lb [_ [_ [_ [_ [_ Hne]]]]]]]]]. rewrite Forall_forall in *.
  pose proof (F p Hp) as [I1 I2]. pose proof (F q Hq) as [I3 I4]. pose proof (Hne p Hp). pose proof (Hne q Hq).
  unfold inside in *. apply sem2_commutes; lia.
Qed.
Lemma three_commutes : forall U, call_commutes [U].
Proof. intros U V W [<-|[]] [<-|[]] psi. reflexivity. Qed.
