(** Opt.add with a polynomial. *)
From Coq Require Import List Arith Bool Reals Lra Lia Permutation.
Import ListNotations.
From Verif Require Import Base Cplx Bits ModelWq ModelOpt ModelPoly SpecWq SpecOpt SpecNbody SpecPoly ProofOpt ProofPoly ProofPolyRun.
Local Open Scope R_scope.

Section Sets.
Variable order : list nat -> list nat.
Hypothesis Ho : forall l, Permutation (order l) l.
Lemma add_text_energy : forall s n k o, led s -> at_most_two s -> numbered s n -> (0 < n)%nat ->
  attr_size (o_qubo o) = n -> exists o' m, add_text order o s k = POk o' /\ o_qubo o' = AArray n m /\
    forall a, binary a -> qubo_energy n m a = qubo_energy n (attr_mat (o_qubo o)) a + k * (value a s - reduced s []).
Proof.
  intros s n k o H T U P L. destruct (add_text_ok order Ho s n k o H T U P) as (M & (_ & _ & E) & A). exists (opt_add o n M k).
  destruct (add_all_same n [(M, k)] o L) as (_ & _ & En & At & _). cbn [add_all fold_left fst snd] in En, At. eexists. split; [exact A|].
  split; [apply At; discriminate|]. intros a B. rewrite En. cbn [Rsum fst snd]. rewrite <- (E a B). ring.
Qed.
Lemma add_text_first : forall s n k, led s -> at_most_two s -> numbered s n -> (0 < n)%nat ->
  exists o' m, add_text order opt_init s k = POk o' /\ o_qubo o' = AArray n m /\ forall a, binary a -> qubo_energy n m a = k * (value a s - reduced s []).
Proof.
  intros s n k H T U P. destruct (add_text_ok order Ho s n k opt_init H T U P) as (M & (_ & _ & E) & A). exists (opt_add opt_init n M k).
  destruct (add_all_init n [(M, k)] P) as (m & Em & _ & En); [discriminate|]. cbn [fold_left fst snd] in Em. exists m. split; [exact A|]. split; [exact Em|].
  intros a B. rewrite En. cbn [Rsum fst snd]. rewrite <- (E a B). ring.
Qed.
End Sets.
