(** Specification of the life of one backend object whose runs may be interrupted. *)
From Coq Require Import List Arith ZArith Bool Reals.
Import ListNotations.
From Verif Require Import Base Cplx ModelTargets ModelGate ModelNumpy ModelNumba ModelCrash SpecCircuit SpecMeasure.

Section Object.
Variable rng : nat -> R.

(** Runs of one NumPyBackend object on a growing list of gates, completed or interrupted outside of an update *)
Inductive np_lives : list gate -> backend -> Prop :=
| nl_new : np_lives [] new_backend
| nl_more : forall gs more b, np_lives gs b -> np_lives (gs ++ more) b
| nl_run : forall gs b n a pos r b' p, np_lives gs b -> np_run rng b gs n a pos = (r, b', p) -> np_lives gs b'
| nl_stop : forall gs b n a pos b', np_lives gs b -> In (b', false) (np_points rng b gs n a pos) -> np_lives gs b'.

(** The same for a NumbaBackend object; the gates are valid *)
Inductive nb_lives : list gate -> backend -> Prop :=
| bl_new : nb_lives [] new_backend
| bl_more : forall gs more b, nb_lives gs b -> nb_lives (gs ++ more) b
| bl_run : forall gs b n a pos r b' p, nb_lives gs b -> (n <= 64)%nat -> valid n gs -> nb_run rng b gs n a pos = (r, b', p) -> nb_lives gs b'
| bl_stop : forall gs b n a pos b', nb_lives gs b -> (n <= 64)%nat -> valid n gs -> In (b', false) (nb_points rng b gs n a pos) -> nb_lives gs b'.
End Object.
