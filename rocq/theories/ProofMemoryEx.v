From Coq Require Import List Arith ZArith Bool String Reals Lra.
Import ListNotations.
From Verif Require Import Base Cplx ModelTargets ModelGate ModelNumpy ModelCircuit ModelMemory SpecMemory ProofMemory ProofAPI.
Local Open Scope R_scope.

Definition r0 : nat -> R := fun _ => 0.
Definition gX : gate := GOne KX (TInt 0).
Definition inner : run_args := RunArgs None (Some "_inner_ctx"%string) false.
Definition prog : list mop :=
  [HNew; HRun 0 [gX] 1 no_args; HWrite 1 [C0; C0]; HCopy 0; HRun 0 [gX] 1 no_args; HRun 1 [gX] 1 no_args; HWrite 6 []; HRun 0 [gX; gX] 1 inner].

Lemma prog_case : owned r0 (mstart 0) [] prog /\ given (fst (msteps r0 (mstart 0) prog)) = [1; 4; 6; 9; 8]%nat /\
  sights r0 (mstart 0) prog = [Ok SDone; Ok (SRun (RState [C0; C1])); Ok SDone; Ok (SRun (RState [C0; C1]));
    Ok (SRun (RState [C0; C1])); Ok (SRun (RCtx (Ctx 1 [C1; C0] [C0; C1] true [([0%nat], 1%nat)] [0%nat] 0)))].
Proof.
  split; [|split]; [|cbv -[IZR]; reflexivity|cbv -[IZR]; reflexivity].
  cbv -[IZR]. tauto.
Qed.
Lemma cache_shared : exists l v, sights r0 (mstart 0) [HNew; HRun 0 [gX] 1 no_args; HWrite l v; HRun 0 [gX] 1 no_args]
  <> sights r0 (mstart 0) (hands_off [HNew; HRun 0 [gX] 1 no_args; HWrite l v; HRun 0 [gX] 1 no_args]).
Proof.
  exists 2%nat, [C0; C0]. cbv -[IZR]. intros E. injection E as E. lra.
Qed.
