From Coq Require Import List Arith ZArith Bool String Reals Lra.
Import ListNotations.
From Verif Require Import Base Cplx ModelTargets ModelGate ModelNumpy ModelNumba ModelCircuit ModelMemory ModelNumbaMemory SpecNumbaMemory ProofMemoryEx.
Local Open Scope R_scope.

Definition plain : nb_args := NbArgs no_args true.
Definition no_cache : nb_args := NbArgs no_args false.
Definition nprog : list nmop :=
  [BNew; BRun 0 [gX] 1 Complex128 plain; BWrite 0 [C0; C0]; BCopy 0; BRun 0 [gX] 1 Complex128 plain; BRun 1 [gX] 1 Complex64 plain; BWrite 4 [];
   BRun 0 [gX; gX] 1 Complex128 (NbArgs inner true); BRun 1 [gX] 1 Complex64 (NbArgs (RunArgs (Some 2%Z) None false) true);
   BRun 0 [gX] 1 Complex128 no_cache].


Lemma nprog_case : nowned r0 (nm_start 0) [] nprog /\ ngiven (fst (nm_steps r0 (nm_start 0) nprog)) = [0; 3; 4; 6; 9]%nat /\
  nsights r0 (nm_start 0) nprog = [Ok NSDone; Ok (NSRun (RState [C0; C1]) (Some Complex128)); Ok NSDone; Ok (NSRun (RState [C0; C1]) (Some Complex128));
    Ok (NSRun (RState [C0; C1]) (Some Complex64)); Ok (NSRun (RCtx (Ctx 1 [C1; C0] [] true [([0%nat], 1%nat)] [0%nat] 0)) (Some Complex128));
    Ok (NSRun (RShots [([0%nat], 2%nat)]) None); Ok (NSRun (RState [C0; C1]) (Some Complex128))].
Proof. split; [|split]; cbv -[IZR Rplus Rmult Ropp C0 C1]; [tauto|reflexivity|reflexivity]. Qed.
Lemma ncache_shared : exists l v, nsights r0 (nm_start 0) [BNew; BRun 0 [gX] 1 Complex128 plain; BWrite l v; BRun 0 [gX] 1 Complex128 plain]
  <> nsights r0 (nm_start 0) (nhands_off [BNew; BRun 0 [gX] 1 Complex128 plain; BWrite l v; BRun 0 [gX] 1 Complex128 plain]).
Proof. exists 1%nat, [C0; C0]. cbv -[IZR]. intros E. injection E as E. lra. Qed.
