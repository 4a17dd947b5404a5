-Q theories Verif

theories/Base.v
theories/Cplx.v
theories/Bits.v
theories/ModelTargets.v
theories/ModelGate.v
theories/SpecQuantum.v
theories/ModelNumpy.v
theories/SpecTargets.v
theories/ProofTargets.v
theories/PropTargets.v
theories/ProofArray.v
theories/SpecCircuit.v
theories/ProofNumpy.v
theories/ProofFallback.v
theories/ProofFallback3.v
theories/ProofRun.v
theories/SpecRun.v
theories/ProofCache.v
theories/ProofUnitary.v
theories/ProofDagger.v
theories/SpecMeasure.v
theories/ProofMeasure.v
theories/ProofBorn.v
theories/ProofPhase.v
theories/ProofWhole.v
theories/ModelBackend.v
theories/ProofBackend.v
theories/ProofExamples.v
theories/PropNumpy.v
theories/PropMeasure.v
theories/ModelNumba.v
theories/SpecNumba.v
theories/ProofIndex.v
theories/ProofKernel.v
theories/ProofPair.v
theories/ProofNumba.v
theories/ProofNumbaRun.v
theories/ProofNumbaProps.v
theories/PropNumba.v
theories/ModelCircuit.v
theories/SpecAPI.v
theories/ProofAPI.v
theories/ProofProgram.v
theories/ProofReach.v
theories/ProofInverse.v
theories/ModelCrash.v
theories/SpecCrash.v
theories/ProofCrash.v
theories/ProofCircuit.v
theories/ProofCircuitEx.v
theories/PropCircuit.v
theories/ModelPauli.v
theories/SpecPauli.v
theories/ProofPauli.v
theories/ProofPauliTrace.v
theories/ProofPauliExpr.v
theories/ProofPauliArith.v
theories/ProofPauliComm.v
theories/ProofEvolution.v
theories/ModelPauliMatrix.v
theories/SpecPauliMatrix.v
theories/ProofKron.v
theories/ProofPauliMatrix.v
theories/ProofPauliEx.v
theories/SpecPauliSum.v
theories/ProofPauliSum.v
theories/PropPauli.v
theories/ModelVqe.v
theories/SpecVqe.v
theories/ProofVqe.v
theories/ProofVqeRun.v
theories/ProofVqeSparse.v
theories/ProofVqeSample.v
theories/ProofQaoa.v
theories/ProofVqeRes.v
theories/ProofVqeEx.v
theories/PropVqe.v
theories/ModelVqeLoop.v
theories/SpecVqeLoop.v
theories/ProofVqeLoop.v
theories/ProofVqeLoopEx.v
theories/PropVqeLoop.v
theories/ModelSympy.v
theories/SpecSympy.v
theories/ProofSympy.v
theories/ModelUnitary.v
theories/SpecUnitary.v
theories/ProofToUnitary.v
theories/PropSympy.v
theories/ModelQasm.v
theories/SpecQasm.v
theories/ProofQasm.v
theories/ProofQasmOps.v
theories/ProofQasmProps.v
theories/PropQasm.v
theories/SpecQasmRun.v
theories/ProofQasmRun.v
theories/ModelIbmq.v
theories/SpecIbmq.v
theories/ProofIbmq.v
theories/ProofIbmqCalls.v
theories/ProofIbmqSample.v
theories/ProofIbmqText.v
theories/ProofIbmqVqe.v
theories/ProofIbmqEx.v
theories/PropQasmRun.v
theories/PropIbmq.v
theories/ModelRegistry.v
theories/SpecRegistry.v
theories/ProofRegistry.v
theories/PropRegistry.v
theories/ModelUtils.v
theories/SpecUtils.v
theories/ProofUtils.v
theories/PropUtils.v
theories/ModelOps.v
theories/SpecOps.v
theories/ProofOps.v
theories/PropOps.v
theories/ModelWq.v
theories/ModelOpt.v
theories/SpecOpt.v
theories/ProofOpt.v
theories/ProofDwave.v
theories/ProofOptEx.v
theories/PropOpt.v
theories/ModelRbm.v
theories/SpecRbm.v
theories/ProofRbm.v
theories/ProofRbmEx.v
theories/PropRbm.v
theories/SpecWq.v
theories/ProofWq.v
theories/PropWq.v
theories/ModelNbody.v
theories/SpecNbody.v
theories/ProofNbody.v
theories/PropNbody.v
theories/ModelRepr.v
theories/SpecRepr.v
theories/ProofRepr.v
theories/PropRepr.v
theories/ModelMemory.v
theories/SpecMemory.v
theories/ProofMemory.v
theories/ProofMemoryEx.v
theories/PropMemory.v
theories/ModelQgate.v
theories/SpecQgate.v
theories/ProofQgate.v
theories/ProofQgateRun.v
theories/ProofQgatePool.v
theories/ProofQgateEx.v
theories/PropQgate.v
theories/ModelDemo.v
theories/SpecDemo.v
theories/ProofDemo.v
theories/ProofDemoRun.v
theories/ProofDemoEx.v
theories/ProofDemoProg.v
theories/ProofDemoCase.v
theories/PropDemo.v
theories/ModelPoly.v
theories/SpecPoly.v
theories/ProofPoly.v
theories/ProofPolySubs.v
theories/ProofPolyFlat.v
theories/ProofPolyMatrix.v
theories/ProofPolyRun.v
theories/ProofPolyCase.v
theories/ProofPolyAdd.v
theories/PropPoly.v
theories/ModelOptQaoa.v
theories/SpecOptQaoa.v
theories/ProofOptQaoa.v
theories/PropOptQaoa.v
theories/ModelPauliRepr.v
theories/SpecPauliText.v
theories/ProofPauliText.v
theories/ProofPauliTerm.v
theories/ProofPauliTextRun.v
theories/PropPauliText.v
theories/ModelGateCall.v
theories/SpecGateCall.v
theories/ProofGateCall.v
theories/PropGateCall.v
theories/ModelNumbaMemory.v
theories/SpecNumbaMemory.v
theories/ProofNumbaMemory.v
theories/ProofNumbaMemoryEx.v
theories/PropNumbaMemory.v
theories/SpecLaw.v
theories/ProofLaw.v
theories/ProofLawStat.v
theories/PropLaw.v
theories/ModelFloat.v
theories/SpecFloat.v
theories/ProofFloat.v
theories/ProofFloatOps.v
theories/ProofFloatKern.v
theories/ProofFloatCoef.v
theories/ProofFloatRun.v
theories/ProofFloatTop.v
theories/PropFloat.v
theories/ModelFloatMeasure.v
theories/SpecFloatMeasure.v
theories/ProofFloatMeas.v
theories/ProofFloatMeasRun.v
theories/ProofFloatMeasTop.v
theories/ProofFloatMeasCase.v
theories/PropFloatMeasure.v
theories/SpecFinite.v
theories/ProofFinite.v
theories/ProofFiniteKern.v
theories/ProofFiniteCoef.v
theories/ProofFiniteNative.v
theories/ProofFiniteRun.v
theories/ProofFiniteTop.v
theories/PropFinite.v
theories/ModelFloatNumba.v
theories/SpecFloatNumba.v
theories/ProofFloatNumba.v
theories/ProofFloatNumba2.v
theories/ProofFloatNumba3.v
theories/ProofFloatNumbaTop.v
theories/ProofFloatNumba4.v
theories/ProofFloatNumba5.v
theories/PropFloatNumba.v
theories/ModelFloatNumbaMeasure.v
theories/SpecFiniteMeasure.v
theories/ProofFiniteShot.v
theories/ProofFiniteMeas.v
theories/ProofFiniteMeasRun.v
theories/ProofFiniteNbMeas.v
theories/ProofFiniteNbRun.v
theories/ProofFiniteSums.v
theories/ProofFiniteDouble.v
theories/PropFiniteMeasure.v
theories/ModelFloatRun.v
theories/SpecFloatRun.v
theories/ProofFloatShots.v
theories/ProofFloatNbShots.v
theories/ProofFloatRunExact.v
theories/ProofFloatAgree.v
theories/ProofFloatRuns.v
theories/PropFloatRun.v
theories/ModelFloatPhase.v
theories/SpecFloatPhase.v
theories/ProofFloatPhase.v
theories/ProofFloatPhaseRun.v
theories/ProofFloatPhaseTop.v
theories/ProofFloatPhaseCase.v
theories/PropFloatPhase.v
theories/ModelFloatVqe.v
theories/SpecFloatVqe.v
theories/ProofFloatVqe.v
theories/ProofFloatVqeEnergy.v
theories/ProofFloatVqeRun.v
theories/ProofFloatVqeTop.v
theories/PropFloatVqe.v
theories/ModelFloatSparse.v
theories/SpecFloatSparse.v
theories/ProofFloatSparse.v
theories/ProofFloatSparseMat.v
theories/ProofFloatSparseErr.v
theories/ProofFloatSparseSum.v
theories/ProofFloatSparseTop.v
theories/PropFloatSparse.v
theories/ModelNumpyIndex.v
theories/ProofNumpyIndex.v
theories/PropNumpyIndex.v
theories/SpecAnneal.v
theories/ProofAnneal.v
theories/ProofAnnealConv.v
theories/ProofAnnealRun.v
theories/ProofAnnealLimit.v
theories/PropAnneal.v
theories/SpecSqa.v
theories/ProofSqa.v
theories/ProofTrotter.v
theories/PropSqa.v
theories/ModelMacro.v
theories/SpecMacro.v
theories/ProofMacro.v
theories/PropMacro.v
theories/ModelPauliArray.v
theories/SpecPauliArray.v
theories/ProofPauliArray.v
theories/PropPauliArray.v
theories/SpecThermal.v
theories/ProofLie.v
theories/ProofThermal.v
theories/PropThermal.v
theories/SpecEvolve.v
theories/ProofEmbed.v
theories/ProofEvolve.v
theories/PropEvolve.v
theories/SpecClimb.v
theories/ProofGap.v
theories/ProofPerron.v
theories/ProofClimb.v
theories/ProofClimbQaoa.v
theories/ProofClimbEnd.v
theories/ProofClimbRun.v
theories/PropClimb.v
theories/SpecShots.v
theories/ProofShotLaw.v
theories/ProofShotRun.v
theories/ProofShotLost.v
theories/ProofShotTop.v
theories/PropShots.v
