-Q theories Verif

theories/Base.v
theories/BaseFacts.v
theories/Mat.v
theories/Scalar.v
theories/Spec.v
theories/MatFacts.v
theories/ViewFacts.v
theories/ViewFacts2.v
theories/PropMatrix.v
theories/Util.v
theories/UtilFacts.v
theories/UtilFacts2.v
theories/PropUtil.v
theories/PropUtil2.v
theories/MathM.v
theories/MathFacts.v
theories/PropMath.v
theories/RingM.v
theories/Linalg.v
theories/LinalgFacts.v
theories/LinalgFacts2.v
theories/DetFacts.v
theories/PropLinalg.v
theories/RatOps.v
theories/PropRing.v
theories/LUFacts.v
theories/PropField.v
theories/PropFieldEx.v
theories/PropReal.v
theories/VecHeap.v
theories/PropHeap.v
theories/MatHist.v
theories/PropHist.v
theories/Control.v
theories/ControlSpec.v
theories/ControlFacts.v
theories/PropControl.v
theories/PropControlEx.v
theories/CharPoly.v
theories/PropControl2.v
theories/PropExpm.v
theories/PropExpmEx.v
theories/Feq.v
theories/PropFeq.v
theories/IO.v
theories/IOSpec.v
theories/IOFacts.v
theories/PropIO.v
theories/PropIO2.v
theories/Complex.v
theories/PropEigen.v
theories/LURound.v
theories/PropRound.v
theories/PropRoundEx.v
theories/Mixed.v
theories/PropMixed.v
theories/Iter.v
theories/PropIter.v
theories/PropMatrix2.v
theories/MatProg.v
theories/ProgSpec.v
theories/PropProg.v
theories/PropMatrix3.v
theories/PropExpm2.v
theories/PropExpm2Ex.v
theories/IOControl.v
theories/PropIO3.v
theories/PropMisc.v
theories/Float.v
theories/FloatFacts.v
theories/FloatValid.v
theories/PropFloat.v
theories/PropFloat2.v
theories/Ints.v
theories/PropInt.v
theories/PropInt2.v
theories/PropInt3.v
theories/FloatRound.v
theories/FloatIO.v
theories/FloatIOFacts.v
theories/FloatIOFacts2.v
theories/FileFacts.v
theories/PropFloatIO.v
theories/FloatArith.v
theories/FloatSum.v
theories/PropFloatSum.v
theories/PropFloatRead.v
theories/LUPlain.v
theories/FloatLU.v
theories/PropFloatLU.v
theories/FloatCmp.v
theories/Basis.v
theories/PropBasis.v
theories/FloatMono.v
theories/PropColumns.v
theories/PropFloatCmp.v
theories/FloatLoop.v
theories/PropFloatExpm.v
theories/PropFloatLin.v
theories/PropDims.v
theories/PropDims2.v
theories/PropDimsEx.v
theories/QR.v
theories/QRMath.v
theories/PropQR.v
theories/PropQR2.v
theories/PropQREx.v
theories/PropQRFloat.v
theories/PropIO4.v
theories/Eigen.v
theories/EigenMath.v
theories/PropHess.v
theories/PropHess2.v
theories/PropHess3.v
theories/PropGivens.v
theories/PropSchur.v
theories/PropSchurRun.v
theories/PropTriEig.v
theories/PropEigenEx.v
theories/PropFloatSim.v
theories/Repaired.v
theories/PropRepaired.v
theories/PropRepaired2.v
theories/FloatDet.v
theories/PropFloatDet.v
theories/FloatSqrt.v
theories/PropFloatNorm.v
theories/ExpBound.v
theories/PropExpmBound.v
theories/PropExpmBoundEx.v
theories/IntInv.v
theories/PropIntInv.v
theories/PropIntInvEx.v
theories/TestSuite.v
theories/TestExpm.v
theories/PropFileCmp.v
theories/Rel.v
theories/PropRel.v
theories/PropRelInt.v
theories/PropRelFloat.v
theories/PropRelReal.v
theories/PropRunErr.v
theories/PropStall.v
theories/PropStallFloat.v
theories/PropTotal.v
theories/PropTotalFloat.v
theories/PropIdent.v
theories/PropConverge.v
theories/PropConvergeEx.v
theories/PropOnesFloat.v
theories/PropSteady.v
theories/PropSteadyEx.v
theories/Examples.v
theories/PropExamples.v
theories/PropExamplesFloat.v
theories/PropCircuit.v
theories/PropFloatRun.v
theories/DetPlain.v
theories/FloatBigDet.v
theories/QDet.v
theories/PropFloatBigDet.v
theories/PropCoord.v
theories/PropCoord2.v
theories/PropCoordEx.v
theories/StateObj.v
theories/PropStateObj.v
theories/PropPoles.v
theories/PropPolesEx.v
theories/PropExact.v
theories/PropExactEx.v
theories/PropNorms.v
theories/PropNorms2.v
theories/PropNormsEx.v
theories/VecOOM.v
theories/PropOOM.v
theories/PropReach.v
theories/PropReachEx.v
theories/Cases.v
theories/CasesIO.v
theories/CasesMixed.v
theories/CasesFloat.v
theories/VecElem.v
theories/PropVecElem.v
theories/PropCausal.v
theories/RelQR.v
theories/PropRelQR.v
theories/RunQR.v
theories/PropRunQR.v
theories/PropText.v
theories/PropConst.v
theories/RelProg.v
theories/PropRelProg.v
theories/RelSure.v
theories/PropRunSolve.v
theories/MatHeap.v
theories/PropMatHeap.v
theories/Threads.v
theories/PropThreads.v
theories/MatOOM.v
theories/PropMatOOM.v
theories/PropToCpp.v
theories/ThreadsOOM.v
theories/PropThreadsOOM.v
theories/PropThreadsOOM2.v
theories/Assumptions.v
