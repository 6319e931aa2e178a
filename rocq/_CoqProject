-Q theories Verif
theories/Scalars.v
theories/Control.v
theories/ControlCS.v
theories/ControlCSReal.v
theories/ControlAS.v
theories/ControlASReal.v
theories/ControlSim.v
theories/PropsControl.v
theories/Arrays.v
theories/SchemeBase.v
theories/SchemeIF.v
theories/SchemeETD4.v
theories/SchemeETD5.v
theories/Solvers.v
theories/ControlSound.v
theories/SchemeFacts.v
theories/SchemeSound.v
theories/SchemeFamily.v
theories/SchemeCoefs.v
theories/SchemeCost.v
theories/CInst.v
theories/PropsCache.v
theories/SpecRK.v
theories/SchemeForm.v
theories/SchemeIFReal.v
theories/PropsIF.v
theories/SpecPhi.v
theories/ContourReal.v
theories/SpecERK.v
theories/SchemeETDReal.v
theories/SchemeETDCoefs.v
theories/PropsPsi.v
theories/PropsETD.v
theories/PropsLinear.v
theories/Tolerance.v
theories/PropsTolerance.v
theories/B64.v
theories/B64Step.v
theories/PropsB64.v
theories/Config.v
theories/PropsConfig.v
theories/Logging.v
theories/PropsLogging.v
theories/Grids.v
theories/PropsGrids.v
theories/SpecPoly.v
theories/Derivatives.v
theories/PropsCheb.v
theories/Fourier.v
theories/PropsDeriv.v
theories/Hankel.v
theories/PropsHankel.v
theories/Models.v
theories/PropsModels.v
theories/PropsSpectral.v
theories/ControlInv.v
theories/PropsMean.v
theories/ContourMatrix.v
theories/MatrixFlow.v
theories/PropsMatrix.v
theories/Heap.v
theories/HeapSchemes.v
theories/HeapModel.v
theories/ControlRel.v
theories/HeapLink.v
theories/HeapRuns.v
theories/HeapValue.v
theories/HeapFresh.v
theories/PropsHeap.v
theories/Asym.v
theories/Solution.v
theories/LocalRK4.v
theories/Stable.v
theories/Converge.v
theories/Voc.v
theories/LocalKro.v
theories/SchemePartial.v
theories/MatExp.v
theories/ConvRuns.v
theories/ConvMethods.v
theories/PropsConverge.v
theories/OrderWords.v
theories/OrderLocal.v
theories/OrderMethods.v
theories/OrderSharp.v
theories/PropsOrder5.v
theories/Raises.v
theories/ControlAccept.v
theories/Estimate.v
theories/PropsEstimate.v
theories/PropsAccept.v
theories/ControlTested.v
theories/PropsDP.v
theories/Rounding.v
theories/RoundingB64.v
theories/RoundingETD.v
theories/PropsRounding.v
theories/PropsRoundingETD.v
theories/RoundingMat.v
theories/PropsRoundingMat.v
theories/Neumann.v
theories/RoundingMatETD.v
theories/PropsRoundingMatETD.v
theories/RoundingRuns.v
theories/RoundingTimes.v
theories/RoundingDP.v
theories/PropsRounding64.v
theories/PropsRuns64.v
theories/Polynomial.v
theories/ModelPoly.v
theories/Picard.v
theories/PropsModelRuns.v
theories/RelStep.v
theories/Symmetry.v
theories/PropsSymmetry.v
theories/PropsSymModels.v
theories/ModelRounding.v
theories/PropsModelRounding.v
theories/Shapes.v
theories/ShapeTol.v
theories/ShapeRel.v
theories/ShapeRuns.v
theories/PropsShapes.v
theories/PropsBatch.v
theories/Stiff.v
theories/StiffOrder.v
theories/PropsStiff.v
theories/StiffMethods.v
theories/PropsStiffOrder.v
theories/PropsStiffSharp.v
theories/PropsStiffIF.v
theories/PropsStiffEig.v
theories/PropsStiffDiag.v
theories/PropsDtype.v
theories/PropsDtypeCalls.v
theories/PropsDtypeStrict.v
theories/ControlInv1.v
theories/PropsIntegrals.v
theories/PropsIntegralsMat.v
theories/PropsOrder5AS.v
