-Q theories Verif
theories/Base.v
theories/Sparse.v
theories/Graph.v
theories/SpecGraph.v
theories/ListLemmas.v
theories/GraphLayout.v
theories/GraphFin.v
theories/GraphBasic.v
theories/GraphVec.v
theories/GraphDense.v
theories/GraphSparse.v
theories/GraphSafe.v
theories/GraphFresh.v
theories/Toy.v
theories/PropsGraph.v
theories/Float.v
theories/Optimizer.v
theories/SpecOpt.v
theories/OptLemmas.v
theories/OptWork.v
theories/OptLM.v
theories/OptRun.v
theories/Real.v
theories/RSum.v
theories/SpecSolver.v
theories/Gram.v
theories/Pivots.v
theories/OptMore.v
theories/OptLambda.v
theories/OptCov.v
theories/OptExact.v
theories/OptLinear.v
theories/Geom.v
theories/Vars.v
theories/Trig.v
theories/VarsLemmas.v
theories/FactorsLin.v
theories/FactorsLinFacts.v
theories/OptToy.v
theories/OptInst.v
theories/OptCases.v
theories/OptReal.v
theories/OptFacts.v
theories/PropsOptimizer.v
theories/SpecGeom.v
theories/GeomR.v
theories/GeomExp.v
theories/GeomLog.v
theories/GeomJac.v
theories/GeomLeft.v
theories/GeomTiny.v
theories/VarOps.v
theories/SpecVars.v
theories/VarsRun.v
theories/GeomNear.v
theories/VarsInc.v
theories/InvFloat.v
theories/GeomFacts.v
theories/PropsVars.v
theories/PropsGeom.v
theories/FactorsGeo.v
theories/SpecFactor.v
theories/FactorCalc.v
theories/FactorRead.v
theories/FactorJac.v
theories/FactorJac2.v
theories/FactorAngle.v
theories/FactorJac3.v
theories/FactorLinJac.v
theories/FactorOri.v
theories/FactorStep.v
theories/FactorMotion.v
theories/FactorZero.v
theories/FactorCases.v
theories/FactorFacts.v
theories/PropsFactors.v
theories/FactorLib.v
theories/SpecShape.v
theories/FactorShape.v
theories/FactorSafe.v
theories/PropsShape.v
theories/VarSizes.v
theories/PropsSizes.v
theories/Kernel.v
theories/Stopwatch.v
theories/SpecTools.v
theories/KernelFacts.v
theories/StopwatchFacts.v
theories/StopwatchFloat.v
theories/PropsTools.v
theories/NumJac.v
theories/NumJacFacts.v
theories/NumJacLib.v
theories/NumJacReal.v
theories/NumJacLimit.v
theories/NumJacCases.v
theories/DetailFacts.v
theories/DetailLib.v
theories/DetailLinear.v
theories/DetailCases.v
theories/PropsNumJac.v
theories/SpecSteps.v
theories/OptSteps.v
theories/OptVerdict.v
theories/OptCovFull.v
theories/OptDamping.v
theories/LdltCase.v
theories/OptDescent.v
theories/SpecEnds.v
theories/OptEnds.v
theories/OptEndsCases.v
theories/OptStepsLib.v
theories/PropsSteps.v
theories/Ldlt.v
theories/LdltFacts.v
theories/LdltSolver.v
theories/PropsVerdict.v
theories/SpecBlocks.v
theories/OptOrder.v
theories/OptOrderRun.v
theories/SpecDefined.v
theories/OptTotal.v
theories/OptDefined.v
theories/OrderCase.v
theories/PropsDefined.v
theories/PropsOrder.v
theories/SpecGauge.v
theories/GaugeSum.v
theories/GaugeFactors.v
theories/GaugeRun.v
theories/GaugeCase.v
theories/PropsGauge.v
theories/SpecTwin.v
theories/TwinGraph.v
theories/TwinRun.v
theories/TwinSession.v
theories/SpecMoved.v
theories/MovedVars.v
theories/MovedFactors.v
theories/MovedRun.v
theories/MovedCase.v
theories/TwinMain.v
theories/PropsMoved.v
theories/SpecPart.v
theories/OptPart.v
theories/PartLib.v
theories/PartCase.v
theories/PropsPart.v
theories/SpecSimilar.v
theories/SimilarFactors.v
theories/SimilarRest.v
theories/SimilarRun.v
theories/SimilarCase.v
theories/PropsSimilar.v
theories/SpecCov.v
theories/SpecFree.v
theories/OptLast.v
theories/OptLastReal.v
theories/CovRun.v
theories/PropsCov.v
theories/SpecChange.v
theories/Change.v
theories/ChangeRun.v
theories/SpecUnits.v
theories/UnitsVars.v
theories/UnitsRead.v
theories/UnitsFactors.v
theories/UnitsRun.v
theories/UnitsCase.v
theories/PropsUnits.v
theories/SpecMarginal.v
theories/Marginal.v
theories/MarginalMore.v
theories/MarginalRun.v
theories/MarginalUnits.v
theories/MarginalCase.v
theories/PropsMarginal.v
theories/SpecFrame.v
theories/FrameVars.v
theories/FrameFactors.v
theories/FrameRun.v
theories/FrameCase.v
theories/PropsFrame.v
theories/SpecRest.v
theories/RestRun.v
theories/RestVars.v
theories/RestCase.v
theories/PropsRest.v
theories/SpecSpace.v
theories/ChangeIf.v
theories/SpaceVars.v
theories/SpaceFactors.v
theories/SpaceRun.v
theories/SpaceCase.v
theories/PropsSpace.v
theories/SpecLength.v
theories/OptLength.v
theories/PropsLength.v
theories/Sphere.v
theories/SphereFacts.v
theories/PropsSphere.v
theories/SpecInfo.v
theories/Info.v
theories/InfoRun.v
theories/InfoLib.v
theories/InfoCase.v
theories/PropsInfo.v
theories/ResumeRun.v
theories/ResumeCase.v
theories/PropsResume.v
theories/SpecContract.v
theories/Contract.v
theories/ContractRun.v
theories/ContractLib.v
theories/ContractCase.v
theories/PropsContract.v
theories/SpecNearer.v
theories/Nearer.v
theories/NearerRun.v
theories/PropsNearer.v
theories/Forget.v
theories/ForgetCase.v
theories/PropsForget.v
theories/SpecGrown.v
theories/Grown.v
theories/GrownRun.v
theories/GrownCase.v
theories/PropsGrown.v
theories/SpecPinned.v
theories/Pinned.v
theories/PinnedCase.v
theories/PropsPinned.v
theories/SpecAgree.v
theories/Agree.v
theories/AgreeCase.v
theories/PropsAgree.v
theories/SpecHeld.v
theories/Held.v
theories/HeldCase.v
theories/PropsHeld.v
theories/SpecBlend.v
theories/Blend.v
theories/BlendCase.v
theories/PropsBlend.v
theories/Sharper.v
theories/SharperCase.v
theories/PropsSharper.v
theories/SpecDesign.v
theories/Design.v
theories/PropsDesign.v
theories/SpecKeen.v
theories/Keen.v
theories/KeenCase.v
theories/PropsKeen.v
