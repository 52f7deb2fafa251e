-Q theories Verif
theories/Base.v
theories/Num.v
theories/Linalg.v
theories/Residuals.v
theories/Iteratives.v
theories/UserModel.v
theories/Jacobian.v
theories/Solver.v
theories/F64.v
theories/Trace.v
theories/Spec.v
theories/Validation.v
theories/Samples.v
theories/Fresh.v
theories/Tactics.v
theories/FlowFacts.v
theories/FlagFacts.v
theories/TraceFacts.v
theories/SimFacts.v
theories/DebugFacts.v
theories/F64Facts.v
theories/F64Arith.v
theories/LimitFacts.v
theories/ResidualFacts.v
theories/VerdictFacts.v
theories/CountFacts.v
theories/FuelFacts.v
theories/PropsVerdict.v
theories/PropsFlow.v
theories/PropsFlag.v
theories/Reach.v
theories/LogFacts.v
theories/StepFacts.v
theories/PropsMethod.v
theories/PropsIteration.v
theories/PropsSim.v
theories/PropsLimits.v
theories/PropsStep.v
theories/PropsNorm.v
theories/PropsKept.v
theories/SafeFacts.v
theories/PropsPanic.v
theories/RNum.v
theories/LuFacts.v
theories/PropsDefault.v
theories/PropsQuasi.v
theories/PropsFD.v
theories/PropsReal.v
theories/TestCases.v
theories/PropsCases.v
theories/ValidationSolver.v
theories/XR.v
theories/ExactFacts.v
theories/ExactRun.v
theories/PropsExact.v
theories/Util1d.v
theories/Props1d.v
theories/CasesExact.v
theories/LocalFacts.v
theories/PropsLocal.v
theories/QuasiRun.v
theories/PropsStationary.v
theories/DampedRun.v
theories/PropsBasin.v
theories/PropsSecant.v
theories/PropsAway.v
theories/PropsInvariance.v
theories/Text.v
theories/Xml.v
theories/PropsXml.v
theories/XmlText.v
theories/ValidationXml.v
theories/PropsXmlText.v
theories/PropsNumbers.v
theories/PropsLayout.v
theories/PropsRefusal.v
theories/Display.v
theories/ValidationLog.v
theories/PropsDisplay.v
theories/PropsLogText.v
theories/PropsReading.v
theories/PropsAlign.v
theories/PropsShortest.v
theories/PropsShown.v
theories/PropsRun.v
theories/PropsPoints.v
theories/LimitRun.v
theories/PropsBudget.v
theories/PropsDamping.v
theories/PropsAccuracy.v
theories/PropsSlope.v
theories/PropsHalving.v
theories/PropsBounds.v
theories/PropsKantorovich.v
theories/PropsExcess.v
theories/LogInfo.v
theories/PropsLogInfo.v
theories/PropsDistance.v
theories/PropsSteady.v
theories/PropsMonotone.v
theories/FloatRun.v
theories/PropsFloat.v
theories/LuFloat.v
theories/PropsInverse.v
theories/DampedFloat.v
theories/PropsSettle.v
theories/PropsWithin.v
theories/PropsQuadratic.v
theories/PropsTextbook.v
theories/SignFacts.v
theories/PropsSigns.v
theories/PropsEntries.v
theories/PropsSecantRun.v
theories/PropsFactors.v
theories/PropsRowOrder.v
theories/ValidationDocs.v
