-Q theories Verif
theories/Scalar.v
theories/FloatInst.v
theories/Outcome.v
theories/LinAlg.v
theories/Structs.v
theories/Constraint.v
theories/QPModel.v
theories/FloatProps.v
theories/NullSpace.v
theories/Residual.v
theories/Nonlinear.v
theories/ResidualHandle.v
theories/NLSObject.v
theories/Json.v
theories/Tracing.v
theories/Assertion.v
theories/RInst.v
theories/Props_Constraint.v
theories/QPBlocks.v
theories/Spec.v
theories/QPAlgebra.v
theories/QPNewton.v
theories/QPAlpha.v
theories/QPStep.v
theories/QPTrace.v
theories/QPInit.v
theories/QPSolve.v
theories/QPDirect.v
theories/QPBarrier.v
theories/QPIter.v
theories/QPFrame.v
theories/QPUnique.v
theories/QPLog.v
theories/QPPerm.v
theories/QPRelabel.v
theories/QPReuse.v
theories/FloatQP.v
theories/Props_Structs.v
theories/Report.v
theories/ReportProps.v
theories/TracingProps.v
theories/JsonProps.v
theories/JsonRead.v
theories/JsonText.v
theories/TraceText.v
theories/NSProps.v
theories/NSRelabel.v
theories/ResProps.v
theories/LinProps.v
theories/MeritProps.v
theories/LSProps.v
theories/LSSuccess.v
theories/InterpProps.v
theories/LSPoly.v
theories/NLSTrace.v
theories/NLSLog.v
theories/NLSProps.v
theories/NLSReal.v
theories/NLSRate.v
theories/FloatNLS.v
theories/FloatRun.v
theories/FloatCases.v
theories/NLSBox.v
theories/Penalty.v
theories/NLSTotal.v
theories/NLSSame.v
theories/NLSPerm.v
theories/NLSRelabel.v
theories/NLSObjectProps.v
theories/ResidualHandleProps.v
theories/NLSHistory.v
theories/Budget.v
theories/NLSEdit.v
theories/HistoryCases.v
theories/EditCases.v
theories/HandleCases.v
theories/CasesQP.v
theories/RelabelCases.v
theories/NLSRelabelCases.v
theories/Optimality.v
theories/NLSInequality.v
theories/Multipliers.v
theories/QPRegular.v
theories/Examples.v
theories/Examples2.v
theories/CasesNLS.v
theories/CasesRun.v
theories/CasesMore.v
theories/NLSRelTol.v
theories/NLSConstrained.v
theories/Factorisations.v
theories/NLSRegular.v
theories/RateCases.v
theories/ConstrainedCases.v
theories/RelTolCases.v
theories/InequalityCases.v
theories/QPPath.v
theories/PathCases.v
theories/NLSShift.v
theories/NLSQuadratic.v
theories/NLSQuadraticLocal.v
theories/NLSLocal.v
theories/ShiftCases.v
theories/QuadraticCases.v
theories/LocalCases.v
theories/Chains.v
theories/ChainProps.v
theories/ChainDeriv.v
theories/ChainUpdate.v
theories/ChainJacobian.v
theories/ChainCache.v
theories/AssertionProps.v
