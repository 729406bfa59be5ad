-Q theories Verif

theories/Base.v
theories/Eigen.v
theories/Spec.v
theories/Preview.v
theories/SpecApi.v
theories/PreviewProofs.v
theories/Properties_Preview.v
theories/AutoSpan.v
theories/AutoSpanProofs.v
theories/Properties_AutoSpan.v
theories/Constraints.v
theories/ConstraintProofs.v
theories/SpecConstraints.v
theories/ConstraintMeaning.v
theories/SpanMeaning.v
theories/Checkers.v
theories/Properties_Constraints.v
theories/Properties_SpanConstraints.v
theories/Costs.v
theories/SpecCosts.v
theories/CostProofs.v
theories/CostMeaning.v
theories/Properties_Costs.v
theories/Properties_SpanCosts.v
theories/Controller.v
theories/Registry.v
theories/SpecController.v
theories/Properties_Registry.v
theories/Assembly.v
theories/Properties_Assembly.v
theories/Results.v
theories/Properties_Results.v
theories/SpecProtocol.v
theories/Protocol.v
theories/Properties_Protocol.v
theories/SpecEndToEnd.v
theories/SpanData.v
theories/EndToEnd.v
theories/EndToEndQP.v
theories/EndToEndRows.v
theories/EndToEndMain.v
theories/Convex.v
theories/ExactSolver.v
theories/Properties_EndToEnd.v
theories/Determined.v
theories/Properties_Problem.v
theories/StateExt.v
theories/InitialState.v
theories/Properties_InitialState.v
theories/Solvers.v
theories/SpecSolvers.v
theories/SolverProofs.v
theories/Existence.v
theories/Properties_Solvers.v
theories/SpecReuse.v
theories/Properties_Reuse.v
theories/Messages.v
theories/SpecMessages.v
theories/Properties_Messages.v
theories/SpecMeaning.v
theories/Meaning.v
theories/Coordinates.v
theories/Properties_Meaning.v
theories/Properties_Coordinates.v
theories/Controllers.v
theories/SpecSharing.v
theories/Sharing.v
theories/Properties_Sharing.v
theories/Floats.v
theories/SpecFloats.v
theories/FloatProofs.v
theories/FloatPreview.v
theories/FloatConstraints.v
theories/FloatRows.v
theories/Binary64.v
theories/Properties_Floats.v
theories/SpecTail.v
theories/Tail.v
theories/Properties_Tail.v
theories/FloatCosts.v
theories/SpecFloatCosts.v
theories/FloatCostProofs.v
theories/FloatCostRun.v
theories/Properties_FloatCosts.v
theories/Moves.v
theories/SpecMoves.v
theories/MoveProofs.v
theories/MoveReuse.v
theories/Properties_Moves.v
theories/SpecLedger.v
theories/Ledger.v
theories/Properties_Ledger.v
theories/SpecLoop.v
theories/Loop.v
theories/Properties_Loop.v
theories/Diagnostics.v
theories/Properties_Diagnostics.v
theories/SpecDescent.v
theories/Descent.v
theories/Properties_Descent.v
theories/SpecBridge.v
theories/Properties_Bridge.v
theories/Choice.v
theories/Properties_Choice.v
theories/Owners.v
theories/SpecOwners.v
theories/Properties_Owners.v
theories/FloatController.v
theories/SpecFloatRun.v
theories/FloatProtocol.v
theories/FloatTrace.v
theories/FloatMeaning.v
theories/FloatValue.v
theories/FloatSolve.v
theories/Properties_FloatRun.v
theories/SpecFloatInitial.v
theories/FloatInitial.v
theories/Properties_FloatInitial.v
theories/SpecClose.v
theories/Close.v
theories/Properties_Close.v
theories/SpecTwin.v
theories/Twin.v
theories/Properties_Twin.v
theories/Properties_CloseInitial.v
