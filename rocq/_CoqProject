-Q theories Verif

theories/Base.v
theories/AdaTypes.v
theories/AdaTypesFacts.v
theories/ExtractProofs.v
theories/InsertProofs.v
theories/P_AdaTypes.v
theories/Expr.v
theories/ExprEval.v
theories/ExprFacts.v
theories/ExprTotal.v
theories/ExprMore.v
theories/P_Expr.v
theories/Bitstring.v
theories/Checksum.v
theories/BitFacts.v
theories/P_Bits.v
theories/Ident.v
theories/Errors.v
theories/P_IdentErrors.v
theories/ExprMono.v
theories/TypeSpec.v
theories/P_Types.v
theories/PyValue.v
theories/PyValueFacts.v
theories/P_PyValue.v
theories/MsgGraph.v
theories/MsgGraphFacts.v
theories/P_MsgGraph.v
theories/SpecSort.v
theories/SpecSortFacts.v
theories/P_SpecSort.v
theories/SpecModel.v
theories/P_SpecModel.v
theories/MsgStruct.v
theories/P_MsgStruct.v
theories/SessionCheck.v
theories/P_Session.v
theories/ModelCheck.v
theories/P_Model.v
theories/Cache.v
theories/P_Cache.v
theories/AdaBuffer.v
theories/AdaBufferFacts.v
theories/ScalarSeq.v
theories/P_ScalarSeq.v
theories/MsgSeq.v
theories/P_MsgSeq.v
theories/GenCode.v
theories/GenSpec.v
theories/GenFacts.v
theories/GenRun.v
theories/GenInv.v
theories/GenVerify.v
theories/GenMessage.v
theories/GenSet.v
theories/GenPred.v
theories/P_Gen.v
theories/Solver.v
theories/SolverFacts.v
theories/Typing.v
theories/P_Typing.v
theories/ExprType.v
theories/Verify.v
theories/VerifySpec.v
theories/VerifyFacts.v
theories/P_Verify.v
theories/P_Occur.v
theories/P_VerifyCases.v
theories/DerivedMsg.v
theories/DerivedFacts.v
theories/DerivedVerify.v
theories/P_DerivedMsg.v
theories/P_Verified.v
theories/P_ExprType.v
theories/P_Reach.v
theories/P_Scope.v
theories/PyMessage.v
theories/PyMessageFacts.v
theories/PyMessageParse.v
theories/P_PyMessage.v
theories/PyMessageSet.v
theories/P_PySet.v
theories/PlainFacts.v
theories/Merge.v
theories/MergeSpec.v
theories/MergeFacts.v
theories/MergeSplice.v
theories/MergeLoop.v
theories/P_Merge.v
theories/P_Buffer.v
theories/GenTypes.v
theories/P_GenTypes.v
theories/Refine.v
theories/RefineFacts.v
theories/P_Refine.v
theories/GenTotal.v
theories/P_GenTotal.v
theories/ExprPrint.v
theories/ExprRead.v
theories/ExprReadFacts.v
theories/ExprReadTree.v
theories/ExprPyEq.v
theories/ExprAda.v
theories/P_ExprPrint.v
theories/SessionType.v
theories/SessionEval.v
theories/SessionTypeFacts.v
theories/SessionSound.v
theories/SessionRun.v
theories/P_SessionType.v
theories/BindExpr.v
theories/BindSpec.v
theories/BindFacts.v
theories/BindSound.v
theories/BindMain.v
theories/BindVars.v
theories/P_BindExpr.v
theories/ExprNames.v
theories/ChecksumDef.v
theories/P_Checksum.v
theories/PyChecksum.v
theories/P_PyChecksum.v
theories/P_PyRound.v
theories/PySkip.v
theories/P_PySkip.v
theories/SpecExpr.v
theories/P_SpecExpr.v
theories/Smt.v
theories/P_Smt.v
theories/ModelText.v
theories/ModelRead.v
theories/ModelTextFacts.v
theories/ModelReadFacts.v
theories/P_ModelText.v
theories/GenUnits.v
theories/P_GenUnits.v
theories/GenArray.v
theories/GenArrayFacts.v
theories/GenArrayTotal.v
theories/P_GenArray.v
theories/DotGraph.v
theories/P_DotGraph.v
theories/JsonExport.v
theories/P_JsonExport.v
theories/SpecLoad.v
theories/P_SpecLoad.v
theories/Cli.v
theories/P_Cli.v
theories/PyPackages.v
theories/P_PyPackages.v
theories/AdaStmt.v
theories/AdaStmtSpec.v
theories/AdaStmtFacts.v
theories/AdaStmtRead.v
theories/AdaStmtMean.v
theories/P_AdaStmt.v
theories/AdaUnit.v
theories/AdaUnitSpec.v
theories/AdaUnitFacts.v
theories/AdaUnitRun.v
theories/AdaProfile.v
theories/P_AdaUnit.v
theories/AdaCond.v
theories/AdaCondSpec.v
theories/AdaCondFacts.v
theories/AdaCondMean.v
theories/P_AdaCond.v
theories/AdaQuant.v
theories/AdaQuantSpec.v
theories/AdaQuantFacts.v
theories/P_AdaQuant.v
