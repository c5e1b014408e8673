-Q theories Verif
theories/LexModel.v
theories/LexSpec.v
theories/LexProofs.v
theories/LexRun.v
theories/LexDet.v
theories/LexLayout.v
theories/LexLoc.v
theories/PropLex.v
theories/Ints.v
theories/LibModel.v
theories/LibSpec.v
theories/LibProofs.v
theories/LibProofs2.v
theories/LibLists.v
theories/LibMap.v
theories/LibArgs.v
theories/LibMain.v
theories/LibParts.v
theories/PropLib.v
theories/X86.v
theories/GenModel.v
theories/GenProgram.v
theories/GenSpec.v
theories/GenMem.v
theories/GenStatic.v
theories/GenSlots.v
theories/GenPure.v
theories/GenLabels.v
theories/GenText.v
theories/GenExec.v
theories/GenLink.v
theories/GenCorrect.v
theories/GenWorld.v
theories/GenProps.v
theories/GenStack.v
theories/GenFrame.v
theories/GenSample.v
theories/PropGen.v
theories/ScopeModel.v
theories/ScopeSpec.v
theories/ScopeProofs.v
theories/TypeModel.v
theories/TypeSpec.v
theories/TypeProofs.v
theories/TypeLabels.v
theories/TypeGraph.v
theories/PropType.v
theories/GenFuel.v
theories/LowerModel.v
theories/LowerSpec.v
theories/LowerFin.v
theories/LowerRet.v
theories/LowerVars.v
theories/LowerMatch.v
theories/LowerLoop.v
theories/LowerCalc.v
theories/MatchModel.v
theories/MatchProofs.v
theories/PropLower.v
theories/LitModel.v
theories/LitSpec.v
theories/LitProofs.v
theories/PropLit.v
theories/GcModel.v
theories/GcSpec.v
theories/GcHeader.v
theories/GcMark.v
theories/GcSweep.v
theories/InfoModel.v
theories/InfoProofs.v
theories/PropGc.v
theories/RootSpec.v
theories/RootExpr.v
theories/RootStmt.v
theories/RootFn.v
theories/PropRoots.v
theories/StrModel.v
theories/StrSpec.v
theories/StrProofs.v
theories/PropStr.v
theories/PeepModel.v
theories/PeepSpec.v
theories/PeepCalls.v
theories/PeepExec.v
theories/PeepProofs.v
theories/PeepFlow.v
theories/PeepGen.v
theories/PropPeep.v
theories/ParseModel.v
theories/ParseSpec.v
theories/ParseTotal.v
theories/ParseShow.v
theories/ParseExpr.v
theories/ParseProg.v
theories/ParseSound.v
theories/PropParse.v
theories/ErrSpec.v
theories/ParseErrors.v
theories/PropErrors.v
theories/ClosModel.v
theories/ClosSpec.v
theories/ClosCheck.v
theories/ClosSound.v
theories/PropClos.v
theories/CheckModel.v
theories/CheckSpec.v
theories/CheckSafe.v
theories/CheckSound.v
theories/CheckFuel.v
theories/CheckAssign.v
theories/CheckPlaces.v
theories/PropCheck.v
theories/CheckRules.v
theories/CheckComplete.v
theories/PropRules.v
theories/DeclModel.v
theories/DeclSpec.v
theories/DeclProofs.v
theories/DeclNames.v
theories/DeclAccept.v
theories/DeclTidy.v
theories/PropDecl.v
theories/PropWritten.v
theories/WalkModel.v
theories/WalkSpec.v
theories/WalkProofs.v
theories/WalkParse.v
theories/WalkFold.v
theories/PropWalk.v
theories/FitSpec.v
theories/FitProofs.v
theories/PropFit.v
theories/FileModel.v
theories/FileSpec.v
theories/FileParse.v
theories/FileShow.v
theories/FileProofs.v
theories/PropFile.v
theories/ReadModel.v
theories/ReadSpec.v
theories/ReadProofs.v
theories/ReadNames.v
theories/ReadTypes.v
theories/PropRead.v
theories/HoistModel.v
theories/HoistSpec.v
theories/HoistProofs.v
theories/PropHoist.v
theories/GenTail.v
theories/DynModel.v
theories/DynProofs.v
theories/PropDyn.v
theories/CopyModel.v
theories/CopySpec.v
theories/CopyProofs.v
theories/PropCopy.v
theories/GenAssign.v
theories/GenPlaces.v
theories/PropAssign.v
