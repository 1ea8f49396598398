-Q theories Verif
theories/Base.v
theories/Ident.v
theories/Tokenizer.v
theories/Ast.v
theories/Lex.v
theories/Syntax.v
theories/Io.v
theories/Graph.v
theories/Machine.v
theories/Decode.v
theories/Tree.v
theories/Tests.v
theories/SpecText.v
theories/TextFacts.v
theories/PropText.v
theories/SpecTok.v
theories/TokFacts.v
theories/TokRun.v
theories/SpecLex.v
theories/LexRun.v
theories/PropLex.v
theories/SpecGram.v
theories/GramFacts.v
theories/GramText.v
theories/GramFinal.v
theories/SpecTree.v
theories/TreeFacts.v
theories/PropGram.v
theories/ShowFacts.v
theories/PropShow.v
theories/SpecSyntax.v
theories/SyntaxFacts.v
theories/PropSyntax.v
theories/SpecIo.v
theories/IoFacts.v
theories/PropIo.v
theories/SpecDecode.v
theories/DecodeFacts.v
theories/PropDecode.v
theories/PropAst.v
theories/SpecParse.v
theories/Pure.v
theories/PureFacts.v
theories/ParseFacts.v
theories/CodeFacts.v
theories/RunFacts.v
theories/RunComplete.v
theories/EvFacts.v
theories/SpecMachine.v
theories/MachineFacts.v
theories/PropParse.v
theories/SpecEvents.v
theories/EventFacts.v
theories/LangFacts.v
theories/PanicFacts.v
theories/PropEvents.v
theories/SpecTotal.v
theories/TotalFacts.v
theories/PropTotal.v
theories/SpecConcat.v
theories/ConcatFacts.v
theories/SpecLoc.v
theories/LocFacts.v
theories/PlaceFacts.v
theories/SpecStick.v
theories/StickFacts.v
theories/PropConcat.v
theories/Read.v
theories/SpecUtf8.v
theories/GarbleFacts.v
theories/PropRead.v
theories/SpecError.v
theories/ErrorFacts.v
theories/PropError.v
theories/FailFacts.v
theories/PropFail.v
theories/FuelFacts.v
theories/SpecLike.v
theories/LikeFacts.v
theories/LikeUse.v
theories/PropLike.v
theories/Message.v
theories/SpecMessage.v
theories/MessageFacts.v
theories/ClearFacts.v
theories/PropMessage.v
theories/SpecFault.v
theories/FaultFacts.v
theories/DescentFacts.v
theories/MisfitFacts.v
theories/StopFacts.v
theories/PropFault.v
theories/SpecLL.v
theories/LLFacts.v
theories/LLCheck.v
theories/PropLL.v
theories/SpecMark.v
theories/MarkFacts.v
theories/PropMark.v
theories/SpecDeriv.v
theories/DerivFacts.v
theories/ProdCheck.v
theories/PropDeriv.v
theories/SpecViable.v
theories/ViableFacts.v
theories/PropViable.v
theories/Open.v
theories/SpecOpen.v
theories/OpenFacts.v
theories/PropOpen.v
theories/SpecLaws.v
theories/LawFacts.v
theories/LawUse.v
theories/LawGlue.v
theories/PropLaws.v
theories/SpecInline.v
theories/InlineFacts.v
theories/PropInline.v
theories/SpecMove.v
theories/MoveFacts.v
theories/PropMove.v
theories/SpecName.v
theories/NameFacts.v
theories/NameUse.v
theories/PropName.v
theories/SpecDepth.v
theories/DepthFacts.v
theories/PropDepth.v
theories/SpecCount.v
theories/CountFacts.v
theories/PropCount.v
theories/SpecLoop.v
theories/LoopFacts.v
theories/PropLoop.v
theories/Narrow.v
theories/NarrowMachine.v
theories/NarrowFacts.v
theories/NarrowIo.v
theories/SpecNarrow.v
theories/NarrowRun.v
theories/PropNarrow.v
theories/LexRelease.v
theories/SpecBuild.v
theories/BuildFacts.v
theories/StuckFacts.v
theories/BuildIo.v
theories/BuildParse.v
theories/PropBuild.v
theories/Scanners.v
theories/SpecDoc.v
theories/DocFacts.v
theories/DocParse.v
theories/PropDoc.v
theories/ReadBack.v
theories/SpecExact.v
theories/ExactFacts.v
theories/ExactUse.v
theories/ExactCheck.v
theories/PropExact.v
theories/SpecTrip.v
theories/TripFacts.v
theories/PropTrip.v
theories/SpecHalt.v
theories/HaltFacts.v
theories/PropHalt.v
theories/SpecLimit.v
theories/LimitFacts.v
theories/PropLimit.v
theories/SpecFirst.v
theories/FirstFacts.v
theories/PropFirst.v
theories/SpecGauge.v
theories/GaugeFacts.v
theories/PropGauge.v
theories/SpecTrace.v
theories/TraceFacts.v
theories/PropTrace.v
theories/SpecForward.v
theories/PropForward.v
theories/SpecSpot.v
theories/SpotFacts.v
theories/PropSpot.v
theories/SpecLeft.v
theories/LeftFacts.v
theories/PropLeft.v
theories/MachineSteps.v
theories/PureSteps.v
theories/SpecWork.v
theories/WorkFacts.v
theories/WorkApi.v
theories/PropWork.v
theories/SpecLinear.v
theories/LinearFacts.v
theories/PropLinear.v
theories/DecideLeft.v
theories/PropDecide.v
theories/SpecCap.v
theories/CapFacts.v
theories/FuelNeed.v
theories/PropCap.v
theories/SpecHold.v
theories/HoldFacts.v
theories/PropHold.v
theories/LexCost.v
theories/LexCostFacts.v
theories/LexCostFamily.v
theories/PropLexCost.v
theories/SpecNest.v
theories/LexDepth.v
theories/LexDepthFacts.v
theories/LexDepthFamily.v
theories/PropLexDepth.v
theories/SpecOnly.v
theories/OnlyFacts.v
theories/TidyCheck.v
theories/PropOnly.v
theories/OwnReader.v
theories/SpecOwn.v
theories/OwnFacts.v
theories/OwnUse.v
theories/PropOwn.v
theories/OwnRel.v
theories/OwnSource.v
theories/SpecSource.v
theories/SourceFacts.v
theories/PropSource.v
theories/SpecSwap.v
theories/SwapFacts.v
theories/PropSwap.v
theories/SpecFold.v
theories/FoldFacts.v
theories/PropFold.v
theories/SpecGrow.v
theories/GrowFacts.v
theories/PropGrow.v
theories/SpecPart.v
theories/PartFacts.v
theories/PropPart.v
theories/SpecEdit.v
theories/EditFacts.v
theories/PropEdit.v
