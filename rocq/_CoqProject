-Q theories Verif
theories/Base.v
theories/Utf8.v
theories/Escape.v
theories/IdSet.v
theories/Results.v
theories/Parser.v
theories/Build.v
theories/Syntax.v
theories/SelfData.v
theories/Define.v
theories/GoTestsHead.v
theories/GoTests.v
theories/SelfText.v
theories/SelfTree.v
theories/Validate.v
theories/ListFacts.v
theories/ResultsFacts.v
theories/ReaderFacts.v
theories/ParseFacts.v
theories/FuelFacts.v
theories/TermFacts.v
theories/BuildFacts.v
theories/Lang.v
theories/Sound.v
theories/RunFacts.v
theories/TextSpec.v
theories/ErrFacts.v
theories/NoPanic.v
theories/InitWalk.v
theories/InitRun.v
theories/InitOk.v
theories/SyntaxFacts.v
theories/InitCore.v
theories/InitSpec.v
theories/InitFuel.v
theories/Grammar.v
theories/WsLang.v
theories/ApiSpec.v
theories/Rep.v
theories/Restrict.v
theories/Live.v
theories/LangGen.v
theories/Api.v
theories/WsObjs.v
theories/WsGen.v
theories/WsShape.v
theories/WsNames.v
theories/WsDistinct.v
theories/Utf8Facts.v
theories/WsApi.v
theories/ApiFacts.v
theories/DefSpec.v
theories/DefineFacts.v
theories/RefFacts.v
theories/Cap.v
theories/StoreSpec.v
theories/CapFacts.v
theories/StoreFacts.v
theories/TextFacts.v
theories/PropParse.v
theories/WsRefs.v
theories/WsIds.v
theories/PropDefine.v
theories/PropRefuted.v
theories/PropStore.v
theories/PropText.v
theories/PropComments.v
theories/ReadFacts.v
theories/Cli.v
theories/CliSpec.v
theories/CliFacts.v
theories/PropCli.v
theories/RefSpec.v
theories/RefFuel.v
theories/RefParse.v
theories/RefBuild.v
theories/RefRun.v
theories/RefSim.v
theories/RefTotal.v
theories/RefApi.v
theories/RefCheck.v
theories/RefSafe.v
theories/PropRef.v
theories/Generate.v
theories/SelfGo.v
theories/ValidateGo.v
theories/GoSpec.v
theories/GenWalk.v
theories/GenSim.v
theories/GenRun.v
theories/GenApi.v
theories/GoRead.v
theories/GenText.v
theories/GenWrite.v
theories/GenSpec.v
theories/GenNames.v
theories/GenFacts.v
theories/PropGen.v
theories/Conc.v
theories/ConcFacts.v
theories/ConcSpec.v
theories/ConcApi.v
theories/PropConc.v
theories/Alias.v
theories/AliasSpec.v
theories/AliasFacts.v
theories/PropAlias.v
theories/ReadSpec.v
theories/SelfGrammar.v
theories/ReadUse.v
theories/SelfLang.v
theories/ReadLang.v
theories/Shape.v
theories/SelfShape.v
theories/SelfWords.v
theories/ReadDefs.v
theories/ReadMeans.v
theories/PropRead.v
theories/LeftSpec.v
theories/LeftFrame.v
theories/OnceFacts.v
theories/LeftFacts.v
theories/LeftTotal.v
theories/LeftParse.v
theories/LeftRun.v
theories/LeftSim.v
theories/LeftApi.v
theories/LeftCheck.v
theories/PropLeft.v
theories/Format.v
theories/FormatSpec.v
theories/FormatGo.v
theories/AbsEval.v
theories/AbsText.v
theories/FormatClass.v
theories/FormatWords.v
theories/FormatNum.v
theories/FormatItems.v
theories/FormatSeq.v
theories/FormatDef.v
theories/FormatRead.v
theories/FormatBack.v
theories/PropFormat.v
theories/FormatNest.v
theories/FormatNestSpec.v
theories/FormatNestBack.v
theories/FormatAllSpec.v
theories/FormatAll.v
theories/PropFormatNest.v
theories/RefusedSpec.v
theories/RefusedSim.v
theories/RefusedFacts.v
theories/PropRefused.v
theories/OrderSpec.v
theories/OrderFacts.v
theories/SameStore.v
theories/SameSim.v
theories/SameInit.v
theories/SameRun.v
theories/SameWs.v
theories/SameApi.v
theories/OrderSame.v
theories/PropOrder.v
theories/Render.v
theories/RenderFacts.v
theories/PropRender.v
theories/GrowSpec.v
theories/GrowFuel.v
theories/GrowTotal.v
theories/GrowParse.v
theories/GrowBuild.v
theories/GrowRun.v
theories/GrowSim.v
theories/GrowApi.v
theories/GrowCheck.v
theories/GrowChain.v
theories/PropGrow.v
theories/Json.v
theories/JsonSpec.v
theories/JsonFacts.v
theories/PropJson.v
theories/ReadGrow.v
theories/PropReadGrow.v
theories/BlameFacts.v
theories/RefTail.v
theories/BlameApi.v
theories/PropBlame.v
theories/Cost.v
theories/CostSpec.v
theories/CostFacts.v
theories/CostBound.v
theories/CostApi.v
theories/CostExp.v
theories/CostRead.v
theories/PropCost.v
theories/DepthSpec.v
theories/DepthFacts.v
theories/DepthApi.v
theories/PropDepth.v
theories/CostBuild.v
theories/CostBuildFacts.v
theories/CostBuildBound.v
theories/CostBuildSpec.v
theories/CostBuildApi.v
theories/TreeDepth.v
theories/PropBuildCost.v
theories/ReaderSafe.v
theories/PropReader.v
theories/SizeSpec.v
theories/TreeSize.v
theories/SizeExp.v
theories/TreeLinear.v
theories/TreeCount.v
theories/PropSize.v
theories/HideSpec.v
theories/HideRun.v
theories/HideInit.v
theories/HideApi.v
theories/PropHide.v
theories/RenameSpec.v
theories/RenameRun.v
theories/RenameNames.v
theories/RenameInit.v
theories/RenameApi.v
theories/PropRename.v
theories/FlagSpec.v
theories/FlagInit.v
theories/FlagRun.v
theories/FlagApi.v
theories/PropFlag.v
theories/InlineSpec.v
theories/InlineSim.v
theories/InlineApi.v
theories/PropInline.v
theories/PredictSpec.v
theories/PredictFacts.v
theories/PredictApi.v
theories/PredictCheck.v
theories/PredictSpaced.v
theories/PredictWs.v
theories/PredictWsCheck.v
theories/PropPredict.v
theories/JsonDoc.v
theories/JsonDocFacts.v
theories/JsonSyntax.v
theories/JsonDocLang.v
theories/JsonDocRfc.v
theories/JsonDocApi.v
theories/PropJsonDoc.v
theories/MeaningSpec.v
theories/Meaning.v
theories/MeaningWs.v
theories/PropMeaning.v
theories/ReaderBack.v
theories/PropInvalid.v
theories/ArgSpec.v
theories/ArgFacts.v
theories/PropArgs.v
theories/CliGen.v
theories/CliGenFacts.v
theories/PropCliGen.v
theories/PropAgree.v
theories/SourceSpec.v
theories/SourceFacts.v
theories/PropSource.v
