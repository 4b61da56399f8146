-Q theories Verif

theories/Base.v
theories/HirType.v
theories/HirTypeSpec.v
theories/HirTypeOrder.v
theories/HirTypeTermination.v
theories/HirTypeEq.v
theories/HirTypeSub.v
theories/Graph.v
theories/GraphProofs.v
theories/HirTypeModule.v
theories/HirTypeModuleProofs.v
theories/HirTypeId.v
theories/PackageSort.v
theories/PackageSortProofs.v
theories/PropsTypes.v
theories/Hash.v
theories/Hamt.v
theories/HamtProofs.v
theories/HamtSpec.v
theories/HashProofs.v
theories/HamtMapProofs.v
theories/HamtExamples.v
theories/PropsMap.v
theories/Syntax.v
theories/SyntaxSpec.v
theories/SyntaxProofs.v
theories/Literal.v
theories/LiteralSpec.v
theories/LiteralProofs.v
theories/PropsSyntax.v
theories/Arc.v
theories/ArcSpec.v
theories/ArcProofs.v
theories/CpsStack.v
theories/CpsStackSpec.v
theories/CpsStackProofs.v
theories/PropsRuntime.v
theories/Mir.v
theories/MirSpec.v
theories/MirSim.v
theories/MirConcat.v
theories/MirConcatProofs.v
theories/MirEnv.v
theories/MirScopeSpec.v
theories/MirEnvProofs.v
theories/Names.v
theories/MirAlpha.v
theories/MirAlphaProofs.v
theories/MirNorm.v
theories/MirUniq.v
theories/MirLoose.v
theories/MirAliasProofs.v
theories/MirNormSpec.v
theories/MirNormProofs.v
theories/MirLift.v
theories/MirLiftSpec.v
theories/MirLiftProofs.v
theories/MirLiftBoxProofs.v
theories/MirExamples.v
theories/PropsMir.v
theories/MirLiftExamples.v
theories/MirPipeline.v
theories/MirPipelineSpec.v
theories/MirPipelineProofs.v
theories/PropsMirLift.v
theories/PropsMirPipeline.v
theories/MirRc.v
theories/MirRcSpec.v
theories/MirRcProofs.v
theories/MirRcFunction.v
theories/MirRcHiding.v
theories/MirRcBehaviour.v
theories/MirRcValidSpec.v
theories/MirRcSound.v
theories/MirRcComplete.v
theories/MirRcAccept.v
theories/MirReadySpec.v
theories/MirReady.v
theories/MirReadyNames.v
theories/MirRcExamples.v
theories/PropsMirRc.v
theories/MirTypeCheck.v
theories/MirTypeSpec.v
theories/MirTypeProofs.v
theories/MirTypeExamples.v
theories/PropsMirType.v
theories/Hir.v
theories/HirCheck.v
theories/HirCoerce.v
theories/HirInfer.v
theories/HirValidate.v
theories/HirSpec.v
theories/HirParts.v
theories/HirStrip.v
theories/HirTyping.v
theories/HirExact.v
theories/HirSound.v
theories/HirMain.v
theories/HirModule.v
theories/PropsHir.v
theories/HirMir.v
theories/LowerSpec.v
theories/LowerTag.v
theories/LowerSwitch.v
theories/PropsLower.v
theories/RunSpec.v
theories/RunProofs.v
theories/RunInvariant.v
theories/ThunkProofs.v
theories/PreludeList.v
theories/ListSpec.v
theories/ListProofs.v
theories/ListLiteral.v
theories/DataSpec.v
theories/EqualSpec.v
theories/EqualProofs.v
theories/PropsEqual.v
theories/HashCodeSpec.v
theories/HashCodeProofs.v
theories/PropsHash.v
theories/PropsList.v
theories/ThunkProtocol.v
theories/ThunkProtocolProofs.v
theories/PropsThunk.v
theories/Float.v
theories/FloatProofs.v
theories/PkgBytes.v
theories/PkgBytesSpec.v
theories/PkgBytesProofs.v
theories/PkgFlag.v
theories/PkgFlagSpec.v
theories/PkgFlagProofs.v
theories/PropsPackages.v
theories/Utf8.v
theories/PkgUtf8.v
theories/PkgUtf8Spec.v
theories/PkgUtf8Proofs.v
theories/PkgCore.v
theories/PkgCoreSpec.v
theories/PkgCoreProofs.v
theories/PropsCore.v
theories/PropsText.v
theories/PkgHtml.v
theories/PkgHtmlSpec.v
theories/PkgHtmlProofs.v
theories/PropsHtml.v
theories/PkgJson.v
theories/PkgJsonSpec.v
theories/PkgJsonProofs.v
theories/PkgJsonTextProofs.v
theories/PkgJsonDecodeProofs.v
theories/PkgJsonTotalProofs.v
theories/PropsJson.v
theories/LowerTypeSpec.v
theories/LowerTypeBase.v
theories/LowerTypeCode.v
theories/LowerTypeMore.v
theories/LowerTypeLoop.v
theories/LowerTypeBuiltin.v
theories/LowerTypeMain.v
theories/HirProgram.v
theories/LowerPlain.v
theories/LowerTypeGen.v
theories/LowerTypeInfo.v
theories/LowerProgramSpec.v
theories/LowerCompleteSpec.v
theories/LowerTypeNames.v
theories/LowerTypeFlow.v
theories/LowerTypeModule.v
theories/LowerSource.v
theories/LowerFits.v
theories/LowerOrigin.v
theories/LowerNeeds.v
theories/LowerScope.v
theories/LowerCollect.v
theories/LowerStages.v
theories/LowerSearch.v
theories/LowerSearchFits.v
theories/PropsLowerType.v
theories/Resolve.v
theories/ResolveSpec.v
theories/ResolveProofs.v
theories/ResolveUse.v
theories/PropsResolve.v
theories/Ast.v
theories/Parser.v
theories/Printer.v
theories/ParserSpec.v
theories/ParserToken.v
theories/ParserList.v
theories/ParserType.v
theories/ParserReduce.v
theories/ParserLiteral.v
theories/ParserOpening.v
theories/ParserBlock.v
theories/ParserAtom.v
theories/ParserIf.v
theories/ParserExpression.v
theories/ParserModule.v
theories/PropsFormat.v
theories/ParserKept.v
theories/ParserSound.v
theories/ParserSoundExpr.v
theories/ParserSoundModule.v
theories/ParserFuel.v
theories/PropsParse.v
theories/Desugar.v
theories/DesugarSpec.v
theories/DesugarProofs.v
theories/ParserWords.v
theories/ParserWordsProofs.v
theories/DesugarWritten.v
theories/ResolveUnique.v
theories/SourceSpec.v
theories/SourceProofs.v
theories/NumberLiteral.v
theories/SourceMeans.v
theories/DesugarMeans.v
theories/FormatOrder.v
theories/PropsSource.v
theories/HirMeaning.v
theories/MeaningSpec.v
theories/MeaningRun.v
theories/LowerMeaning.v
theories/MeaningProgramSpec.v
theories/MeaningProgram.v
theories/PropsMeaning.v
theories/MirFuel.v
theories/HirForever.v
theories/MeaningForever.v
theories/PropsForever.v
theories/SafeSpec.v
theories/SafeProofs.v
theories/SafeProgram.v
theories/PropsSafe.v
theories/MirSourceCheck.v
theories/SessionSpec.v
theories/QuietWorld.v
theories/SessionProofs.v
theories/PropsEndToEnd.v
theories/CrashSpec.v
theories/CrashBase.v
theories/CrashAnalysis.v
theories/CrashLower.v
theories/CrashNodes.v
theories/CrashProgram.v
theories/CrashSourceSpec.v
theories/CrashSource.v
theories/PropsCrash.v
theories/PropsCrashSource.v
theories/PropsTextRun.v
theories/PrivateSourceSpec.v
theories/PrivateSource.v
theories/PropsPrivateText.v
