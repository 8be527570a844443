-Q theories Verif
theories/Base.v
theories/CrossProduct.v
theories/SpecProduct.v
theories/CrossProductProofs.v
theories/Token.v
theories/Types.v
theories/Values.v
theories/Normalize.v
theories/Ast.v
theories/Tuple.v
theories/Expand.v
theories/Env.v
theories/Resolve.v
theories/Eval.v
theories/SpecTuple.v
theories/ExpandProofs.v
theories/LoopFacts.v
theories/PropertiesLoops.v
theories/FormatString.v
theories/SpecFormat.v
theories/FormatProofs.v
theories/SpecNormalize.v
theories/NormalizeProofs.v
theories/Concrete.v
theories/ConcreteEq.v
theories/TextFacts.v
theories/PropertiesText.v
theories/BaseFacts.v
theories/SpecTypes.v
theories/TypesProofs.v
theories/PropertiesTypes.v
theories/SpecElab.v
theories/SpecScope.v
theories/ElabProofs.v
theories/SpecPrograms.v
theories/ElabFacts.v
theories/BuiltinFacts.v
theories/BuiltinCasts.v
theories/SpecCalls.v
theories/CallFacts.v
theories/MoreCallFacts.v
theories/ResolveFacts.v
theories/ConcreteSpecs.v
theories/PropertiesResolve.v
theories/PropertiesCalls.v
theories/StreamWalker.v
theories/SubstituteIdents.v
theories/SpecSubst.v
theories/WalkerProofs.v
theories/SubstFacts.v
theories/PropertiesSubst.v
theories/Item.v
theories/AliasSubstitution.v
theories/SpecItem.v
theories/VisitorProofs.v
theories/VisitorTotal.v
theories/SpecRespelled.v
theories/RespelledProofs.v
theories/ItemFacts.v
theories/PropertiesItems.v
theories/Deprecation.v
theories/Interpreter.v
theories/SpecDeprecation.v
theories/DeprecationProofs.v
theories/SpecInterpreter.v
theories/InterpreterProofs.v
theories/ConcreteRuns.v
theories/RunFacts.v
theories/PropertiesDeprecation.v
theories/PropertiesInterpreter.v
theories/TokenDistance.v
theories/UniqueId.v
theories/SpecDistance.v
theories/DistanceProofs.v
theories/PropertiesDistance.v
theories/Parse.v
theories/SpecParse.v
theories/ParseProofs.v
theories/ParseIds.v
theories/SeparatorProofs.v
theories/Macro.v
theories/MacroProofs.v
theories/SpecMacro.v
theories/MeaningProofs.v
theories/ConcreteParse.v
theories/PropertiesParse.v
theories/PropertiesMacro.v
theories/SpecOutcome.v
theories/OutcomeProofs.v
theories/PropertiesOutcome.v
theories/SpecRepro.v
theories/ReproProofs.v
theories/PropertiesRepro.v
theories/SpecNaming.v
theories/NamingProofs.v
theories/SettledProofs.v
theories/PropertiesNaming.v
theories/SpecFunctions.v
theories/FunctionProofs.v
theories/PropertiesFunctions.v
theories/Messages.v
theories/SpecMessages.v
theories/MessageProofs.v
theories/MessageCalls.v
theories/PropertiesMessages.v
theories/Costs.v
theories/SpecCosts.v
theories/CostProofs.v
theories/PropertiesCosts.v
theories/Work.v
theories/SpecWork.v
theories/WorkProofs.v
theories/PropertiesWork.v
theories/SpecForms.v
theories/FormProofs.v
theories/PropertiesForms.v
theories/ConcreteForms.v
theories/SpecUnroll.v
theories/UnrollProofs.v
theories/RustLexer.v
theories/RustText.v
theories/RustGrammar.v
theories/RustInstance.v
theories/RustBlind.v
theories/RustLaws.v
theories/SpanTokens.v
theories/Failures.v
theories/SpanWalker.v
theories/SpecSpans.v
theories/SpanProofs.v
theories/SpanValues.v
theories/SpanEval.v
theories/SpecSpanEval.v
theories/SpanEvalProofs.v
theories/FailureProofs.v
theories/SpanInstance.v
theories/PropertiesSpans.v
theories/PropertiesFailures.v
theories/SpanItem.v
theories/SpanVisitor.v
theories/SpecSpanItem.v
theories/SpanItemProofs.v
theories/SpanDeprecation.v
theories/SpanDeprecationProofs.v
theories/SpanParse.v
theories/SpanExpand.v
theories/SpanMacro.v
theories/SpecSpanMacro.v
theories/SpanParseProofs.v
theories/SpanExpandProofs.v
theories/SpanMacroProofs.v
theories/SpanPlaces.v
theories/SpanDress.v
theories/SpanDressProofs.v
theories/SpanRust.v
theories/PropertiesPlaces.v
theories/SpecSyntaxErrors.v
theories/SyntaxErrorProofs.v
theories/PropertiesSyntaxErrors.v
theories/SpecUnrollAll.v
theories/UnrollAllProofs.v
theories/PropertiesUnroll.v
theories/SpecOrder.v
theories/OrderProofs.v
theories/PropertiesOrder.v
theories/InvisibleParse.v
theories/SpecInvisible.v
theories/InvisibleProofs.v
theories/InvisibleSame.v
theories/InvisibleMacro.v
theories/InvisibleInstance.v
theories/InvisibleTop.v
theories/SpecInvisibleRun.v
theories/InvisibleElab.v
theories/InvisibleEmit.v
theories/InvisibleStages.v
theories/InvisibleRun.v
theories/SpecCursor.v
theories/InvisibleDistance.v
theories/PropertiesInvisible.v
theories/PropertiesInvisibleRun.v
theories/SpecKeywords.v
theories/KeywordsProofs.v
theories/PropertiesKeywords.v
theories/SpecSpanKeywords.v
theories/SpanKeywordsProofs.v
theories/PropertiesSpanKeywords.v
theories/SpecNesting.v
theories/NestingProofs.v
theories/NestingRuns.v
theories/NestingLaws.v
theories/PropertiesNesting.v
theories/Threads.v
theories/SpecThreads.v
theories/ThreadProofs.v
theories/PropertiesThreads.v
theories/SpecSpanUnroll.v
theories/SpanUnrollProofs.v
theories/SpecReports.v
theories/ReportProofs.v
theories/PropertiesReports.v
theories/SpecGrammar.v
theories/GrammarProofs.v
theories/PropertiesGrammar.v
theories/ConformanceInterpreter.v
theories/ConformanceFuncs.v
theories/ConformanceValues.v
theories/ConformanceSubstitutions.v
theories/ConformanceTexts.v
theories/ConformanceMacros.v
theories/ConformanceUnits.v
theories/ConformanceReadme.v
theories/Findings.v
theories/SpecLoops.v
theories/LoopAlgebra.v
theories/PropertiesLoopAlgebra.v
theories/SpecNested.v
theories/NestedProofs.v
theories/ConcreteNested.v
theories/PropertiesNested.v
theories/SpecCasing.v
theories/CasingProofs.v
theories/CasingLaws.v
theories/PropertiesCasing.v
theories/SpecRawNames.v
theories/RawNameProofs.v
theories/PropertiesRawNames.v
theories/SpecSize.v
theories/SizeProofs.v
theories/CostMacro.v
theories/CostUseProofs.v
theories/SubstituteLog.v
theories/SpecSubstWork.v
theories/SubstituteLogProofs.v
theories/PropertiesSubstWork.v
theories/SpecHash.v
theories/HashProofs.v
theories/PropertiesHash.v
theories/SpecGrowth.v
theories/GrowthProofs.v
theories/DoublingProofs.v
theories/GrowthInstance.v
theories/RustModest.v
theories/PropertiesGrowth.v
theories/ParseWork.v
theories/ParseWorkProofs.v
theories/PropertiesParseWork.v
theories/SpecSpanCode.v
theories/SpanCodeProofs.v
theories/SpanCodeMacroProofs.v
theories/SpanDressPrint.v
theories/PropertiesSpanCode.v
theories/SpecOrigins.v
theories/OriginProofs.v
theories/RustOrigins.v
theories/PropertiesOrigins.v
theories/SpecSpanGrammar.v
theories/SpanGrammarProofs.v
theories/SpanGrammarExact.v
theories/PropertiesSpanGrammar.v
theories/HashMaps.v
theories/HashMapsProofs.v
theories/PropertiesHashMaps.v
theories/SpanInvisible.v
theories/SpanInvisibleMacro.v
theories/SpanInvisibleProofs.v
theories/InvisibleIds.v
theories/SpanInvisibleRun.v
theories/SpanInvisibleVisible.v
theories/SpecSpanInvisible.v
theories/SpanInvisibleInstance.v
theories/PropertiesSpanInvisible.v
theories/SpanInvisibleSame.v
theories/SpanThrough.v
theories/PropertiesSpanThrough.v
theories/SpanThroughRun.v
theories/PropertiesSpanThroughCode.v
theories/SpecSpanShift.v
theories/SpanShiftEval.v
theories/SpanShiftParse.v
theories/SpanShiftItem.v
theories/SpanShiftMacro.v
theories/SpanShiftInstance.v
theories/PropertiesShift.v
theories/SpanShiftThrough.v
theories/SpanShiftThroughMacro.v
theories/PropertiesShiftThrough.v
theories/SpecRename.v
theories/RenameWalk.v
theories/RenameItem.v
theories/RenameMacro.v
theories/RustRename.v
theories/RustRenameLaws.v
theories/PropertiesRename.v
theories/SpecExtend.v
theories/ExtendParse.v
theories/ExtendProofs.v
theories/ConcreteExtend.v
theories/PropertiesExtend.v
theories/SpecOverload.v
theories/OverloadProofs.v
theories/PropertiesOverload.v
theories/SpecChoice.v
theories/ChoiceProofs.v
theories/PropertiesChoice.v
theories/SpecShown.v
theories/ShownProofs.v
theories/PropertiesShown.v
theories/SpecNormalizeCalls.v
theories/NormalizeCallProofs.v
theories/PropertiesNormalizeCalls.v
theories/SpecMigration.v
theories/MigrationProofs.v
theories/PropertiesMigration.v
theories/SpecBrackets.v
theories/SpecStrings.v
theories/BracketProofs.v
theories/RustSignature.v
theories/PropertiesBrackets.v
theories/SpecEscape.v
theories/EscapeProofs.v
theories/PropertiesEscape.v
theories/AgainProofs.v
theories/PropertiesAgain.v
theories/RustStrings.v
theories/StringProofs.v
theories/PropertiesStrings.v
theories/PropertiesStacked.v
theories/SpecBuilding.v
theories/BuildingProofs.v
theories/PropertiesBuilding.v
theories/SpecHeaders.v
theories/HeaderProofs.v
theories/SpecHeaderNames.v
theories/HeaderUseProofs.v
theories/RustHeaders.v
theories/PropertiesHeaders.v
theories/SpecAlpha.v
theories/AlphaProofs.v
theories/RustAlpha.v
theories/PropertiesAlpha.v
theories/SpecAlphaOutcome.v
theories/AlphaOutcomeProofs.v
theories/RustAlphaOutcome.v
theories/PropertiesAlphaOutcome.v
theories/SpecWrittenOut.v
theories/WrittenOutProofs.v
theories/PropertiesWrittenOut.v
theories/SpecComputed.v
theories/ComputedProofs.v
theories/SpecSpanComputed.v
theories/SpanComputedProofs.v
theories/PropertiesComputed.v
theories/SpecEitherOrder.v
theories/EitherOrderProofs.v
theories/PropertiesEitherOrder.v
theories/SpecDistinct.v
theories/DistinctProofs.v
theories/RustDistinct.v
theories/PropertiesDistinct.v
theories/SpecConvertTwice.v
theories/ConvertTwiceProofs.v
theories/RustConvertTwice.v
theories/PropertiesConvertTwice.v
