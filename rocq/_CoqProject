-Q theories Verif
theories/AddedExamples.v
theories/AddedProofs.v
theories/AgreeProofs.v
theories/AnyOrder.v
theories/ArgumentExamples.v
theories/ArgumentProofs.v
theories/Arguments.v
theories/ArrivesProofs.v
theories/AsideExamples.v
theories/AsideProofs.v
theories/AssertExamples.v
theories/AssertProofs.v
theories/AvroProofs.v
theories/BackProofs.v
theories/Base.v
theories/BlameProofs.v
theories/BranchExamples.v
theories/BranchProofs.v
theories/BudgetExamples.v
theories/BudgetProofs.v
theories/BuildExamples.v
theories/BuildProofs.v
theories/BuiltExamples.v
theories/BuiltProofs.v
theories/ByLineExamples.v
theories/ByLineProofs.v
theories/CausalExamples.v
theories/CausalProofs.v
theories/ChainExamples.v
theories/ChainProofs.v
theories/CombineProofs.v
theories/Command.v
theories/Conformance.v
theories/ConnectProofs.v
theories/ContainerProofs.v
theories/Context.v
theories/Deep.v
theories/DeepProofs.v
theories/DigitsProofs.v
theories/Display.v
theories/DisplayProofs.v
theories/DoomExamples.v
theories/DoomProofs.v
theories/DurationProofs.v
theories/EqualityProofs.v
theories/EvalDepthProofs.v
theories/EvalExamples.v
theories/EvalWorkProofs.v
theories/Evaluator.v
theories/EvaluatorProofs.v
theories/EvaluatorTop.v
theories/F64.v
theories/FewDigits.v
theories/FewText.v
theories/FiledExamples.v
theories/FiledProofs.v
theories/FixedExamples.v
theories/FixedProofs.v
theories/FloatLiteral.v
theories/FloatOps.v
theories/FloatProofs.v
theories/FloatUnique.v
theories/FramingExamples.v
theories/FramingProofs.v
theories/GrownExamples.v
theories/GrownProofs.v
theories/HistoryExamples.v
theories/HistoryProofs.v
theories/HttpClient.v
theories/HttpExamples.v
theories/HttpRace.v
theories/HttpRead.v
theories/HttpRequest.v
theories/HttpResponse.v
theories/HttpSend.v
theories/HttpStream.v
theories/HttpUrl.v
theories/InlineProofs.v
theories/JsonProofs.v
theories/LabelExamples.v
theories/LabelProofs.v
theories/LawExamples.v
theories/LawProofs.v
theories/LayoutProofs.v
theories/LexOneProofs.v
theories/Lexer.v
theories/LexerProofs.v
theories/LiteralProofs.v
theories/LiveExamples.v
theories/LiveProofs.v
theories/LockstepProofs.v
theories/LongerExamples.v
theories/LongerProofs.v
theories/ModesProofs.v
theories/MovedExamples.v
theories/MovedProofs.v
theories/MuteExamples.v
theories/MuteProofs.v
theories/Native.v
theories/NewExamples.v
theories/NumberProofs.v
theories/OrderExamples.v
theories/OrderProofs.v
theories/Outage.v
theories/OutageExamples.v
theories/OutageLaunch.v
theories/OutageProofs.v
theories/OutageStart.v
theories/OutageTop.v
theories/PaceExamples.v
theories/PaceProofs.v
theories/Parser.v
theories/ParserBase.v
theories/ParserComplete.v
theories/ParserExamples.v
theories/ParserFuel.v
theories/ParserProgram.v
theories/ParserSound.v
theories/ParserTermination.v
theories/ParserTop.v
theories/PlainProofs.v
theories/PrintsExamples.v
theories/PrintsProofs.v
theories/Process.v
theories/ProcessEnds.v
theories/ProcessExamples.v
theories/ProcessLaunch.v
theories/ProcessOnce.v
theories/ProcessProofs.v
theories/ProcessRun.v
theories/ProcessStop.v
theories/ProcessTop.v
theories/Program.v
theories/ProgramExamples.v
theories/ProgramProofs.v
theories/PropsAdded.v
theories/PropsArguments.v
theories/PropsArrives.v
theories/PropsAside.v
theories/PropsAssert.v
theories/PropsBranch.v
theories/PropsBudget.v
theories/PropsBuild.v
theories/PropsBuilt.v
theories/PropsByLine.v
theories/PropsCausal.v
theories/PropsChain.v
theories/PropsEval.v
theories/PropsFew.v
theories/PropsFiled.v
theories/PropsFixed.v
theories/PropsFraming.v
theories/PropsGrown.v
theories/PropsHistory.v
theories/PropsHttp.v
theories/PropsLabel.v
theories/PropsLaws.v
theories/PropsLayout.v
theories/PropsLexer.v
theories/PropsLive.v
theories/PropsLonger.v
theories/PropsModes.v
theories/PropsMore.v
theories/PropsMoved.v
theories/PropsMute.v
theories/PropsNew.v
theories/PropsOrder.v
theories/PropsOutage.v
theories/PropsPace.v
theories/PropsParser.v
theories/PropsPrints.v
theories/PropsProcess.v
theories/PropsProgram.v
theories/PropsRace.v
theories/PropsRead.v
theories/PropsReading.v
theories/PropsRefactor.v
theories/PropsReplace.v
theories/PropsReport.v
theories/PropsRun.v
theories/PropsSession.v
theories/PropsShared.v
theories/PropsShuffle.v
theories/PropsStack.v
theories/PropsSteady.v
theories/PropsTally.v
theories/PropsText.v
theories/PropsTypes.v
theories/PropsUnary.v
theories/PropsValue.v
theories/PropsVerdict.v
theories/PropsWhole.v
theories/PropsWork.v
theories/PropsWriter.v
theories/PureProofs.v
theories/RaceExamples.v
theories/RaceProofs.v
theories/ReadComplete.v
theories/ReadExamples.v
theories/ReadProofs.v
theories/ReadSound.v
theories/ReadsProofs.v
theories/RecordProofs.v
theories/RefactorExamples.v
theories/RefactorProofs.v
theories/RejectProofs.v
theories/RenameProofs.v
theories/ReplaceExamples.v
theories/ReplaceProofs.v
theories/ReportExamples.v
theories/ReportProofs.v
theories/RequestProofs.v
theories/ResponseProofs.v
theories/RunExamples.v
theories/RunMore.v
theories/RunProofs.v
theories/RunTop.v
theories/SafeProofs.v
theories/SendProofs.v
theories/ServedExamples.v
theories/ServedProofs.v
theories/Session.v
theories/SessionExamples.v
theories/SessionMore.v
theories/SessionProofs.v
theories/SharedExamples.v
theories/SharedProofs.v
theories/ShowProofs.v
theories/ShuffleExamples.v
theories/ShuffleProofs.v
theories/SourceProofs.v
theories/SpecAdded.v
theories/SpecArguments.v
theories/SpecArrives.v
theories/SpecAside.v
theories/SpecAssert.v
theories/SpecBlame.v
theories/SpecBranch.v
theories/SpecBudget.v
theories/SpecBuild.v
theories/SpecBuilt.v
theories/SpecByLine.v
theories/SpecCausal.v
theories/SpecChain.v
theories/SpecCombine.v
theories/SpecDoom.v
theories/SpecEval.v
theories/SpecFiled.v
theories/SpecFixed.v
theories/SpecFloat64.v
theories/SpecFraming.v
theories/SpecGrown.v
theories/SpecHistory.v
theories/SpecHttp.v
theories/SpecLabel.v
theories/SpecLaws.v
theories/SpecLayout.v
theories/SpecLex.v
theories/SpecLive.v
theories/SpecModes.v
theories/SpecMoved.v
theories/SpecMute.v
theories/SpecNumber.v
theories/SpecOrder.v
theories/SpecOutage.v
theories/SpecPace.v
theories/SpecPrints.v
theories/SpecProcess.v
theories/SpecProgram.v
theories/SpecRace.v
theories/SpecRead.v
theories/SpecReading.v
theories/SpecReads.v
theories/SpecRefactor.v
theories/SpecReject.v
theories/SpecRename.v
theories/SpecReplace.v
theories/SpecReport.v
theories/SpecRun.v
theories/SpecSafe.v
theories/SpecSend.v
theories/SpecServed.v
theories/SpecSession.v
theories/SpecShared.v
theories/SpecShow.v
theories/SpecShuffle.v
theories/SpecStack.v
theories/SpecSteady.v
theories/SpecSyntax.v
theories/SpecTally.v
theories/SpecTemplate.v
theories/SpecText.v
theories/SpecTypes.v
theories/SpecValid.v
theories/SpecValue.v
theories/SpecVerdict.v
theories/SpecWhole.v
theories/SpecWork.v
theories/SpecWriter.v
theories/SpecWritten.v
theories/SpinProofs.v
theories/StackExamples.v
theories/Stat.v
theories/StatProofs.v
theories/SteadyExamples.v
theories/SteadyProofs.v
theories/SuiteExamples.v
theories/SuiteProofs.v
theories/Syntax.v
theories/SyntaxProofs.v
theories/TallyExamples.v
theories/TallyProofs.v
theories/Template.v
theories/TemplateProofs.v
theories/TestCommand.v
theories/TestProofs.v
theories/Text.v
theories/TextMore.v
theories/TextProofs.v
theories/Token.v
theories/TypesExamples.v
theories/TypesProofs.v
theories/UnaryProofs.v
theories/UrlProofs.v
theories/Utf8.v
theories/Utf8Proofs.v
theories/ValidEval.v
theories/ValidProofs.v
theories/Value.v
theories/ValueExamples.v
theories/ValueProofs.v
theories/VerdictExamples.v
theories/VerdictProofs.v
theories/WholeExamples.v
theories/WholeProofs.v
theories/WireProofs.v
theories/Work.v
theories/WorkExamples.v
theories/WorkProofs.v
theories/Writer.v
theories/WriterExamples.v
theories/WriterProofs.v
theories/WrittenProofs.v
