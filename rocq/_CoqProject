-Q theories Verif
theories/Base.v
theories/BaseProofs.v
theories/RegexpModel.v
theories/RegexpSpec.v
theories/RegexpCode.v
theories/RegexpVM.v
theories/RegexpCorrect.v
theories/RegexpFacts.v
theories/RegexpPrio.v
theories/PropRegexp.v
theories/RuleModel.v
theories/ClassSpec.v
theories/TranslationModel.v
theories/TranslationProofs.v
theories/TableModel.v
theories/TableProofs.v
theories/PropTable.v
theories/TrieModel.v
theories/TrieProofs.v
theories/PropTrie.v
theories/PropPositions.v
theories/BrailleModel.v
theories/BrailleProofs.v
theories/PropBraille.v
theories/HyphenationModel.v
theories/HyphenationProofs.v
theories/PropHyphenation.v
theories/PatternModel.v
theories/OperandModel.v
theories/OperandSpec.v
theories/OperandProofs.v
theories/GateProofs.v
theories/OperandProofs2.v
theories/UnescapeSpec.v
theories/UnescapeProofs.v
theories/OperandText.v
theories/PropOperand.v
theories/PropOperandText.v
theories/PropPriority.v
theories/TestSpec.v
theories/PatternProofs.v
theories/PropContext.v
theories/MatchSpec.v
theories/MatchProofs.v
theories/PropMatch.v
theories/LoopModel.v
theories/LoopProofs.v
theories/MultipassProofs.v
theories/PassSpec.v
theories/VariableSpec.v
theories/VariableProofs.v
theories/PassProofs.v
theories/PropMultipass.v
theories/PropPasses.v
theories/PropSwap.v
theories/CompileModel.v
theories/PrimaryProofs.v
theories/PrimaryTrace.v
theories/CompileSpec.v
theories/CompileProofs.v
theories/MainTable.v
theories/ConstraintModel.v
theories/IndicatorModel.v
theories/ConstraintSpec.v
theories/ConstraintProofs.v
theories/IndicatorProofs.v
theories/CapsSpec.v
theories/CapsProofs.v
theories/CapsFacts.v
theories/EmphSpec.v
theories/EmphProofs.v
theories/MainSpec.v
theories/StepProofs.v
theories/TraceSpec.v
theories/MainPass.v
theories/StepFacts.v
theories/TraceProofs.v
theories/SignSpec.v
theories/SignProofs.v
theories/SetupSpec.v
theories/SetupProofs.v
theories/PropMain.v
theories/PropMainExamples.v
theories/UndefinedSpec.v
theories/PropUndefined.v
theories/PropIndicators.v
theories/CapsEmphSpec.v
theories/EmphWordProofs.v
theories/PropCapsEmph.v
theories/PropConstraints.v
theories/PropIndicatorExamples.v
theories/WordSpec.v
theories/WordProofs.v
theories/PropWords.v
theories/PipelineModel.v
theories/PipelineSpec.v
theories/PipelineProofs.v
theories/OrderSpec.v
theories/OrderProofs.v
theories/PropVariables.v
theories/PropPatterns.v
theories/PropPipeline.v
theories/ParserModel.v
theories/LineSpec.v
theories/LineProofs.v
theories/LineFacts.v
theories/TableSpec.v
theories/TableTextProofs.v
theories/PropTableText.v
theories/IncludeModel.v
theories/IncludeSpec.v
theories/IncludeProofs.v
theories/PropInclude.v
theories/MetadataModel.v
theories/MetadataSpec.v
theories/PropMetadata.v
theories/FaultSpec.v
theories/NegationProofs.v
theories/FaultProofs.v
theories/TranslatorModel.v
theories/PropFaults.v
theories/SaysSpec.v
theories/PropPieces.v
theories/RivalSpec.v
theories/PropRivals.v
theories/DefinitionSpec.v
theories/PropDefinitions.v
theories/PropCells.v
theories/GrowthProofs.v
theories/SignCount.v
theories/GrowthMain.v
theories/GrowthPass.v
theories/PropGrowth.v
theories/YamlModel.v
theories/YamlSpec.v
theories/YamlProofs.v
theories/YamlTotal.v
theories/PropYaml.v
theories/DisplayModel.v
theories/DisplaySpec.v
theories/DisplayProofs.v
theories/PropTrace.v
theories/RoundSpec.v
theories/RoundProofs.v
theories/PropRound.v
theories/UncontractedSpec.v
theories/UncontractedProofs.v
theories/UncontractedBack.v
theories/PropUncontracted.v
theories/FrameSpec.v
theories/FrameProofs.v
theories/PropFrame.v
theories/MoveProofs.v
theories/SimilarProofs.v
theories/AgreeProofs.v
theories/RepeatSpec.v
theories/RepeatProofs.v
theories/TwinProofs.v
theories/PropMove.v
theories/PropRepeat.v
theories/LocalSpec.v
theories/LocalProofs.v
theories/LocalPass.v
theories/PropLocal.v
theories/PropPrint.v
theories/CaseSpec.v
theories/CaseProofs.v
theories/PropCase.v
theories/LongestSpec.v
theories/LongestProofs.v
theories/PropLongest.v
theories/LongestBackSpec.v
theories/LongestBackProofs.v
theories/PropLongestBack.v
theories/AsideSpec.v
theories/AsideProofs.v
theories/PropAside.v
theories/ConfBase.v
theories/ConfPrimary.v
theories/ConfPasses.v
theories/ConfRegexp.v
theories/ConfUnits.v
theories/ConfPatterns.v
