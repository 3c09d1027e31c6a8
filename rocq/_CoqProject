-Q theories Verif
theories/Types.v
theories/Compound.v
theories/Parser.v
theories/Outcome.v
theories/CompoundFacts.v
theories/ChoiceIndex.v
theories/Exec.v
theories/Mono.v
theories/Derive.v
theories/Typing.v
theories/Join.v
theories/Leaves.v
theories/Sound.v
theories/BigStep.v
theories/BigSound.v
theories/BigComplete.v
theories/Peg.v
theories/Throws.v
theories/Samples.v
theories/Elems.v
theories/PropCore.v
theories/Runs.v
theories/PropBasic.v
theories/PropChoice.v
theories/PropCombos.v
theories/PropPeg.v
theories/Lossless.v
theories/Agree.v
theories/Check.v
theories/PropAgree.v
theories/Grammar.v
theories/Reloc.v
theories/PropReloc.v
theories/Names.v
theories/PropNames.v
theories/StaticArray.v
theories/Operators.v
theories/PropSets.v
theories/Verdict.v
theories/PropOps.v
theories/Modifiers.v
theories/PropMods.v
theories/Term.v
theories/PropTerm.v
theories/SpanModel.v
theories/PropSpan.v
theories/CharPeg.v
theories/ExJson.v
theories/PropJson.v
theories/Shape.v
theories/ExAlgebraic.v
theories/PropAlgebraic.v
theories/ExprGrammar.v
theories/PropExpr.v
theories/JsonGrammar.v
theories/JsonPeg.v
theories/JsonDoc.v
theories/PropJsonDoc.v
theories/ArrayCode.v
theories/PropArrayCode.v
theories/Depth.v
theories/PropDepth.v
theories/PropStack.v
theories/Cost.v
theories/CostRules.v
theories/CostJson.v
theories/CostAlgebraic.v
theories/CostExpr.v
theories/PropCost.v
theories/PropPrint.v
theories/Overload.v
theories/OverloadFacts.v
theories/OverloadSets.v
theories/PropOverload.v
theories/Builds.v
theories/PropBuilds.v
theories/Objects.v
theories/ObjectFacts.v
theories/ObjectLog.v
theories/PropObjects.v
theories/FilterTemplates.v
theories/PropFilterTemplates.v
theories/ValueTypes.v
theories/PropValueTypes.v
theories/Framework.v
theories/PropFramework.v
theories/Needs.v
theories/PropNeeds.v
theories/PropMemory.v
theories/ConvChoice.v
theories/PropConvert.v
theories/PropExchange.v
theories/PropLaws.v
theories/ArrayArgs.v
theories/PropArgs.v
theories/Stateful.v
theories/StatefulFacts.v
theories/StatefulSafe.v
theories/StatefulTerm.v
theories/PropStateful.v
theories/Compares.v
theories/CompareFacts.v
theories/CompareSafe.v
theories/CompareTerm.v
theories/CompareReads.v
theories/CompareJoins.v
theories/CompareModes.v
theories/PropCompares.v
theories/InputTypes.v
theories/PropInputTypes.v
theories/Lang.v
theories/LL1.v
theories/PropLang.v
theories/Blame.v
theories/PropBlame.v
theories/CustomConv.v
theories/PropCustomConv.v
theories/Conform.v
theories/ConformTests.v
theories/ExMain.v
theories/PropMain.v
theories/Extend.v
theories/Raises.v
theories/PropExtend.v
theories/PropRaises.v
theories/Recur.v
theories/PropRecur.v
theories/Final.v
theories/PropFinal.v
theories/JoinConv.v
theories/PropJoinConv.v
theories/Shorter.v
theories/PropShorter.v
