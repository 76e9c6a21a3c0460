-Q theories Verif
theories/AgainProofs.v
theories/ApplyProofs.v
theories/Base.v
theories/Base64.v
theories/Base64Proofs.v
theories/Boot.v
theories/BuiltinCases.v
theories/BuiltinProofs.v
theories/Builtins.v
theories/CData.v
theories/CallForms.v
theories/CallProofs.v
theories/Checks.v
theories/CompareMono.v
theories/Copy.v
theories/CopyProofs.v
theories/CpAtProofs.v
theories/DList.v
theories/DListProofs.v
theories/DefineProofs.v
theories/Embed.v
theories/EmbedCall.v
theories/EmbedKept.v
theories/EmbedProofs.v
theories/EndsProofs.v
theories/Env.v
theories/EnvProofs.v
theories/Eval.v
theories/FindProofs.v
theories/ForProofs.v
theories/GcProofs.v
theories/GenerateProofs.v
theories/HMap.v
theories/HMapProofs.v
theories/Heap.v
theories/HistoryProofs.v
theories/HostProofs.v
theories/Input.v
theories/KeptProofs.v
theories/Leven.v
theories/LevenProofs.v
theories/Lexer.v
theories/LexerProofs.v
theories/ListLemmas.v
theories/LiteralProofs.v
theories/MacroProofs.v
theories/MakeProofs.v
theories/MinusFacts.v
theories/MinusProofs.v
theories/OString.v
theories/OStringProofs.v
theories/OutputProofs.v
theories/OutsideProofs.v
theories/Parser.v
theories/ParserProofs.v
theories/Permute.v
theories/PermuteProofs.v
theories/PlusProofs.v
theories/Port.v
theories/PortFacts.v
theories/PortProofs.v
theories/PrintProofs.v
theories/Printer.v
theories/PrinterProofs.v
theories/PrivateProofs.v
theories/PropsBase64.v
theories/PropsBuiltin.v
theories/PropsCData.v
theories/PropsCall.v
theories/PropsContainers.v
theories/PropsCopy.v
theories/PropsCpAt.v
theories/PropsDefine.v
theories/PropsEmbed.v
theories/PropsEnds.v
theories/PropsEnv.v
theories/PropsEval.v
theories/PropsFor.v
theories/PropsGc.v
theories/PropsGenerate.v
theories/PropsHost.v
theories/PropsKept.v
theories/PropsLiteral.v
theories/PropsMake.v
theories/PropsMinus.v
theories/PropsOutput.v
theories/PropsOutside.v
theories/PropsPermute.v
theories/PropsPlus.v
theories/PropsPort.v
theories/PropsReadString.v
theories/PropsReader.v
theories/PropsRepl.v
theories/PropsSafe.v
theories/PropsSched.v
theories/PropsSearch.v
theories/PropsSemver.v
theories/PropsSet.v
theories/PropsSpecial.v
theories/PropsStack.v
theories/PropsTemplate.v
theories/PropsText.v
theories/PropsValue.v
theories/PropsWell.v
theories/PropsWrite.v
theories/Read.v
theories/Reader.v
theories/RealProofs.v
theories/RealText.v
theories/RealUnique.v
theories/Relate.v
theories/Repl.v
theories/ReplProofs.v
theories/RootProofs.v
theories/Run.v
theories/SafeBase.v
theories/SafeBuiltins.v
theories/SafeEval.v
theories/SafeLib.v
theories/SafeRead.v
theories/SafeRun.v
theories/SafeSpecials.v
theories/SafeText.v
theories/SchedProofs.v
theories/SearchProofs.v
theories/Semver.v
theories/SemverChange.v
theories/SetFacts.v
theories/SetProofs.v
theories/SpecAgain.v
theories/SpecApply.v
theories/SpecBase64.v
theories/SpecBuiltin.v
theories/SpecCData.v
theories/SpecCall.v
theories/SpecCalled.v
theories/SpecCopy.v
theories/SpecCpAt.v
theories/SpecDList.v
theories/SpecDefine.v
theories/SpecEdit.v
theories/SpecEmbed.v
theories/SpecEnds.v
theories/SpecEnv.v
theories/SpecEval.v
theories/SpecFor.v
theories/SpecForm.v
theories/SpecFrame.v
theories/SpecGenerate.v
theories/SpecHeap.v
theories/SpecHistory.v
theories/SpecHost.v
theories/SpecKept.v
theories/SpecLiteral.v
theories/SpecMake.v
theories/SpecMap.v
theories/SpecMinus.v
theories/SpecOutput.v
theories/SpecOutside.v
theories/SpecPlus.v
theories/SpecPort.v
theories/SpecPrint.v
theories/SpecRead.v
theories/SpecReal.v
theories/SpecRepl.v
theories/SpecSched.v
theories/SpecSearch.v
theories/SpecSemver.v
theories/SpecSeq.v
theories/SpecSet.v
theories/SpecSpecial.v
theories/SpecSplit.v
theories/SpecStr.v
theories/SpecStrtod.v
theories/SpecTemplate.v
theories/SpecText.v
theories/SpecTrace.v
theories/SpecValue.v
theories/SpecVec.v
theories/SpecWell.v
theories/SpecWrite.v
theories/SpecialEval.v
theories/SpecialForms.v
theories/SpecialProofs.v
theories/Specials.v
theories/SplitProofs.v
theories/StackProofs.v
theories/Strtod.v
theories/StrtodProofs.v
theories/StrtodRound.v
theories/TemplateProofs.v
theories/TextNumber.v
theories/TextReal.v
theories/ToText.v
theories/TraceProofs.v
theories/Utf8.v
theories/Utf8Proofs.v
theories/ValueOps.v
theories/ValueProofs.v
theories/Vec.v
theories/VecProofs.v
theories/VmProofs.v
theories/WellProofs.v
theories/WriteFacts.v
theories/WriteProofs.v
