-Q theories Verif
theories/Base.v
theories/MStrings.v
theories/MOptIter.v
theories/MData.v
theories/MCounter.v
theories/MParseInt.v
theories/MValues.v
theories/MParser.v
theories/BaseProofs.v
theories/STok.v
theories/TokProofs.v
theories/PTok.v
theories/SStrings.v
theories/StrProofs.v
theories/PStrings.v
theories/SIndex.v
theories/IndexProofs.v
theories/PIndex.v
theories/SDef.v
theories/DefProofs.v
theories/FinishProofs.v
theories/PDef.v
theories/SValues.v
theories/ValuesProofs.v
theories/PValues.v
theories/IntProofs.v
theories/PInt.v
theories/SCounter.v
theories/CounterProofs.v
theories/PCounter.v
theories/MonadProofs.v
theories/CounterInv.v
theories/FrameProofs.v
theories/SParser.v
theories/SExamples.v
theories/InvProofs.v
theories/NextProofs.v
theories/ParseProofs.v
theories/PParser.v
theories/SStep.v
theories/StepProofs.v
theories/StepProofs2.v
theories/ExProofs.v
theories/PStep.v
theories/ValueFlow.v
theories/PFlow.v
theories/SEquiv.v
theories/SimProofs.v
theories/SimProofs2.v
theories/SimProofs3.v
theories/EquivProofs.v
theories/PEquiv.v
theories/MText.v
theories/SText.v
theories/SplitProofs.v
theories/RuleProofs.v
theories/PlaceProofs.v
theories/TextProofs.v
theories/SFormat.v
theories/LayoutProofs.v
theories/LayoutProofs2.v
theories/WidthProofs.v
theories/IndentProofs.v
theories/TextApi.v
theories/PText.v
theories/MHelp.v
theories/MApi.v
theories/SHelp.v
theories/HelpProofs.v
theories/HelpProofs2.v
theories/HelpProofs3.v
theories/HelpExact.v
theories/HelpApi.v
theories/HelpExamples.v
theories/HelpApi2.v
theories/PHelp.v
theories/SApi.v
theories/ApiErase.v
theories/ApiProofs.v
theories/ItemProofs.v
theories/ItemProofs2.v
theories/ApiExamples.v
theories/OverloadProofs.v
theories/PApi.v
theories/SBuild.v
theories/BuildProofs.v
theories/PBuild.v
theories/SLook.v
theories/LookProofs.v
theories/AcceptProofs.v
theories/PLook.v
theories/SInsert.v
theories/InsertProofs.v
theories/PInsert.v
theories/SCallback.v
theories/CallbackProofs.v
theories/PCallback.v
theories/MResults.v
theories/SResults.v
theories/PrintProofs.v
theories/ResultProofs.v
theories/FloatProofs.v
theories/ResultExamples.v
theories/PResults.v
theories/SKept.v
theories/KeptProofs.v
theories/PKept.v
theories/MOutput.v
theories/SOutput.v
theories/OutputProofs.v
theories/OutputExamples.v
theories/POutput.v
theories/SLine.v
theories/SIgnore.v
theories/SSurplus.v
theories/LineProofs.v
theories/LineProofs2.v
theories/LineProofs3.v
theories/LineExamples.v
theories/PLine.v
theories/SMulti.v
theories/MultiProofs.v
theories/MultiProofs2.v
theories/MultiProofs3.v
theories/MultiExamples.v
theories/PMulti.v
theories/SWrap.v
theories/WrapProofs.v
theories/WrapProofs2.v
theories/WrapProofs3.v
theories/WrapProofs4.v
theories/WrapExamples.v
theories/PWrap.v
theories/SHelpWrap.v
theories/HelpWrap.v
theories/HelpWrap2.v
theories/HelpWrap3.v
theories/HelpWrapEx.v
theories/PHelpWrap.v
theories/MMemory.v
theories/SMemory.v
theories/MemoryProofs.v
theories/MemoryProofs2.v
theories/MemoryProofs3.v
theories/PMemory.v
theories/MBuffer.v
theories/SBuffer.v
theories/BufferProofs.v
theories/PBuffer.v
theories/MTextCall.v
theories/STextCall.v
theories/TextCallProofs.v
theories/TextCallProofs2.v
theories/PTextCall.v
theories/MOwner.v
theories/SOwner.v
theories/OwnerProofs.v
theories/OwnerProofs2.v
theories/POwner.v
theories/SLookup.v
theories/LookupProofs.v
theories/PLookup.v
theories/MBuilder.v
theories/SBuilder.v
theories/BuilderProofs.v
theories/PBuilder.v
theories/SOrder.v
theories/OrderProofs.v
theories/POrder.v
theories/SAdd.v
theories/AddProofs.v
theories/PAdd.v
theories/IgnoreProofs.v
theories/PIgnore.v
theories/SurplusProofs.v
theories/SurplusProofs2.v
theories/SurplusProofs3.v
theories/PSurplus.v
theories/SExit.v
theories/ExitProofs.v
theories/PExit.v
theories/SCase.v
theories/CaseProofs.v
theories/PCase.v
theories/SPlain.v
theories/PlainProofs.v
theories/PPlain.v
theories/SShown.v
theories/ShownProofs.v
theories/PShown.v
theories/SLenient.v
theories/LenientProofs.v
theories/PLenient.v
theories/SCodes.v
theories/CodesProofs.v
theories/PCodes.v
theories/SHand.v
theories/HandProofs.v
theories/PHand.v
theories/Conformance.v
