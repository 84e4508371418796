-Q theories Verif
theories/Base.v
theories/SpecUtf8.v
theories/Utf8.v
theories/Utf8Proofs.v
theories/SerModel.v
theories/RustTypes.v
theories/DeModel.v
theories/SpecXdr.v
theories/SpecTypes.v
theories/SpecDecode.v
theories/SpecMisc.v
theories/XdrFacts.v
theories/EncProofs.v
theories/ReadFacts.v
theories/RvalFacts.v
theories/DecProofs.v
theories/CodecProofs.v
theories/TotalProofs.v
theories/NormProofs.v
theories/CodecLemmas.v
theories/StreamProofs.v
theories/DeriveModel.v
theories/DeriveProofs.v
theories/DeriveLemmas.v
theories/ExamplesCodec.v
theories/PropsCodec.v
theories/ExamplesStream.v
theories/PropsStream.v
theories/ExamplesDerive.v
theories/PropsDerive.v
theories/ExamplesRepo.v
theories/VisitModel.v
theories/VisitTypes.v
theories/SpecVisit.v
theories/VisitProofs.v
theories/VisitAgree.v
theories/VisitLoop.v
theories/ExamplesVisit.v
theories/PropsVisit.v
theories/SpecWork.v
theories/WorkProofs.v
theories/DepthProofs.v
theories/ExamplesWork.v
theories/PropsWork.v
theories/Ast.v
theories/Nom.v
theories/Keyword.v
theories/ParserModel.v
theories/SpecGrammar.v
theories/NomFacts.v
theories/ParseSound.v
theories/ParseTotal.v
theories/ParseComplete.v
theories/SpecParse.v
theories/ConstProofs.v
theories/ParserLemmas.v
theories/SpecPrint.v
theories/PrintProofs.v
theories/ExamplesParser.v
theories/ExamplesPrint.v
theories/PropsPrint.v
theories/PropsParser.v
theories/CaseModel.v
theories/RustAst.v
theories/GenModel.v
theories/SpecCase.v
theories/CaseProofs.v
theories/SpecGen.v
theories/GenFacts.v
theories/GenTotal.v
theories/GenPanic.v
theories/SpecItems.v
theories/GenLemmas.v
theories/SpecXdl.v
theories/GenSem.v
theories/SpecWire.v
theories/WireBase.v
theories/WireEnum.v
theories/WireTok.v
theories/WireStruct.v
theories/WireUnion.v
theories/WireFile.v
theories/WireSem.v
theories/WireMain.v
theories/WireLemmas.v
theories/WireBack.v
theories/WireEnums.v
theories/WireTypedef.v
theories/SpecEmit.v
theories/EmitBase.v
theories/EmitProofs.v
theories/EmitFlags.v
theories/EmitItems.v
theories/EmitNames.v
theories/EmitRun.v
theories/EmitStop.v
theories/StuckProofs.v
theories/SpecConv.v
theories/WireConv.v
theories/MaxDefs.v
theories/ConvLemmas.v
theories/UnionSize.v
theories/EmitNorm.v
theories/SpecSize.v
theories/EmitSize.v
theories/SpecReject.v
theories/EmitReject.v
theories/DefaultModel.v
theories/SpecDefault.v
theories/DefaultProofs.v
theories/DefaultItems.v
theories/ExamplesGen.v
theories/PropsGen.v
theories/ExamplesWire.v
theories/PropsWire.v
theories/ExamplesEmit.v
theories/PropsEmit.v
theories/ExamplesConv.v
theories/PropsConv.v
theories/ExamplesRun.v
theories/PropsRun.v
theories/ExamplesReject.v
theories/PropsReject.v
theories/ExamplesDefault.v
theories/PropsDefault.v
theories/RustText.v
theories/SpecRust.v
theories/SpecSyntax.v
theories/TextLex.v
theories/TextParse.v
theories/TextItems.v
theories/TextGen.v
theories/TextFile.v
theories/TextLegible.v
theories/MainModel.v
theories/SpecMain.v
theories/MainProofs.v
theories/ExamplesText.v
theories/PropsText.v
theories/SpecMeaning.v
theories/SpecRun.v
theories/MeaningProofs.v
theories/MeaningLemmas.v
theories/RunProofs.v
theories/ExamplesMeaning.v
theories/PropsMeaning.v
theories/CatchModel.v
theories/SpecCatch.v
theories/CatchProofs.v
theories/ExamplesCatch.v
theories/PropsCatch.v
theories/SpecCircle.v
theories/CircleProofs.v
theories/ExamplesCircle.v
theories/PropsCircle.v
theories/SpecUpgrade.v
theories/UpgradeProofs.v
theories/ExamplesUpgrade.v
theories/SpecAppend.v
theories/AppendProofs.v
theories/ExamplesAppend.v
theories/MisreadProofs.v
theories/ExamplesMisread.v
theories/PropsUpgrade.v
theories/SpecRead.v
theories/ReadProofs.v
theories/ReadModes.v
theories/ExamplesRead.v
theories/PropsRead.v
theories/AllocModel.v
theories/SpecAlloc.v
theories/AllocProofs.v
theories/AllocGen.v
theories/ExamplesAlloc.v
theories/PropsAlloc.v
theories/SpecNest.v
theories/NestProofs.v
theories/ExamplesNest.v
theories/PropsNest.v
theories/SpecFrame.v
theories/FrameProofs.v
theories/ExamplesFrame.v
theories/PropsFrame.v
theories/CostModel.v
theories/SpecCost.v
theories/CostProofs.v
theories/CostLower.v
theories/CostUpper.v
theories/ExamplesCost.v
theories/PropsCost.v
theories/LookupModel.v
theories/SpecLookup.v
theories/LookupProofs.v
theories/ExamplesLookup.v
theories/PropsLookup.v
theories/SpecCodeSize.v
theories/SizeProofs.v
theories/ExamplesSize.v
theories/PropsSize.v
theories/SpecAlike.v
theories/AlikeProofs.v
theories/ExamplesAlike.v
theories/PropsAlike.v
theories/SpecPanic.v
theories/PanicProofs.v
theories/ExamplesPanic.v
theories/PropsPanic.v
theories/SpecError.v
theories/ErrorProofs.v
theories/ErrorGen.v
theories/ExamplesError.v
theories/PropsError.v
theories/FieldNames.v
theories/ExamplesNames.v
theories/PropsNames.v
theories/SpecTranslate.v
theories/TranslateProofs.v
theories/TranslateGen.v
theories/TranslateUnion.v
theories/ExamplesTranslate.v
theories/PropsTranslate.v
theories/OptionsProofs.v
theories/ExamplesOptions.v
theories/PropsOptions.v
theories/SpecToolPanic.v
theories/ToolPanicProofs.v
theories/ToolPanicUnion.v
theories/ExamplesToolPanic.v
theories/PropsToolPanic.v
theories/SpecToolError.v
theories/ToolErrorProofs.v
theories/ExamplesToolError.v
theories/PropsToolError.v
theories/SpecStatus.v
theories/StatusProofs.v
theories/ExamplesStatus.v
theories/PropsStatus.v
theories/WrapProofs.v
theories/PropsWrap.v
theories/ManyProofs.v
theories/ExamplesMany.v
theories/PropsMany.v
theories/DisplayModel.v
theories/SpecDisplay.v
theories/DisplayProofs.v
theories/ComplainProofs.v
theories/ExamplesDisplay.v
theories/PropsDisplay.v
theories/Utf8Error.v
theories/Utf8ErrorProofs.v
theories/PropsUtf8Error.v
theories/SpecWords.v
theories/WordsProofs.v
theories/PropsWords.v
theories/GapProofs.v
theories/GapNames.v
theories/PropsGap.v
