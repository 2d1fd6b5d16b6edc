-Q theories Verif
theories/Base.v
theories/Util.v
theories/Value.v
theories/Data.v
theories/Ivt.v
theories/Convert.v
theories/Scalar.v
theories/Validate.v
theories/Unfold.v
theories/Mono.v
theories/Total.v
theories/SpecCtx.v
theories/Sim.v
theories/Fun.v
theories/ValueOrder.v
theories/SpecBase.v
theories/SpecScalar.v
theories/FloatProofs.v
theories/ScalarProofs.v
theories/ArrayInv.v
theories/MapInv.v
theories/ConvertProofs.v
theories/NoPanic.v
theories/SpecReach.v
theories/CtxProofs.v
theories/ReachProofs.v
theories/LimitProofs.v
theories/SpecVerdict.v
theories/Frame.v
theories/Stutter.v
theories/SpecExpand.v
theories/Expand.v
theories/ExpandCheck.v
theories/SpecInline.v
theories/Inline.v
theories/Splice.v
theories/SpecChoose.v
theories/Choose.v
theories/SpecData.v
theories/ArrayProofs.v
theories/MapProofs.v
theories/SpecPos.v
theories/GroupProofs.v
theories/SpecText.v
theories/SpecJudge.v
theories/JudgeProofs.v
theories/SpecPeg.v
theories/PegProofs.v
theories/PegExact.v
theories/PegTame.v
theories/Demo.v
theories/PropsScalar.v
theories/SpecConsume.v
theories/Consume.v
theories/SpecNest.v
theories/Nest.v
theories/PropsNames.v
theories/PropsGeneric.v
theories/PropsRewrite.v
theories/PropsData.v
theories/TameCheck.v
theories/PropsMeaning.v
theories/SpecConvert.v
theories/ApiData.v
theories/ConvertExact.v
theories/PropsConvert.v
theories/SpecOrderly.v
theories/Orderly.v
theories/OrderlyCheck.v
theories/OrderlyDecide.v
theories/PropsComplete.v
theories/SpecDefect.v
theories/DefectProofs.v
theories/DefectCheck.v
theories/PropsDefect.v
theories/Ast.v
theories/Flatten.v
theories/SpecFlatten.v
theories/FlattenProofs.v
theories/FlattenSupported.v
theories/FlattenMap.v
theories/PropsFlatten.v
theories/Nom.v
theories/Parser.v
theories/NomProofs.v
theories/ParserFuel.v
theories/SpecSyntax.v
theories/NomDone.v
theories/TokenProofs.v
theories/LiteralProofs.v
theories/ParserSound.v
theories/ParserApi.v
theories/ParserSoft.v
theories/SpecLayout.v
theories/LayoutProofs.v
theories/PropsParser.v
theories/SpecPrint.v
theories/PrintProofs.v
theories/PrintExact.v
theories/PrintRange.v
theories/PropsPrint.v
theories/Api.v
theories/PropsApi.v
theories/RepoTests.v
theories/RepoUnit.v
theories/PropsEnd.v
theories/SpecReading.v
theories/ReadTokens.v
theories/ReadComplete.v
theories/ReadExact.v
theories/PropsRead.v
theories/Concat.v
theories/PropsConcat.v
theories/SpecErrors.v
theories/ErrProofs.v
theories/PropsErrors.v
theories/SpecRename.v
theories/RenameProofs.v
theories/RenameFlatten.v
theories/PropsRename.v
theories/Alternatives.v
theories/PropsAlternatives.v
theories/SpecBlame.v
theories/BlameProofs.v
theories/PropsBlame.v
theories/SpecLoss.v
theories/LossProofs.v
theories/PropsLoss.v
theories/SpecActs.v
theories/ActProofs.v
theories/PropsActs.v
theories/SpecWiden.v
theories/WidenProofs.v
theories/WidenCheck.v
theories/PropsWiden.v
theories/SpecSchema.v
theories/SchemaBase.v
theories/SchemaLeaf.v
theories/SchemaProofs.v
theories/PropsSchema.v
theories/SpecFault.v
theories/FaultProofs.v
theories/PropsFault.v
theories/PropsJudge.v
theories/PropsTells.v
theories/SpecWords.v
theories/WordProofs.v
theories/PropsWords.v
theories/SpecRearrange.v
theories/PropsRearrange.v
theories/PropsDisplay.v
theories/SpecScope.v
theories/PropsScope.v
theories/SpecSwap.v
theories/SwapProofs.v
theories/PropsSwap.v
theories/SpecWork.v
theories/WorkProofs.v
theories/WorkBound.v
theories/PropsWork.v
theories/SpecOrder.v
theories/OrderProofs.v
theories/PropsOrder.v
theories/SpecSpell.v
theories/SpellProofs.v
theories/PropsSpell.v
theories/ParseCost.v
theories/ParseCostProofs.v
theories/ParseCostLow.v
theories/ParseDepth.v
theories/PropsParseWork.v
theories/HiddenProofs.v
theories/PropsHidden.v
theories/PropsPick.v
