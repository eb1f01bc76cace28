-Q theories Verif
theories/Base.v
theories/ModelStore.v
theories/ModelLine.v
theories/ModelTokens.v
theories/ModelMem.v
theories/ModelSize.v
theories/ModelMatch.v
theories/ModelSel.v
theories/ModelState.v
theories/ModelDisplay.v
theories/ModelResolvers.v
theories/ModelCalls.v
theories/LemBase.v
theories/Spec.v
theories/LemStore.v
theories/LemLine.v
theories/SpecMem.v
theories/SpecTokens.v
theories/LemTokens.v
theories/LemSize.v
theories/SpecMatch.v
theories/LemMatch.v
theories/ThmCreate.v
theories/ThmRun.v
theories/ThmMatch.v
theories/SpecSel.v
theories/ThmSel.v
theories/SpecDisplay.v
theories/ThmDisplay.v
theories/SpecRes.v
theories/ThmText.v
theories/SpecAmount.v
theories/ThmAmount.v
theories/SpecClause.v
theories/ThmClause.v
theories/SpecPipe.v
theories/ThmPipe.v
theories/ThmMore.v
theories/ThmNest.v
theories/ModelEntry.v
theories/ModelIdioms.v
theories/SpecLayer.v
theories/ThmLayer.v
theories/SpecJoin.v
theories/ThmJoin.v
theories/SpecUser.v
theories/SpecOrder.v
theories/ThmParam.v
theories/ThmOrder.v
theories/SpecEnd.v
theories/ThmEnd.v
theories/SpecLaws.v
theories/ThmLaws.v
theories/SpecCurrency.v
theories/ThmCurrency.v
theories/ThmLocal.v
theories/SpecSlice.v
theories/ThmSlice.v
theories/ThmSplit.v
theories/SpecCross.v
theories/ThmCross.v
theories/SpecSeam.v
theories/ThmSeam.v
theories/SpecWords.v
theories/ThmWords.v
theories/SpecEntry.v
theories/ThmEntry.v
theories/SpecWritten.v
theories/SpecAscii.v
theories/ThmWritten.v
theories/ThmAscii.v
theories/SpecGrown.v
theories/ThmGrown.v
theories/SpecScan.v
theories/ThmScan.v
theories/SpecPass.v
theories/ThmPass.v
theories/SpecChars.v
theories/ThmChars.v
theories/SpecSentence.v
theories/ThmSentence.v
theories/SpecKeys.v
theories/ThmKeys.v
theories/SpecPrices.v
theories/ThmPrices.v
theories/SpecWordy.v
theories/ThmWordy.v
theories/SpecCase.v
theories/ThmCase.v
theories/SpecCut.v
theories/ThmCut.v
theories/SpecBound.v
theories/ThmBound.v
theories/SpecMerge.v
theories/SpecMergeCi.v
theories/SpecFiner.v
theories/SpecReplaced.v
theories/ThmMerge.v
theories/ThmMergeCi.v
theories/ThmMergeRefuted.v
theories/ThmFiner.v
theories/ThmFinerRefuted.v
theories/ThmReplaced.v
theories/SpecApart.v
theories/ThmApart.v
theories/SpecRead.v
theories/ThmRead.v
theories/ModelDebug.v
theories/ModelPrint.v
theories/ModelIndent.v
theories/SpecDebug.v
theories/SpecPrint.v
theories/SpecIndent.v
theories/SpecState.v
theories/ThmDebug.v
theories/ThmPrint.v
theories/ThmIndent.v
theories/ThmState.v
theories/ThmCalls.v
theories/ThmUser.v
theories/ThmCode.v
theories/SpecOpaque.v
theories/ThmOpaque.v
theories/ExUnicode.v
theories/ExLines.v
theories/ThmRefuted.v
theories/TestsRepo.v
theories/PropLine.v
theories/PropMatch.v
theories/PropSel.v
theories/PropRes.v
theories/PropMore.v
theories/PropLayer.v
theories/PropJoin.v
theories/PropOrder.v
theories/PropEnd.v
theories/PropLaws.v
theories/PropCurrency.v
theories/PropSlice.v
theories/PropCross.v
theories/PropSeam.v
theories/PropWords.v
theories/PropEntry.v
theories/PropWritten.v
theories/PropGrown.v
theories/PropScan.v
theories/PropPass.v
theories/PropPrint.v
theories/PropIndent.v
theories/PropRead.v
theories/PropUser.v
theories/PropState.v
theories/PropCalls.v
theories/PropApart.v
theories/PropOpaque.v
theories/PropAscii.v
theories/PropChars.v
theories/PropSentence.v
theories/PropKeys.v
theories/PropPrices.v
theories/PropWordy.v
theories/PropCase.v
theories/PropCut.v
theories/PropBound.v
theories/PropMerge.v
theories/PropFiner.v
theories/PropReplaced.v
theories/Assumptions.v
