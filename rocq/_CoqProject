-Q theories Verif
theories/Py.v
theories/VtsModel.v
theories/VtsPoly.v
theories/VtsRem.v
theories/VtsTaq.v
theories/VtsCount.v
theories/Thom.v
theories/VtsDiscr.v
theories/RealSign.v
theories/VtsMain.v
theories/VtsSpec.v
theories/VtsBridge.v
theories/VtsInst.v
theories/VtsProps.v
theories/VtsDirect.v
theories/VtsDirectProps.v
theories/CacheModel.v
theories/CacheSpec.v
theories/CacheFacts.v
theories/CacheProps.v
theories/CachePar.v
theories/CacheParFacts.v
theories/CacheParProps.v
theories/IsymModel.v
theories/IsymSpec.v
theories/IsymFacts.v
theories/IsymProps.v
theories/CheckerModel.v
theories/CheckerSpec.v
theories/CheckerFacts.v
theories/CheckerInst.v
theories/CheckerProps.v
theories/GParserModel.v
theories/GParserSpec.v
theories/GParserFacts.v
theories/GParserProps.v
theories/MuchModel.v
theories/MuchSpec.v
theories/MuchSeq.v
theories/MuchRoot.v
theories/MuchDiag.v
theories/MuchStep.v
theories/MuchSem.v
theories/MuchReal.v
theories/MuchInst.v
theories/MuchFull.v
theories/MuchHeap.v
theories/MuchEx.v
theories/MuchMult.v
theories/MuchCStep.v
theories/MuchCplx.v
theories/MuchCFull.v
theories/MuchCEx.v
theories/MuchProps.v
theories/MuchFloat.v
theories/MuchFloatSim.v
theories/MuchFloatNum.v
theories/MuchFloatFacts.v
theories/MuchFloatLast.v
theories/MuchFloatEx.v
theories/MuchFloatProps.v
theories/MemoModel.v
theories/MemoProof.v
theories/MemoProps.v
theories/CohenModel.v
theories/CohenSpec.v
theories/CohenExp.v
theories/CohenCopy.v
theories/CohenSem.v
theories/CohenExt.v
theories/CohenStep.v
theories/CohenBack.v
theories/CohenTable.v
theories/CohenOld.v
theories/CohenOldStop.v
theories/CohenOldSound.v
theories/CohenReal.v
theories/CohenOldFacts.v
theories/CohenEx.v
theories/CohenEx2.v
theories/CohenSplit.v
theories/CohenProps.v
theories/CohenOldEx.v
theories/CohenOldProps.v
theories/CohenPrint.v
theories/CohenPrintProps.v
theories/MuchForm.v
theories/MuchFormProps.v
theories/MuchInter.v
theories/MuchPrint.v
theories/MuchPrintProps.v
theories/VtsTests.v
theories/OtherTests.v
theories/GrfModel.v
theories/GrfSpec.v
theories/GrfFacts.v
theories/GrfCheck.v
theories/GrfLoop.v
theories/GrfRun.v
theories/GrfCad.v
theories/GrfLine.v
theories/GrfCadFacts.v
theories/GrfLin.v
theories/GrfInst.v
theories/GrfEx.v
theories/GrfEx2.v
theories/GrfSem.v
theories/GrfEx3.v
theories/GrfProps.v
theories/GrfLinInst.v
theories/GrfLinEx.v
theories/GrfLinProps.v
theories/GrfOut.v
theories/GrfOutEx.v
theories/GrfOutProps.v
theories/GrfAgain.v
theories/GrfAgainFacts.v
theories/GrfAgainEx.v
theories/GrfAgainProps.v
theories/GrfRepl.v
theories/GrfReplFacts.v
theories/GrfReplEx.v
theories/GrfReplProps.v
theories/GrfHeap.v
theories/GrfHeapFacts.v
theories/GrfHeapEx.v
theories/GrfHeapProps.v
theories/GrfPrint.v
theories/GrfPrintFacts.v
theories/GrfPrintProps.v
theories/GrfPick.v
theories/GrfPickEx.v
theories/GrfPickProps.v
theories/GrfSample.v
theories/GrfSampleFacts.v
theories/GrfSampleEx.v
theories/GrfSampleProps.v
theories/GrfSmt.v
theories/GrfSmtFacts.v
theories/GrfSmtEx.v
theories/GrfSmtProps.v
theories/GrfSched.v
theories/GrfSchedFacts.v
theories/GrfSchedEx.v
theories/GrfSchedProps.v
theories/SmtParse.v
theories/SmtParseSpec.v
theories/SmtParseFacts.v
theories/SmtParseEx.v
theories/SmtParseProps.v
theories/SmtFile.v
theories/SmtFileFacts.v
theories/SmtFileEx.v
theories/SmtFileProps.v
theories/SmtSession.v
theories/SmtSessionSpec.v
theories/SmtSessionFacts.v
theories/SmtSessionEx.v
theories/SmtSessionProps.v
theories/FileSys.v
theories/ExamplesModel.v
theories/ExamplesSpec.v
theories/FileFacts.v
theories/ExamplesFacts.v
theories/ExamplesWrite.v
theories/ExamplesMain.v
theories/ExamplesCheck.v
theories/ExamplesEx.v
theories/ExamplesProps.v
