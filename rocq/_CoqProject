-Q theories Verif
theories/Base.v
theories/Machine.v
theories/Types.v
theories/Layout.v
theories/Init.v
theories/Access.v
theories/Boxes.v
theories/SeqModel.v
theories/Debug.v
theories/MacroFront.v
theories/Program.v
theories/Spec.v
theories/ProgSpec.v
theories/Arith.v
theories/Mem.v
theories/Read.v
theories/Repr.v
theories/View.v
theories/InitLayout.v
theories/Build.v
theories/Construct.v
theories/Initialize.v
theories/Ownership.v
theories/Strip.v
theories/CloneProofs.v
theories/BoxProofs.v
theories/Locate.v
theories/MutTyping.v
theories/Setters.v
theories/Sources.v
theories/SubObj.v
theories/SeqBase.v
theories/SeqPush.v
theories/SeqIter.v
theories/SeqDrop.v
theories/SeqExtend.v
theories/History.v
theories/LayoutFacts.v
theories/Examples.v
theories/PropsLayout.v
theories/BoxFacts.v
theories/SeqHist.v
theories/Ghost.v
theories/ProgInv.v
theories/ProgEval.v
theories/ProgTake.v
theories/Places.v
theories/ProgSteps.v
theories/PropsProgram.v
theories/AccountSpec.v
theories/PropsAccount.v
theories/DropPanic.v
theories/DropPanicSpec.v
theories/DropPanicProofs.v
theories/PlaceSpec.v
theories/PlaceAddr.v
theories/PropsPin.v
theories/ParModel.v
theories/ParSpec.v
theories/PropsPar.v
theories/PropsUnpin.v
theories/TypeModel.v
theories/PropsTypes.v
theories/CellModel.v
theories/CellSpec.v
theories/CellProofs.v
theories/PropsCell.v
theories/AliasModel.v
theories/AliasSpec.v
theories/AliasProofs.v
theories/PropsAlias.v
theories/PropsDropPanic.v
theories/PropsBox.v
theories/PropsMut.v
theories/PropsArray.v
theories/PropsSeq.v
theories/PropsSeq2.v
theories/PropsSeq3.v
theories/PropsZst.v
theories/PropsExact.v
theories/PropsMacro.v
theories/MacroGenerics.v
theories/GenericsSpec.v
theories/PropsMacroGen.v
theories/MacroSem.v
theories/MacroNames.v
theories/PropsMacroSem.v
theories/PropsMacroNames.v
theories/PropsDebug.v
theories/StrModel.v
theories/StrSpec.v
theories/PropsStr.v
theories/Sim.v
theories/Hidden.v
theories/SessModel.v
theories/SessSpec.v
theories/SessInv.v
theories/SessSteps.v
theories/SessOpen.v
theories/SessLock.v
theories/SessDone.v
theories/PropsSess.v
theories/TraceSpec.v
theories/Trace.v
theories/TraceReenter.v
theories/PropsTrace.v
theories/ReenterModel.v
theories/ReenterSpec.v
theories/Local.v
theories/ReenterCalls.v
theories/Reenter.v
theories/ReenterInv.v
theories/ReenterSteps.v
theories/ReenterMain.v
theories/PropsReenter.v
theories/Generic.v
theories/ThreadSpec.v
theories/ThreadProofs.v
theories/PropsThreads.v
theories/FineSpec.v
theories/FineCode.v
theories/FineProofs.v
theories/PropsFine.v
theories/MacroEntry.v
theories/PropsMacroEntry.v
theories/ContractModel.v
theories/ContractSpec.v
theories/ContractProofs.v
theories/ContractPush.v
theories/ContractSeq.v
theories/ContractCrate.v
theories/ContractHist.v
theories/ContractExample.v
theories/PropsContract.v
theories/Assumptions.v
