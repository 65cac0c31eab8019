-Q theories Verif
theories/Base.v
theories/Lit.v
theories/Keys.v
theories/Sat.v
theories/SatSpec.v
theories/SatInv.v
theories/SatPop.v
theories/SatImp.v
theories/SatRec.v
theories/SatAn.v
theories/SatProp.v
theories/SatLoop.v
theories/SatMain.v
theories/SatApi.v
theories/SatApi2.v
theories/SatNext.v
theories/SatSimp.v
theories/Stack.v
theories/Reify.v
theories/Amo.v
theories/Run.v
theories/Listen.v
theories/StackRun.v
theories/StackLis.v
theories/SatKept.v
theories/Learn.v
theories/SatFacts.v
theories/Report.v
theories/Exec.v
theories/Refute.v
theories/SatProps.v
theories/PropSat.v
theories/ReifyProps.v
theories/PropReify.v
theories/Lin.v
theories/LinProps.v
theories/PropLin.v
theories/Qe.v
theories/Lra.v
theories/LraTab.v
theories/LraVal.v
theories/LraInv.v
theories/LraChk.v
theories/LraTerm.v
theories/LraPro.v
theories/LraCon.v
theories/ThGrow.v
theories/LraNew.v
theories/ThRel.v
theories/StackTh.v
theories/ThPres.v
theories/LraCmp.v
theories/LraApi.v
theories/LraRun.v
theories/LraEnd.v
theories/LraEq.v
theories/LraTh.v
theories/LraExec.v
theories/LraFacts.v
theories/PropLra.v
theories/LraLis.v
theories/PropLraLis.v
theories/PropStack.v
theories/Dw.v
theories/Dl.v
theories/DlClo.v
theories/DlTight.v
theories/DlEdge.v
theories/DlTh.v
theories/DlFacts.v
theories/DlVal.v
theories/Erase.v
theories/DlApi.v
theories/MapTh.v
theories/DlRoot.v
theories/DlNet.v
theories/DlSpec.v
theories/DlQ.v
theories/DlTrace.v
theories/DlRSpec.v
theories/PropDl.v
theories/PropDlRoot.v
theories/ThSum.v
theories/RecTh.v
theories/PropTh.v
theories/Ov.v
theories/OvInv.v
theories/OvEq.v
theories/OvRun.v
theories/OvLis.v
theories/OvExec.v
theories/OvProps.v
theories/PropOv.v
theories/LraKeys.v
theories/PropKeys.v
theories/Copy.v
theories/LraSet.v
theories/PropCopy.v
theories/OvStep.v
theories/Mix.v
theories/MixApi.v
theories/MixRun.v
theories/MixEnd.v
theories/MixExec.v
theories/MixSame.v
theories/PropMix.v
theories/Json.v
theories/JsonSpec.v
theories/JsonProps.v
theories/PropJson.v
theories/PropReport.v
theories/StackN.v
theories/StackEx.v
theories/PropStackN.v
theories/Destroy.v
theories/PropDestroy.v
theories/Full.v
theories/FullEnd.v
theories/PropFull.v
theories/LraFull.v
theories/PropLraFull.v
theories/DlFlat.v
theories/FlatNet.v
theories/FlatTrace.v
theories/FlatSpec.v
theories/Search.v
theories/SearchLra.v
theories/SearchMix.v
theories/SearchAll.v
theories/PropSearch.v
theories/LinSelf.v
theories/PropLinSelf.v
theories/Sort.v
theories/SortEx.v
theories/PropSort.v
theories/FlatHist.v
theories/PropFlat.v
theories/Two.v
theories/TwoApi.v
theories/TwoSame.v
theories/TwoNet.v
theories/TwoTrace.v
theories/TwoSpec.v
theories/PropTwo.v
theories/Para.v
theories/Hush.v
theories/PropHush.v
theories/NvMono.v
theories/Idl.v
theories/IdlBd.v
theories/IdlSim.v
theories/IdlRun.v
theories/IdlNet.v
theories/IdlHist.v
theories/IdlEx.v
theories/PropIdl.v
theories/IdlFlat.v
theories/PropIdlFlat.v
