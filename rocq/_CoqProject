-Q theories Verif
theories/Base.v
theories/Kw.v
theories/Code.v
theories/Utf8.v
theories/Pars.v
theories/Res.v
theories/Split.v
theories/Clpars.v
theories/Flt.v
theories/Arith.v
theories/State.v
theories/Wcl.v
theories/Interp.v
theories/World.v
theories/SpecList.v
theories/PfList.v
theories/SpecRun.v
theories/PfRun.v
theories/PfNode.v
theories/PfArgs.v
theories/Sample.v
theories/SpecArith.v
theories/PfArith.v
theories/SpecCl.v
theories/PfCl.v
theories/PfWcl.v
theories/SpecCmp.v
theories/PfNum.v
theories/PfCmp.v
theories/PfPars.v
theories/PfLex.v
theories/SpecLex.v
theories/PfRead.v
theories/PfBlock.v
theories/PfUtf.v
theories/PfQuote.v
theories/PfParsInv.v
theories/PfComment.v
theories/SpecInv.v
theories/PfInv.v
theories/PfLook.v
theories/PfStep.v
theories/PfReach.v
theories/PropList.v
theories/PropRun.v
theories/PropArith.v
theories/PropCl.v
theories/PropCmp.v
theories/PropLex.v
theories/PfCache.v
theories/PropInv.v
theories/SpecBig.v
theories/PfBig.v
theories/SpecNode.v
theories/PfSeq.v
theories/PfNode2.v
theories/PfProp.v
theories/PfJump.v
theories/PfFrame.v
theories/PfFrame2.v
theories/PropNode.v
theories/SpecVar.v
theories/PfSel.v
theories/PfSet.v
theories/PfGet.v
theories/PfVar.v
theories/PfStop.v
theories/PropVar.v
theories/SpecDef.v
theories/PfDef.v
theories/PfCall.v
theories/PfSep.v
theories/PfDefine.v
theories/PropDef.v
theories/SpecCond.v
theories/PfCond.v
theories/PropCond.v
theories/SpecPass.v
theories/PfPass.v
theories/SpecLoop.v
theories/PfLoop.v
theories/PropLoop.v
theories/PfHere.v
theories/SpecReturn.v
theories/PfReturn.v
theories/PropReturn.v
theories/SpecSwitch.v
theories/PfSwitch.v
theories/PropSwitch.v
theories/SpecMod.v
theories/PfMod.v
theories/PropMod.v
theories/SpecAbort.v
theories/PfAbort.v
theories/PropAbort.v
theories/SpecHas.v
theories/PfHas.v
theories/PropHas.v
theories/SpecLine.v
theories/PfLine.v
theories/PropLine.v
theories/SpecPipe.v
theories/PfPipe.v
theories/PropPipe.v
theories/SpecHead.v
theories/PfHead.v
theories/PropHead.v
theories/SpecExec.v
theories/PfExec.v
theories/PropExec.v
theories/SpecGram.v
theories/PfGram.v
theories/PropGram.v
theories/SpecValue.v
theories/PfValue.v
theories/PropValue.v
theories/SpecRedir.v
theories/PfRedir.v
theories/PropRedir.v
theories/SpecTerm.v
theories/PfTerm.v
theories/PropTerm.v
theories/SpecPure.v
theories/PfPure.v
theories/PropPure.v
theories/PropTalk.v
theories/Attr.v
theories/SpecAttr.v
theories/PfAttr.v
theories/PropAttr.v
theories/SpecCode.v
theories/PfCode.v
theories/PfCode2.v
theories/PropCode.v
theories/SpecNext.v
theories/PfNext.v
theories/PfNext2.v
theories/PropNext.v
theories/Tree.v
theories/SpecTree.v
theories/PfTree.v
theories/PropTree.v
theories/SpecCalc.v
theories/PfPanic.v
theories/PfCalc.v
theories/PropCalc.v
theories/SpecAbort2.v
theories/PfVis.v
theories/PfVis2.v
theories/PropAbort2.v
theories/PfAbort3.v
theories/PropAbort3.v
theories/PfActs.v
theories/SpecBlame.v
theories/PfBlame.v
theories/PfBlame2.v
theories/PropBlame.v
theories/PfScope.v
theories/SpecOwn.v
theories/PfScope2.v
theories/PfHeld.v
theories/PfHeld2.v
theories/PropOwn.v
theories/PropHeld.v
theories/PropBounds.v
theories/PropHas2.v
theories/PfOwnList.v
theories/PropOwnList.v
theories/PfFresh.v
theories/PropFresh.v
theories/PropAbort4.v
theories/PropAbort5.v
