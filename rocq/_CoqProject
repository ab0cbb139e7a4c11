-Q theories Verif
theories/Base.v
theories/Num.v
theories/FloatNum.v
theories/FloatLaws.v
theories/FloatMono.v
theories/DistLaws.v
theories/KdModel.v
theories/KdSpec.v
theories/KdBuild.v
theories/KdConstruct.v
theories/RGeom.v
theories/RangeModel.v
theories/RangeProofs.v
theories/SplitModel.v
theories/SplitProofs.v
theories/AtomicsModel.v
theories/AtomicsProofs.v
theories/KdExtra.v
theories/PropKd.v
theories/ParBufModel.v
theories/ParBufProofs.v
theories/PropPar.v
theories/KnnModel.v
theories/KnnBuf.v
theories/KnnProofs.v
theories/KdSplit.v
theories/PropSplit.v
theories/KdSep.v
theories/KnnFinal.v
theories/PropKnn.v
theories/BccpModel.v
theories/BccpProofs.v
theories/BccpFinal.v
theories/WspdModel.v
theories/WspdProofs.v
theories/WspdFinal.v
theories/PropWspd.v
theories/RadLaws.v
theories/DynModel.v
theories/DynProofs.v
theories/DynKnn.v
theories/DynHist.v
theories/KeySort.v
theories/DynInst.v
theories/DynRace.v
theories/DynFinal.v
theories/PropDyn.v
theories/Sched.v
theories/UfModel.v
theories/UfProofs.v
theories/KruskalSpec.v
theories/SpecReserve.v
theories/SpecCommit.v
theories/SpecLoop.v
theories/Msf.v
theories/KruskalModel.v
theories/KruskalFinal.v
theories/KruskalInst.v
theories/PropKruskal.v
theories/EmstModel.v
theories/BatchKruskal.v
theories/EmstCover.v
theories/EmstMark.v
theories/EmstProofs.v
theories/EmstFinal.v
theories/EmstLive.v
theories/EmstInst.v
theories/EmstProp.v
theories/PropEmst.v
theories/GraphModel.v
theories/SpannerProofs.v
theories/KnnGraphProofs.v
theories/PropGraph.v
theories/MortonModel.v
theories/MortonBits.v
theories/MortonSort.v
theories/PropMorton.v
theories/SebModel.v
theories/SebPrefix.v
theories/SebGeom.v
theories/SebCirc.v
theories/SebWelzl.v
theories/SebScan.v
theories/SebExact.v
theories/SebMain.v
theories/SebFloat.v
theories/PropSeb.v
theories/CpModel.v
theories/CpProofs.v
theories/CpMain.v
theories/PropCp.v
theories/Hull2dModel.v
theories/Hull2dGeom.v
theories/Hull2dQuick.v
theories/Hull2dDc.v
theories/Hull2dSample.v
theories/Hull2dBrute.v
theories/Hull2dFloat.v
theories/PropHull2d.v
theories/BatchSplit.v
theories/BatchAddr.v
theories/BatchModel.v
theories/BatchSlice.v
theories/BatchLoop.v
theories/BatchCo.v
theories/BatchBuild.v
theories/BatchBhl.v
theories/BatchMedian.v
theories/BatchTree.v
theories/BatchPack.v
theories/BatchErase.v
theories/BatchObj.v
theories/BatchInst.v
theories/BatchRun.v
theories/BatchSingle.v
theories/PropBatch.v
theories/LogModel.v
theories/LogPlan.v
theories/LogExec.v
theories/LogInsert.v
theories/LogErase.v
theories/BloomModel.v
theories/BloomProofs.v
theories/PropLog.v
theories/IoModel.v
theories/IoProofs.v
theories/PropIo.v
theories/H3Model.v
theories/H3Geom.v
theories/H3Surf.v
theories/H3Heap.v
theories/H3Edge.v
theories/H3Front.v
theories/H3Link.v
theories/H3Place.v
theories/H3Round.v
theories/H3Loop.v
theories/H3Main.v
theories/H3Init.v
theories/H3Init2.v
theories/H3Spec.v
theories/H3Final.v
theories/H3Brute.v
theories/H3Inst.v
theories/PropHull3d.v
theories/BatchKnn.v
theories/BatchKnnProofs.v
theories/LogKnn.v
theories/PropBatchKnn.v
theories/DelModel.v
theories/DelGeom.v
theories/DelTopo.v
theories/DelFlip.v
theories/DelCav.v
theories/DelTree.v
theories/DelRound.v
theories/DelMain.v
theories/DelInit.v
theories/DelSpec.v
theories/DelEnd.v
theories/DelDrive.v
theories/DelTrig.v
theories/PropDel.v
theories/SgModel.v
theories/SgSpec.v
theories/SgList.v
theories/SgGeom.v
theories/SgProofs.v
theories/SgSkel.v
theories/PropSg.v
theories/OctModel.v
theories/OctSpec.v
theories/OctProofs.v
theories/OctSearch.v
theories/PropOct.v
theories/H3ParModel.v
theories/H3ParHeap.v
theories/H3ParRound.v
theories/H3ParMain.v
theories/PropHull3dPar.v
theories/H3SubModel.v
theories/H3Sub.v
theories/H3SubDc.v
theories/H3SubFilter.v
theories/H3SubMain.v
theories/PropHull3dSub.v
theories/H3PseudoModel.v
theories/H3Pseudo.v
theories/PropHull3dPseudo.v
theories/H2IncModel.v
theories/H2IncGeom.v
theories/H2IncSide.v
theories/H2IncTok.v
theories/H2IncSeg.v
theories/H2IncInv.v
theories/H2IncStep.v
theories/H2IncRun.v
theories/H2IncMain.v
theories/PropHull2dInc.v
theories/DualModel.v
theories/DualProofs.v
theories/DualMain.v
theories/PropDual.v
theories/HashModel.v
theories/HashProofs.v
theories/PropHash.v
theories/GiftModel.v
theories/GiftProofs.v
theories/PropGift.v
theories/GraphIoModel.v
theories/GraphIoSpec.v
theories/GraphIoProofs.v
theories/PropGraphIo.v
theories/IntIoModel.v
theories/IntIoSpec.v
theories/IntIoProofs.v
theories/PropIntIo.v
theories/UniModel.v
theories/UniProofs.v
theories/PropUni.v
theories/SpreadModel.v
theories/SpreadSpec.v
theories/SpreadProofs.v
theories/PropSpread.v
theories/GridModel.v
theories/GridSpec.v
theories/GridProofs.v
theories/PropGrid.v
theories/UfLinkModel.v
theories/UfLinkProofs.v
theories/PropUfLink.v
theories/CmdModel.v
theories/PropCmd.v
theories/H3Filter1Model.v
theories/PropFilter1.v
theories/PropRead.v
theories/Sample2dModel.v
theories/PropSample2d.v
