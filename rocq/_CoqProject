-Q theories Verif
theories/Grids.v
theories/LAcc.v
theories/LAcc2.v
theories/LAcc3.v
theories/LAny.v
theories/LCasc.v
theories/LCircle.v
theories/LConn.v
theories/LDepth.v
theories/LDir.v
theories/LDir2.v
theories/LDir3.v
theories/LDir4.v
theories/LDrain.v
theories/LEdge.v
theories/LFill.v
theories/LFill2.v
theories/LFill3.v
theories/LFill4.v
theories/LFloat.v
theories/LFloat32.v
theories/LGeo.v
theories/LGraph.v
theories/LHeap.v
theories/LNan.v
theories/LPerm.v
theories/LRat.v
theories/LReach.v
theories/LRun.v
theories/LSeg.v
theories/LSeg2.v
theories/LSeg3.v
theories/LSeg4.v
theories/LStream.v
theories/LSub.v
theories/LSum.v
theories/LSumF.v
theories/LTie.v
theories/LTopo.v
theories/LVec.v
theories/LWorld.v
theories/LWorld2.v
theories/LWorld3.v
theories/LWorld4.v
theories/LWorld5.v
theories/LWs.v
theories/MBuild.v
theories/MDir.v
theories/MFill.v
theories/MFlow.v
theories/MGeo.v
theories/MGeoF.v
theories/MHeap.v
theories/MMask.v
theories/MNanQ.v
theories/MNum.v
theories/MNumF.v
theories/MObj.v
theories/MPkg.v
theories/MSave.v
theories/MShape.v
theories/MSobj.v
theories/MStream.v
theories/MWorld.v
theories/PropsAcc.v
theories/PropsAcc2.v
theories/PropsAccCyc.v
theories/PropsAccF.v
theories/PropsAccLin.v
theories/PropsAgree.v
theories/PropsApi.v
theories/PropsBasin.v
theories/PropsBuild.v
theories/PropsCasc.v
theories/PropsCasc2.v
theories/PropsCasc3.v
theories/PropsCasc4.v
theories/PropsCascF.v
theories/PropsCase.v
theories/PropsCircle.v
theories/PropsCircleF.v
theories/PropsClip.v
theories/PropsCount.v
theories/PropsCtl.v
theories/PropsCtl2.v
theories/PropsCtl3.v
theories/PropsCtl4.v
theories/PropsCtlF.v
theories/PropsDepth.v
theories/PropsDir.v
theories/PropsDirInv.v
theories/PropsDirNum.v
theories/PropsEdit.v
theories/PropsEdit2.v
theories/PropsEmpty.v
theories/PropsFill.v
theories/PropsFill2.v
theories/PropsFloat.v
theories/PropsGeo.v
theories/PropsGeoF.v
theories/PropsIso.v
theories/PropsIter.v
theories/PropsLat.v
theories/PropsLatSeg.v
theories/PropsLeast.v
theories/PropsLeastF.v
theories/PropsMask.v
theories/PropsNanFill.v
theories/PropsNanFillF.v
theories/PropsNanStable.v
theories/PropsNet.v
theories/PropsNetF.v
theories/PropsNum.v
theories/PropsNumF.v
theories/PropsNumF2.v
theories/PropsObj.v
theories/PropsOrder.v
theories/PropsOutlet.v
theories/PropsPerm.v
theories/PropsPermF.v
theories/PropsPipe.v
theories/PropsPkg.v
theories/PropsPrms.v
theories/PropsRain.v
theories/PropsRainF.v
theories/PropsRainF2.v
theories/PropsRainFEx.v
theories/PropsReach.v
theories/PropsRenum.v
theories/PropsRobust.v
theories/PropsRobustF.v
theories/PropsRun.v
theories/PropsSame.v
theories/PropsSave.v
theories/PropsSave2.v
theories/PropsSeg.v
theories/PropsShape.v
theories/PropsSobj.v
theories/PropsStable.v
theories/PropsStableF.v
theories/PropsStream.v
theories/PropsSub0.v
theories/PropsSubb.v
theories/PropsThr.v
theories/PropsTie.v
theories/PropsType.v
theories/PropsUnits.v
theories/PropsVec.v
theories/PropsWater.v
theories/PropsWaterF.v
theories/PropsWorld.v
theories/PropsWorld2.v
theories/PropsWorld3.v
theories/PropsWorldEx.v
theories/PropsWorldF.v
theories/PropsWorldF2.v
theories/Py.v
theories/Spec.v
theories/SpecGeo.v
