-Q theories Verif
theories/Rstruct.v
theories/ModelHist.v
theories/SpecHist.v
theories/ProofsHist.v
theories/PropHist.v
theories/ModelDispatch.v
theories/SpecDispatch.v
theories/ProofsDispatch.v
theories/PropDispatch.v
theories/MxBase.v
theories/ModelPhi.v
theories/ProofsPhi.v
theories/ProofsPhiExt.v
theories/ProofsPfd.v
theories/Summable.v
theories/MxSeries.v
theories/SpecPhi.v
theories/ProofsPhiR.v
theories/ModelPhiR.v
theories/ProofsPhiErr.v
theories/PropPhi.v
theories/ModelOps.v
theories/SpecOps.v
theories/ProofsOps.v
theories/PropOps.v
theories/ModelKrylov.v
theories/ProofsKrylov.v
theories/ProofsKrylov2.v
theories/ProofsKrylov3.v
theories/ProofsKiops.v
theories/ProofsKryCode.v
theories/PropKrylov.v
theories/ModelInt.v
theories/SpecInt.v
theories/ProofsInt.v
theories/ProofsInt2.v
theories/ProofsInt3.v
theories/ProofsInt4.v
theories/ProofsInt5.v
theories/ProofsInt6.v
theories/PropInt.v
theories/ModelProg.v
theories/SpecProg.v
theories/ProofsProg.v
theories/ProofsProg2.v
theories/ProofsProg3.v
theories/PropProg.v
theories/ModelRust.v
theories/SpecRust.v
theories/ProofsRust.v
theories/ProofsRust2.v
theories/ProofsRust3.v
theories/ProofsRust4.v
theories/PropRust.v
theories/PropRustEx.v
theories/ProofsRust5.v
theories/PropRustKry.v
theories/ModelPool.v
theories/ProofsPool.v
theories/PropPool.v
theories/SpecExact.v
theories/ProofsOde.v
theories/ProofsExact.v
theories/PropExact.v
theories/ModelLeja.v
theories/SpecLeja.v
theories/ProofsLeja.v
theories/ProofsLeja2.v
theories/ProofsLeja3.v
theories/ProofsLeja4.v
theories/ProofsLeja5.v
theories/ProofsLeja6.v
theories/SpecLejaOps.v
theories/ProofsLeja7.v
theories/ProofsLeja8.v
theories/ProofsLeja9.v
theories/PropLeja.v
theories/ProofsLejaDD.v
theories/ModelLejaR.v
theories/ProofsLejaDD2.v
theories/PropLejaDD.v
theories/ProofsLejaPts.v
theories/ProofsLejaPts2.v
theories/ProofsLejaPts3.v
theories/ProofsLejaPts4.v
theories/PropLejaPts.v
theories/ModelLejaPts.v
theories/SpecLejaPts.v
theories/ProofsLejaFast.v
theories/ProofsLejaFast2.v
theories/ProofsLejaFast3.v
theories/PropLejaFast.v
theories/SpecLejaPow.v
theories/PropLejaPow.v
theories/ProofsLejaStep.v
theories/ProofsLejaStep2.v
theories/PropLejaStep.v
theories/SpecOrder.v
theories/SpecOrder2.v
theories/ProofsJet.v
theories/ProofsJet2.v
theories/ProofsJet3.v
theories/ProofsOrder.v
theories/ProofsOrder2.v
theories/ProofsOrder3.v
theories/ProofsOrder4.v
theories/ProofsOrder5.v
theories/ProofsOrder6.v
theories/ProofsOrder7.v
theories/ProofsOrder8.v
theories/PropOrder.v
theories/ProofsOrder9.v
theories/ProofsOrder10.v
theories/ProofsOrderEx.v
theories/PropOrderCode.v
theories/PropPfdStep.v
theories/PropIntEx.v
theories/ModelPade.v
theories/ProofsPade.v
theories/ProofsPade2.v
theories/ProofsPadeZ.v
theories/ProofsPade3.v
theories/ProofsPade4.v
theories/ProofsPade5.v
theories/PropPade.v
theories/ProofsUJ.v
theories/ProofsUJ2.v
theories/ProofsConv.v
theories/ProofsConv2.v
theories/ProofsConv3.v
theories/ProofsConv4.v
theories/ProofsConv5.v
theories/SpecConv.v
theories/ProofsConv6.v
theories/ProofsConv7.v
theories/ProofsConv8.v
theories/SpecConv2.v
theories/PropConv.v
theories/PropConv2.v
theories/PropConvCode.v
theories/PropConvEx.v
theories/ProofsConvRs.v
theories/SpecConvRs.v
theories/ProofsConvRs2.v
theories/ProofsConvRs3.v
theories/PropConvRs.v
theories/PropConvRs2.v
theories/PropConvRs3.v
theories/PropRustKry2.v
theories/SpecConvRs2.v
theories/PropConvRs4.v
theories/PropConvRs5.v
theories/PropConvRsEx.v
theories/SpecRustTime.v
theories/PropRustTime.v
theories/PropRustInv.v
theories/ModelRust2.v
theories/PropRustMisc.v
theories/ModelProg2.v
theories/PropTransfer.v
theories/ModelElem.v
theories/PropElem.v
theories/PropLejaAug.v
theories/ModelCauchy.v
theories/PropCauchy.v
theories/ProofsCramZ.v
theories/ProofsCramR.v
theories/ProofsCram3.v
theories/ProofsCram4.v
theories/PropCram.v
theories/PropCram2.v
theories/ModelMatUtils.v
theories/PropMatUtils.v
theories/PropTransfer2.v
theories/ModelRad.v
theories/PropRad.v
theories/ModelArnMat.v
theories/PropArnMat.v
theories/PropRad2.v
theories/ModelPolyX.v
theories/PropPolyX.v
theories/ModelPolySS.v
theories/PropPolySS.v
theories/PropPolySSR.v
theories/ModelPolyDD.v
theories/PropPolyDD.v
