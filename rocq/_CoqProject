-Q theories Verif
theories/Prelude.v
theories/SpecHaf.v
theories/ThHaf.v
theories/ThTrace.v
theories/ThMpoly.v
theories/PyBase.v
theories/MReference.v
theories/PropReference.v
theories/PropMemo.v
theories/ArrLoop.v
theories/MCharpoly.v
theories/ThHess.v
theories/PropCharpoly.v
theories/ThSieve.v
theories/MPowerHaf.v
theories/PropKernels.v
theories/ThComb.v
theories/ThSub.v
theories/ThPower.v
theories/PropPowerHaf.v
theories/ThRec.v
theories/MRecursive.v
theories/PropRecursive.v
theories/MHafnian.v
theories/PropHafnian.v
theories/PropSparse.v
theories/PropBanded.v
theories/ThGray.v
theories/ThPerm.v
theories/ThPerm2.v
theories/MPermanent.v
theories/PropPermanent.v
theories/PropPerm2.v
theories/PropFockProb.v
theories/SpecSymp.v
theories/MSymplectic.v
theories/PropSymplectic.v
theories/PropSymp2.v
theories/PropGates.v
theories/PropChannels.v
theories/PropConversions.v
theories/MHermite.v
theories/PropHermite.v
theories/PropHermite2.v
theories/MBatch.v
theories/PropBatch.v
theories/SpecGauss.v
theories/MPartition.v
theories/PropPartition.v
theories/MMisc.v
theories/PropMisc.v
theories/MMeans.v
theories/PropMeans.v
theories/PropMeans2.v
theories/PropMeans3.v
theories/PropMeans4.v
theories/PropMeans5.v
theories/SpecTor.v
theories/MTor.v
theories/PropTor.v
theories/PropTor2.v
theories/PropTor3.v
theories/PropTor4.v
theories/PropTor5.v
theories/SpecThr.v
theories/PropThr.v
theories/PropThr2.v
theories/PropThr3.v
theories/PropThr4.v
theories/PropThr5.v
theories/SpecMtl.v
theories/MMtl.v
theories/PropMtl.v
theories/PropMtl2.v
theories/PropMtl3.v
theories/PropMtl4.v
theories/PropMtl5.v
theories/PropMtl6.v
theories/SpecLoss.v
theories/MLoss.v
theories/PropLoss.v
theories/PropLoss2.v
theories/PropLoss3.v
theories/SpecFock.v
theories/MFock.v
theories/PropFock.v
theories/PropFock2.v
theories/PropFock3.v
theories/PropFock4.v
theories/PropFock5.v
theories/PropFock6.v
theories/PropFock7.v
theories/MMarg.v
theories/PropMarg.v
theories/PropMarg2.v
theories/PropMarg3.v
theories/PropSpectral.v
theories/PropChecks.v
theories/PropPure.v
theories/ThGrad.v
theories/SpecGateFock.v
theories/MGateFock.v
theories/PropGateFock.v
theories/PropGateFock2.v
theories/PropGateGrad.v
theories/PropGateGrad2.v
theories/PropGateForms.v
theories/MLowRank.v
theories/PropLowRank.v
theories/SpecExpect.v
theories/MApprox.v
theories/PropApprox.v
theories/PyRand.v
theories/MSamples.v
theories/PropRand.v
theories/PropSamples.v
theories/SpecSample.v
theories/PropSamples2.v
theories/PropSamples3.v
theories/PropSamples4.v
theories/PropSamples5.v
theories/MDecomp.v
theories/SpecDecomp.v
theories/PropDecomp.v
theories/PropDecomp2.v
theories/PropDecomp3.v
theories/PropDecomp4.v
theories/PropDecomp5.v
theories/PropDecomp6.v
theories/PropDecomp7.v
theories/PropDecomp8.v
theories/PropDecomp9.v
theories/MRandom.v
theories/SpecRandom.v
theories/PropRandom.v
theories/PropRandom2.v
theories/PropRandom3.v
theories/MClicks.v
theories/PropClicks.v
theories/PropClicks2.v
theories/PropClicks3.v
theories/MEntangle.v
theories/PropEnt.v
theories/PropEnt2.v
theories/SpecEnt.v
theories/PropEnt3.v
theories/PropEnt4.v
theories/PropEnt5.v
theories/PropEnt6.v
theories/PropEnt7.v
theories/PropEnt8.v
theories/SpecAdj.v
theories/MAdj.v
theories/PropCts.v
theories/PropAdj.v
theories/PropAdj2.v
theories/PropAdj3.v
theories/PropAdj4.v
theories/PropAdj5.v
theories/PropAdj6.v
theories/SpecDist.v
theories/MDist.v
theories/PropDist.v
theories/PropPnd.v
theories/PropPnd2.v
theories/SpecPnd.v
theories/MPnd.v
theories/PropPnd3.v
theories/PropPnd4.v
theories/PropPnd5.v
theories/SpecPndLoss.v
theories/MPndLoss.v
theories/PropPndLoss.v
theories/PropPndLossEx.v
theories/MPndChar.v
theories/PropPndChar.v
