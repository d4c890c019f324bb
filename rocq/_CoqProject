-Q theories Verif
theories/Scalar.v
theories/Index.v
theories/PyBase.v
theories/NdArray.v
theories/NdFacts.v
theories/MpStruct.v
theories/MpArray.v
theories/MpCanon.v
theories/Chain.v
theories/PfSum.v
theories/PfSumup.v
theories/PfAdd.v
theories/PfDot.v
theories/PfDots.v
theories/PfReindex.v
theories/PfSite.v
theories/PfSite2.v
theories/PfShape.v
theories/Gauss.v
theories/Dense.v
theories/PfInner.v
theories/PfSelect.v
theories/PfTrace.v
theories/PfSites.v
theories/PfBlock.v
theories/PfEmbed.v
theories/PfInject.v
theories/PfOrder.v
theories/CanonSpec.v
theories/PfCanon.v
theories/PfCanon2.v
theories/PfGram.v
theories/PfFromArray.v
theories/PfCompress.v
theories/PfUpdate.v
theories/PropAux.v
theories/PfHistory.v
theories/PfBounds.v
theories/Examples.v
theories/Oracles.v
theories/MpsMpo.v
theories/PfStates.v
theories/LinSum.v
theories/PfRedPmps.v
theories/PfRedSup.v
theories/PfRedMpo.v
theories/PfDm.v
theories/PfStates2.v
theories/NamedNd.v
theories/PfNamed.v
theories/Linalg.v
theories/PfEnv.v
theories/PfEnv2.v
theories/PfSand.v
theories/PfLocal.v
theories/PfLop.v
theories/PfLop2.v
theories/PfLocality.v
theories/PfSweep.v
theories/PfChainEnv.v
theories/PfWindow.v
theories/PfEig.v
theories/PfEigSum.v
theories/PfEig2.v
theories/PfEig3.v
theories/PfVar.v
theories/PfVar2.v
theories/PfVar3.v
theories/PfVar4.v
theories/ExtMath.v
theories/PfExt.v
theories/PfKron.v
theories/Factory.v
theories/PfFactory.v
theories/PfRandom.v
theories/PfMpdo.v
theories/PfHam.v
theories/Special.v
theories/PfSpecial.v
theories/Store.v
theories/PfStore.v
theories/Physics.v
theories/PfPhysics.v
theories/Cplx.v
theories/LocalPovm.v
theories/PfLocalPovm.v
theories/PfCPovm.v
theories/Pmf.v
theories/PfPmf.v
theories/MpPovm.v
theories/PfMpPovm.v
theories/PfLtr.v
theories/PfSymm.v
theories/PfPovmEmbed.v
theories/PovmArr.v
theories/PfPovmArr.v
theories/PfPsd.v
theories/PfKronPovm.v
theories/Dist.v
theories/Sampling.v
theories/PfDist.v
theories/PfMarg.v
theories/PfSample.v
theories/Estim.v
theories/PfEstim.v
theories/PfLfun.v
theories/PfMean.v
theories/Match.v
theories/PfHS.v
theories/PfContract.v
theories/PfMatchArr.v
theories/PfMatch.v
theories/PfElemSum.v
theories/PfEstFrom.v
theories/PfEstExact.v
theories/PfDiag.v
theories/PfMatchEx.v
theories/PfLfunFrom.v
theories/PfLfunVal.v
theories/PfLfunEst.v
theories/PfLfunEx.v
theories/Heap.v
theories/PfHeap.v
theories/PfTrunc.v
theories/RelErr.v
theories/PfRelErr.v
theories/ExRelErr.v
theories/PfEstMpps.v
theories/ExEstMpps.v
theories/PfMpplLfun.v
theories/PfRedMode.v
theories/PauliMpp.v
theories/PfPauliMpp.v
theories/RandSvd.v
theories/PfRandSvd.v
theories/PfRandSvdC.v
theories/PfBlockPmf.v
theories/PfReshapeErr.v
theories/PfInit.v
theories/LinInv.v
theories/PfLinInv.v
theories/ExLinInv.v
theories/CxyE0.v
theories/PfCxyE0.v
theories/PfXyFock.v
theories/PfXyTrig.v
theories/PfXyStrict.v
theories/PfXyLow.v
theories/PfXyGround.v
theories/PfErrors.v
theories/PfErrors2.v
theories/PfErrors3.v
theories/PfLfunNan.v
theories/PfEigErr.v
theories/PfMpplBlock.v
theories/PfErrors4.v
theories/ObjState.v
theories/PfObjState.v
theories/PfObjState2.v
theories/PfEckart.v
theories/PfQuasi.v
theories/PfTrunc2.v
theories/PfQuasi2.v
theories/ExQuasi.v
theories/TestRef.v
theories/PfUnique.v
theories/PfRef.v
theories/PfUnique2.v
theories/ExUnique.v
theories/PfEigVal.v
theories/PfEigVal2.v
theories/PfVarBest.v
theories/PfVarBest2.v
theories/PfMinRank.v
theories/NormReal.v
theories/PfGeom.v
theories/PfSpectrum.v
theories/PfEnergy.v
theories/PfOper.v
theories/PfKron2.v
theories/PfRedStates.v
theories/Props_Algebra.v
theories/Props_Legs.v
theories/Props_Build.v
theories/Props_Canon.v
theories/Props_States.v
theories/Props_Linalg.v
theories/Props_Factory.v
theories/Props_Misc.v
theories/Props_Povm.v
theories/Props_MpPovm.v
theories/Props_Sample.v
theories/Props_Estim.v
theories/Props_Match.v
theories/Props_Lfun.v
theories/Props_Heap.v
theories/Props_RelErr.v
theories/Props_EstMpps.v
theories/Props_PauliMpp.v
theories/Props_RandSvd.v
theories/Props_Blocks.v
theories/Props_Init.v
theories/Props_LinInv.v
theories/Props_CxyE0.v
theories/Props_Errors.v
theories/Props_ObjState.v
theories/Props_Quasi.v
theories/Props_Unique.v
theories/ExEigVal.v
theories/Props_EigVal.v
theories/ExVarBest.v
theories/ExVarThree.v
theories/Props_VarBest.v
theories/Props_MinRank.v
theories/Props_Geom.v
theories/Props_Spectrum.v
theories/Props_Energy.v
theories/Props_Oper.v
theories/Props_Kron.v
theories/Props_RedStates.v
theories/Props_Positive.v
