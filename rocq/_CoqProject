-Q theories Verif
theories/ModelArray.v
theories/ModelBases.v
theories/ModelBuild.v
theories/ModelCache.v
theories/ModelColl.v
theories/ModelCommon.v
theories/ModelCompose.v
theories/ModelCond.v
theories/ModelCw.v
theories/ModelDefault.v
theories/ModelDet.v
theories/ModelEcorr.v
theories/ModelEphem.v
theories/ModelFiles.v
theories/ModelFunc.v
theories/ModelGauss.v
theories/ModelGp.v
theories/ModelGw.v
theories/ModelHarm.v
theories/ModelInterp.v
theories/ModelKernel.v
theories/ModelKinds.v
theories/ModelLike.v
theories/ModelLinalg.v
theories/ModelNames.v
theories/ModelNoise.v
theories/ModelOrf.v
theories/ModelParClass.v
theories/ModelParams.v
theories/ModelPhi.v
theories/ModelPrior.v
theories/ModelPulsar.v
theories/ModelSample.v
theories/ModelSelect.v
theories/ModelShared.v
theories/ModelSigs.v
theories/ModelSized.v
theories/ModelSpectra.v
theories/ModelStandard.v
theories/ModelWide.v
theories/ModelWideDm.v
theories/ProofArray.v
theories/ProofArrayEx.v
theories/ProofBare.v
theories/ProofBase.v
theories/ProofBases.v
theories/ProofBuild.v
theories/ProofCache.v
theories/ProofCacheProps.v
theories/ProofClasses.v
theories/ProofColl.v
theories/ProofCollEx.v
theories/ProofCommon.v
theories/ProofCommons.v
theories/ProofCompose.v
theories/ProofCond.v
theories/ProofCorr.v
theories/ProofCw.v
theories/ProofDefault.v
theories/ProofDefaultEx.v
theories/ProofDefaultStd.v
theories/ProofDet.v
theories/ProofDetEphem.v
theories/ProofEcorr.v
theories/ProofEphem.v
theories/ProofEpoch.v
theories/ProofFiles.v
theories/ProofFunc.v
theories/ProofGauss.v
theories/ProofGp.v
theories/ProofGw.v
theories/ProofHarm.v
theories/ProofHd.v
theories/ProofHdSeries.v
theories/ProofInterp.v
theories/ProofJoint.v
theories/ProofKernel.v
theories/ProofKeyword.v
theories/ProofKinds.v
theories/ProofKindsEx.v
theories/ProofLike.v
theories/ProofLinalg.v
theories/ProofMany.v
theories/ProofManyEx.v
theories/ProofMulti.v
theories/ProofNames.v
theories/ProofNamesEx.v
theories/ProofNamesStd.v
theories/ProofNoise.v
theories/ProofOrbit.v
theories/ProofOrbitEx.v
theories/ProofOrf.v
theories/ProofOwner.v
theories/ProofParClass.v
theories/ProofParams.v
theories/ProofPhi.v
theories/ProofPrior.v
theories/ProofPulsar.v
theories/ProofQuant.v
theories/ProofSample.v
theories/ProofSelect.v
theories/ProofShare.v
theories/ProofShared.v
theories/ProofSigs.v
theories/ProofSized.v
theories/ProofSlope.v
theories/ProofSource.v
theories/ProofSpectra.v
theories/ProofSrc.v
theories/ProofStandard.v
theories/ProofStandardEx.v
theories/ProofStdFn.v
theories/ProofWide.v
theories/ProofWideDm.v
theories/ProofWideSig.v
theories/PropArray.v
theories/PropBases.v
theories/PropBuild.v
theories/PropCache.v
theories/PropClasses.v
theories/PropColl.v
theories/PropCommon.v
theories/PropCompose.v
theories/PropCond.v
theories/PropCw.v
theories/PropDefault.v
theories/PropDet.v
theories/PropEcorr.v
theories/PropEphem.v
theories/PropFiles.v
theories/PropFunc.v
theories/PropGauss.v
theories/PropGp.v
theories/PropGw.v
theories/PropHarm.v
theories/PropHd.v
theories/PropInterp.v
theories/PropKernel.v
theories/PropKeyword.v
theories/PropKinds.v
theories/PropLike.v
theories/PropNames.v
theories/PropNoise.v
theories/PropOrf.v
theories/PropOwner.v
theories/PropParClass.v
theories/PropParams.v
theories/PropPhi.v
theories/PropPrior.v
theories/PropPulsar.v
theories/PropQuant.v
theories/PropSample.v
theories/PropSelect.v
theories/PropShared.v
theories/PropSignals.v
theories/PropSlope.v
theories/PropSpectra.v
theories/PropStandard.v
theories/PropWide.v
theories/PropWideDm.v
theories/PropWideSig.v
theories/PyBase.v
theories/RStruct.v
