-Q theories Verif

theories/Num.v
theories/Numpy.v
theories/MUtils.v
theories/MDistances.v
theories/MInternals.v
theories/MMergesort.v
theories/MAvl.v
theories/MDcor.v
theories/MPartial.v
theories/MEnergy.v
theories/MHypothesis.v
theories/MHomogeneity.v
theories/MIndependence.v
theories/MParallel.v
theories/MRowwise.v
theories/MInteger.v
theories/Sanity.v
theories/Sums.v
theories/Spec.v
theories/Centering.v
theories/Tab.v
theories/Psd.v
theories/PowerKernel.v
theories/Nonneg.v
theories/Empirical.v
theories/EnergyMath.v
theories/Samples.v
theories/RefDist.v
theories/RefDyad.v
theories/RefAvl.v
theories/RefMerge.v
theories/RefMergeTerms.v
theories/Invariance.v
theories/RefDcor.v
theories/SpecFacts.v
theories/Api.v
theories/Witness.v
theories/RefApi.v
theories/PDcov.v
theories/DyadGeneric.v
theories/MergeGeneric.v
theories/AvlGeneric.v
theories/Calls.v
theories/PMethods.v
theories/PShapes.v
theories/RefCenter.v
theories/PCentering.v
theories/PPartial.v
theories/PSizes.v
theories/RefEnergy.v
theories/PEnergy.v
theories/RefTests.v
theories/RefHomogeneity.v
theories/PTests.v
theories/Exchange.v
theories/PValidity.v
theories/PParallel.v
theories/PTTest.v
theories/PRowwise.v
theories/PDist.v
theories/AffInv.v
theories/PAffine.v
theories/Expect.v
theories/PUnbiased.v
theories/Transfer.v
theories/TransferMore.v
theories/PFinite.v
theories/Hom.v
theories/RefInteger.v
theories/PInteger.v
theories/PRational.v
theories/MFloat.v
theories/RefFloat.v
theories/FloatSum.v
theories/FloatAvl.v
theories/FloatApi.v
theories/FloatEnv.v
theories/FloatError.v
theories/FloatAccuracy.v
theories/PFloat.v
theories/FloatNaive.v
theories/PNaiveFloat.v
theories/FloatAvlErr.v
theories/FloatAvlForm.v
theories/FloatCenter.v
theories/FloatEnergy.v
theories/PAvlFloat.v
theories/NanGeneric.v
theories/NanMore.v
theories/NanTest.v
theories/NanInst.v
theories/PNan.v
theories/PRowwiseX.v
theories/FloatCorr.v
theories/FloatAvlVar.v
theories/PFloatCorr.v
theories/PFloatTests.v
theories/PFloatEnergy.v
theories/PFloatEnergyTest.v
theories/FloatMerge.v
theories/FloatMergeTerms.v
theories/PMergeFloat.v
theories/MCost.v
theories/CostFacts.v
theories/PCost.v
theories/MArgs.v
theories/PArgs.v
theories/FloatExact.v
theories/PExact.v
theories/FloatCorr2.v
theories/RowSeq.v
theories/PRowFloat.v
theories/PermMean.v
theories/PPermMean.v
theories/PEmpirical.v
theories/PStable.v
theories/FloatTStat.v
theories/PTFloat.v
theories/Consist.v
theories/PopMath.v
theories/PopIndep.v
theories/PConsist.v
theories/PPower.v
theories/PPartialLimit.v
theories/PLevel.v
theories/FloatPartial.v
theories/PPartialFloat.v
theories/PFloatLevel.v
theories/PUniform.v
theories/PPowerMany.v
theories/PMetric.v
theories/PSimilar.v
theories/PSubadd.v
theories/PCdf.v
theories/Fejer.v
theories/PCharFun.v
theories/Stable.v
theories/PCharExp.v
theories/PNoise.v
theories/PTPower.v
theories/FloatScale.v
theories/PFloatScale.v
theories/PFloatScaleTest.v
theories/PFloatScaleEnergy.v
theories/PFloatScaleEnergyTest.v
theories/PFloatScaleT.v
theories/FloatScaleAvl.v
theories/PFloatScaleAvl.v
theories/PFloatScaleAvlCor.v
theories/FloatScaleMerge.v
theories/PFloatScaleMerge.v
theories/PFloatScaleRoot.v
