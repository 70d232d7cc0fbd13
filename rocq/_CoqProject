-Q theories Verif
theories/XReal.v
theories/PyBase.v
theories/ModelUtils.v
theories/ModelMRQ.v
theories/ModelStructure.v
theories/ModelCumulants.v
theories/ModelSpectrum.v
theories/ModelEstimation.v
theories/ModelWavelet.v
theories/ModelMFA.v
theories/Spec.v
theories/SpecMRQ.v
theories/LXReal.v
theories/LReg.v
theories/LUtils.v
theories/LBase.v
theories/LFilter.v
theories/LTransform.v
theories/LPattern.v
theories/LWave.v
theories/LPoly.v
theories/LCone.v
theories/LEst.v
theories/LMoment.v
theories/LWaveEst.v
theories/LCum.v
theories/LEntropy.v
theories/PropsRegression.v
theories/PropsUtils.v
theories/PropsWavelet.v
theories/PropsLeaders.v
theories/PropsEstimators.v
theories/PropsCumulants.v
theories/PropsSpectrum.v
theories/PropsMono.v
theories/LScale.v
theories/LScaleWT.v
theories/PropsInvariance.v
theories/PropsRealisations.v
theories/PropsMFA.v
theories/ModelPSD.v
theories/LPSD.v
theories/PropsPSD.v
theories/PropsSlope.v
theories/ModelSignal.v
theories/LSignal.v
theories/PropsSignal.v
theories/PropsDiff.v
theories/ModelBivariate.v
theories/SpecBi.v
theories/LBivariate.v
theories/PropsBivariate.v
theories/PropsBiStructure.v
theories/PropsBiPipeline.v
theories/ModelSimul.v
theories/SpecSimul.v
theories/LDft.v
theories/LSimul.v
theories/LCirc.v
theories/LFgn.v
theories/LFgnCov.v
theories/LNoise.v
theories/PropsSimul.v
theories/LChol.v
theories/PropsChol.v
theories/LMrw.v
theories/PropsMrw.v
theories/PropsMrw2.v
theories/LSkew.v
theories/PropsSkew.v
theories/ModelPlot.v
theories/LPlot.v
theories/PropsPlot.v
theories/PropsPlotBi.v
theories/Model2D.v
theories/LDft2.v
theories/Spec2D.v
theories/LFract.v
theories/LCov2.v
theories/Props2D.v
theories/PropsShift.v
theories/ModelViz.v
theories/PropsViz.v
theories/PropsGauss.v
theories/PropsBiScale.v
theories/PropsFinite.v
theories/ModelRounded.v
theories/PropsRounded.v
theories/PropsBinary64.v
theories/PropsPLeaders.v
theories/PropsStable.v
theories/PropsStableFloat.v
theories/ModelAssign.v
theories/PropsAssign.v
theories/ModelRoundedEst.v
theories/PropsRoundedEst.v
theories/PropsRoundedEst64.v
theories/PropsRoundedSignal.v
theories/PropsFractOdd.v
theories/PropsDistribution.v
theories/PropsMissing.v
theories/PropsReuse.v
theories/PropsBiSelf.v
theories/LCgf.v
theories/PropsCgf.v
theories/PropsCgfBi.v
theories/PropsBiAccess.v
theories/PropsStore.v
theories/PropsNoise.v
theories/PropsShape.v
theories/PropsTaylor.v
theories/PropsRoundedFit.v
theories/ModelRoundedSpec.v
theories/PropsRoundedSpec.v
theories/PropsRoundedSpec64.v
theories/PropsRoundedGap.v
theories/PropsWhite.v
theories/PropsWhitePower.v
theories/PropsWhiteFbm.v
theories/PropsWhiteCase.v
theories/PropsEnergy.v
theories/LTaps.v
theories/PropsDecorr.v
theories/PropsShortRange.v
theories/PropsDecorrCase.v
theories/PropsHaarFgn.v
theories/PropsHaarFbm.v
theories/PropsHaarCase.v
theories/LWick.v
theories/PropsFluct.v
theories/PropsConsist.v
theories/LThree.v
theories/PropsConsistCase.v
theories/PropsRoundedExact.v
theories/PropsConsistGen.v
theories/LCoherence.v
theories/PropsCoherence.v
theories/ModelWelch.v
theories/LWelch.v
theories/PropsWelch.v
theories/PropsWelchSine.v
theories/PropsWelchCase.v
theories/PropsBeta.v
theories/PropsWelchMiss.v
theories/PropsWelchConsist.v
theories/LPowerSum.v
theories/PropsConsistRate.v
theories/PropsBetaRate.v
theories/PropsEnds.v
theories/PropsSpecConsist.v
theories/PropsVizColor.v
theories/PropsMrwStat.v
theories/LGaussLimit.v
theories/PropsMrwCase.v
theories/PropsMrwScale.v
theories/PropsMrwScale4.v
theories/PropsMrwScaleCase.v
theories/PropsUnknownLog.v
theories/PropsMrwHaar.v
theories/PropsMrwHaar2.v
theories/PropsMrwIntermit.v
theories/PropsMrwIntermitCase.v
theories/PropsImage.v
theories/PropsImageCase.v
theories/PropsGaussFlat.v
theories/LWick8.v
theories/LFive.v
theories/PropsMonofractal.v
theories/PropsMonofractalCase.v
theories/PropsBiLow.v
theories/LPosVar.v
theories/PropsPosVar.v
theories/PropsTolerance.v
theories/PropsMrwRegress.v
theories/LRepr.v
theories/PropsMrwAny.v
