-Q theories Verif
theories/Py.v
theories/Round.v
theories/Parallel.v
theories/Padding.v
theories/PaddingProofs.v
theories/PaddingMore.v
theories/PropertiesPadding.v
theories/Buffer.v
theories/BufferProofs.v
theories/PropertiesBuffer.v
theories/Cplx.v
theories/CplxProofs.v
theories/Freqs.v
theories/Stft.v
theories/StftProofs.v
theories/WindowProofs.v
theories/PropertiesStft.v
theories/Squeeze.v
theories/SqueezeProofs.v
theories/BinProofs.v
theories/SqueezeThms.v
theories/SqueezeThms2.v
theories/SqueezeThms3.v
theories/PropertiesSqueeze.v
theories/Scales.v
theories/Ssqueeze.v
theories/SsqueezeProofs.v
theories/IssqProofs.v
theories/SsqThms.v
theories/FreqRange.v
theories/SsqWitness.v
theories/PropertiesSsqueeze.v
theories/ScaleThms.v
theories/PropertiesScales.v
theories/Cwt.v
theories/CwtProofs.v
theories/CwtThms.v
theories/CwtTone.v
theories/CwtThms2.v
theories/CwtWitness.v
theories/CwtWitness2.v
theories/PropertiesCwt.v
theories/Pointwise.v
theories/PointwiseProofs.v
theories/PropertiesPointwise.v
theories/SsqCwt.v
theories/DiffProofs.v
theories/SsqCwtProofs.v
theories/SsqCwtInv.v
theories/SsqCwtWitness.v
theories/PropertiesSsqCwt.v
theories/Ridge.v
theories/RidgeProofs.v
theories/RidgeOpt.v
theories/RidgeThms.v
theories/RidgeWitness.v
theories/PropertiesRidge.v
theories/Config.v
theories/ConfigProofs.v
theories/IniProofs.v
theories/ConfigThms.v
theories/PropertiesConfig.v
theories/Wavelets.v
theories/ShiftProofs.v
theories/WaveletProofs.v
theories/CacheProofs.v
theories/PropertiesWavelet.v
theories/Comb.v
theories/CombProofs.v
theories/Search.v
theories/SearchProofs.v
theories/Chirp.v
theories/ChirpProofs.v
theories/FreqScale.v
theories/FreqScaleProofs.v
theories/SearchGmw.v
theories/NumericThms.v
theories/PropertiesNumeric.v
theories/FftCache.v
theories/FftCacheProofs.v
theories/PropertiesFft.v
theories/Integral.v
theories/IntegralProofs.v
theories/GmwOrders.v
theories/LaguerreProofs.v
theories/GmwOrdersProofs.v
theories/GmwThms.v
theories/GmwThms2.v
theories/GmwThms3.v
theories/PropertiesGmw.v
theories/Resol.v
theories/ResolProofs.v
theories/ResolThms.v
theories/ResolThms2.v
theories/PropertiesResol.v
theories/ScaleBounds.v
theories/ScaleBoundsProofs.v
theories/ScaleBoundsThms.v
theories/ScaleBoundsThms2.v
theories/ScaleBoundsThms3.v
theories/PropertiesScaleBounds.v
theories/InferThms.v
theories/PropertiesInfer.v
theories/Experimental.v
theories/ExperimentalThms.v
theories/ExperimentalWitness.v
theories/PropertiesExperimental.v
theories/Signals.v
theories/SignalsThms.v
theories/SignalsThms2.v
theories/SignalsThms3.v
theories/MakeSignals.v
theories/MakeSignalsThms.v
theories/MakeSignalsThms2.v
theories/PropertiesSignals.v
theories/WindowRes.v
theories/WindowResThms.v
theories/WindowResThms2.v
theories/Toolkit.v
theories/ToolkitThms.v
theories/PropertiesToolkit.v
theories/Admiss.v
theories/AdmissThms.v
theories/AdmissThms2.v
theories/AdmissThms3.v
theories/PropertiesAdmiss.v
theories/WaveletInit.v
theories/WaveletInitThms.v
theories/PropertiesInit.v
theories/RidgeCurve.v
theories/ToneThms.v
theories/PhaseDiff.v
theories/ToneWitness.v
theories/NormThms.v
theories/ScaleShort.v
theories/BatchOrder.v
theories/TonePadded.v
theories/PropertiesTone.v
theories/RoundTrip.v
theories/GainBound.v
theories/RoundTripGain.v
theories/PrimProofs.v
theories/GainBound2.v
theories/RoundTripGain2.v
theories/GmwRoundTrip.v
theories/AdmissAcc.v
theories/DefaultRoundTrip.v
theories/SsqRoundTrip.v
theories/RoundTripWitness.v
theories/PropertiesRoundTrip.v
theories/TrigThms.v
theories/PolySignals.v
theories/PolySignalsThms.v
theories/PropertiesPoly.v
theories/Separate.v
theories/OctaveSep.v
theories/ChordSep.v
theories/Reassign.v
theories/ChordSqueeze.v
theories/ChordRecover.v
theories/ChordWitness.v
theories/PropertiesSeparate.v
theories/Validate.v
theories/ValidateThms.v
theories/PropertiesValidate.v
theories/CwtWavelet.v
theories/CwtWaveletThms.v
theories/NanInput.v
theories/NanInputThms.v
theories/PropertiesInputs.v
theories/Transport.v
theories/RateThms.v
theories/RateWitness.v
theories/SymmThms.v
theories/SymmInst.v
theories/SymmWitness.v
theories/PropertiesSymmetry.v
theories/StftTone.v
theories/StftToneThms.v
theories/StftToneWitness.v
theories/PropertiesStftTone.v
theories/CwtEnergy.v
theories/CwtEnergyWitness.v
theories/PropertiesEnergy.v
theories/RidgeBand.v
theories/RidgeBandWitness.v
theories/PropertiesRidgeBand.v
theories/ChordRidge.v
theories/ChordRidgeWitness.v
theories/PropertiesChordRidge.v
theories/ProcScales.v
theories/ProcScalesThms.v
theories/ProcScalesWitness.v
theories/PropertiesProcScales.v
theories/ByName.v
theories/ByNameThms.v
theories/Title.v
theories/TitleThms.v
theories/PropertiesByName.v
theories/RidgeInv.v
theories/RidgePenalty.v
theories/RidgePenaltyWit.v
theories/PropertiesRidgeInv.v
theories/Circular.v
theories/CircThms.v
theories/Icwt2.v
theories/Icwt2Wit.v
theories/PropertiesCircular.v
theories/StftMap.v
theories/StftEnergy.v
theories/StftMap2.v
theories/StftMap3.v
theories/StftMirror.v
theories/StftMapWit.v
theories/StftMapCase.v
theories/PropertiesStftSymm.v
theories/Visuals.v
theories/VisualsThms.v
theories/VisualsAnim.v
theories/VisualsCase.v
theories/PropertiesVisuals.v
theories/StftInverse.v
theories/StftLsq.v
theories/StftLsqCase.v
theories/PropertiesStftInv.v
theories/StftChord.v
theories/StftChordThms.v
theories/PropertiesStftChord.v
theories/StftRidge.v
theories/PropertiesStftRidge.v
theories/CwtDeriv.v
theories/CwtAnalytic.v
theories/PropertiesCwtDeriv.v
theories/CwtResample.v
theories/SsqResample.v
theories/ResampleWitness.v
theories/PropertiesResample.v
theories/SearchFar.v
theories/MorletPeak.v
theories/SearchFar2.v
theories/PropertiesSearchFar.v
theories/SsqStable.v
theories/SsqStableWitness.v
theories/PropertiesSsqStable.v
theories/Tighten1.v
theories/PropertiesTighten1.v
theories/StftStable.v
theories/StftStable2.v
theories/StftStableWitness.v
theories/PropertiesStftStable.v
theories/RidgeMod.v
theories/PropertiesRidgeMod.v
theories/CwtConv.v
theories/CwtImpulse.v
theories/PropertiesCwtConv.v
theories/StftHop.v
theories/StftHopWit.v
theories/PropertiesStftHop.v
theories/IcwtLin.v
theories/IcwtLinThms.v
theories/PropertiesIcwtLin.v
theories/ScalePiece.v
theories/PropertiesScalePiece.v
theories/SsqLinear.v
theories/SsqLinearWit.v
theories/PropertiesSsqLinear.v
theories/WaveTrade.v
theories/PropertiesWaveTrade.v
theories/StftFlip.v
theories/StftFlip2.v
theories/StftFlipWit.v
theories/PropertiesStftFlip.v
theories/RidgeTurn.v
theories/RidgeTurnWit.v
theories/PropertiesRidgeTurn.v
theories/StftFilter.v
theories/StftFilter2.v
theories/StftFilterWit.v
theories/PropertiesStftFilter.v
theories/Tighten2.v
theories/PropertiesTighten2.v
theories/CwtFilter.v
theories/CwtFilterWit.v
theories/PropertiesCwtFilter.v
theories/Threshold.v
theories/ThresholdWit.v
theories/PropertiesThreshold.v
theories/NoiseRidge.v
theories/NoiseRidgeWit.v
theories/PropertiesNoiseRidge.v
theories/Tighten3.v
theories/PropertiesTighten3.v
theories/NoiseSsq.v
theories/NoiseSsqWit.v
theories/PropertiesNoiseSsq.v
theories/Tighten4.v
theories/PropertiesTighten4.v
theories/Preserve.v
theories/PreserveThms.v
theories/PreserveThms2.v
theories/PreserveWit.v
theories/PropertiesPreserve.v
theories/Tighten5.v
theories/PropertiesTighten5.v
theories/NoiseComp.v
theories/NoiseComp2.v
theories/NoiseCompWit.v
theories/PropertiesNoiseComp.v
theories/Tighten6.v
theories/PropertiesTighten6.v
theories/Tighten7.v
theories/PropertiesTighten7.v
theories/Offset.v
theories/OffsetWit.v
theories/OffsetSsq.v
theories/OffsetSsqWit.v
theories/PropertiesOffset.v
theories/Tighten8.v
theories/PropertiesTighten8.v
theories/OffsetCwt.v
theories/OffsetCwtWit.v
theories/PropertiesOffsetCwt.v
theories/Tighten9.v
theories/PropertiesTighten9.v
theories/Click.v
theories/ClickWit.v
theories/PropertiesClick.v
theories/CwtNoise.v
theories/CwtNoiseSsq.v
theories/CwtNoiseWit.v
theories/PropertiesCwtNoise.v
theories/CwtNoiseInv.v
theories/CwtNoiseInv2.v
theories/ChordNoise.v
theories/ChordNoiseInv.v
theories/ChordNoiseWit.v
theories/PropertiesChordNoise.v
theories/Tones.v
theories/TonesWit.v
theories/PropertiesTones.v
theories/GmwErrors.v
theories/PropertiesGmwErrors.v
theories/Tighten10.v
theories/PropertiesTighten10.v
theories/JumpsExact.v
theories/PropertiesJumpsExact.v
theories/PackedNegative.v
theories/PropertiesPackedNegative.v
