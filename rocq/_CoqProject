-Q theories Verif

theories/Base.v
theories/Num.v
theories/NpList.v
theories/ModelCore.v
theories/ModelDev.v
theories/NumR.v
theories/NumF.v
theories/ListFacts.v
theories/Spec.v
theories/RSum.v
theories/TauProofs.v
theories/DevProofs.v
theories/TotProofs.v
theories/GenericProofs.v
theories/Closed.v
theories/Laws.v
theories/Laws2.v
theories/Laws3.v
theories/ConvProofs.v
theories/TauLaws.v
theories/PropsTau.v
theories/Laws4.v
theories/PropsConv.v
theories/PropsDev.v
theories/PropsLaws.v
theories/ModelMisc.v
theories/MiscProofs.v
theories/PropsMisc.v
theories/NumX.v
theories/ModelCi.v
theories/GradProofs.v
theories/PropsGrad.v
theories/ModelCiR.v
theories/CiProofs.v
theories/PropsCi.v
theories/GreenProofs.v
theories/PropsGreen.v
theories/ModelRt.v
theories/RtProofs.v
theories/PropsRt.v
theories/ModelMask.v
theories/PropsMask.v
theories/ModelData.v
theories/PropsData.v
theories/ModelNoise.v
theories/PropsNoise.v
theories/Dft.v
theories/ModelNoiseR.v
theories/ModelWelch.v
theories/NoiseProofs.v
theories/PropsKasdin.v
theories/PropsPredict.v
theories/PropsSpectral.v
theories/PropsPsd.v
theories/ModelPsd.v
theories/PropsPsdAdev.v
theories/PropsPsdInv.v
theories/PropsExpect.v
theories/PropsAllanInt.v
theories/FloatFacts.v
theories/PropsFloatTau.v
theories/FloatErr.v
theories/PropsFloatErr.v
theories/PropsMtie.v
theories/PropsFloatMtie.v
theories/PropsFloatMdev.v
theories/PropsEdf.v
theories/PropsBias.v
theories/PropsConsist.v
theories/PropsGaps.v
theories/NanProofs.v
theories/PropsNan.v
theories/SimProofs.v
theories/SignProofs.v
theories/ScaleProofs.v
theories/PropsSign.v
theories/SemiProofs.v
theories/SemiBound.v
theories/PropsSemi.v
theories/ModelPlot.v
theories/PropsPlot.v
theories/TkProofs.v
theories/PropsTk.v
theories/GreenTab.v
theories/GreenPoly.v
theories/PropsGreenTab.v
theories/GreenOdd.v
theories/PropsGreenOdd.v
theories/ColorProofs.v
theories/PropsColor.v
theories/PropsEdfFm.v
theories/EdfResample.v
theories/PropsEdfFm2.v
theories/PropsWelch.v
theories/NoiseIdProofs.v
theories/NoiseIdProb.v
theories/NoiseIdMain.v
theories/PropsNoiseId.v
theories/PropsNoiseCi.v
theories/FreqBound.v
theories/PropsFreq.v
theories/PropsFloatFreq.v
theories/PropsGapNoise.v
theories/PropsHatNoise.v
theories/PropsFloatMore.v
theories/PropsFloatTot.v
theories/PropsFloatRt.v
theories/PropsPink.v
theories/PropsNanRt.v
theories/PropsSignal.v
theories/FlickerProofs.v
theories/PropsFlicker.v
theories/PropsFlickerP.v
theories/SpecialProofs.v
theories/InfProofs.v
theories/PropsInf.v
theories/PropsDecim.v
theories/PropsSlope.v
theories/SincProofs.v
theories/PropsPsdLim.v
theories/UnitProofs.v
theories/PropsUnit.v
theories/PropsFloatCov.v
theories/PropsFloatHat.v
theories/PropsFloatGrad.v
theories/PropsGlitch.v
theories/PropsB1.v
theories/PropsFloatPink.v
theories/PropsInfRt.v
theories/PropsJoin.v
theories/ModelInt.v
theories/ModelInt32.v
theories/PropsInt.v
theories/PropsInt2.v
theories/PropsInt32.v
theories/Validation.v
