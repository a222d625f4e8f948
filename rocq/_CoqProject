-Q theories Verif

theories/Iter.v
theories/IterProofs.v
theories/Prop_Iter.v
theories/PairSelector.v
theories/PairSelectorProofs.v
theories/Prop_PairSelector.v
theories/Wav.v
theories/WavProofs.v
theories/Prop_Wav.v
theories/RStruct.v
theories/MxC.v
theories/CxR.v
theories/NpLin.v
theories/RealLemmas.v
theories/SpatialIP.v
theories/SpatialIPProofs.v
theories/Prop_IP1.v
theories/SpatialISS.v
theories/SpatialISSProofs.v
theories/Prop_ISS1.v
theories/Spectral.v
theories/Eigh.v
theories/EighProofs.v
theories/Prop_Linalg.v
theories/SpatialIP2.v
theories/SpatialIP2Proofs.v
theories/Prop_IP2.v
theories/SpatialISS2.v
theories/SpatialISS2Proofs.v
theories/Prop_ISS2.v
theories/Special.v
theories/SpecialProofs.v
theories/Prop_Special.v
theories/Cubic.v
theories/CubicProofs.v
theories/Prop_Cubic.v
theories/Lqpqm.v
theories/LqpqmProofs.v
theories/Prop_Lqpqm.v
theories/Scale.v
theories/ScaleProofs.v
theories/Prop_Scale.v
theories/Prox.v
theories/ProxProofs.v
theories/Prop_Prox.v
theories/SuperGauss.v
theories/AuxIVA.v
theories/AuxIVAProofs.v
theories/Prop_AuxIVA.v
theories/Prop_AuxIVAFloor.v
theories/NmfReal.v
theories/NmfMM.v
theories/Ilrma.v
theories/IlrmaReal.v
theories/IlrmaProofs.v
theories/Prop_Ilrma.v
theories/Prop_IlrmaIter.v
theories/Prop_IlrmaRef.v
theories/TraceMM.v
theories/Mnmf.v
theories/MnmfMM.v
theories/MnmfGauss.v
theories/MnmfFast.v
theories/Prop_Mnmf.v
theories/Prop_MnmfFast.v
theories/Prop_MnmfGauss.v
theories/PermAlign.v
theories/PermAlignProofs.v
theories/Prop_PermAlign.v
theories/Prop_PermScore.v
theories/SvdExist.v
theories/Gradient.v
theories/Prop_Gradient.v
theories/Prop_Fast.v
theories/Cacgmm.v
theories/CacgmmProofs.v
theories/Prop_Cacgmm.v
theories/Prop_CacgmmEM.v
theories/ProxBss.v
theories/ProxBssProofs.v
theories/Prop_ProxBss.v
theories/ProxCtor.v
theories/Prop_ProxCtor.v
theories/Blocks.v
theories/Prop_Blocks.v
theories/Vcd.v
theories/VcdProofs.v
theories/Prop_Vcd.v
theories/Ipsdta.v
theories/IpsdtaProofs.v
theories/Prop_Ipsdta.v
theories/Objects.v
theories/ObjectsProofs.v
theories/Prop_Objects.v
theories/Options.v
theories/Prop_Options.v
theories/Prop_PermLocal.v
theories/Lqpqm2.v
theories/Lqpqm2Proofs.v
theories/Prop_Lqpqm2.v
theories/Prop_PsdInv.v
theories/Ipa.v
theories/IpaProofs.v
theories/IpaProofs2.v
theories/IpaProofs3.v
theories/IpaProofs4.v
theories/Prop_Ipa.v
theories/Prop_IpaRun.v
theories/Prop_IpaCases.v
theories/AuxIVARun.v
theories/Prop_AuxIVARun.v
theories/Hva.v
theories/HvaProofs.v
theories/Prop_Hva.v
theories/SpectralNorm.v
theories/Prop_SpectralNorm.v
theories/AuxFDICA.v
theories/Prop_AuxFDICA.v
theories/GradLoss.v
theories/GradLossProofs.v
theories/Prop_GradLoss.v
theories/AuxIVACall.v
theories/Prop_AuxGain.v
theories/IlrmaRun.v
theories/Prop_Frames.v
theories/Prop_FramesIlrma.v
theories/Prop_Bins.v
theories/Prop_Rank.v
theories/Prop_IlrmaGauge.v
theories/Prop_IlrmaMono.v
theories/MnmfRun.v
theories/Prop_MnmfRun.v
theories/Prop_IlrmaLatent.v
theories/Prop_MnmfGauge.v
theories/GaussRun.v
theories/Prop_GaussRun.v
theories/Prop_GaussGauge.v
theories/Prop_CacgmmGauge.v
theories/Prop_CacgmmFree.v
theories/Prop_MnmfOrder.v
theories/Prop_IlrmaOrder.v
theories/GradRun.v
theories/Prop_GradRun.v
theories/FastRun.v
theories/Prop_FastRun.v
theories/ProxRun.v
theories/Prop_ProxRun.v
theories/IcaRun.v
theories/Prop_IcaRun.v
theories/IpsdtaRun.v
theories/Prop_IpsdtaRun.v
