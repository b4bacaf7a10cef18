-Q theories Verif
theories/Base.v
theories/Num.v
theories/MachInt.v
theories/M_Stats.v
theories/M_Special.v
theories/S_Special.v
theories/P_MachInt.v
theories/P_Factorial.v
theories/P_Comb.v
theories/P_SpecialT.v
theories/T_Special.v
theories/ListUtil.v
theories/S_Stats.v
theories/P_Median.v
theories/P_Stats.v
theories/P_Stats2.v
theories/P_MeanInt.v
theories/T_Stats.v
theories/M_Linalg.v
theories/M_Filter.v
theories/S_Filter.v
theories/S_Linalg.v
theories/RSum.v
theories/P_Linalg.v
theories/P_Sosfilt.v
theories/P_Transfer.v
theories/P_Zi.v
theories/P_Ext.v
theories/P_Filtfilt.v
theories/T_Filter.v
theories/Trans.v
theories/M_Bessel.v
theories/S_Bessel.v
theories/P_Bessel.v
theories/T_Bessel.v
theories/P_ZPoly.v
theories/P_BesselI0.v
theories/P_BesselNum.v
theories/P_BesselBig.v
theories/T_BesselI0.v
theories/M_Savgol.v
theories/S_Savgol.v
theories/P_Savgol.v
theories/T_Savgol.v
theories/M_Complex.v
theories/P_Sqrt.v
theories/M_Fourier.v
theories/M_Wave.v
theories/Cx.v
theories/S_Fourier.v
theories/P_Fourier.v
theories/P_Resample.v
theories/P_Wave.v
theories/T_Fourier.v
theories/M_Design.v
theories/S_Design.v
theories/P_Poly.v
theories/P_Lp.v
theories/P_Sort.v
theories/P_CPoly.v
theories/P_Proto.v
theories/P_Cheb.v
theories/P_Iir.v
theories/T_Design.v
theories/P_Iir2.v
theories/P_Cheb2.v
theories/T_Iir.v
theories/P_Sos.v
theories/P_Sos2.v
theories/T_Sos.v
theories/S_Pairing.v
theories/P_Pairing.v
theories/T_Pairing.v
theories/T_Cheb2.v
theories/S_Stable.v
theories/P_Stable.v
theories/T_Stable.v
theories/P_ZeroPhase.v
theories/T_ZeroPhase.v
theories/S_Margin.v
theories/P_Margin.v
theories/T_Margin.v
theories/P_Apx.v
theories/S_FloatFft.v
theories/P_FloatFft.v
theories/P_FloatRes.v
theories/T_FloatFft.v
theories/S_FloatStats.v
theories/P_FloatStats2.v
theories/P_FloatMad.v
theories/T_FloatStats2.v
theories/T_FloatSavgol.v
theories/T_Shape.v
theories/T_ZeroPhaseDesign.v
theories/T_Cheb2b.v
theories/S_Float.v
theories/P_Float.v
theories/P_FloatStats.v
theories/P_FloatMed.v
theories/T_Float.v
theories/P_FloatBessel.v
theories/P_FloatI0.v
theories/T_FloatBessel.v
theories/P_FloatFilt.v
theories/T_FloatFilt.v
theories/P_FloatZi.v
theories/T_FloatFiltfilt.v
theories/S_FloatZpk.v
theories/P_FloatPoly.v
theories/T_FloatPoly.v
theories/S_Resample.v
theories/T_Resample.v
theories/T_StatsRel.v
theories/T_Convolve.v
theories/S_CplxReal.v
theories/T_CplxReal.v
theories/S_FloatTrans.v
theories/P_FloatDesign.v
theories/T_FloatDesign.v
theories/S_FloatResponse.v
theories/P_FloatResponse.v
theories/T_FloatResponse.v
theories/S_SavgolFit.v
theories/T_SavgolFit.v
theories/T_Complement.v
theories/P_FloatSqrt.v
theories/P_FloatBand.v
theories/P_FloatBandStage.v
theories/S_FloatBand.v
theories/T_FloatBand.v
theories/T_FloatBandResponse.v
theories/S_FloatSos.v
theories/P_FloatSym.v
theories/P_FloatMate.v
theories/P_SosGen.v
theories/P_FloatCplx.v
theories/P_FloatGood.v
theories/P_FloatSos.v
theories/P_FloatPipe.v
theories/P_Unique.v
theories/T_Unique.v
theories/P_FloatSosCore.v
theories/P_FloatSosDesign.v
theories/T_FloatSos.v
theories/P_Pi.v
theories/P_FloatWave.v
theories/T_FloatWave.v
theories/P_FloatCsqrt.v
theories/P_FloatBandMate.v
theories/P_FloatBandSos.v
theories/T_FloatBandSos.v
theories/P_FloatFiltNear.v
theories/P_FiltfiltSame.v
theories/P_FloatFiltDesign.v
theories/T_FloatFiltDesign.v
theories/P_LpExact.v
theories/T_LpExact.v
theories/T_Cheb2High.v
theories/T_ExactInt.v
theories/T_Exactly.v
theories/S_Tone.v
theories/P_Tone.v
theories/T_FloatTone.v
theories/P_FloatCheb2.v
theories/T_FloatCheb2.v
theories/S_ToneZero.v
theories/P_ToneZero.v
theories/T_FloatToneZero.v
theories/S_AnalogSos.v
theories/P_AnalogSos.v
theories/T_AnalogSos.v
theories/S_Margin2.v
theories/T_Margin2.v
theories/P_FloatAxis.v
theories/P_FloatCheb2Band.v
theories/S_FloatCheb2Band.v
theories/T_FloatCheb2Band.v
theories/T_FloatCheb2Zero.v
theories/S_Mix.v
theories/P_Mix.v
theories/T_FloatMix.v
theories/S_Energy.v
theories/P_Energy.v
theories/T_Energy.v
theories/S_FloatEnergy.v
theories/P_FloatEnergy.v
theories/T_FloatEnergy.v
theories/S_NonFinite.v
theories/P_NonFinite.v
theories/T_NonFinite.v
theories/S_Peak.v
theories/P_Peak.v
theories/T_Peak.v
theories/S_ZeroKernel.v
theories/P_ZeroKernel.v
theories/T_ZeroKernel.v
theories/S_AnalogCheb2.v
theories/P_AnalogCheb2.v
theories/T_AnalogCheb2.v
theories/S_Fade.v
theories/P_Fade.v
theories/T_Fade.v
theories/S_Mirror.v
theories/P_Mirror.v
theories/T_Mirror.v
theories/S_Order.v
theories/P_Order.v
theories/T_Order.v
theories/T_SavgolSym.v
theories/T_Resample2.v
theories/S_Units.v
theories/P_Units.v
theories/P_Units2.v
theories/T_Units.v
theories/T_Units2.v
theories/S_Whole.v
theories/P_Whole.v
theories/T_Whole.v
theories/T_Ratio.v
theories/T_Nearest.v
theories/S_ResampleSym.v
theories/T_ResampleSym.v
theories/S_Delay.v
theories/T_Delay.v
theories/T_Delay2.v
theories/S_Ztrans.v
theories/T_Ztrans.v
theories/S_SavgolConv.v
theories/T_SavgolConv.v
theories/T_Cascade2.v
theories/T_StatsJoin.v
theories/T_Combin.v
theories/T_StatsConv.v
theories/T_SosTf.v
theories/T_MadStdev.v
theories/T_BaRun.v
theories/T_ConvBounds.v
theories/T_SavgolAverage.v
theories/T_Binomial.v
