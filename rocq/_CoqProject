-Q theories Verif
theories/Base.v
theories/Sums.v
theories/Stats.v
theories/StatsFacts.v
theories/M_Filter.v
theories/M_IIR.v
theories/S_Filter.v
theories/S_Conv.v
theories/P_Filter.v
theories/P_Filter2.v
theories/P_Filter3.v
theories/P_Conv.v
theories/T_Filter.v
theories/T_IIR.v
theories/M_DFT.v
theories/S_Jac.v
theories/S_DFT.v
theories/P_Jac.v
theories/P_Trig.v
theories/P_DFT.v
theories/P_iDFT.v
theories/P_Deriv.v
theories/P_AmpPhase.v
theories/P_APTime.v
theories/P_Deconv.v
theories/P_T2AP.v
theories/T_DFT.v
theories/T_AmpPhase.v
theories/M_Tools.v
theories/S_Tools.v
theories/P_Tools.v
theories/T_Tools.v
theories/M_Interp.v
theories/S_Interp.v
theories/P_Interp.v
theories/P_Interp2.v
theories/T_Interp.v
theories/M_MC.v
theories/S_MC.v
theories/S_MC2.v
theories/P_MC.v
theories/P_MC2.v
theories/P_MC3.v
theories/P_MC4.v
theories/T_MC.v
theories/T_MC2.v
theories/T_MC3.v
theories/Cplx.v
theories/M_Noise.v
theories/S_Noise.v
theories/P_Noise.v
theories/T_Noise.v
theories/P_Signals.v
theories/T_Signals.v
theories/T_Signals2.v
theories/M_FilterStuff.v
theories/S_Poly.v
theories/P_Poly.v
theories/P_FStuff.v
theories/P_FStuff2.v
theories/T_FilterStuff.v
theories/M_Fit.v
theories/M_More.v
theories/S_Fit.v
theories/P_LinAlg.v
theories/P_Fit.v
theories/P_Fit2.v
theories/T_Fit.v
theories/P_FitIIR.v
theories/T_FitIIR.v
theories/S_Som.v
theories/P_Som.v
theories/T_Som.v
theories/M_SigClass.v
theories/T_SigClass.v
theories/T_Fit2.v
theories/T_More.v
theories/M_Typed.v
theories/P_Typed.v
theories/T_Typed.v
theories/T_MCcov.v
theories/T_MCone.v
theories/M_Seq.v
theories/T_Seq.v
theories/S_Order.v
theories/T_Filter2.v
theories/T_Order.v
theories/T_Interp2.v
theories/S_Rand.v
theories/P_Rand.v
theories/T_APRound.v
theories/T_MC4.v
theories/T_Units.v
theories/T_Unbiased.v
theories/T_Agree.v
theories/M_Psd.v
theories/T_Parseval.v
theories/T_Inv.v
theories/T_Assoc.v
theories/T_Lines.v
theories/T_FitArgs.v
theories/M_Mem.v
theories/T_Mem.v
theories/T_ConvThm.v
theories/T_Pipeline.v
theories/T_Delay.v
theories/T_Stationary.v
theories/T_Sos.v
theories/T_Reject.v
theories/T_GrpDelay.v
theories/T_Twice.v
theories/T_SomGain.v
theories/T_FitGain.v
theories/T_FitTol.v
theories/T_Backwards.v
theories/T_Superpose.v
theories/T_Affine.v
theories/T_SgTurn.v
theories/T_TwoFilters.v
theories/T_Harmonic.v
theories/T_ConvTurn.v
theories/T_DFTForms.v
theories/T_Product.v
theories/T_InterpSum.v
theories/T_Axis.v
theories/T_Arma.v
theories/T_Synth.v
theories/T_Equi.v
theories/T_Stable.v
theories/T_FreqList.v
theories/T_Sizes.v
theories/T_GainPhase.v
theories/T_RealLines.v
theories/T_SosStable.v
theories/P_ImpRes.v
theories/T_ImpSimple.v
theories/T_FirShift.v
theories/T_Corr.v
theories/T_Static.v
theories/T_SgEnds.v
theories/T_ConvLin.v
theories/T_SpdLaws.v
theories/T_SomSign.v
theories/T_SomCov.v
theories/T_Parts.v
theories/T_APOrder.v
theories/T_T2APOrder.v
theories/T_APDelay.v
theories/T_APMirror.v
theories/T_T2APSign.v
theories/T_iDFTDelay.v
theories/T_Conj.v
theories/T_iDFTMirror.v
theories/T_ConjAP.v
