-Q theories Verif
theories/Base.v
theories/RingDef.v
theories/RingQc.v
theories/M_Float.v
theories/P_F64.v
theories/Ex_Float.v
theories/M_Algebra.v
theories/M_Storage.v
theories/M_Multivector.v
theories/P_Signs.v
theories/P_Grade.v
theories/P_Storage.v
theories/P_Product.v
theories/P_MV.v
theories/Spec.v
theories/P_Algebra.v
theories/P_Spec.v
theories/P_Laws.v
theories/P_Inv.v
theories/P_Halving.v
theories/P_Wedge.v
theories/M_CliFFT.v
theories/P_Abel.v
theories/P_FFT.v
theories/P_FFT2.v
theories/P_Mat.v
theories/P_CliFFT.v
theories/P_Props1.v
theories/P_Props2.v
theories/P_Total.v
theories/Spec_Prog.v
theories/Spec_Float.v
theories/P_Prog.v
theories/P_Agree.v
theories/Spec_Prod.v
theories/P_Props3.v
theories/P_Props4.v
theories/P_Versor.v
theories/P_Props5.v
theories/Spec_FFT.v
theories/P_Cplx.v
theories/P_Transform.v
theories/M_FFTRepr.v
theories/P_Null.v
theories/P_Derived.v
theories/P_Props8.v
theories/P_Props6.v
theories/M_Nested.v
theories/M_Exp.v
theories/P_Props7.v
theories/Ex.v
theories/Props_Algebra.v
theories/Props_Storage.v
theories/Props_Product.v
theories/Props_Nested.v
theories/Ex_FFT.v
theories/Props_FFT.v
theories/Props_Complex.v
theories/P_FFTRepr.v
theories/P_FFTRepr2.v
theories/Spec_Repr.v
theories/Spec_Exp.v
theories/P_Props9.v
theories/P_ReprRing.v
theories/P_Props10.v
theories/P_Gauss.v
theories/P_Gauss2.v
theories/P_Props11.v
theories/P_Props12.v
theories/P_HalfSpin.v
theories/P_RealFFT.v
theories/P_Exp.v
theories/P_ExpSym.v
theories/Props_Split.v
theories/Ex_Exp.v
theories/Props_Exp.v
theories/M_PGA.v
theories/Spec_PGA.v
theories/P_PGA.v
theories/Ex_PGA.v
theories/Props_PGA.v
theories/M_Fmt.v
theories/Spec_Fmt.v
theories/P_Fmt.v
theories/P_Float.v
theories/Ex_Fmt.v
theories/Props_Fmt.v
theories/Spec_TProg.v
theories/P_TProg.v
theories/Props_Inverse.v
theories/P_FScal.v
theories/Props_FFTRepr.v
theories/Props_Float.v
theories/Props_TProg.v
theories/P_FTotal.v
theories/Ex_FTotal.v
theories/Props_FTotal.v
theories/Spec_Round.v
theories/P_Round.v
theories/P_Round2.v
theories/P_Round3.v
theories/P_RWedge.v
theories/Spec_RProg.v
theories/P_Round4.v
theories/Ex_Round.v
theories/Props_Round.v
theories/Spec_FRound.v
theories/P_Round5.v
theories/P_Round6.v
theories/P_Round7.v
theories/Ex_FRound.v
theories/Props_FRound.v
theories/Spec_FastProd.v
theories/P_Round8.v
theories/P_Round9.v
theories/P_Round10.v
theories/P_Round11.v
theories/Ex_FastProd.v
theories/Props_FastProd.v
theories/M_Conv32.v
theories/Spec_Conv32.v
theories/P_Conv32.v
theories/P_Conv32b.v
theories/P_Conv32c.v
theories/Ex_Conv32.v
theories/Props_Conv32.v
theories/Spec_ExpLim.v
theories/P_ExpLim.v
theories/P_ExpLim2.v
theories/P_ExpLim3.v
theories/P_ExpLim4.v
theories/Ex_ExpLim.v
theories/Props_ExpLim.v
theories/P_ExpLim5.v
theories/Props_ExpLimFFT.v
theories/P_ExpLim6.v
theories/P_ExpLim7.v
theories/Props_ExpLimAdd.v
theories/Spec_Range.v
theories/P_Range.v
theories/P_Range2.v
theories/P_Range3.v
theories/P_Range4.v
theories/Ex_Range.v
theories/Props_Range.v
theories/P_SubRnd.v
theories/Props_SubRnd.v
theories/P_CplxDiv.v
theories/Props_CplxDiv.v
theories/Spec_ExpRnd.v
theories/P_ExpRnd.v
theories/P_ExpRnd2.v
theories/Ex_ExpRnd.v
theories/Props_ExpRnd.v
theories/M_NDiv.v
theories/P_NDiv.v
theories/Ex_NDiv.v
theories/Props_NDiv.v
theories/P_Gauss3.v
theories/P_Gauss4.v
theories/Props_Dominant.v
theories/P_Sandwich.v
theories/Spec_Sandwich.v
theories/P_Sandwich2.v
theories/P_Sandwich3.v
theories/P_Sandwich4.v
theories/P_Sandwich5.v
theories/Ex_Sandwich.v
theories/Props_Sandwich.v
theories/P_GradeProd.v
theories/Props_GradeProd.v
theories/Spec_Motion.v
theories/P_Motion.v
theories/P_Motion2.v
theories/Ex_Motion.v
theories/Props_Motion.v
theories/P_Joins.v
theories/Spec_Joins.v
theories/P_Joins2.v
theories/Ex_Joins.v
theories/Props_Joins.v
theories/P_Indep.v
theories/Spec_Indep.v
theories/P_Indep2.v
theories/Ex_Indep.v
theories/Props_Indep.v
theories/Spec_Hodge.v
theories/P_Hodge.v
theories/Props_Hodge.v
theories/Spec_Rotor.v
theories/P_Rotor.v
theories/P_Rotor2.v
theories/Ex_Rotor.v
theories/Props_Rotor.v
theories/Spec_Det.v
theories/P_Det.v
theories/P_Gram.v
theories/P_Det2.v
theories/Props_Det.v
theories/Spec_Frames.v
theories/P_Frames.v
theories/P_Centre.v
theories/P_Frames2.v
theories/Ex_Frames.v
theories/Props_Frames.v
theories/Spec_IntProg.v
theories/P_IntFlt.v
theories/P_IntProg.v
theories/P_IntProg2.v
theories/P_IntProg3.v
theories/Ex_IntProg.v
theories/Props_IntProg.v
theories/Spec_IntFft.v
theories/P_IntFft.v
theories/P_IntFft2.v
theories/P_IntFft3.v
theories/P_IntFft4.v
theories/P_IntFft5.v
theories/Spec_IntTran.v
theories/P_IntFft6.v
theories/Ex_IntFft.v
theories/Props_IntFft.v
