-Q theories Verif
theories/S_Fp.v
theories/M_Utils64.v
theories/M_Consts.v
theories/M_Fp.v
theories/L_Words.v
theories/L_Bits.v
theories/L_Lzcnt.v
theories/L_Fp.v
theories/L_FpOps.v
theories/L_FpSmall.v
theories/L_FpCodec.v
theories/P_Utils64.v
theories/P_Fp.v
theories/L_Prime.v
theories/L_Fermat.v
theories/S_Params.v
theories/L_Params.v
theories/L_FpRoots.v
theories/P_Params.v
theories/P_FpRoots.v
theories/L_BinGcd.v
theories/L_DivWords.v
theories/L_FpDiv.v
theories/P_FpDiv.v
theories/L_Jacobi.v
theories/L_Legendre.v
theories/P_FpLegendre.v
theories/M_Fp2.v
theories/S_Fp2.v
theories/L_Zp.v
theories/L_Zp2.v
theories/L_Fp2.v
theories/L_Fp2Roots.v
theories/L_Fp2Misc.v
theories/P_Fp2.v
theories/M_Dlog.v
theories/S_Dlog.v
theories/L_Ints.v
theories/L_Dlog.v
theories/P_Dlog.v
theories/M_Field.v
theories/S_Curve.v
theories/L_Group.v
theories/L_Kummer.v
theories/M_Curve.v
theories/L_Field.v
theories/L_QNum.v
theories/L_Curve.v
theories/P_Curve.v
theories/L_Weil.v
theories/L_Weil2.v
theories/L_PairEx.v
theories/M_Pairing.v
theories/M_Isogeny.v
theories/L_Toy.v
theories/P_Isogeny.v
theories/M_Theta.v
theories/M_Super2.v
theories/M_Festa.v
theories/L_Chi.v
theories/L_Poly.v
theories/L_Velu.v
theories/L_Isog.v
theories/L_Descent.v
theories/L_Entangled.v
theories/L_Festa.v
theories/P_Festa.v
theories/P_Velu.v
theories/P_Entangled.v
theories/S_Theta.v
theories/L_Theta.v
theories/M_Super.v
theories/L_Super.v
theories/L_Weil3.v
theories/L_Pairing.v
theories/P_Super.v
theories/P_Pairing.v
theories/P_PairEx.v
theories/P_Theta.v
theories/S_Strategy.v
theories/L_Strategy.v
theories/P_Strategy.v
theories/L_Count.v
theories/L_FinGrp.v
theories/L_E0.v
theories/P_E0.v
theories/L_Five.v
theories/P_Basis.v
theories/L_Three.v
theories/P_Scalar.v
theories/P_ScalarEx.v
theories/P_Trapdoor.v
theories/L_Ex5.v
theories/P_Bidlp.v
theories/P_BidlpEx.v
theories/P_Recover.v
theories/L_Iso.v
theories/P_Iso.v
theories/L_WeilTwo.v
theories/L_WeilDet.v
theories/P_WeilDet.v
theories/P_Keygen.v
theories/M_Main.v
theories/P_Main.v
theories/M_Display.v
theories/P_Display.v
theories/L_Gluing.v
theories/P_Gluing.v
theories/P_GluingEx.v
theories/S_KummerSurf.v
theories/L_KummerSurf.v
theories/L_KummerFun.v
theories/L_ThetaStep.v
theories/L_ThetaProd.v
theories/P_KummerSurf.v
theories/L_ToyField.v
theories/P_KummerEx.v
theories/L_ThetaEnd.v
theories/L_ThetaSplit.v
theories/L_ThetaEndEx.v
theories/P_ThetaEnd.v
theories/P_ThetaEndEx.v
theories/P_BasisConsts.v
theories/P_Uniform.v
theories/P_UniformPoint.v
theories/P_UniformMsg.v
theories/P_Stored.v
theories/P_UniformTors.v
