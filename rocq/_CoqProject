-Q theories Verif
theories/Py.v
theories/PyFacts.v
theories/Num.v
theories/MCoefs.v
theories/SpecCoefs.v
theories/CoefsFacts.v
theories/CoefsFacts2.v
theories/Obs.v
theories/CoefsFacts3.v
theories/Exact.v
theories/P_Coefs.v
theories/MPatt.v
theories/SpecPatt.v
theories/PattFacts.v
theories/FloatN.v
theories/P_Patt.v
theories/Sums.v
theories/Harm.v
theories/MPysphi.v
theories/MOps.v
theories/Smooth.v
theories/Dft.v
theories/PysphiFacts.v
theories/TransFacts.v
theories/MTrans.v
theories/TransFacts2.v
theories/TransFacts3.v
theories/SpecHarm.v
theories/HarmFacts.v
theories/TransFacts4.v
theories/VHarm.v
theories/P_Trans.v
theories/P_Trans2.v
theories/P_Lin.v
theories/SpecOps.v
theories/P_Ops.v
theories/P_Harm.v
theories/MKiss.v
theories/KissFacts.v
theories/KissFacts2.v
theories/SpecDft.v
theories/P_Kiss.v
theories/MCsphi.v
theories/CsphiFacts.v
theories/P_Csphi.v
theories/MText.v
theories/TextFacts.v
theories/FloatText.v
theories/MFile.v
theories/SpecFile.v
theories/FileFacts.v
theories/FileFacts2.v
theories/P_File.v
theories/SpecBessel.v
theories/MSbessel.v
theories/Bessel.v
theories/Bessel2.v
theories/SbesselFacts.v
theories/SbesselFacts2.v
theories/P_Sbessel.v
theories/MHeap.v
theories/SpecHeap.v
theories/HeapFacts.v
theories/HeapFacts2.v
theories/HeapFacts3.v
theories/HeapRef.v
theories/HeapRef2.v
theories/HeapRef3.v
theories/HeapRef4.v
theories/HeapRef5.v
theories/HeapRef6.v
theories/HeapRef7.v
theories/HeapRef8.v
theories/HeapRef9.v
theories/P_Heap.v
theories/SpecInt.v
theories/Integ.v
theories/Integ2.v
theories/P_Integral.v
theories/P_Both.v
theories/Symm.v
theories/P_Sym.v
theories/MVerify.v
theories/P_Verify.v
theories/P_VerifyFile.v
theories/MPlot.v
theories/P_Plot.v
theories/VInteg.v
theories/P_VInteg.v
theories/P_VSym.v
theories/MPrint.v
theories/P_Print.v
theories/MCint.v
theories/CintFacts.v
theories/CintFacts2.v
theories/CintFacts3.v
theories/CintFacts4.v
theories/CintFacts5.v
theories/P_Cint.v
theories/MDtype.v
theories/DtypeFacts.v
theories/P_Dtype.v
theories/MDouble.v
theories/FlFacts.v
theories/SeedReal.v
theories/SeedFl.v
theories/SeedFl2.v
theories/DoubleFacts.v
theories/TableEq.v
theories/P_Double.v
theories/FlSigned.v
theories/MSbesselF.v
theories/SbesselFTerm.v
theories/SbesselFNan.v
theories/SbesselFRel.v
theories/SbesselFLoop.v
theories/SbesselFAcc.v
theories/SbesselFMain.v
theories/SbesselFY.v
theories/SbesselFFun.v
theories/P_SbesselF.v
theories/TabPert.v
theories/Unsold.v
theories/TabFl.v
theories/P_Table.v
theories/P_Bound.v
theories/SumFl.v
theories/SumFl2.v
theories/SumFl3.v
theories/SumFl4.v
theories/P_Sums.v
theories/BesselSum.v
theories/P_SumRule.v
theories/MKissF.v
theories/KissFl.v
theories/KissFl2.v
theories/KissFl3.v
theories/KissFl4.v
theories/P_KissF.v
theories/KissFl5.v
theories/KissFl6.v
theories/MCsphiF.v
theories/HkmF.v
theories/HkmF2.v
theories/HkmF3.v
theories/P_CsphiF.v
theories/MTransF.v
theories/TransF.v
theories/P_TransF.v
theories/TransF2.v
theories/P_TransF2.v
theories/MTransP.v
theories/TransP.v
theories/P_TransP.v
theories/MHkmP.v
theories/HkmP.v
theories/P_HkmP.v
theories/P_HkmP2.v
theories/MIpow.v
theories/P_Ipow.v
theories/MOpsF.v
theories/OpsF.v
theories/P_OpsF.v
theories/MVecF.v
theories/P_VecF.v
theories/MVTransF.v
theories/VTransF.v
theories/P_VTransF.v
