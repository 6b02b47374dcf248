-Q theories Verif
theories/M_Base.v
theories/M_Traits.v
theories/M_PrimeTable.v
theories/M_Util.v
theories/S_Int.v
theories/P_Traits.v
theories/P_TraitsB.v
theories/P_Util.v
theories/T_Int.v
theories/M_ModInt.v
theories/S_ModInt.v
theories/P_ModInt.v
theories/M_PseudoPrime.v
theories/P_PseudoPrime.v
theories/P_PrimePowerB.v
theories/T_PseudoPrime.v
theories/M_Interval.v
theories/S_Interval.v
theories/P_Interval.v
theories/P_IntervalTight.v
theories/P_IntervalPow.v
theories/P_IntervalDiv.v
theories/S_PowPrec.v
theories/P_PowPrec.v
theories/T_PowPrec.v
theories/P_IntervalOdd.v
theories/T_IntervalOdd.v
theories/P_IntervalAgm.v
theories/P_AgmPrec.v
theories/T_AgmPrec.v
theories/M_IntervalExp.v
theories/P_LogSeries.v
theories/P_IntervalLog.v
theories/P_IntervalExp.v
theories/P_LogTight.v
theories/P_ExpTight.v
theories/P_ExpPoint.v
theories/P_ExpTotal.v
theories/T_LogExp.v
theories/M_Cache.v
theories/P_Cache.v
theories/P_IntervalMore.v
theories/P_ExpRef.v
theories/P_ExpSign.v
theories/P_RingTac.v
theories/M_Poly.v
theories/S_Poly.v
theories/P_Poly.v
theories/P_PolyDiv.v
theories/M_PolyCoef.v
theories/P_PolyInst.v
theories/P_PolyRef.v
theories/T_Poly.v
theories/M_PolyAlg.v
theories/P_SubRes.v
theories/P_PolyGcd.v
theories/S_PolyAlg.v
theories/P_PolyRes.v
theories/P_PolyField.v
theories/P_PolyContent.v
theories/P_PolyAlgInst.v
theories/P_Sturm.v
theories/P_SturmSeq.v
theories/P_PolyAlgRef.v
theories/P_Yun.v
theories/T_PolyAlg.v
theories/M_Display.v
theories/S_Display.v
theories/P_Display.v
theories/P_DisplayRead.v
theories/T_Display.v
theories/M_Factor.v
theories/S_Factor.v
theories/P_Ffield.v
theories/P_FactorP.v
theories/P_Hensel.v
theories/P_HenselTree.v
theories/P_ExtGcd.v
theories/P_Heap.v
theories/P_FactorZ.v
theories/P_FactorTree.v
theories/P_FactorAll.v
theories/P_Mignotte.v
theories/P_Zassenhaus.v
theories/P_ZassenhausB.v
theories/P_ZassenhausC.v
theories/P_FactorSF.v
theories/P_FactorRef.v
theories/P_SameDegree.v
theories/P_SdfLive.v
theories/P_FactorLive.v
theories/T_Factor.v
theories/P_Rstruct.v
theories/M_Alg.v
theories/S_Alg.v
theories/P_AlgBase.v
theories/P_AlgShrink.v
theories/P_AlgBasic.v
theories/P_AlgSign.v
theories/P_AlgNeg.v
theories/P_AlgRecip.v
theories/P_AlgRef.v
theories/S_AlgOps.v
theories/P_AlgSelect.v
theories/P_AlgRoot.v
theories/P_AlgRes.v
theories/P_AlgIrr.v
theories/P_AlgOps.v
theories/P_AlgMul.v
theories/P_AlgArith.v
theories/P_AlgOpsRef.v
theories/T_Alg.v
theories/T_AlgOps.v
theories/P_AlgPow.v
theories/P_AlgPowRef.v
theories/S_Pow.v
theories/P_PowClose.v
theories/P_PowEnd.v
theories/P_PowEndRef.v
theories/T_AlgPow.v
theories/S_AlgInt.v
theories/P_AlgInt.v
theories/T_AlgInt.v
theories/M_Array2D.v
theories/S_Array2D.v
theories/P_Array2D.v
theories/M_PolyIter.v
theories/P_PolyIter.v
theories/T_PolyIter.v
theories/M_Lattice.v
theories/S_Lattice.v
theories/P_Lattice.v
theories/P_LLL.v
theories/P_LatticeDet.v
theories/P_LLLTerm.v
theories/T_Lattice.v
theories/M_Quad.v
theories/S_Quad.v
theories/P_Quad.v
theories/P_Extras.v
theories/T_ModInt.v
theories/T_Interval.v
theories/T_Array2D.v
theories/T_Quad.v
theories/P_QuadSqrts.v
theories/T_QuadSqrts.v
theories/M_QuadF64.v
theories/S_QuadF64.v
theories/P_QuadF64.v
theories/P_QuadF64B.v
theories/T_QuadF64.v
theories/V_QuadF64.v
theories/M_CacheIndex.v
theories/S_CacheIndex.v
theories/P_CacheIndex.v
theories/P_CacheLog.v
theories/T_CacheIndex.v
theories/M_Hash.v
theories/S_Hash.v
theories/P_Hash.v
theories/T_Hash.v
theories/S_AlgMin.v
theories/P_AlgMin.v
theories/P_AlgMade.v
theories/T_AlgMin.v
theories/M_Python.v
theories/S_Python.v
theories/P_Python.v
theories/T_Python.v
theories/M_DisplayAlg.v
theories/P_DisplayAlg.v
theories/T_DisplayAlg.v
theories/M_Exponent.v
theories/S_Exponent.v
theories/P_Exponent.v
theories/T_Exponent.v
theories/M_Modulus.v
theories/S_Modulus.v
theories/P_Modulus.v
theories/T_Modulus.v
theories/V_Interval.v
theories/V_Poly.v
theories/V_Gcd.v
theories/V_Alg.v
theories/V_Misc.v
theories/M_Table.v
theories/S_Table.v
theories/P_Table.v
theories/T_Table.v
theories/V_Table.v
theories/M_PrintTree.v
theories/S_PrintTree.v
theories/P_PrintTree.v
theories/T_PrintTree.v
theories/P_PolySingle.v
theories/T_PolySingle.v
theories/P_IntExact.v
theories/T_IntExact.v
theories/P_IntervalSet.v
theories/T_IntervalSet.v
theories/S_IntGcd.v
theories/P_IntGcd.v
theories/T_IntGcd.v
