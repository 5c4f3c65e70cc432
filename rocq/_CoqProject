-Q theories Verif
theories/M_Affine.v
theories/M_AffineTest.v
theories/M_Benchmark.v
theories/M_Cache.v
theories/M_CheckGeo.v
theories/M_Composite.v
theories/M_Container.v
theories/M_CubeTest.v
theories/M_Float.v
theories/M_FloatCache.v
theories/M_FloatGlobal.v
theories/M_FloatLFE.v
theories/M_FloatLocal.v
theories/M_FloatQuad.v
theories/M_FloatRefine.v
theories/M_FloatRound.v
theories/M_FloatVolume.v
theories/M_GaussNewton.v
theories/M_GolubWelsch.v
theories/M_LFETest.v
theories/M_LocalFE.v
theories/M_MLTest.v
theories/M_MappedTest.v
theories/M_Matrix.v
theories/M_MultiLinear.v
theories/M_PyClass.v
theories/M_PyRules.v
theories/M_PyTest.v
theories/M_QuadFactory.v
theories/M_QuadTest.v
theories/M_Quadrature.v
theories/M_RefElemTest.v
theories/M_RefGeo.v
theories/M_RefTopo.v
theories/M_Refine.v
theories/M_RefineInt.v
theories/M_RefineTest.v
theories/M_Singleton.v
theories/M_Storage.v
theories/M_Tab.v
theories/M_TabGauss.v
theories/M_TabJacobi1.v
theories/M_TabJacobi2.v
theories/M_TabLobatto.v
theories/M_TabRadauLeft.v
theories/M_TabRadauRight.v
theories/M_TabSimplex.v
theories/M_Type.v
theories/M_TypeIndex.v
theories/M_TypeString.v
theories/M_TypeTest.v
theories/M_VertexOrder.v
theories/M_Virtual.v
theories/P_AACube.v
theories/P_Affine.v
theories/P_AffineTest.v
theories/P_Agree.v
theories/P_Agree2.v
theories/P_Cache.v
theories/P_Cache2.v
theories/P_CheckGeo.v
theories/P_Col1.v
theories/P_Col2.v
theories/P_ColMap.v
theories/P_Composite.v
theories/P_Conform.v
theories/P_Conform2.v
theories/P_Det.v
theories/P_DetInv.v
theories/P_Disc.v
theories/P_DiscPoly.v
theories/P_Float.v
theories/P_Float2.v
theories/P_Float3.v
theories/P_FloatAffine.v
theories/P_FloatErr.v
theories/P_FloatGlobal.v
theories/P_FloatGlobal2.v
theories/P_FloatGlobal3.v
theories/P_FloatGlobal4.v
theories/P_FloatGlobal5.v
theories/P_FloatGlobal6.v
theories/P_FloatGlobal7.v
theories/P_FloatJac.v
theories/P_FloatJac2.v
theories/P_FloatLocal.v
theories/P_FloatLocal2.v
theories/P_FloatLocal3.v
theories/P_FloatMat1.v
theories/P_FloatMat2.v
theories/P_FloatMat3.v
theories/P_FloatMat4.v
theories/P_FloatMat5.v
theories/P_FloatNear.v
theories/P_FloatQuad.v
theories/P_FloatQuad2.v
theories/P_FloatQuad3.v
theories/P_FloatRef.v
theories/P_FloatRef2.v
theories/P_FloatRef3.v
theories/P_GW1.v
theories/P_GW2.v
theories/P_GW3.v
theories/P_GW4.v
theories/P_GW5.v
theories/P_Gauss.v
theories/P_Gauss2.v
theories/P_GaussNewton.v
theories/P_KuhnInt.v
theories/P_KuhnInt2.v
theories/P_KuhnInt3.v
theories/P_KuhnInt4.v
theories/P_LFETest.v
theories/P_LocalFE.v
theories/P_ML1.v
theories/P_ML2.v
theories/P_ML3.v
theories/P_ML4.v
theories/P_ML5.v
theories/P_MLTest.v
theories/P_MappedTest.v
theories/P_Matrix.v
theories/P_Matrix2.v
theories/P_Matrix3.v
theories/P_Matrix4.v
theories/P_Matrix5.v
theories/P_MxBridge.v
theories/P_Newton.v
theories/P_Newton2.v
theories/P_NewtonQuad.v
theories/P_Normal.v
theories/P_Normal2.v
theories/P_Orient.v
theories/P_Orientation.v
theories/P_Piola.v
theories/P_Polytope.v
theories/P_Polytope2.v
theories/P_Polytope3.v
theories/P_PyClass.v
theories/P_PyRules.v
theories/P_PyRules2.v
theories/P_PyTest.v
theories/P_QuadAll.v
theories/P_QuadFactory.v
theories/P_QuadFix.v
theories/P_QuadFixN.v
theories/P_QuadProd.v
theories/P_QuadRules.v
theories/P_QuadTest1.v
theories/P_QuadTest2.v
theories/P_QuadTest3.v
theories/P_QuadTest4.v
theories/P_QuadTest5.v
theories/P_RSum.v
theories/P_RefDet.v
theories/P_RefElemTest.v
theories/P_RefGeo.v
theories/P_RefGeo2.v
theories/P_RefGeo3.v
theories/P_RefGeo4.v
theories/P_RefTopo.v
theories/P_RefTopo2.v
theories/P_RefTopo3.v
theories/P_RefVol.v
theories/P_Refine1.v
theories/P_Refine2.v
theories/P_Refine3.v
theories/P_Refine4.v
theories/P_Refine5.v
theories/P_Refine6.v
theories/P_Refine7.v
theories/P_Refine8.v
theories/P_Refine9.v
theories/P_RefineInt1.v
theories/P_RefineInt2.v
theories/P_RefineTest.v
theories/P_Rfield.v
theories/P_RulePts.v
theories/P_Storage.v
theories/P_TabGauss.v
theories/P_TabJacobi1.v
theories/P_TabJacobi2.v
theories/P_TabLobatto.v
theories/P_TabRadauLeft.v
theories/P_TabRadauRight.v
theories/P_TabSimplex.v
theories/P_Topo.v
theories/P_Trace.v
theories/P_Trace2.v
theories/P_Type.v
theories/P_Type2.v
theories/P_TypeString.v
theories/P_TypeTest.v
theories/P_VertexOrder.v
theories/P_Virtual.v
theories/P_Volume.v
theories/S_AffineTest.v
theories/S_Agree.v
theories/S_CheckGeo.v
theories/S_Composite.v
theories/S_Conform.v
theories/S_Disc.v
theories/S_FloatGlobal.v
theories/S_FloatLocal.v
theories/S_FloatMat.v
theories/S_FloatQuad.v
theories/S_Gauss.v
theories/S_GaussNewton.v
theories/S_GolubWelsch.v
theories/S_Matrix.v
theories/S_MultiLinear.v
theories/S_NewtonQuad.v
theories/S_Normal.v
theories/S_Orientation.v
theories/S_Polytope.v
theories/S_Quad.v
theories/S_Quad1D.v
theories/S_QuadND.v
theories/S_QuadTest.v
theories/S_RefGeo.v
theories/S_Refine.v
theories/S_Refine2.v
theories/S_RefineTest.v
theories/S_Topo.v
theories/S_Trace.v
theories/S_VertexOrder.v
theories/S_Virtual.v
theories/T_Affine.v
theories/T_AffineTest.v
theories/T_Agree.v
theories/T_Benchmark.v
theories/T_Cache.v
theories/T_CheckGeo.v
theories/T_Composite.v
theories/T_Conform.v
theories/T_Container.v
theories/T_CubeTest.v
theories/T_Disc.v
theories/T_Div.v
theories/T_Float.v
theories/T_Float2.v
theories/T_FloatAffLocal.v
theories/T_FloatAffine.v
theories/T_FloatAgree.v
theories/T_FloatAgree2.v
theories/T_FloatAgree3.v
theories/T_FloatBox.v
theories/T_FloatCache.v
theories/T_FloatCacheAffine.v
theories/T_FloatCacheMem.v
theories/T_FloatGlobal.v
theories/T_FloatIntEl.v
theories/T_FloatJac.v
theories/T_FloatJit.v
theories/T_FloatLFE.v
theories/T_FloatLFE2.v
theories/T_FloatLocal.v
theories/T_FloatMat.v
theories/T_FloatMem.v
theories/T_FloatQuad.v
theories/T_FloatRef.v
theories/T_FloatRef2.v
theories/T_FloatRound.v
theories/T_FloatVolume.v
theories/T_Gauss.v
theories/T_GaussNewton.v
theories/T_GolubWelsch.v
theories/T_LFETest.v
theories/T_LocalFE.v
theories/T_MLTest.v
theories/T_MappedTest.v
theories/T_Matrix.v
theories/T_MultiLinear.v
theories/T_Newton.v
theories/T_NewtonQuad.v
theories/T_Normal.v
theories/T_Orientation.v
theories/T_Polytope.v
theories/T_PyClass.v
theories/T_PyRules.v
theories/T_PyTest.v
theories/T_Quad.v
theories/T_QuadTest.v
theories/T_Quadpy.v
theories/T_RefElemTest.v
theories/T_RefGeo.v
theories/T_RefTopo.v
theories/T_Refine.v
theories/T_RefineEq.v
theories/T_RefineInt.v
theories/T_RefineTest.v
theories/T_Singleton.v
theories/T_Storage.v
theories/T_Tight.v
theories/T_Trace.v
theories/T_Type.v
theories/T_TypeGrammar.v
theories/T_TypeString.v
theories/T_TypeTest.v
theories/T_VertexOrder.v
theories/T_Virtual.v
theories/T_Volume.v
