-Q theories Verif

theories/Base.v
theories/Lib.v
theories/Spec.v
theories/Check.v
theories/Lib2.v
theories/M_LevelSet.v
theories/L_LevelSet.v
theories/L_LevelSet2.v
theories/P_LevelSet.v
theories/M_CC.v
theories/L_CC.v
theories/P_CC.v
theories/M_PostOrder.v
theories/L_PostOrder.v
theories/P_PostOrder.v
theories/M_Sched.v
theories/L_Sched.v
theories/L_Sched2.v
theories/P_Sched.v
theories/M_HDAGG.v
theories/L_HDAGG.v
theories/L_HDAGG2.v
theories/L_HDAGG3.v
theories/P_HDAGG.v
theories/M_Coarsen.v
theories/P_Coarsen.v
theories/SpecSolve.v
theories/CheckS.v
theories/M_SpTRSV.v
theories/L_SpTRSV.v
theories/L_SpTRSV2.v
theories/P_SpTRSV.v
theories/Lib3.v
theories/SpecMat.v
theories/M_Mat.v
theories/L_Mat.v
theories/L_Mat2.v
theories/L_Mat3.v
theories/L_Mat4.v
theories/P_Mat.v
theories/M_Group.v
theories/L_Group.v
theories/L_Group2.v
theories/L_Group3.v
theories/L_Group4.v
theories/L_Group5.v
theories/SpecGroup.v
theories/CheckG.v
theories/L_Group6.v
theories/L_Group7.v
theories/L_Group8.v
theories/L_Ungroup.v
theories/L_Final.v
theories/P_Group.v
theories/M_Sparse.v
theories/L_Sparse.v
theories/L_Sparse2.v
theories/L_Sparse3.v
theories/L_Sparse4.v
theories/P_Sparse.v
theories/M_Cost.v
theories/P_Cost.v
theories/SpecETree.v
theories/M_ETree.v
theories/M_Pipeline.v
theories/P_Pipeline.v
theories/M_Util.v
theories/P_Util.v
theories/L_Util.v
theories/P_Util2.v
theories/M_Tree.v
theories/P_Tree.v
theories/L_Post.v
theories/L_Post2.v
theories/P_Post.v
theories/P_TreeH.v
theories/P_TreeH2.v
theories/L_ETree.v
theories/L_ETree2.v
theories/P_ETree.v
theories/P_ETreeRow.v
theories/P_PipelineL.v
theories/SpecRuns.v
theories/M_Runs.v
theories/L_Runs.v
theories/L_Runs2.v
theories/P_Runs.v
theories/M_Collect.v
theories/P_Collect.v
theories/M_LBC.v
theories/L_LBC.v
theories/L_LBC2.v
theories/L_LBC3.v
theories/L_LBC4.v
theories/L_LBC5.v
theories/L_LBC6.v
theories/P_LBC.v
theories/M_LBCPipe.v
theories/P_LBCPipe.v
theories/M_LBCPar.v
theories/L_LBCPar.v
theories/L_LBCPar2.v
theories/L_LBCPar3.v
theories/P_LBCPar.v
theories/SpecSuper.v
theories/M_Super.v
theories/L_Super.v
theories/L_Super2.v
theories/P_Super.v
theories/L_Super3.v
theories/P_Super2.v
theories/M_LBCTree.v
theories/L_LBCTree.v
theories/L_LBCTree2.v
theories/L_LBCTree3.v
theories/L_LBCTree4.v
theories/L_LBCTree5.v
theories/L_LBCTree6.v
theories/L_LBCTree7.v
theories/P_LBCTree.v
theories/SpecSym.v
theories/M_Sym.v
theories/L_Sym.v
theories/L_Sym2.v
theories/L_Sym3.v
theories/L_Sym4.v
theories/P_Sym.v
theories/P_Sym2.v
theories/M_CscTree.v
theories/P_CscTree.v
theories/M_Symb.v
theories/L_Symb.v
theories/L_Symb2.v
theories/L_Symb3.v
theories/L_Symb4.v
theories/L_Symb5.v
theories/L_Symb6.v
theories/L_Symb7.v
theories/SpecSymb.v
theories/P_Symb.v
theories/P_Symb2.v
theories/M_IO.v
theories/SpecIO.v
theories/L_IO.v
theories/L_IO2.v
theories/L_IO3.v
theories/L_IO4.v
theories/L_IO5.v
theories/P_IO.v
theories/P_IOPat.v
theories/SpecMulti.v
theories/M_Multi.v
theories/L_Multi.v
theories/L_Multi2.v
theories/L_Merge.v
theories/L_LbcCsc.v
theories/P_Multi.v
theories/P_Multi2.v
theories/M_Metis.v
theories/L_Metis.v
theories/L_Metis2.v
theories/P_Metis.v
theories/SpecBCSC.v
theories/M_BCSC.v
theories/L_BCSC.v
theories/L_BCSC2.v
theories/L_BCSC3.v
theories/L_BCSC4.v
theories/L_BCSC5.v
theories/P_BCSC.v
theories/SpecTwoD.v
theories/M_TwoD.v
theories/L_TwoD.v
theories/L_TwoD2.v
theories/P_TwoD.v
theories/M_Conv.v
theories/P_Conv.v
theories/P_Conv2.v
theories/P_Circle.v
theories/P_Aggr.v
theories/P_Aggr2.v
theories/M_PostGroup.v
theories/L_PostGroup.v
theories/P_PostGroup.v
theories/M_Depth.v
theories/P_Depth.v
theories/M_Stat.v
theories/P_Stat.v
theories/SpecFuse.v
theories/M_Fuse.v
theories/L_Bfs.v
theories/L_Fuse.v
theories/L_Fuse2.v
theories/L_Fuse3.v
theories/P_Fuse.v
theories/P_MergeBlocks.v
theories/M_TestUtil.v
theories/P_Compare.v
theories/P_TestMat.v
theories/P_Rhs.v
theories/P_Query.v
theories/M_Greedy.v
theories/L_Greedy.v
theories/P_Greedy.v
theories/P_SingleChild.v
theories/M_Runtime.v
theories/P_Runtime.v
theories/P_Runtime2.v
theories/M_RuntimeTree.v
theories/P_RuntimeTree.v
theories/M_Demo.v
theories/P_Csv.v
theories/P_Demo.v
theories/M_Generate.v
theories/P_Generate.v
theories/SpecIC.v
theories/M_IC0.v
theories/L_IC0.v
theories/L_IC1.v
theories/L_IC2.v
theories/P_IC0.v
theories/P_IC0Stat.v
theories/M_ICPipe.v
theories/P_ICPipe.v
theories/M_Dense.v
theories/P_Dense.v
theories/P_Strings.v
theories/M_Metis2.v
theories/P_Metis2.v
theories/P_Metis3.v
theories/P_Metis4.v
theories/M_GroupStat.v
theories/P_GroupStat.v
theories/P_MergeInner.v
theories/M_IC0Row.v
theories/L_IC0Row.v
theories/P_IC0Row.v
theories/P_IC0Row2.v
theories/M_MMIO.v
theories/L_MMIO.v
theories/P_MMIO.v
theories/P_MMIO2.v
theories/M_StatSpMat.v
theories/P_StatSpMat.v
theories/M_Range.v
theories/P_Range.v
theories/M_Profiler.v
theories/P_Profiler.v
theories/P_Fuse2.v
theories/P_Query2.v
theories/P_MMIO3.v
theories/M_MtxFile.v
theories/P_MtxFile.v
theories/P_Aggr3.v
theories/M_PrintCSC.v
theories/P_PrintCSC.v
theories/P_MtxFile2.v
theories/P_PrintCSC2.v
